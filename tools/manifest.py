import json,re,glob,os
props=[json.loads(l) for l in open('/verif/properties.jsonl') if l.strip()]
notes=json.load(open('/verif/manifest_notes.json')) if os.path.exists('/verif/manifest_notes.json') else {}
th={}
for f in sorted(glob.glob('/verif/rocq/theories/*.v')):
    for m in re.finditer(r'^Theorem\s+(C\d\d+)_(\w+)',open(f).read(),re.M):
        th.setdefault(m.group(1),[]).append(m.group(1)+'_'+m.group(2))
claims=[]
for p in props:
    i=p['id']; ts=th.get(i,[]); n=notes.get(i,{})
    st=n.get('status') or ('partial' if any(t.endswith('_partial') or '_refuted' in t for t in ts) or not ts else 'proved')
    claims.append({"property":i,"status":st,"theorems":ts,"note":n.get('note', '' if ts else 'not yet proved')})
json.dump({"claims":claims},open('/verif/MANIFEST.json','w'),indent=1,ensure_ascii=False)
from collections import Counter
print(Counter(c['status'] for c in claims), [c['property'] for c in claims if not c['theorems']])
