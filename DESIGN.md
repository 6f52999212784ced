# Formal model of thallium/cp-algo-rust in Coq 8.16.1

## 1. Layout

`rocq/theories/` holds, per area `X` of the repository:

* `XModel.v`  – executable Gallina model, function by function; every definition cites `/repo` file and lines;
* `XSpec.v`   – small independent specification (plain arrays, paths, matchings, flows ...), does not import the model's helpers;
* `XProof.v`  – lemmas and invariants;
* `XProps.v`  – the property theorems (`Cnn_...`, keyword `Theorem`), each followed by `Print Assumptions` and
  accompanied by an `Example` showing that its hypotheses are met by a concrete non-trivial case. Small areas keep
  their lemmas in this file too.

`seeded/LOG.jsonl` records the wrong programs the theorems were tested against, one JSON object per line.
In it `first_failures` is where the build broke and `theorems_failed` lists every theorem no longer established after that, including those that follow in the same file or in files that depend on it.
A broken build shows that the proof no longer goes through, not by itself that the statement is false. Where an edit was made to several copies of a function at once (C151, C152), the claim says so; proof scripts of other files and unused imports standing in the way were adapted in the scratch copy.
A failure means that the existing proof stopped replaying; for the few lines whose note says "possibly behaviour-preserving" this is not evidence that the claim became false.
`MANIFEST.json` is generated by `tools/manifest.py` from the theories and `manifest_notes.json`.

`Prelude.v` holds the shared semantics of panics, indexing and loops.

## 2. Modelling conventions

* **Panics / divergence.** `res A := Ok a | Panic | Diverge`. Out-of-bounds indexing, failed `assert!`, `unwrap` on
  `None`, arithmetic overflow (dev profile: overflow checks on), division by zero are `Panic`. `while`/`loop`/recursion
  run on explicit fuel chosen inside the model; exhausted fuel is `Diverge`, never a normal value. The theorems say the
  result is `Ok _` (or exactly when it is `Panic`), hence also prove termination of the modelled loop within the fuel.
* **Profile.** The models are of the dev profile. A call that ends without overflow and without a failed debug assertion does
  the same in a release build; what a release build does where the dev build
  panics is modelled in `ReleaseModel.v` (modint inverse, union-find), `NumReleaseModel.v` (number theory, modint addition), `GraphReleaseModel.v`
  (Dijkstra, Dinic), `AhoReleaseModel.v` (AhoCorasick, lg and its callers) and `WordModel.v` (integers
  that wrap, as elements of the data structures).
* **Vec/slice** = `list`, read by `vget` (Panic when out of range), written by `vset`.
* **usize indices** in data structures and graphs are `nat`, unbounded: lengths of Rust vectors are at most `isize::MAX`
  bytes, index arithmetic there (`2*k+1`, `i + lowbit i`, `pos+1`) stays below `2^64`. One argument escapes this: `FenwickTree::add(usize::MAX, _)` overflows at `idx += 1`, which the model takes as an index past the end. Where the code truncates
  (`n as u32` in the segment trees) the truncation is in the model. Numeric code (math/, modint, util) uses `Z` with
  explicit range checks, wrapping and casts.
* **Generic parameters** (`Monoid`, `MapMonoid`, operators of `FenwickTree<T>`, closures `F: Fn`) are total pure Gallina
  functions; the algebraic laws a property needs are hypotheses of the theorem. The segment trees, the Fenwick tree
  and the sparse table are modelled a second time with operations that may panic (`*ChkModel.v`, C64-C66, C68). Elsewhere user code that panics, and
  user code that has side effects, is outside the model, except for the predicates of the tree searches (C77) and the
  functions handed to the segment trees, the Fenwick tree and the sparse table (C85; `identity`, `Default` and `Clone` still pure). What the segment trees, HLD, the Fenwick tree and the sparse table do with functions that obey no law is C73, C96 and C97.
* `Clone`/`Copy`, references, moves: values. `&mut self` methods return the new state.
* std containers (`BinaryHeap`, `VecDeque`) are modelled by their documented contract; C120 also models the array algorithm behind
  `BinaryHeap` (written from the published library source, which is not in /repo) and shows that it meets the contract.

## 3. Properties: what is modelled, how it is proved

| ids | model | proof idea |
|---|---|---|
| C01-C03 | flat array `d` of length `2*size` | node invariant `d[k]=op d[2k] d[2k+1]`; range product over absolute leaf interval; loop invariants indexed by height |
| C04-C05 | `d`,`lz` arrays | per-leaf effective value (apply tags of all ancestors); pushes preserve it; boundary nodes are exactly the straddling nodes |
| C06-C07 | array `ary` | `ary[i-1]` = sum of data over `(i-lowbit i, i]`; bit-level lemmas on lowbit; binary descent invariant |
| C08-C09 | table of rows | row c, entry i = fold of v[i..i+2^c); overlap by idempotence; C09 refuted by a witness |
| C10-C13 | `fa`,`sz` arrays | acyclicity invariant (rank function exists); path compression preserves roots; C11, C12 refuted by witnesses, positive theorems under "x is its own representative" |
| C14 | MinHeap over an arbitrary heap satisfying the BinaryHeap contract | refinement to a sorted multiset |
| C15,C16 | arrays `pi`, `z` | borders are closed under taking borders; Z-box invariant |
| C17-C19 | node array, BFS queue | trie invariant, BFS invariant (suffix automaton links = longest proper suffix in trie), simulation of the text |
| C20-C22 | recursive dfs on adjacency lists | rooted-tree predicate, interval nesting of tin/tout, `pa[u][i]` = 2^i-th ancestor |
| C23 | recursive dfs with vis | matching invariant; Koenig-style cover from the final failed round |
| C24 | residual edge array | flow invariant per edge pair, BFS levels, blocking DFS, cut from unreachable set |
| C25,C26 | recursive Tarjan dfs | stack/low invariants |
| C27 | loop over abstract heap | settled/frontier invariant |
| C28-C30 | dfs1/dfs2 + LazySegtree model | positions of subtrees are intervals, heavy paths contiguous; uses C04 |
| C31-C41 | Z with range checks | number theory (Znumtheory) |
| C38 | `is_prime` on all of i32 | no composite below 2^31 passes the strong test to 2, 7 and 61: `PspMath` bounds the prime factors by the common order of the bases, `PspInt` is a search over those factors on native 63-bit integers, proved sound in `PspSound`; small cofactors k are closed by gcd certificates for 2^(k-1)-1, 7^(k-1)-1 (`PspCert`, checked by the program in `PspInt`, proved sound in `PspLimb`); `PspRun` runs search and check by `vm_compute`, `PspMain` assembles, `PrimalityProps` states |
| C42-C48 | Z with casts/wrapping; interleaving model for C47 | arithmetic; C47 refuted by a schedule; C44, C45 refuted at the edges and proved elsewhere |
| C49 | Z, leading_zeros | log2 bounds |
| C50 | Z ranges | algebra |
| C51 | list of characters | tokenizer; numerals of each primitive type; UTF-8 table |
| C52 | fuelled unfolding | only the call/unfold logic; UnsafeCell aliasing is not expressible |
| C53 | heap contract | refuted: the order is non-increasing (Reverse); positive theorem for the order it does have |
| C54 | `sz` in Z with usize overflow | refuted by a history of calls on non-roots, positive theorems when joins are given representatives, and for any joins before the 91st that merges two sets (Fibonacci bound) |
| C55 | tables of `BinaryLifting` | same invariant as C20-C22, stated for the public fields |
| C71 | `CompSpec.v`: only what the root reaches is a tree | the proof of C20-C22 with every quantifier restricted to the reached vertices (`CompTree.v`, `CompLift.v`); the others keep `tin = tout = 0` |
| C72 | `CompHldSpec.v`: as C71, a vertex that is not reached is another name of the root | the proof of C28-C30 restricted to the reached vertices (`CompHldTree.v`, `CompHldProof.v`, `CompHldOps.v`); the others keep head = pos = parent = 0, so path calls with them are compared with the calls on the root, or shown to climb from 0 to 0 for ever |
| C73 | `FreeSpec.v`: an inductive relation "x is a product of the list in some bracketing"; f64 addition is `SFadd 53 1024` of the Coq standard library (no axioms) | the invariant of C01 needs no law; the loops carry bracketed products instead of equal ones |
| C74 | `WordModel.v`: the values of an integer type, wrapping and checked arithmetic on them | wrapping is a homomorphism from Z, so the type is a lawful monoid and C01, C04, C06, C64-C66 apply; plain arrays commute with homomorphisms |
| C75 | `NumReleaseModel.v`: number theory and modint addition with wrapping `+ - *` | simulation of the dev model; the identity of Bezout modulo 2^bits; a remainder is too small to hide a multiple of 2^bits |
| C76 | `PrefixCountModel.v`: the code of C15, C16 with a counter of comparisons; `PrefixLogModel.v`: with the list of them | positions instead of lists, only symmetry and transitivity; potential: current border for kmp, right end of the box for z |
| C77 | `EffectModel.v`: the searches with the predicate's state threaded through, unwinding kept apart from other panics | `BisectSpec.v`: bracket relation with a budget of questions; height of the current node pays for the questions |
| C78 | `Unwind.v`: computations that leave memory behind when they unwind; `AhoUnwindModel.v`: insert in that form | `AhoUnwindSpec.v`: part of the string before the first invalid byte |
| C79 | `TreeUnwindModel.v`: set and add with the memory an unwinding operation leaves behind | `TreeUnwindSpec.v`: plain array whose places hold a list of candidate values |
| C80 | `GraphReleaseModel.v`: the code of C24, C27 with `+`, `-` wrapping | `GraphReleaseSpec.v`: as DinicSpec.v with answers modulo 2^bits; what is left of shortest distances when additions wrap. Termination: each push lowers the sum of the distances; each Dinic phase raises the distance of t or sends T::MAX |
| C81 | `LazyUnwindModel.v`: the calls of C04, C05, C66 with the memory left behind by a panic | `LazyUnwindSpec.v`: an array of candidates per position with maps over ranges; a plain array that refuses calls. Proof by a shadow tree over words of candidate lists, itself a lazy segment tree obeying the laws |
| C82 | `MatchingUnwindModel.v`: the calls of C23 with the memory left behind by a panic | `MatchingUnwindSpec.v`: the list of accepted edges; answers are the maximum matching size of MatchingSpec.v. Key fact: an unwound search has assigned nothing |
| C83 | `UfUnwindModel.v`, `InputUnwindModel.v`: the calls of C10, C51 with the memory left behind by a panic | `UfUnwindSpec.v`, `InputUnwindSpec.v`: the labelling that refuses calls; the list of words left |
| C84 | `DinicUnwindModel.v`: the calls of C24 with the memory left behind by a panic | `DinicUnwindSpec.v`: edges and routed flow, as DinicSpec.v, carrying on after refused calls and overflows |
| C85 | `Eff.v`: computations over a state shared by the user's functions; `SegtreeEffModel.v`, `LazyEffModel.v`, `FenwickEffModel.v`, `SparseEffModel.v`: the code of C64-C66, C68 in that form | `EffSpec.v`: budgets of calls. Lockstep with the models without effects, with credits: each call takes one, loops hold a potential (logarithm of the current node) |
| C86 | `LiftModel.v` | `LiftDfsSpec.v`: the structures a user can hold, the program that covers a forest. `CompLift.v`'s invariant of dfs holds from any structure of the right shape, any timer and any depth at the root, and counts the vertices; dfs keeps the shape whatever it is called with; trees walked in disjoint intervals of time do not see each other. Timer and depths are naturals: exact while timer plus vertices and stored depth plus vertices are below 2^64 |
| C87 | `ResidueModel.v`: modint values as elements, the modint operators of `ModIntModel.v` on them, the usual monoids written with them; trees of C64, C66 | `ResidueSpec.v`: exact integers, reduced once. Reduction is a homomorphism onto the residues, which carries the laws over; the checked trees never meet a panic. (The crate's Additive, Multiplicative and FenwickTree cannot be instantiated with modints, which implement neither Zero, One nor PartialOrd) |
| C88 | `DijkstraLogModel.v`: the run of `DijkstraModel.v` with the list of pushes, pops, scans and edge reads | `DijkstraLogSpec.v`: projections of that list. C88_same_run: the list does not change the result |
| C89 | `GraphWorkModel.v`: the programs of `MatchingModel.v`, `SccModel.v` and `DinicModel.v` with a step counter | `GraphWorkSpec.v`: same result within a number of steps; `AhoWorkSpec.v`: same result in exactly a number of steps (scc) |
| C90 | `HldChkModel.v` (operation, mapping and composition may panic), `HldEffModel.v` (they change a state); the tree part is that of `HldModel.v` | `HldEffSpec.v`: number of calls; C30's allowed answers |
| C91 | `AhoWorkModel.v` (AhoModel.v with a step counter) | `AhoWorkSpec.v`: same result and exact number of steps; list of the distinct prefixes |
| C92 | `TreeWorkModel.v` (LiftModel.v and HldModel.v with a step counter) | `AhoWorkSpec.v`, `GraphWorkSpec.v`: same result, exact number or bound of steps |
| C93 | `bl_from_stack`, `hl_new_stack` (TreeWorkModel.v): the same code with room for k nested calls | `TreeWorkSpec.v`: every vertex is less than k edges from the root |
| C94 | `UfWorkModel.v` (UnionFindModel.v counting the calls of `find`) | `UfWorkSpec.v`: the path to the representative, the calls allowed per operation; `AhoWorkSpec.v`, `GraphWorkSpec.v`: same result, exact number or bound |
| C95 | `GraphNestModel.v` (`scc`, `AugmentedPath::solve`, `Dinic::get_max_flow` with a given room for nested calls of dfs) | `GraphNestSpec.v`: length of paths without repeated vertex, fewest edges with capacity to the sink; `TreeSpec.v`: walks, distances |
| C96 | `LazyModel.v`, `HldModel.v` | `LawlessSpec.v`: entries (value, maps since), results put together from entries; `FreeSpec.v`: histories |
| C97 | `FenwickModel.v`, `SparseModel.v` | `MixSpec.v`: values put together from a multiset of elements and amounts, bracketed products of a list |
| C98 | `NumWorkModel.v` | `NumWorkSpec.v`: Fibonacci numbers, binary digits, the worst case per type, a program taking exactly k steps |
| C99 | `RecBorrowModel.v`: call with a log of the references made at line 38 | `RecBorrowSpec.v`: references in use after a log; nested calls as a relation; logs are balanced |
| C100 | `AhoReleaseModel.v` | `AhoReleaseSpec.v`: letters modulo 256; a release build is the dev build with OFFSET 0 on bytes renamed by an injective map, which keeps occurrences |
| C101 | `ModIntModel.v` | `UnreducedSpec.v`: which expressions are reduced, which may have operands of any size; integers modulo m |
| C102 | `HldUnwindModel.v` (HLD over `LazyUnwindModel.v`, with the memory a panic leaves behind) | `HldUnwindSpec.v`: candidate values per vertex |
| C103 | `MatchingModel.v`, `DinicModel.v` | `CoverSpec.v`: vertex covers, neighbour sets, independent sets, the unit network |
| C104 | `PrefixModel.v`, `AhoModel.v` | `WordsSpec.v`: occurrences, periods, powers |
| C105 | `DebugModel.v` | `DebugSpec.v`: the text of one line, the arguments in order |
| C106 | `LiftModel.v`, `SegtreeModel.v`; the client `EulerModel.v` | `EulerSpec.v`: the depth-first visiting order as an inductive relation, values by vertex |
| C107 | `HldModel.v`, `LiftModel.v`, `SegtreeModel.v`; the client `EulerModel.v` | equations between the answers of the two structures; `EulerSpec.v` |
| C108 | `LiftModel.v`, `HldModel.v`; `FieldModel.v` (assignments, `dis` with the usize check) | `TreeSpec.v`, `FieldSpec.v` (weighted length of a walk), `HldSpec.v` |
| C109 | `UnionFindModel.v`, `SccModel.v`, `DijkstraModel.v`; the client `LinkModel.v` | `LinkSpec.v` (connectivity by undirected edges) |
| C110 | `UnionFindModel.v`; the client `LinkModel.v` | `LinkSpec.v` (connectivity, chosen edges, total weight) |
| C111 | `DijkstraModel.v`, `LiftModel.v`, `FieldModel.v`; the client `WeightedModel.v` | `WeightedSpec.v`, `FieldSpec.v` |
| C112 | `SegtreeModel.v`, `LazyModel.v`, `FenwickModel.v`, `SparseModel.v`; the clients `ArrAgreeModel.v` | `ArraySpec.v`, `SegtreeSpec.v`, `FenwickSpec.v`, `LazySpec.v` |
| C113 | `SccModel.v`; the clients `SatModel.v` | `SatSpec.v`, `SccSpec.v` |
| C114 | `DinicModel.v` | `MengerSpec.v` |
| C115 | `DijkstraModel.v`, `ShortRelModel.v` | `DijkstraSpec.v`, `ShortRelSpec.v` |
| C116 | `DinicModel.v`, `FlowRelModel.v` | `DinicSpec.v`, `FlowRelSpec.v` |
| C117 | `NumModel.v`, `IMathModel.v`, `ModIntModel.v`, `FactorialModel.v` | `NumSpec.v`, `IMathSpec.v`, `NumAgreeSpec.v` |
| C118 | `TallyModel.v` (client code), `FenwickModel.v`, `SegtreeModel.v` | `TallySpec.v` |
| C119 | `SccModel.v`, `SccRelModel.v` (client code) | `SccSpec.v`, `SccRelSpec.v` |
| C120 | `BinHeapModel.v` (std's BinaryHeap, MinHeap on it) | `BinHeapSpec.v`, `HeapSpec.v` |
| C121 | `BinHeapWorkModel.v` (the algorithms of C120 and dijkstra on them, comparisons with side effects) | `BinHeapWorkSpec.v`, `EffSpec.v`, `DijkstraSpec.v` |
| C122 | `TreeMetricModel.v` (client code over `LiftModel.v`) | `TreeMetricSpec.v`, `TreeSpec.v` |
| C123 | `MatchRelModel.v` (client code over `MatchingModel.v`) | `MatchRelSpec.v`, `MatchingSpec.v` |
| C124 | `AhoModel.v` | `AhoLateSpec.v`, `AhoSpec.v` (late strings with a byte that starts no early string at a place the automaton cannot follow are outside C124; an example shows what they break) |
| C125 | `LiftModel.v`, `LiftLevelModel.v` (the assignment by a client) | `TreeSpec.v` |
| C126 | `RingModel.v` (VecDeque after the published source of std; bfs, get_max_flow and build over it), `DinicModel.v`, `AhoModel.v` | `RingSpec.v` |
| C127 | `HeapDebugModel.v` (derive, and the parts of core::fmt it uses after their published source), `BinHeapModel.v` | `HeapDebugSpec.v`, `HeapSpec.v` |
| C128 | `LiftModel.v`, `VirtModel.v` (client code) | `VirtSpec.v`, `TreeSpec.v` |
| C129 | `UnionFindModel.v`, `BipModel.v` (client code) | `BipSpec.v` |
| C130 | `DinicModel.v`, `FlowRelModel.v`, `CircModel.v` (client code) | `CircSpec.v` |
| C131 | the models of C01-C35, `SpaceModel.v` (states of dijkstra's loop) | `SpaceSpec.v` |
| C132 | `FenwickModel.v`, `RangeAddModel.v` (client code) | `RangeAddSpec.v` |
| C133 | `DinicModel.v`, `FlowRelModel.v`, `SelectModel.v` (client code) | `SelectSpec.v` |
| C134 | `MatchingModel.v`, `MatchRelModel.v`, `ChainModel.v` (client code) | `ChainSpec.v` |
| C135 | `LiftModel.v`, `SparseModel.v`, `RmqModel.v` (client code) | `TreeSpec.v` |
| C136 | `LiftModel.v` | `JumpSpec.v`, `TreeSpec.v` |
| C137 | `HldPosModel.v`, `HldModel.v` | `HldPosSpec.v`, `HldSpec.v` |
| C138 | `BinHeapUnwindModel.v`, `Unwind.v` | `BinHeapUnwindSpec.v`, `BinHeapSpec.v` |
| C139 | `LiftUnwindModel.v`, `LiftModel.v`, `Unwind.v` | `LiftUnwindSpec.v`, `CompSpec.v`, `TreeSpec.v` |
| C140 | `HeapUseModel.v` (client code), `HeapModel.v` | `HeapUseSpec.v` |
| C141 | `PrimTreeModel.v` (client code), `HeapModel.v`, `LinkModel.v` | `PrimTreeSpec.v`, `LinkSpec.v` |
| C142 | `PathSumModel.v` (client code), `LiftModel.v`, `FenwickModel.v` | `PathSumSpec.v`, `TreeSpec.v`, `HldSpec.v` (`is_path`) |
| C143 | `PalinModel.v` (client code), `PrefixModel.v` | `PalinSpec.v` |
| C144 | `CryptModel.v` (client code), `IMathModel.v` | `CryptSpec.v`, `IMathSpec.v` |
| C145 | `HuffmanModel.v` (client code), `HeapModel.v` | `HuffmanSpec.v` |
| C146 | `TreeAddModel.v` (client code), `FenwickModel.v`, `LiftModel.v` | `TreeAddSpec.v`, `TreeSpec.v`, `HldSpec.v` |
| C147 | `SteinerModel.v` (client code), `VirtModel.v` (sorting by tin), `LiftModel.v` | `SteinerSpec.v`, `TreeSpec.v` |
| C148 | `CountModel.v` (client code), `FactorialModel.v`, `ModIntModel.v` | `CountSpec.v` |
| C149 | `SieveModel.v` (client code), `FactorialModel.v`, `ModIntModel.v` | `SieveSpec.v`, `CountSpec.v` |
| C150 | `LexModel.v` (client code), `FenwickModel.v`, `FactorialModel.v`, `ModIntModel.v` | `LexSpec.v`, `CountSpec.v` |
| C151 | `RoomModel.v` (queue with a limit), `DinicModel.v`, `AhoModel.v` | statements in `RoomProps.v` |
| C152 | `SccRoomModel.v` (stack with a limit), `SccModel.v` | statements in `SccRoomProps.v` |
| C153 | `DistinctModel.v` (client), `FenwickModel.v` | `DistinctSpec.v` |
| C154 | `JosephusModel.v` (client), `FenwickModel.v` | `JosephusSpec.v` |
| C155 | `SlotModel.v` (ring buffer with a limit), `RingModel.v`, `DinicModel.v`, `AhoModel.v` | statements in `SlotProps.v` |
| C156 | `SpanModel.v` (client), `SegtreeModel.v` | `SpanSpec.v` |
| C157 | `LightModel.v` (client), `SegtreeModel.v` | `LightSpec.v`, `SpanSpec.v` |
| C56 | HLD with a counter | each light edge at least halves the subtree |
| C57 | Aho-Corasick `build` on a built automaton | the BFS queue always keeps an element |
| C58, C59 | text of modints, predefined moduli | numerals; primality of the two moduli by trial division proved sound |
| C62, C63 | `UnionFindSpec.v`: plain labelling of the vertices | simulation: labels = representatives, sizes exact |
| C64-C66 | `SegtreeChkModel.v`, `FenwickChkModel.v`, `LazyChkModel.v`: the same code, calls of the user's operation in the `res` monad | lockstep with the plain models: every call stays in an invariant that makes the operation succeed (`agrees`), or the run is below the plain run in the order "equal or Panic" (`le_res`); for the lazy tree a direct invariant (`LazyChkGood.v`): every stored value is good (the stale ones too), and the tags on a root-to-leaf path concatenate to a subsequence of the maps given to that leaf |
| C69 | `lt_debug` (`LazyDebugProps.v`): text as bytes, the texts of values and maps are parameters | the invariant of C04 read off the printed cells |
| C70 | derived `==` and `hash_impl` of modints | uniqueness of the remainder; the four bytes determine it |
| C68 | `SparseChkModel.v` | the invariant of C08 with every cell a range product; or the order "equal or Panic" |
| C67 | `ConcModel.v`: threads as trees of atomic accesses, a schedule picks the next thread | alone = the model of C46; threads that do not store keep the memory, hence each other's values |
| C60, C61 | `ReleaseModel.v`: the functions that differ in a release build | Fermat; invariant of C10 without the overflow check |

## 4. Trusted base

* Coq 8.16.1 kernel (and `coqchk`), its VM for the computations in `PspRun.v`, the std++ and Coq standard library
  definitions used in statements.
* Fidelity of the hand-written model: nothing ties it mechanically to `/repo`; every definition cites its source lines.
* The native integers of the kernel, for the theorems of section 5 that list them.

### What is modelled

Every public function and method under `/repo/src` that computes a value: `data_structure/*`, `graph/*`, `string/*`,
`math/*`, `traits/*`, `misc/{debug,input,modint,monoids,recursive_function,util}.rs`.

### What is not modelled

* Derived traits of the marker types of `modint.rs`, `#[cfg(test)]` code.
* Direct writes by a client to the public field `pos` (HLD) with contents outside C137, and to `pa`, `tin`, `tout` (BinaryLifting) with contents outside C136. Assignments to `dep` and `data` are covered by C108 (`data` with one entry per vertex), assignments to `level` by C125.
* Memory: capacity (C131 counts elements), allocation failure, stack depth of recursive functions other than those of C93-C95 and C98, the aliasing of `UnsafeCell` in
  `recursive_function.rs` (C99 only counts the references), the state left behind by a panic, except for the calls of C77-C79, C81-C84, C102, C138 and C139.
* std internals. `BinaryHeap` (except in C120, C121 and C138) and `VecDeque` (except in C126) stand for their documented contract; `split_whitespace`, integer `from_str`,
  `str::bytes`, `u32` `Display` are modelled by hand in `InputModel.v` and `ModIntModel.v`.
* Closures and user instances of the traits are pure functions, total except in C64-C66, C68 and C90 (section 2); the
  predicates of the tree searches also with a state of their own and unwinding in C77, operations with side effects in C85 and C90.
* For C47 and C67 memory accesses interleave one at a time (sequential consistency): every access to the shared modulus is
  `SeqCst` in the code (`modint.rs:484-496`), so weaker orderings do not arise.

## 5. Assumptions printed

`Print Assumptions` says *Closed under the global context* for every theorem below except the two marked `[int63]`, whose
list is: the kernel primitives `PrimInt63.{int, add, sub, mul, div, mod, eqb, ltb, leb, land, lor, lsl, lsr}` and the
standard library's axioms about them `Uint63.{add_spec, sub_spec, mul_spec, div_spec, mod_spec, ltb_spec, leb_spec,
eqb_correct, eqb_refl, of_to_Z}`.

* `AhoProps.v`: C17_find_all, C17_insert_panics, C17_from_find_all, C18_find_cnt, C18_from_find_cnt, C19_find_partial, C19_find_sound_partial, C19_find_complete_refuted, C57_second_build
* `DijkstraProps.v`: C27_dijkstra, C27_bad_source, C27_panics
* `ConcProps.v`: C67_alone, C67_threads, C67_undisturbed
* `DinicProps.v`: C24_dinic, C24_max_flow, C24_overflow, C24_bad_args, C24_any_history, C24_negative
* `FenwickChkProps.v`: C65_fenwick_checked, C65_partition_point_checked, C65_search_checked, C65_fenwick_never_wrong, C65_fenwick_integers, C65_fenwick_unsigned_pref
* `FenwickProps.v`: C06_fenwick_refines_array, C06_fenwick_new_refines_array, C06_fenwick_sum, C07_partition_point, C07_partition_point_boundary, C07_search, C07_partition_point_empty_panics
* `HeapProps.v`: C14_min_heap, C53_into_sorted_vec_refuted, C53_into_sorted_vec_partial
* `HldProps.v`: C30_history, C30_constructors_panic, C29_apply_path, C28_path_prod_partial, C56_few_ranges, C28_path_prod_refuted
* `IMathProps.v`: C35_safe_mod, C36_barrett_mul, C37_pow_mod, C37_pow_mod_negative_diverges, C38_is_prime_strong_tests, C39_inv_gcd, C40_primitive_root
* `CompProps.v`: C71_component
* `CompHldProps.v`: C72_history
* `SegtreeFreeProps.v`: C73_history, C73_lawful, C73_past_end
* `WordProps.v`: C74_laws, C74_segtree, C74_segtree_searches, C74_fenwick, C74_lazy_sums, C74_dev_release
* `NumReleaseProps.v`: C75_ex_gcd, C75_lcm, C75_lcm_any, C75_ex_crt, C75_ex_crt_wrong, C75_modint_add
* `PrefixRelProps.v`: C76_same_code, C76_kmp, C76_z_function, C76_comparisons, C76_floats
* `EffectProps.v`: C77_partition_point, C77_max_right, C77_min_left, C77_same_code, C77_calls, C77_lazy_unwind, C77_lazy_same_code, C77_beyond_end
* `AhoUnwindProps.v`: C78_same_code, C78_rejected, C78_no_trace, C78_find, C78_find_sees
* `TreeUnwindProps.v`: C79_same_code, C79_segtree, C79_settled, C79_fenwick, C79_refused, C79_disagree
* `GraphReleaseProps.v`: C80_dinic, C80_max_flow, C80_dinic_same, C80_dijkstra, C80_bad_source, C80_dijkstra_same
* `LazyUnwindProps.v`: C81_same_code, C81_lazy, C81_settled, C81_refused, C81_disagree, C81_mapping_panics
* `MatchingUnwindProps.v`: C82_same_code, C82_matching
* `InputUnwindProps.v`: C83_same_code_input, C83_input
* `UfUnwindProps.v`: C83_same_code_uf, C83_union_find, C83_union_find_any
* `DinicUnwindProps.v`: C84_same_code, C84_dinic, C84_half_edge, C84_half_edge_wrong
* `EffProps.v`: C85_same_code, C85_segtree, C85_lazy, C85_lazy_constructors, C85_fenwick, C85_sparse
* `LiftDfsProps.v`: C86_reroot, C86_forest, C86_restarted_timer
* `ResidueProps.v`: C87_laws, C87_segtree, C87_lazy
* `DijkstraLogProps.v`: C88_same_run, C88_work, C88_bounds
* `GraphWorkProps.v`: C89_matching, C89_scc, C89_scc_exact, C89_dinic, C89_matching_answers, C89_scc_answers, C89_dinic_answers
* `HldEffProps.v`: C90_never_wrong, C90_same_code, C90_hld
* `AhoWorkProps.v`: C91_insert, C91_searches, C91_build, C91_from
* `TreeWorkProps.v`: C92_from, C92_lca, C92_hld, C93_from, C93_hld
* `UfWorkProps.v`: C94_find, C94_groups, C94_total, C94_find_linear, C94_logarithm_needed
* `GraphNestProps.v`: C95_scc, C95_scc_all, C95_scc_overflow, C95_scc_needs, C95_matching, C95_matching_needs, C95_dinic, C95_dinic_overflow, C95_dinic_needs
* `LawlessProps.v`: C96_lazy, C96_hld, C96_lawful, C96_past_end
* `MixProps.v`: C97_fenwick, C97_fenwick_lawful, C97_sparse, C97_sparse_lawful
* `NumWorkProps.v`: C98_euclid, C98_euclid_worst, C98_inv_gcd, C98_pow, C98_is_prime, C98_primitive_root, C98_ex_crt
* `RecBorrowProps.v`: C99_references, C99_aliased
* `AhoReleaseProps.v`: C100_aho, C100_aho_panics, C100_aho_from, C100_aho_dev, C100_lg, C100_ceil_lg, C100_partition_point, C100_sparse, C100_lift
* `UnreducedProps.v`: C101_mul, C101_mul_large, C101_mul_one, C101_add, C101_sub, C101_pow, C101_inv, C101_div, C101_expr, C101_stale, C101_product, C101_equal
* `HldUnwindProps.v`: C102_same_code, C102_history, C102_settled, C102_refused, C102_mid_path
* `CoverProps.v`: C103_cover, C103_deficiency, C103_hall, C103_independent, C103_flow
* `WordsProps.v`: C104_borders, C104_z_borders, C104_period, C104_power, C104_kmp_search, C104_z_search, C104_agree
* `DebugProps.v`: C105_de, C105_single, C105_empty, C105_release, C105_same_state
* `EulerProps.v`: C106_dfs, C106_euler, C106_segtree
* `TreeAgreeProps.v`: C107_lca_split, C107_members, C107_counts, C107_subtrees
* `FieldProps.v`: C108_any_dep, C108_own_dep, C108_weighted, C108_hld_data
* `LinkProps.v`: C109_components, C109_panics, C109_scc, C109_dijkstra
* `LinkProps.v`: C110_kruskal (example: C109_C110_nonvacuous, on the same edges)
* `WeightedProps.v`: C111_paths, C111_panics, C111_unit, C111_all_pairs
* `ArrAgreeProps.v`: C112_lazy_segtree, C112_fenwick_segtree, C112_search, C112_differences, C112_sparse_segtree
* `SatProps.v`: C113_two_sat, C113_two_sat_panics, C113_topo_sort
* `MengerProps.v`: C114_paths, C114_menger
* `ShortRelProps.v`: C115_triangle, C115_bellman, C115_reverse, C115_symmetric, C115_more_edges, C115_edge_set
* `FlowRelProps.v`: C116_outcome, C116_order, C116_parallel, C116_useless, C116_renamed, C116_turned, C116_add_edge, C116_scaled, C116_triangle
* `NumAgreeProps.v`: C117_inverse, C117_gcd, C117_discrete_log, C117_crt, C117_choose
* `TallyProps.v`: C118_multiset, C118_inversions, C118_increasing
* `SccRelProps.v`: C119_count, C119_same_edges, C119_reverse, C119_renamed, C119_more_edges, C119_add_edge, C119_beside, C119_downward, C119_condense
* `BinHeapProps.v`: C120_min_heap, C120_any_order, C120_contract
* `BinHeapWorkProps.v`: C121_calls, C121_history, C121_dijkstra
* `TreeMetricProps.v`: C122_metric, C122_on_path, C122_median, C122_other_root, C122_diameter, C122_path_kth
* `MatchRelProps.v`: C123_same_edges, C123_incremental, C123_swapped, C123_renamed, C123_union, C123_one_vertex, C123_stays, C123_again
* `AhoLateProps.v`: C124_late, C124_prefix, C124_again
* `LiftLevelProps.v`: C125_lower, C125_higher
* `RingProps.v`: C126_fifo, C126_cost, C126_bfs, C126_flow, C126_build
* `HeapDebugProps.v`: C127_debug, C127_inj, C127_debug_alt
* `VirtProps.v`: C128_nodes, C128_tree
* `BipProps.v`: C129_two_colour
* `CircProps.v`: C130_circulation, C130_hoffman, C130_flow
* `SpaceProps.v`: C131_segtree, C131_lazy, C131_fenwick, C131_sparse, C131_union_find, C131_lifting, C131_hld, C131_dinic, C131_matching, C131_aho, C131_dijkstra
* `RangeAddProps.v`: C132_range_add
* `SelectProps.v`: C133_best, C133_closure
* `ChainProps.v`: C134_path_cover, C134_antichain
* `RmqProps.v`: C135_lca
* `JumpProps.v`: C136_exact, C136_lca, C136_complete, C136_from, C136_renumber
* `HldPosProps.v`: C137_pos, C137_shift
* `BinHeapUnwindProps.v`: C138_bag, C138_same, C138_push, C138_pop
* `LiftUnwindProps.v`: C139_same, C139_left, C139_others, C139_reroot
* `HeapUseProps.v`: C140_sort, C140_top_k, C140_merge, C140_medians
* `PrimTreeProps.v`: C141_prim, C141_kruskal, C141_panics
* `PathSumProps.v`: C142_path_sum
* `PalinProps.v`: C143_longest, C143_shortest, C143_prefixes, C143_rotation, C143_distinct
* `CryptProps.v`: C144_rsa, C144_exchange, C144_seal, C144_is_power, C144_root, C144_sqrt
* `HuffmanProps.v`: C145_huffman, C145_empty
* `TreeAddProps.v`: C146_tree_add
* `SteinerProps.v`: C147_steiner
* `CountProps.v`: C148_choose_perm, C148_counting
* `SieveProps.v`: C149_sieve
* `LexProps.v`: C150_code, C150_rank
* `RoomProps.v`: C151_bfs, C151_tight, C151_flow, C151_build, C151_inserts
* `SccRoomProps.v`: C152_scc, C152_tight, C152_needs
* `DistinctProps.v`: C153_distinct
* `JosephusProps.v`: C154_order, C154_only
* `SlotProps.v`: C155_bfs, C155_flow, C155_tight, C155_build, C155_inserts
* `SpanProps.v`: C156_spans, C156_identity
* `LightProps.v`: C157_light
* `InputProps.v`: C51_reads, C51_parse, C51_typed, C51_bytes_utf8, C51_bytes_ascii
* `LazyChkProps.v`: C66_lazy_never_wrong, C66_lazy_constructors, C66_lazy_never_wrong_array, C66_lazy_checked, C66_lazy_checked_array, C66_lazy_unsigned_sums
* `LazyDebugProps.v`: C69_debug
* `LazyProps.v`: C05_lazy_searches, C05_lazy_new_searches, C04_lazy_refines_array, C04_lazy_new_refines_array, C04_lazy_default_refines_array, C04_lazy_from_too_long
* `LiftProps.v`: C20_is_ancestor, C20_panics, C21_lca, C22_dis, C55_tables
* `MatchingProps.v`: C23_matching, C23_stored_matching, C23_any_history
* `ModIntProps.v`: C41_factorial, C42_static_ring, C42_large_modulus, C43_new, C44_pow_refuted, C44_pow_partial, C45_inv_refuted, C45_large_value, C45_inv_partial, C46_dynamic, C46_set_modulus_zero, C47_atomic_refuted, C47_atomic_partial, C48_sum_product
* `ModIntTextProps.v`: C58_from_str, C58_display, C59_predefined, C70_eq_hash
* `MonoidProps.v`: C50_max_min, C50_primitive, C50_additive_unsigned, C50_bracketing_matters, C50_segtree_max
* `NumProps.v`: C31_gcd, C31_gcd_overflow, C32_lcm_refuted, C32_lcm_partial, C32_lcm_any_partial, C33_ex_gcd, C33_ex_gcd_overflow, C34_ex_crt_refuted, C34_ex_crt_partial, C34_ex_crt_total_partial, C34_ex_crt_any_partial, C34_lengths_partial
* `PrefixProps.v`: C15_kmp, C16_z_function
* `PrimalityProps.v`: C38_is_prime [int63], C45_wrong_hint [int63]
* `ReleaseProps.v`: C60_inv_release, C61_union_find_release
* `RecProps.v`: C52_call, C52_fixed_point
* `SccProps.v`: C25_scc, C25_panics, C26_reverse_topological
* `SegtreeChkProps.v`: C64_segtree_checked, C64_segtree_searches, C64_segtree_never_wrong, C64_segtree_searches_never_wrong, C64_segtree_unsigned_sums, C64_segtree_sums, C64_segtree_products, C64_total_operation
* `SegtreeProps.v`: C01_segtree_refines_array, C01_segtree_new_refines_array, C01_segtree_default_refines_array, C01_segtree_from_too_long, C02_segtree_max_right, C03_segtree_min_left
* `SparseChkProps.v`: C68_sparse_checked, C68_sparse_never_wrong
* `SparseProps.v`: C08_sparse_table, C08_sparse_table_empty_panics, C09_sparse_out_of_range_rejected_refuted, C09_sparse_out_of_range_partial
* `UnionFindRefProps.v`: C62_union_find_refines, C63_queries_refuted, C63_queries_partial, C63_queries_reps_partial, C13_groups_exact
* `UnionFindProps.v`: C10_find_canonical, C10_panics, C11_join_merges_refuted, C11_join_merges_partial, C11_join_any_partial, C11_join_moves_partial, C12_size_refuted, C12_size_partial, C13_groups, C54_join_total_refuted, C54_join_total_partial, C54_few_joins_partial
* `UtilProps.v`: C49_lg, C49_lg_zero, C49_ceil_lg
