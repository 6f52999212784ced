{"id": "C01", "title": "Segment tree behaves as a plain array under every history", "statement": "After Segtree::from(v) (or new(n)), any sequence of set/get/prod/all_prod calls returns exactly what a plain array initialised to v would return: get(p) is the last value set at p, prod(l,r) is the left-to-right monoid product of a[l..r) (identity when l=r), all_prod is the product of the whole array; a call panics exactly when p>=n, l>r or r>n.", "quantifier": "every monoid, every initial vector with fewer than 2^32 elements, every finite sequence of operations with arbitrary arguments", "why_tests_cant": "Histories, sizes (powers of two and not) and monoids (incl. non-commutative ones) are unbounded; tests fix one vector and Max<i32>.", "anchors": ["src/data_structure/segtree.rs: Segtree::{from,new,set,get,prod,all_prod,update}", "src/misc/util.rs: ceil_lg"]}
{"id": "C02", "title": "Segment tree max_right returns the boundary of the predicate", "statement": "max_right(l,f) with f(identity)=true returns r with l<=r<=n, f(a[l]*..*a[r-1])=true, and r=n or f(a[l]*..*a[r])=false; if f is monotone along prefixes starting at l, r is the maximum index with that property. It panics exactly when l>n or f(identity)=false, and never loops.", "quantifier": "every monoid, array contents reachable by any history, every l and every predicate f", "why_tests_cant": "The search walks bit patterns of l that depend on n and on the predicate; all pairs (n,l,f) cannot be enumerated.", "anchors": ["src/data_structure/segtree.rs: Segtree::max_right"]}
{"id": "C03", "title": "Segment tree min_left returns the boundary of the predicate", "statement": "min_left(r,f) with f(identity)=true returns l<=r with f(a[l]*..*a[r-1])=true and l=0 or f(a[l-1]*..*a[r-1])=false; for a monotone f it is the minimum such l. It panics exactly when r>n or f(identity)=false, and never loops.", "quantifier": "every monoid, reachable array contents, every r and every predicate f", "why_tests_cant": "As for max_right; the loop exit test (r & -r) != r depends on every bit of r.", "anchors": ["src/data_structure/segtree.rs: Segtree::min_left"]}
{"id": "C04", "title": "Lazy segment tree behaves as a plain array under range updates", "statement": "After LazySegtree::from(v)/new(n), any sequence of set/get/prod/all_prod/apply/apply_range returns exactly what a plain array would return where apply_range(l,r,f) replaces a[i] by mapping(f,a[i]) for every i in [l,r) and nothing else; a call panics exactly on out-of-range arguments.", "quantifier": "every monoid with maps satisfying mapping(id,x)=x, mapping(f.g,x)=mapping(f,mapping(g,x)), mapping(f,x*y)=mapping(f,x)*mapping(f,y) (mapping(f,e)=e is not needed), every vector shorter than 2^32, every operation sequence", "why_tests_cant": "Correctness depends on lazy tags left behind by all earlier operations; the number of tag configurations is unbounded.", "anchors": ["src/data_structure/lazy_segtree.rs: LazySegtree::{from,new,set,get,prod,all_prod,apply,apply_range,update,all_apply,push}"]}
{"id": "C05", "title": "Lazy segment tree max_right/min_left find the predicate boundary and leave the array unchanged", "statement": "On a lazy segment tree, max_right(l,g)/min_left(r,g) satisfy the same boundary specification as on a plain array holding the current values, and although they take &mut self, no later operation can observe any change.", "quantifier": "every lawful monoid with maps, every history, every l/r and predicate", "why_tests_cant": "They push pending tags while searching; whether the observable array is preserved depends on the whole history.", "anchors": ["src/data_structure/lazy_segtree.rs: LazySegtree::{max_right,min_left}"]}
{"id": "C06", "title": "Fenwick tree answers prefix and range sums under every history", "statement": "After FenwickTree::new(n) or from(a), and any sequence of add calls, pref(i) = data[0]+..+data[i-1] and sum(l,r) = data[l]+..+data[r-1] (as pref(r)-pref(l)), where data is the plain array with the same additions; add(i,_) for i>=n changes nothing; pref panics exactly when i>n.", "quantifier": "every commutative group (commutative monoid for pref), every length, every sequence of additions and queries", "why_tests_cant": "The index chains i +/- lowbit(i) depend on every bit of i and n; lengths and histories are unbounded.", "anchors": ["src/data_structure/fenwick_tree.rs: FenwickTree::{new,from,pref,add,sum}"]}
{"id": "C07", "title": "Fenwick partition_point/search find the partition point of the prefix sums", "statement": "For n>=1 and a predicate that is true on an initial segment of the prefix-sum array sum[i]=data[0]+..+data[i] and false afterwards, partition_point(pred) returns the number of i with pred(sum[i]) true; search(t) is partition_point(x<t).", "quantifier": "every length n>=0, reachable content, every predicate partitioning the prefix sums", "why_tests_cant": "The binary descent visits different nodes for every n and predicate. (n=0 turned out to panic.)", "anchors": ["src/data_structure/fenwick_tree.rs: FenwickTree::{partition_point,search}"]}
{"id": "C08", "title": "Sparse table range queries", "statement": "For an associative idempotent op and non-empty v, SparseTable::from(v,init,op).get(l,r) with l<r<=len equals op folded over v[l..r), whatever init is; construction never indexes out of range; get panics when l>=r.", "quantifier": "every associative idempotent operation (commutativity not assumed), every non-empty slice, every l<r<=len", "why_tests_cant": "All (n,l,r) triples and operations cannot be enumerated; correctness needs idempotence of overlapping blocks.", "anchors": ["src/data_structure/sparse_table.rs: SparseTable::{from,get}", "src/misc/util.rs: lg"]}
{"id": "C09", "title": "Sparse table rejects out-of-range queries", "statement": "SparseTable::get(l,r) with r > len panics instead of returning a value.", "quantifier": "every non-empty table and every l<r with r>len", "why_tests_cant": "Universally quantified over tables and indices. (It turned out to be false.)", "anchors": ["src/data_structure/sparse_table.rs: SparseTable::get"]}
{"id": "C10", "title": "Union-find: find terminates and returns a canonical representative", "statement": "In every state reachable by new and any sequence of find/is_same/join/size/groups, find(i) with i<n terminates, returns r<n with find(r)=r, and changes nobody's representative; find/is_same/size panic exactly when an index is >= n, groups never panics, join panics when an index is >= n.", "quantifier": "every n, every operation history, every index", "why_tests_cant": "A parent cycle would make find recurse forever; absence of cycles is an invariant over all histories.", "anchors": ["src/data_structure/union_find.rs: UnionFind::{new,find,is_same,join}"]}
{"id": "C11", "title": "Union-find: join merges exactly the two sets", "statement": "After join(x,y), is_same(a,b) holds iff it held before or {a,b} were in the sets of x and y; join returns true iff x and y were in different sets before.", "quantifier": "every n, every history, every x,y,a,b", "why_tests_cant": "It is a statement about all histories. (It turned out to be false when x is not the representative of its set: the set of x is split.)", "anchors": ["src/data_structure/union_find.rs: UnionFind::join"]}
{"id": "C12", "title": "Union-find: size is the cardinality of the set", "statement": "size(x) equals the number of y with is_same(x,y).", "quantifier": "every n, every history, every x", "why_tests_cant": "All histories. (It turned out to be false.)", "anchors": ["src/data_structure/union_find.rs: UnionFind::{size,join}"]}
{"id": "C13", "title": "Union-find: groups is the partition induced by is_same", "statement": "groups() returns a list of non-empty lists that together contain every index 0..n exactly once, each increasing, and a,b are in the same list iff is_same(a,b).", "quantifier": "every n and every history", "why_tests_cant": "All histories and sizes.", "anchors": ["src/data_structure/union_find.rs: UnionFind::groups"]}
{"id": "C14", "title": "MinHeap is a priority queue", "statement": "Any sequence of push/pop/peek/len/append/clear/is_empty on MinHeap behaves like a multiset: pop/peek give a least element (None when empty), pop removes exactly one occurrence, append moves all elements of the other heap and empties it.", "quantifier": "every totally ordered element type, every operation history, every heap implementation meeting the documented BinaryHeap contract (max-heap)", "why_tests_cant": "Histories are unbounded; the Reverse wrapping must flip every comparison.", "anchors": ["src/data_structure/min_heap.rs: MinHeap"]}
{"id": "C15", "title": "kmp computes the prefix function", "statement": "kmp(s) has length len(s) and its i-th entry is the length of the longest proper prefix of s[0..=i] that is also a suffix of s[0..=i]; no panic, always terminates.", "quantifier": "every element type with decidable equality, every sequence", "why_tests_cant": "All strings.", "anchors": ["src/string/kmp.rs: kmp"]}
{"id": "C16", "title": "z_function computes the Z array", "statement": "z_function(s)[i] for i>=1 is the length of the longest common prefix of s and s[i..], and entry 0 is 0; no panic.", "quantifier": "every element type with equality, every sequence", "why_tests_cant": "All strings.", "anchors": ["src/string/z_algorithm.rs: z_function"]}
{"id": "C17", "title": "Aho-Corasick find_all lists every pattern ending at each position", "statement": "For AhoCorasick::from(patterns) with non-empty pairwise distinct patterns over the alphabet, find_all(text)[i] lists exactly the indices of the patterns that are suffixes of text[0..=i], each once, longest first; construction and search terminate without panic.", "quantifier": "every alphabet size, pattern set and text over the alphabet", "why_tests_cant": "Failure links depend on the interaction of all patterns; all sets and texts cannot be enumerated.", "anchors": ["src/string/aho_corasick.rs: AhoCorasick::{from,insert,build,find_all}"]}
{"id": "C18", "title": "Aho-Corasick find_cnt counts occurrences", "statement": "find_cnt(text)[k] is the number of positions of text at which pattern k ends.", "quantifier": "every alphabet size, set of non-empty pairwise distinct patterns, every text over the alphabet", "why_tests_cant": "All pattern sets and texts. (For duplicate patterns only the last copy is counted.)", "anchors": ["src/string/aho_corasick.rs: AhoCorasick::find_cnt"]}
{"id": "C19", "title": "Aho-Corasick find reports a match ending at each position whenever there is one", "statement": "find(text)[i] = Some(k) only if pattern k ends at position i, and it is Some whenever some pattern ends at i.", "quantifier": "every pattern set and text", "why_tests_cant": "All pattern sets and texts. (The second half turned out to be false.)", "anchors": ["src/string/aho_corasick.rs: AhoCorasick::find"]}
{"id": "C20", "title": "Binary lifting: is_ancestor decides ancestry", "statement": "For a tree g rooted at root, BinaryLifting::from(g,root) terminates without panic and is_ancestor(u,v) holds iff u lies on the path from root to v (u=v included).", "quantifier": "every finite tree (adjacency lists in any order), every root, every u,v", "why_tests_cant": "All trees.", "anchors": ["src/graph/binary_lifting.rs: BinaryLifting::{from,dfs,is_ancestor}"]}
{"id": "C21", "title": "Binary lifting: lca is the lowest common ancestor", "statement": "lca(u,v) is an ancestor of u and v and every common ancestor of u and v is an ancestor of it.", "quantifier": "every finite tree, root, u, v", "why_tests_cant": "All trees; the jump table height lg(n)+1 must suffice for every depth.", "anchors": ["src/graph/binary_lifting.rs: BinaryLifting::lca"]}
{"id": "C22", "title": "Binary lifting: dis is the tree distance", "statement": "dis(u,v) is the number of edges of the path between u and v, with no unsigned underflow.", "quantifier": "every finite tree, root, u, v", "why_tests_cant": "All trees.", "anchors": ["src/graph/binary_lifting.rs: BinaryLifting::dis"]}
{"id": "C23", "title": "Bipartite matching: solve returns the size of a maximum matching", "statement": "After any add_edge calls (and earlier solve calls), solve terminates, the stored matching uses only added edges and no vertex twice, the returned number is its size, and no matching of the graph is larger.", "quantifier": "every bipartite graph, every insertion order, every interleaving of add_edge and solve", "why_tests_cant": "Maximality quantifies over all matchings of all graphs.", "anchors": ["src/graph/bipartite_matching.rs: AugmentedPath::{new,add_edge,dfs,solve}"]}
{"id": "C24", "title": "Dinic: get_max_flow returns the maximum flow value", "statement": "For a network built by add_edge with non-negative capacities, get_max_flow(s,t) with s!=t terminates and returns the value of a feasible s-t flow such that no feasible flow has a larger value (equivalently the minimum cut capacity), provided that value fits the capacity type.", "quantifier": "every finite network of at most 2^31-1 vertices (parallel edges, loops, antiparallel edges allowed), every s!=t", "why_tests_cant": "Maximality quantifies over all flows; termination over all networks.", "anchors": ["src/graph/max_flow.rs: Dinic::{new,add_edge,bfs,dfs,get_max_flow}"]}
{"id": "C25", "title": "scc partitions vertices into strongly connected components", "statement": "scc(g) returns (cnt,color) with color[u]<cnt for all u, every colour used, and color[u]=color[v] iff u and v reach each other.", "quantifier": "every finite directed graph", "why_tests_cant": "All graphs.", "anchors": ["src/graph/tarjan.rs: scc, SCC::dfs"]}
{"id": "C26", "title": "scc numbers components in reverse topological order", "statement": "For every edge u->v of g, color[v] <= color[u].", "quantifier": "every finite directed graph", "why_tests_cant": "All graphs.", "anchors": ["src/graph/tarjan.rs: scc"]}
{"id": "C27", "title": "dijkstra returns shortest distances", "statement": "dijkstra(g,s) with s<n and edge targets in range terminates and its entry v is Some(d) with d the least total weight of a path from s to v, or None iff v is unreachable (as long as no sum overflows usize).", "quantifier": "every finite weighted digraph with non-negative weights, every source", "why_tests_cant": "Optimality quantifies over all paths of all graphs.", "anchors": ["src/graph/shortest_path.rs: dijkstra", "src/data_structure/min_heap.rs: MinHeap"]}
{"id": "C28", "title": "HLD: path_prod is the product along the path", "statement": "path_prod(u,v) is the product of the current vertex values along the tree path from u to v.", "quantifier": "every tree, root, history of updates, u and v, and every monoid", "why_tests_cant": "All trees, histories and monoids. (It needs commutativity, which the API does not ask for.)", "anchors": ["src/graph/heavy_light_decomp.rs: HLD::{new,with_init_value,path_prod}"]}
{"id": "C29", "title": "HLD: apply_path updates exactly the path", "statement": "apply_path(u,v,f) replaces the value of every vertex on the path between u and v (ends included) by mapping(f, value) exactly once and leaves all other vertices unchanged.", "quantifier": "every tree, root, history, u, v, f", "why_tests_cant": "All trees and histories.", "anchors": ["src/graph/heavy_light_decomp.rs: HLD::apply_path"]}
{"id": "C30", "title": "HLD: subtree operations cover exactly the subtree", "statement": "subtree_prod(u) is the product (in visiting order) of the values of the vertices of u's subtree and apply_subtree(u,f) maps exactly these; get/set read and write one vertex; positions form a permutation of 0..n.", "quantifier": "every tree, root, history, u", "why_tests_cant": "All trees and histories.", "anchors": ["src/graph/heavy_light_decomp.rs: HLD::{dfs1,dfs2,apply_subtree,subtree_prod,get,set}"]}
{"id": "C31", "title": "gcd computes the greatest common divisor", "statement": "gcd(a,b) terminates and its absolute value is the greatest common divisor of a and b; it is non-negative when a,b are non-negative. No overflow except MIN % -1.", "quantifier": "every pair of values of every primitive integer type", "why_tests_cant": "2^128 input pairs per 64-bit type.", "anchors": ["src/math/number_theory.rs: gcd"]}
{"id": "C32", "title": "lcm computes the least common multiple", "statement": "lcm(a,b) for positive a,b equals the least common multiple whenever it is representable.", "quantifier": "every pair of positive values of every primitive integer type", "why_tests_cant": "All pairs. (It turned out to need a*b representable, and lcm(0,0) panics.)", "anchors": ["src/math/number_theory.rs: lcm"]}
{"id": "C33", "title": "ex_gcd returns Bezout coefficients without overflow", "statement": "For signed types, ex_gcd(a,b) returns (x,y,g) with a*x+b*y=g=gcd(a,b) (up to the sign convention of gcd) and no intermediate value overflows, except for MIN/-1.", "quantifier": "every pair of values of every signed primitive integer type", "why_tests_cant": "All pairs; the no-overflow claim depends on the whole Euclid sequence.", "anchors": ["src/math/number_theory.rs: ex_gcd"]}
{"id": "C34", "title": "ex_crt solves systems of linear congruences", "statement": "ex_crt(a,b,m) with positive moduli returns Some((x,l)) with 0<=x<l such that the solutions of all a[i]*x=b[i] (mod m[i]) are exactly x + k*l, and None iff no solution exists (when no 64-bit overflow occurs).", "quantifier": "every number of congruences, every a,b,m", "why_tests_cant": "All systems. (Negative a[i] turned out to break it.)", "anchors": ["src/math/number_theory.rs: ex_crt"]}
{"id": "C35", "title": "safe_mod is the mathematical remainder", "statement": "safe_mod(x,m) for m>=1 is the unique value in [0,m) congruent to x modulo m, without overflow.", "quantifier": "every i64 x and every i64 m>=1", "why_tests_cant": "2^127 inputs.", "anchors": ["src/math/internal_math.rs: safe_mod"]}
{"id": "C36", "title": "Barrett multiplication is exact", "statement": "For 1<=m<=2^31 and a,b<m, Barrett::new(m).mul(a,b) = a*b mod m (both Barrett structs), with the wrapping u64/u32 arithmetic of the code.", "quantifier": "every modulus 1<=m<=2^31, every a,b<m", "why_tests_cant": "About 2^93 inputs; the off-by-one correction triggers rarely.", "anchors": ["src/math/internal_math.rs: Barrett, mul_mod", "src/misc/modint.rs: Barrett"]}
{"id": "C37", "title": "pow_mod is modular exponentiation", "statement": "pow_mod(x,n,m) for n>=0, m>=1 terminates and returns x^n mod m (0 if m=1) without overflow.", "quantifier": "every i64 x, i64 n>=0, i32 m>=1", "why_tests_cant": "2^158 inputs.", "anchors": ["src/math/internal_math.rs: pow_mod"]}
{"id": "C38", "title": "is_prime decides primality", "statement": "is_prime(n) returns true iff n is prime; it terminates for every n.", "quantifier": "every i32 n", "why_tests_cant": "2^32 inputs, each a number-theoretic claim; tests sample below 10^6.", "anchors": ["src/math/internal_math.rs: is_prime"]}
{"id": "C39", "title": "inv_gcd returns gcd and modular inverse", "statement": "inv_gcd(a,b) for b>=1 returns (g,x) with g=gcd(a,b), a*x = g (mod b), 0<=x<b/g (x=0 if a is a multiple of b), and no intermediate overflows.", "quantifier": "every i64 a, every i64 b>=1", "why_tests_cant": "2^127 inputs.", "anchors": ["src/math/internal_math.rs: inv_gcd"]}
{"id": "C40", "title": "primitive_root returns the least primitive root", "statement": "primitive_root(m) for prime m terminates and returns the least g>=1 that generates the multiplicative group modulo m.", "quantifier": "every prime i32 m", "why_tests_cant": "10^8 primes; tests take nine.", "anchors": ["src/math/internal_math.rs: primitive_root"]}
{"id": "C41", "title": "Factorial tables give binomials and falling factorials", "statement": "Factorial::new(N) with N < p prime terminates; choose(n,k) = C(n,k) mod p and perm(n,k) = n!/(n-k)! mod p for k<=n<=N; it panics for k>n or n>N; new(N) panics when N>=p.", "quantifier": "every prime modulus <= 2^31, every N,n,k", "why_tests_cant": "All triples and moduli.", "anchors": ["src/math/factorial.rs: Factorial::{new,choose,perm}"]}
{"id": "C42", "title": "StaticModInt is the ring Z/m", "statement": "For modulus 1<=m<=2^31 and values built by new/raw(val<m), val() is always < m and +,-,*,unary - (and their assigning and mixed-integer forms) compute the corresponding operation in Z/m; no overflow panics.", "quantifier": "every modulus 1<=m<=2^31, every sequence of operations", "why_tests_cant": "All moduli and operand pairs. (For m>2^31 subtraction and addition turned out to be wrong.)", "anchors": ["src/misc/modint.rs: StaticModInt, InternalImplementations::{add_impl,sub_impl,neg_impl,mul_impl}"]}
{"id": "C43", "title": "ModInt::new reduces any primitive integer losslessly", "statement": "new(v) for v of any of the 12 primitive integer types has val() equal to the Euclidean remainder of v modulo m, with the casts of the code.", "quantifier": "every value of i8..i128, isize, u8..u128, usize and every non-zero u32 modulus", "why_tests_cant": "All values of all types.", "anchors": ["src/misc/modint.rs: RemEuclidU32, StaticModInt::new, DynamicModInt::new"]}
{"id": "C44", "title": "ModInt pow is exponentiation", "statement": "x.pow(n).val() = x^n mod m for every u64 n.", "quantifier": "every modulus 1<=m<=2^31, every x, every u64 n", "why_tests_cant": "All inputs. (m=1, n=0 turned out to be wrong.)", "anchors": ["src/misc/modint.rs: ModIntBase::pow"]}
{"id": "C45", "title": "ModInt inverse and division", "statement": "x.inv() returns the y<m with x*y=1 (mod m) when gcd(x,m)=1 and panics otherwise, both on the prime-hint (Fermat) path and on the extended-gcd path; a/b = a*inv(b).", "quantifier": "every modulus, every x", "why_tests_cant": "All moduli and residues; the Fermat path needs primality.", "anchors": ["src/misc/modint.rs: StaticModInt::inv, DynamicModInt::inv, inv_for_non_prime_modulus, div_impl", "src/math/internal_math.rs: inv_gcd"]}
{"id": "C46", "title": "DynamicModInt follows the last modulus set", "statement": "In a single thread, after set_modulus(m) with 1<=m<=2^31 all DynamicModInt operations on values created afterwards compute in Z/m; modulus() returns m; set_modulus(0) panics; before any set_modulus the modulus is 998244353.", "quantifier": "every history of set_modulus and arithmetic operations", "why_tests_cant": "All histories.", "anchors": ["src/misc/modint.rs: DynamicModInt, Barrett::{new,update,umod,mul}"]}
{"id": "C47", "title": "Concurrent set_modulus is atomic for multiplication", "statement": "When one thread runs set_modulus(m2) while another multiplies, the product is the one modulo the old or the new modulus.", "quantifier": "every interleaving of the two threads' atomic loads and stores", "why_tests_cant": "Schedules cannot be enumerated by unit tests. (It turned out to be false: m and im are stored separately.)", "anchors": ["src/misc/modint.rs: Barrett::{update,mul}"]}
{"id": "C48", "title": "Sum and Product of modints", "statement": "iter.sum() and iter.product() equal the sum and product of the representatives reduced modulo m, in any order, for m>=2.", "quantifier": "every list of residues, every modulus 2<=m<=2^31", "why_tests_cant": "All lists.", "anchors": ["src/misc/modint.rs: impl_folding"]}
{"id": "C49", "title": "lg and ceil_lg", "statement": "lg(i) = floor(log2 i) for i>=1 (panics for 0) and ceil_lg(n) is the least k with n <= 2^k, for every u32 n.", "quantifier": "every usize / u32 value", "why_tests_cant": "2^64 inputs.", "anchors": ["src/misc/util.rs: lg, ceil_lg"]}
{"id": "C50", "title": "Provided monoids satisfy the monoid laws", "statement": "Max, Min, Additive, Multiplicative have an associative operation and a two-sided identity on the values for which the operation does not overflow; Max/Min are idempotent and commutative.", "quantifier": "every primitive integer type, every triple of values", "why_tests_cant": "All triples.", "anchors": ["src/misc/monoids.rs", "src/traits/monoid.rs", "src/traits/numeric.rs"]}
{"id": "C51", "title": "Input reader yields the tokens in order", "statement": "Reading through In yields exactly the maximal whitespace-free substrings of the input in order; vec(n) reads n of them; checked_read returns None exactly at the end; read panics at the end or on a token that does not parse.", "quantifier": "every input text (ASCII whitespace), every sequence of reads", "why_tests_cant": "All inputs and read sequences.", "anchors": ["src/misc/input.rs: In"]}
{"id": "C52", "title": "RecursiveFunction::call is the fixed point of its closure", "statement": "call(args) evaluates the closure body with recursive calls to call itself, so it computes the least fixed point of the closure, including mutable captured state.", "quantifier": "every closure, every argument", "why_tests_cant": "All closures. (The aliasing of &mut through UnsafeCell is outside an executable model.)", "anchors": ["src/misc/recursive_function.rs"]}
{"id": "C53", "title": "MinHeap::into_sorted_vec order", "statement": "into_sorted_vec lists all elements of the heap in non-decreasing order of T (as BinaryHeap::into_sorted_vec does for its elements).", "quantifier": "every totally ordered element type, every reachable heap content", "why_tests_cant": "Universally quantified over contents. (It turned out to be false: the Reverse wrapper makes the order non-increasing.)", "anchors": ["src/data_structure/min_heap.rs: MinHeap::into_sorted_vec"]}
{"id": "C54", "title": "Union-find: join never panics on valid indices", "statement": "join(x,y) with x,y<n never panics, in any reachable state (overflow checks on).", "quantifier": "every n, every history, every x,y<n", "why_tests_cant": "All histories. (It turned out to be false: the recorded sizes can grow exponentially with the number of joins and overflow usize, because join works on x,y instead of their representatives.)", "anchors": ["src/data_structure/union_find.rs: UnionFind::join"]}
{"id": "C55", "title": "Binary lifting: the public tables are the ancestors and depths", "statement": "After BinaryLifting::from(g,root), dep[v] is the distance from root to v, pa[v][i] is the vertex 2^i steps up from v (the root when there are fewer steps), and 2^level exceeds the number of vertices.", "quantifier": "every finite tree (adjacency lists in any order), every root, every vertex v, every i < level", "why_tests_cant": "All trees; the row of a vertex is filled from rows of its ancestors, including the root's self-loop.", "anchors": ["src/graph/binary_lifting.rs: BinaryLifting::{from,dfs}"]}
{"id": "C56", "title": "HLD: path operations make logarithmically many range calls", "statement": "path_prod(u,v) and apply_path(u,v,f) make at most 2*floor(log2 n)+1 calls on the segment tree.", "quantifier": "every tree on n < 2^32 vertices, root, history, u and v", "why_tests_cant": "A bound on the number of steps for all trees; wrong heavy children give right answers slowly.", "anchors": ["src/graph/heavy_light_decomp.rs: HLD::{dfs1,dfs2,apply_path,path_prod}"]}
{"id": "C57", "title": "Aho-Corasick build must be called exactly once", "statement": "On an automaton already built from at least one string, calling build again never returns (the queue never becomes empty); the first call always terminates.", "quantifier": "every alphabet, every non-empty list of insertable strings, every bound on the number of loop turns", "why_tests_cant": "Non-termination cannot be observed by a test, and the claim is over all string sets.", "anchors": ["src/string/aho_corasick.rs: AhoCorasick::build, from"]}
{"id": "C58", "title": "Text form of modints", "statement": "s.parse() gives the residue of v when s is a decimal numeral (optional sign) of an i64 v and panics for every other string; Display writes the representative in plain decimal, and parsing that text gives the same value back.", "quantifier": "every string, every non-zero u32 modulus, every value", "why_tests_cant": "All strings and moduli; the round trip for all values.", "anchors": ["src/misc/modint.rs: from_str_impl, display_impl, debug_impl"]}
{"id": "C59", "title": "The predefined moduli are prime fields", "statement": "ModInt998244353 and ModInt1000000007 have the modulus in their name, it is prime, their prime hint is set, every non-zero value has an inverse and inv of zero panics.", "quantifier": "every non-zero residue of both types", "why_tests_cant": "About 2*10^9 residues; primality of the moduli.", "anchors": ["src/misc/modint.rs: Mod998244353, Mod1000000007, StaticModInt::inv"]}
{"id": "C60", "title": "Release build: modint inverse with the prime hint", "statement": "In a release build (no debug assertions, wrapping arithmetic) StaticModInt::inv with HINT_VALUE_IS_PRIME returns the inverse of every non-zero value for every prime u32 modulus, division likewise; whenever the debug build returns, the release build returns the same; on a modulus that is not prime it returns a^(m-2) without complaint, which is an inverse exactly when a^(m-1) = 1 modulo m.", "quantifier": "every modulus 1 <= m < 2^32, every residue, both values of the hint", "why_tests_cant": "2^32 moduli; tests usually run in the debug profile only.", "anchors": ["src/misc/modint.rs:169-184 StaticModInt::inv"]}
{"id": "C61", "title": "Release build: union-find panics only on bad indices", "statement": "In a release build a history of find, is_same, join, size and groups calls panics exactly when some argument is not below n (sizes wrap instead of overflowing); every history that the debug build survives gives the same answers and the same state in both.", "quantifier": "every n, every history of calls", "why_tests_cant": "The debug panic needs about 184 well-chosen joins; tests usually run in one profile.", "anchors": ["src/data_structure/union_find.rs:31-44 join"]}
{"id": "C62", "title": "Union-find used with representatives is a plain labelling", "statement": "If every join of a history names the representatives of two sets, every call of the history (find, is_same, join, size, groups, in any order) answers and panics exactly as on an array holding one label per vertex, where join(x,y) relabels x's set with y's label, size counts labels and groups lists the sets by label, each increasing.", "quantifier": "every n < 2^64, every history in which joins of in-range vertices name representatives", "why_tests_cant": "Histories are unbounded and path compression makes the stored state depend on every earlier query.", "anchors": ["src/data_structure/union_find.rs:8-61"]}
{"id": "C63", "title": "Union-find queries are observations", "statement": "find, is_same, size and groups only observe: leaving such a call out of a history changes no other answer.", "quantifier": "every n, every history, every position of the query", "why_tests_cant": "Queries compress paths; whether a later join notices depends on the whole history.", "anchors": ["src/data_structure/union_find.rs:16-29", "src/data_structure/union_find.rs:31-44 join"]}
{"id": "C64", "title": "Segment tree over a panicking operation", "statement": "When the monoid's operation may panic (Additive, Multiplicative on machine integers): a history of set/get/prod/all_prod calls and searches answers as the plain array or panics, never wrongly. If every range of the array has a representable product at every moment, it never panics for another reason than a bad argument. For sums of unsigned integers it panics exactly when an argument is bad or the total of the array exceeds the largest value of the type.", "quantifier": "every lawful operation with a panicking version, every array shorter than 2^32, every history", "why_tests_cant": "Which partial products a tree forms depends on size, padding and position; an overflow in an internal node needs a particular combination of values.", "anchors": ["src/data_structure/segtree.rs:8-171", "src/misc/monoids.rs"]}
{"id": "C65", "title": "Fenwick tree over checked arithmetic", "statement": "When + , += and - may panic: a history of from/add/pref/sum calls answers as the plain array or panics, never wrongly. If every range of the array has a representable sum at every moment, no internal addition panics: sum(l,r) with l<=r is the sum of the range, with l>r it is minus the sum of [r,l) or a panic when that is not a value of the type. On the non-empty trees so reached partition_point and search(target) do not panic either and give the boundary of the prefix sums. For unsigned integers pref(i) panics exactly when i is out of range or the prefix sum is not a value of the type.", "quantifier": "every lawful addition with a panicking version, every array, every history", "why_tests_cant": "The internal nodes hold sums of ranges that no query asks for, so overflow there is invisible in tests with small values.", "anchors": ["src/data_structure/fenwick_tree.rs:16-128"]}
{"id": "C66", "title": "Lazy segment tree over panicking functions is never wrong, and when it does not panic", "statement": "When the operation, the mapping or the composition of tags may panic, a history of all calls of LazySegtree answers as the plain array allows or panics: it never returns a wrong answer and always returns. If at every moment every range product is computable, and at every position every subsequence of the range updates given there composes to a computable map, it does not panic beyond the documented panics: the answers are exactly those the plain array allows. For sums with additions in an unsigned type it is enough that the values are non-negative and the total, the number of terms, and the sum of the additions at each position fit.", "quantifier": "every lawful monoid and maps with panicking versions, every array shorter than 2^32, every history including searches; every description of which values and maps are computable", "why_tests_cant": "Pending tags are composed in an order that depends on the whole history.", "anchors": ["src/data_structure/lazy_segtree.rs:9-282"]}
{"id": "C67", "title": "DynamicModInt in several threads", "statement": "Once the modulus is set, any number of threads may compute with DynamicModInt at the same time as long as none of them sets the modulus: on every interleaving of their accesses to the shared Barrett each thread observes exactly the residues its own program denotes and ends. If others do set it, an operation during which nobody stores still does what it does alone.", "quantifier": "every modulus up to 2^31, any number of threads, every program of each, every interleaving of the atomic accesses (sequentially consistent)", "why_tests_cant": "A test sees few of the interleavings.", "anchors": ["src/misc/modint.rs:355-360", "src/misc/modint.rs:460-499", "src/misc/modint.rs:752-834"]}
{"id": "C68", "title": "Sparse table over a closure that may panic", "statement": "If the product of every non-empty range is one the closure can compute, building SparseTable and all its queries succeed as in C08. With a closure that computes an associative idempotent operation or panics, building ends, and a built table answers a query inside the array with the product of the range or panics.", "quantifier": "every associative idempotent operation with a panicking version, every array shorter than 2^64, every query", "why_tests_cant": "Whether an intermediate product is computable depends on the values in every block of the table.", "anchors": ["src/data_structure/sparse_table.rs:18-41"]}
{"id": "C69", "title": "Debug text of the lazy segment tree", "statement": "After any history, printing a LazySegtree with {:?} does not panic and writes one row per level: row i has 2^i cells value[map], the last row the values of the leaves. The value shown in a cell, after the pending maps shown above it from the nearest to the root, is the product of the part of the array below the cell; in the last row it is the element itself, or the unit beyond the array.", "quantifier": "every lawful monoid and maps, every way of showing values and maps, every array shorter than 2^32, every history including searches", "why_tests_cant": "Which maps are pending at which node depends on the whole history.", "anchors": ["src/data_structure/lazy_segtree.rs:281-306"]}
{"id": "C70", "title": "Equality and hash of modints", "statement": "Two modints made from integers of any primitive types are == exactly when the integers are congruent modulo m, and exactly then they give the hasher the same bytes.", "quantifier": "all moduli 1 <= m < 2^32, all pairs of primitive integer types and values", "why_tests_cant": "All representatives of all residues.", "anchors": ["src/misc/modint.rs:88", "src/misc/modint.rs:314", "src/misc/modint.rs:774-777", "src/misc/modint.rs:862-868"]}
{"id": "C71", "title": "Binary lifting when the graph has vertices outside the tree", "statement": "If what can be reached from the root is a tree (for instance a tree on 1..n with an unused vertex 0), from does not panic, and for reached vertices is_ancestor, lca and dis answer as on that tree and dep is the distance from the root. A vertex that is not reached is the ancestor of nothing, not even of itself, but is_ancestor(root, v) is true for it, and only the root is.", "quantifier": "every graph with fewer than 2^64 vertices, every root whose component is a tree, all pairs of vertices", "why_tests_cant": "All trees and all positions of the unused vertices; the answers for vertices outside come from the initial zeros of tin and tout.", "anchors": ["src/graph/binary_lifting.rs:12-68"]}
{"id": "C72", "title": "HLD when the graph has vertices outside the tree", "statement": "If what can be reached from the root is a tree, both constructors return and every history of get, set, subtree calls on any vertex, and path calls between two reached vertices (or two vertices that are not reached, or any two if the root is vertex 0) returns and acts on one value per reached vertex; a vertex that is not reached is another name of the root for get, set and path calls, and has an empty subtree. with_init_value gives the root the value of the largest index among the root and the vertices that are not reached. If vertex 0 is not reached, a path call between a reached vertex and one that is not never returns. Calls with a vertex out of range panic.", "quantifier": "every graph with fewer than 2^32 vertices, every root whose component is a tree, every lawful monoid and map, every history of calls", "why_tests_cant": "All trees, positions of the unused vertices and histories; non-termination cannot be observed by a test.", "anchors": ["src/graph/heavy_light_decomp.rs:19-130"]}
{"id": "C73", "title": "Segment tree over an operation without laws", "statement": "With any operation and any identity (for instance sums of f64, which are not associative): from, set, get, prod and all_prod panic exactly on bad arguments and always return; get returns the element last set; prod(l,r) and all_prod return a product of exactly the elements of the range, in order, each once, in some bracketing (possibly with identities in between). max_right and min_left return (they panic only on a bad index or if the predicate rejects the identity); some bracketing of the returned range satisfies the predicate and, if the search stopped early, some bracketing of the range longer by one element does not. With the laws of a monoid all bracketings agree, so this is C01. Without associativity max_right may return an index beyond the array: over f64 it does.", "quantifier": "every type, operation, identity, predicate, every array of fewer than 2^32 elements, every history", "why_tests_cant": "All operations and histories; rounding makes the answers depend on the shape of the tree.", "anchors": ["src/data_structure/segtree.rs:1-182", "src/misc/monoids.rs:36-48"]}
{"id": "C74", "title": "Release build: data structures over integers that wrap", "statement": "In a release build, where + , * and - of the primitive types wrap, Additive and Multiplicative are lawful monoids whatever overflows. Segment tree (sums, products), Fenwick tree and lazy segment tree (range add, range sum) answer every history with the exact mathematical answer of the plain array reduced once to the type, so the answer is exact whenever it fits even if intermediate sums overflow; the segment-tree searches test the wrapped sums. The dev build gives the same answers or panics.", "quantifier": "every integer type, every array, every history of calls", "why_tests_cant": "All types, arrays and histories; overflow happens inside the tree at places no caller sees.", "anchors": ["src/misc/monoids.rs:36-62", "src/data_structure/segtree.rs:1-182", "src/data_structure/fenwick_tree.rs:1-127", "src/data_structure/lazy_segtree.rs:1-330"]}
{"id": "C75", "title": "Release build: number theory and modint addition", "statement": "In a release build gcd is the same code. ex_gcd returns, for every primitive type including the unsigned ones, coefficients that satisfy a*x + b*y = g modulo 2^bits with |g| = gcd(a,b), and for signed types does exactly what the dev build does. lcm of non-negative values (not both zero) never panics and is right exactly when a*b fits the type. ex_crt gives the dev answer whenever the dev build answers; where the dev build panics it can return an x that solves nothing. The sum of two modints never panics; it is right for all moduli up to 2^31 and, above, exactly when a+b < 2^32.", "quantifier": "every primitive integer type, all values; all moduli 1 <= m < 2^32 and residues", "why_tests_cant": "All values of 12 types; tests run in the dev profile only.", "anchors": ["src/math/number_theory.rs:3-47", "src/misc/modint.rs:795-802"]}
{"id": "C76", "title": "kmp and z_function: non-reflexive equality and linear number of comparisons", "statement": "For any PartialEq at all, kmp and z_function return without a panic; kmp makes at most 3(n-1) comparisons. If == is symmetric and transitive (floats with NaN included, where == is not reflexive), kmp returns for every i the largest k <= i such that the first k elements equal, one by one, the k elements ending at i; z_function returns for every i > 0 the largest k such that the first k elements equal the k from i on, and makes at most 2(n-1) comparisons. The comparisons counted are all that are made: an equality that answers alike on the pairs compared leads to the same run.", "quantifier": "all element types, all equality functions, all slices", "why_tests_cant": "All slices and all equality relations; the comparison bound is about every input length.", "anchors": ["src/string/kmp.rs:1-15", "src/string/z_algorithm.rs:1-18"]}
{"id": "C77", "title": "Tree searches with predicates that have side effects or panic", "statement": "partition_point (FnMut predicate), max_right and min_left are binary searches for whatever answers the predicate gives: it is asked only about sums of ranges strictly inside the current bracket, each answer moves one end there, and the result is where the bracket closes. With n elements partition_point asks at most log2 n + 1 times, max_right and min_left at most 2 log2up n + 2 times. The closure's state is threaded through the questions in order and a panic of the closure comes through. A search of a lazy segment tree that unwinds in the predicate, or by one of its assertions, leaves the tree representing the same array, so that all later calls answer as if it had not been made. A predicate that contradicts itself can make max_right return an index beyond n.", "quantifier": "all monoids, all reached trees and histories, all closures with any state type, all starting indices", "why_tests_cant": "All stateful and panicking closures and all histories with caught panics; the call bound is about every length.", "anchors": ["src/data_structure/fenwick_tree.rs:97-111", "src/data_structure/segtree.rs:78-153", "src/data_structure/lazy_segtree.rs:168-245"]}
{"id": "C78", "title": "AhoCorasick after rejected inserts", "statement": "An insert is rejected (it panics) exactly for the empty string and for strings with a byte outside the alphabet, also after earlier rejected inserts whose panic was caught. Once build has run, find_all and find_cnt answer on every text as if the rejected inserts had never been called. find does not: it answers for the longest suffix that begins an inserted string or the valid part of a rejected one, so that a rejected insert can hide an occurrence.", "quantifier": "all alphabets, all sequences of accepted and rejected inserts, all texts", "why_tests_cant": "All interleavings of accepted and rejected inserts and all texts; the nodes left behind are invisible to two of the three queries only because of an invariant of the trie.", "anchors": ["src/string/aho_corasick.rs:43-56", "src/string/aho_corasick.rs:84-129"]}
{"id": "C79", "title": "Segtree and FenwickTree after caught panics", "statement": "When the user's operation panics inside Segtree::set or FenwickTree::add and the panic is caught, the structure stays usable: no later call loops, and every later answer is explained by choosing one candidate per position, namely the values of the sets since and including the last one that completed (segment tree), or counting each unwound add or not (Fenwick tree). Where the last set of every position completed, the answer is exact. Over operations that never panic the only calls that unwind are those with positions out of range and they leave no trace. The choices may differ between two queries: after an overflow in u8 pref(1) counts the addition and pref(2) does not.", "quantifier": "all monoids with an operation that computes it or panics, all initial arrays, all histories of calls with any of them unwinding", "why_tests_cant": "Which nodes were updated before the panic depends on the position, the length and the operation; the theorem covers every history of caught panics.", "anchors": ["src/data_structure/segtree.rs:32-39", "src/data_structure/segtree.rs:155-157", "src/data_structure/fenwick_tree.rs:49-59"]}
{"id": "C80", "title": "Dinic and Dijkstra in release builds, where arithmetic wraps", "statement": "In a release build get_max_flow terminates without a panic for vertices in range and returns, for every history of calls with capacities >= 0, the most that can still be sent from s to t modulo 2^bits of the capacity type; in particular the maximum flow itself whenever that fits. dijkstra terminates for every graph and all weights, panics exactly when s is out of range or a vertex reachable from s has an edge to a vertex out of range, and otherwise returns values that are 0 at s, are weights modulo 2^64 of walks from s, exist exactly for the reachable vertices, and cannot be improved along any edge by a wrapping addition. Wherever the dev build completes the release build gives the same answers. After a wrap around, dijkstra's values can be below the true distance.", "quantifier": "all primitive capacity types, all networks of at most 2^31-1 vertices and histories; all graphs, sources and weights", "why_tests_cant": "Wrap-around occurs only for huge capacities or weights; termination when the priority queue order is no longer that of the true distances is about all graphs.", "anchors": ["src/graph/max_flow.rs:28-88", "src/graph/shortest_path.rs:2-19"]}
{"id": "C81", "title": "LazySegtree after caught panics", "statement": "When op panics during a call on a LazySegtree and the panic is caught, the tree stays usable: no later call diverges or indexes out of bounds, get returns the value stored last at its position, and every product is that of some choice of one candidate per position, where a set or apply or apply_range that completed acts on all candidates of the positions it names and one that unwound adds its results before the old candidates. Reads and searches, completed or not, change no candidates; max_right(l) never answers below l and min_left(r) never above r. Where one candidate is left the answer is exact. Over operations that never panic only calls refused by an assert unwind, and they leave no trace. If mapping itself panics half-way through a push, this fails: a pending map is applied twice to one child.", "quantifier": "all monoids and maps obeying the laws, all partial versions of op, all arrays shorter than 2^32, all histories of calls with caught panics", "why_tests_cant": "Which nodes are stale and which maps are pending after an unwound update depends on the whole history of calls and panics.", "anchors": ["src/data_structure/lazy_segtree.rs:39-285"]}
{"id": "C82", "title": "Bipartite matching after caught panics", "statement": "When a call on the matching structure panics and the panic is caught, the structure stays usable and its later answers are right. add_edge refuses a left vertex out of range without a trace. solve gives up only if an edge to a right vertex out of range was accepted before; whatever it had matched until then, every answer given later is the maximum matching size of the edges accepted so far, reached by a matching inside the range.", "quantifier": "all sizes, all histories of calls with caught panics", "why_tests_cant": "A search can unwind at any depth of any augmenting path; a test tries a few graphs.", "anchors": ["src/graph/bipartite_matching.rs:1-67"]}
{"id": "C83", "title": "Union-find and input reader after caught panics", "statement": "UnionFind: calls refused because of a vertex out of range leave no trace, so that a history with caught panics answers as the plain labelling that refuses those calls, provided joins name representatives; for any history the answers other than the stored sizes are those of the release build, a join that unwinds because its size sum overflows has joined the sets all the same, and exactly the calls with vertices out of range unwind otherwise. Input reader: a read whose word cannot be parsed has consumed that word, a vec that fails has consumed the words up to and including the first bad one, a read past the end consumes nothing, and every later call sees the remaining words.", "quantifier": "all sizes, all texts, all parsers, all histories of calls with caught panics", "why_tests_cant": "Which words or links are gone after a panic depends on the whole history.", "anchors": ["src/data_structure/union_find.rs:1-62", "src/misc/input.rs:1-40"]}
{"id": "C84", "title": "Dinic after caught panics", "statement": "When a call on Dinic panics and the panic is caught, the network stays consistent unless an edge with its tail in range and its head out of range was added: refused calls leave no trace, a get_max_flow whose answer does not fit the type has sent more than the type can say and what it sent stays sent, and every later answer is the most that can still be sent on top of the flow routed so far. An edge whose head is out of range is refused half way: if its capacity is positive, no get_max_flow from its tail ever returns again, and elsewhere the answers can be wrong.", "quantifier": "all sizes up to 2^31-1, all histories of calls with caught panics", "why_tests_cant": "The state after an overflow or a half added edge depends on the whole history.", "anchors": ["src/graph/max_flow.rs:28-88"]}
{"id": "C85", "title": "Data structures over functions with side effects, and how often they call them", "statement": "Segtree, LazySegtree, FenwickTree and SparseTable can be used with an operation, mapping, composition, addition or predicate that changes a state of its own (counts, logs, caches): answers and panics are those without the side effects, so with lawful operations those of the plain array, and each call on a structure of n elements calls the user's functions O(log n) times with explicit constants (once for SparseTable::get, O(n) times to build a tree, at most n*floor(log2 n) to build a sparse table).", "quantifier": "all operations with or without laws, all states, all relations describing one call, all arrays, all histories of calls", "why_tests_cant": "The number of calls depends on the path through the tree, and the claim is about every operation, every state and every history.", "anchors": ["src/data_structure/segtree.rs:15-157", "src/data_structure/lazy_segtree.rs:16-278", "src/data_structure/fenwick_tree.rs:24-111", "src/data_structure/sparse_table.rs:18-40"]}
{"id": "C86", "title": "BinaryLifting::dfs called by the user: rerooting and forests", "statement": "dfs is public. Called as dfs(g, r, r, timer) on a structure made by from for as many vertices (and any dfs calls since), it makes is_ancestor, lca and dis answer, for all vertices r reaches, as on the tree rooted at r; depths become distances from r plus the depth previously stored at r, the timer moves on by the number of vertices reached, and the entries of all other vertices stay. With one dfs per further tree of a forest and one timer running on from at least the size of the first tree, one structure answers for the whole forest: within each tree correctly, and across trees is_ancestor is false, lca is the root of the first vertex's tree and dis the sum of the two depths. With the timer restarted at 0, is_ancestor calls the first root an ancestor of the second.", "quantifier": "all graphs with fewer than 2^64 vertices in which what the roots reach are trees, all reachable structures, all timers (timer and depths staying below 2^64), all lists of roots of different trees, all pairs of vertices", "why_tests_cant": "The claim is about every earlier history of the structure and every forest; leftover entries of an earlier root could show only for particular shapes.", "anchors": ["src/graph/binary_lifting.rs:12-68"]}
{"id": "C87", "title": "Segment trees over modints compute exact answers modulo m", "statement": "With StaticModInt or DynamicModInt elements and any modulus 1 <= m <= 2^31, Segtree of sums, of products and of compositions of affine maps, and LazySegtree of sums with affine updates on ranges, give for every history of calls the answer of the plain array over the integers, reduced modulo m once at the end; the modint operators never panic inside the trees, so the only panics are those of the plain array (calls out of bounds). The modint operators obey the monoid and map laws the trees ask for.", "quantifier": "all moduli 1..2^31, static or set at run time, all integer arrays shorter than 2^32, all histories of calls without searches for the lazy tree", "why_tests_cant": "It composes three layers (Barrett or u64 reduction, the monoid, the tree with its lazily pushed maps), and a slip in any one shows only for particular moduli, values and update orders.", "anchors": ["src/misc/modint.rs:795-834", "src/data_structure/segtree.rs:15-157", "src/data_structure/lazy_segtree.rs:16-278", "src/traits/monoid.rs:1-24"]}
{"id": "C88", "title": "Work done by dijkstra: every reachable edge list is read once, in order of distance", "statement": "In a run of dijkstra that does not overflow, the vertices whose edge lists are read are exactly the reachable ones, each once, at its final distance and in non-decreasing order of distance; every edge of such a vertex is read exactly once; every heap entry pushed is popped, no (distance, vertex) pair is pushed twice, pops come in non-decreasing order, and pushes are at most one per edge read plus one. So a run makes at most n scans, m edge reads and m + 1 pushes and pops.", "quantifier": "all graphs with non-negative weights and targets in range, all sources, every heap meeting BinaryHeap's contract", "why_tests_cant": "Distances stay right if stale heap entries are scanned again or entries are pushed without need; only the running time shows it, exponentially bad on some graphs, so tests of the answer pass.", "anchors": ["src/graph/shortest_path.rs:2-19"]}
{"id": "C89", "title": "Running time of solve, scc and get_max_flow", "statement": "Counting calls, loop turns, pops and cells filled: any history of add_edge and solve on the matching structure takes at most (n + solves)(1 + 3n + 3 edges) + solves * n steps; scc takes at most 5n + m, and exactly 4n + m plus the number of components when the edges are in range; each get_max_flow on n vertices and m edges takes at most (n + 2)(5n + 6 + (2n + 5) 2m), so of the order of n^2 m. The answers are those of C23, C25 and C24.", "quantifier": "all histories of calls with any arguments (also panicking ones), all graphs, all integer types", "why_tests_cant": "A dropped visited flag, current-arc pointer or early return leaves every answer right and only makes some inputs exponentially slow; tests of answers on small inputs pass.", "anchors": ["src/graph/bipartite_matching.rs:1-67", "src/graph/tarjan.rs:1-68", "src/graph/max_flow.rs:28-88"]}
{"id": "C90", "title": "HLD over functions that may panic or act on a state, and how often it calls them", "statement": "On a tree of n vertices: (1) over functions that compute what lawful functions say or panic (checked arithmetic), a history of calls on HLD, built by new or with_init_value, answers as C30 allows or panics, never wrong; (2) over functions and predicates with side effects the answers and panics are those of the functions without their side effects, laws or not; (3) the functions are called at most 2n times by new, 4n by with_init_value, (2 log2 n + 1)(14 ceil(log2 n) + 4) by apply_path, (2 log2 n + 1)(10 ceil(log2 n) + 4) by path_prod and O(log n) times by every other call.", "quantifier": "all trees and roots, all types, all operations and maps (lawful for 1), all predicates, all histories of calls with any arguments", "why_tests_cant": "A wrong heavy child or a swapped climb leaves every answer right on commutative sums and only makes long paths linear; an overflow in the middle of a path shows up only for particular values.", "anchors": ["src/graph/heavy_light_decomp.rs:8-130", "src/data_structure/lazy_segtree.rs:1-409"]}
{"id": "C91", "title": "AhoCorasick: number of nodes and exact number of steps", "statement": "One step is a byte read, a turn of a loop of build, a cell of an answer allocated, or an index listed or counted. insert takes exactly |s| steps and find exactly |text|; find_all takes exactly 2|text| plus the number of indices listed, and find_cnt exactly n + |text| plus the number of matches counted, on any automaton whatever. After any inserts of non-empty strings over the alphabet of N letters, with P distinct non-empty prefixes (P is at most the number of bytes inserted), the automaton has exactly P + 1 nodes, and inserting and building take exactly (bytes inserted) + N + P(N + 1) steps; from takes as many. Counting the steps changes no answer and no panic.", "quantifier": "all alphabets, all automata, all texts, all lists of inserts with any indices and repeated strings", "why_tests_cant": "Walking every failure link instead of the output links, or pushing a node twice during build, gives the same answers and only becomes slow on particular families of patterns.", "anchors": ["src/string/aho_corasick.rs:34-128"]}
{"id": "C92", "title": "BinaryLifting and HLD: number of steps", "statement": "On a tree of n vertices with any root, with level = floor(log2 n) + 1: BinaryLifting::from allocates n level + 3n cells and its search takes exactly (level + 3)n - 2 steps (a step is a call of dfs, an entry of an adjacency list read or a jump filled); lca and dis take at most level turns of the loop, whatever the tables hold; the tree part of HLD::new allocates 6n cells and its two searches take exactly 3n - 2 steps each. Counting changes no answer and no panic.", "quantifier": "all trees, all roots, all adjacency orders, all pairs of vertices in or out of range", "why_tests_cant": "Visiting a subtree twice or refilling the table of jumps gives the same tables and is only quadratic on deep trees.", "anchors": ["src/graph/binary_lifting.rs:12-68", "src/graph/heavy_light_decomp.rs:19-81"]}
{"id": "C93", "title": "BinaryLifting and HLD: how deep the recursion goes", "statement": "On a tree, with room for k nested calls on the stack, BinaryLifting::from and the searches of HLD::new succeed, with the same result as with unlimited room, if and only if every vertex is less than k edges away from the root; otherwise the stack overflows. (So a path rooted at an end needs as many nested calls as it has vertices.)", "quantifier": "all trees, all roots, all adjacency orders, all k", "why_tests_cant": "Tests use shallow trees; a deep one aborts the process instead of failing an assertion.", "anchors": ["src/graph/binary_lifting.rs:27-43", "src/graph/heavy_light_decomp.rs:49-81"]}
{"id": "C94", "title": "Union-find: number of calls of find", "statement": "After any history on n vertices find(i) makes exactly one call (each nested in the previous one) per vertex on the way from i to its representative, at most n, and afterwards find of any of these vertices makes at most two calls and changes nothing; groups makes at most 3n calls. Over any history, whatever the joins, find and size make at most log2(n) + 2 calls on average, is_same 2 log2(n) + 4, join 4 log2(n) + 4 (path compression alone pays for this, although join never uses the sizes). Neither bound can be improved by more than a constant: n - 1 joins of representatives can make a path on which one find makes n calls, and there are histories of joins of representatives with m finds that make k + 2 calls each on 2^k + m vertices.", "quantifier": "all n, all histories of calls with any arguments (also of vertices that are not representatives), all vertices; lower bounds for every k, m with n < 2^64", "why_tests_cant": "Answers do not depend on how far paths are compressed; a structure without compression passes every test and is only slow (or overflows the stack) on long histories.", "anchors": ["src/data_structure/union_find.rs:16-61"]}
{"id": "C95", "title": "Graph searches: how deep the recursion goes", "statement": "With room for k nested calls of its recursive dfs: scc answers exactly as with unlimited room whenever no path without repeated vertex has more than k vertices (so n calls are always enough), and it overflows the stack when some vertex is at distance k or more from vertex 0; on a path of n vertices n calls are needed. Any history on AugmentedPath::new(n, m) runs the same with room for min(n, m + 1) + 1 calls, and for n >= 2, m >= 1 there is a valid history that overflows with less. Any history on Dinic::new(n) runs the same with room for n calls; a first get_max_flow(s, t) overflows with room for k calls when t is reachable, but not along fewer than k edges, and for n >= 2 there is a valid history that needs n.", "quantifier": "all graphs, all sizes, all amounts of room, all histories with any arguments; lower bounds: all n (n <= 2^31 - 1 for scc and Dinic), all m, all primitive capacity types", "why_tests_cant": "Tests use shallow graphs; a stack overflow aborts the process only on inputs deep enough for the thread's stack, and no set of runs bounds the depth over all inputs.", "anchors": ["src/graph/tarjan.rs:21-46", "src/graph/tarjan.rs:52-68", "src/graph/bipartite_matching.rs:23-66", "src/graph/max_flow.rs:48-88"]}
{"id": "C96", "title": "Lazy segment tree and HLD over functions without laws", "statement": "With any identity, operation, identity map, mapping and composition (no laws at all, e.g. floating-point sums with rounding), every history of calls on LazySegtree and on HLD returns on arguments in range and panics exactly on arguments out of range; every value returned is put together from exactly the elements of the range (path, subtree, vertex) in their order, each mapped by exactly the maps applied to it since it was last set, the latest outermost; only the bracketing of the products and of the compositions, neutral elements in between, and whether a map is applied to the elements or to their product are left open. max_right and min_left return a place such that some such value of the range satisfies the predicate and some such value of the range longer by one does not; max_right may return a place past the end, but at most 2n - 2. Under the laws of a monoid with maps the values are the exact products.", "quantifier": "all types, all functions, all initial arrays of fewer than 2^32 elements, all trees and roots, all histories with any arguments and predicates", "why_tests_cant": "Tests use integers, where the laws hold; with floats the answers differ by rounding, so a lost or doubly applied map hides in a tolerance, and no set of runs covers all functions.", "anchors": ["src/data_structure/lazy_segtree.rs: LazySegtree", "src/graph/heavy_light_decomp.rs: HLD"]}
{"id": "C97", "title": "Fenwick tree and sparse table over functions without laws", "statement": "With any Default value, additions and subtraction (e.g. floating-point), every history of calls on FenwickTree built by from or new returns on arguments in range and panics exactly on prefixes out of range; pref(i) is put together by additions from exactly the initial elements and the added amounts of the places below i, each used exactly once, sum(l, r) is the difference of two such values, and partition_point returns a place such that some such value of the places below it satisfies the predicate and some such value with one more place does not. With any operation, SparseTable::get(l, r) is the product of two values, each a bracketed product of a block in order; the blocks have the largest power of two in r - l as length and lie at the two ends of the range; blocks that do not fit count as the initial value. Under the laws of C06 and C08 these are the exact sums and products.", "quantifier": "all types, all functions, all initial arrays, all histories with any arguments and predicates (lengths below 2^64)", "why_tests_cant": "Tests use integers; with floats a lost or doubly counted addition hides in the tolerance of rounding, and no set of runs covers all functions.", "anchors": ["src/data_structure/fenwick_tree.rs: FenwickTree::{new,from,pref,add,sum,partition_point}", "src/data_structure/sparse_table.rs: SparseTable::{from,get}"]}
{"id": "C98", "title": "Number of steps of the number theory", "statement": "gcd and lcm make k divisions and ex_gcd is called k + 1 times, with the same k; if k >= 2 then the smaller absolute value of the two arguments is at least the k-th Fibonacci number and the larger at least the next one, so k is at most 10, 22, 45, 91, 183 for signed types of 8 to 128 bits and 12, 23, 46, 92, 185 for unsigned ones, and neighbouring Fibonacci numbers reach each of these. inv_gcd(a, b) makes as many turns as gcd(b, a mod b), at most 90. pow_mod and ModInt::pow multiply exactly once per binary digit of the exponent and once more per one among the digits. is_prime makes at most 6 products and halvings per binary digit of its argument. primitive_root of a prime m makes at most (sqrt(m/2) + 1) / 2 turns to find the prime factors, besides one per binary digit of m/2, and at most 20 powers, of two products per binary digit of m, for each candidate up to the answer. ex_crt calls ex_gcd at most 92 times per congruence. The counting programs return what the programs return.", "quantifier": "all primitive integer types, all arguments (i32 arguments for is_prime, prime moduli for primitive_root)", "why_tests_cant": "A test sees the time of its inputs only; the worst pairs for Euclid's algorithm are rare, and a bound on the depth of the recursion for all values of a 128-bit type cannot be tested.", "anchors": ["src/math/number_theory.rs: gcd, lcm, ex_gcd, ex_crt", "src/math/internal_math.rs: pow_mod, is_prime, inv_gcd, primitive_root", "src/misc/modint.rs: pow"]}
{"id": "C99", "title": "RecursiveFunction: exclusive references to the closure", "statement": "Each call makes one exclusive reference to the closure and uses it until the closure returns or unwinds. When a call ends none of them is left in use, and d of them are in use at some time exactly if d calls happen inside each other. So two are in use at once, which Rust forbids for a closure with captured variables, exactly when the closure calls itself. The program with the log of references returns what call returns.", "quantifier": "every closure, every argument, every captured state for which the call ends", "why_tests_cant": "A run gives the right result whether or not references overlap; whether they do depends on the recursion of every closure.", "anchors": ["src/misc/recursive_function.rs: call"]}
{"id": "C100", "title": "Release build: AhoCorasick, lg and its callers", "statement": "In a release build, where c - OFFSET wraps, AhoCorasick takes as letters the N bytes counted from OFFSET, going on at 0 after 255: inserts of non-empty strings of letters succeed and others panic; find_all, find_cnt and find answer as in C17-C19 on texts of letters and panic on other texts. If OFFSET + N <= 256 these are exactly the letters of the dev build. lg and ceil_lg are those of the dev build except that lg(0) is 2^32 - 1 instead of a panic. FenwickTree::partition_point on an empty tree returns 0 instead of a panic; on other trees it is that of the dev build. SparseTable::from and get and BinaryLifting::from are those of the dev build, and still panic on empty inputs.", "quantifier": "every OFFSET, N, all strings of bytes and indices inserted, all texts; all lengths below 2^64, all elements, operations and predicates", "why_tests_cant": "Tests run in the dev profile, where the subtraction panics; all texts and alphabets.", "anchors": ["src/string/aho_corasick.rs", "src/misc/util.rs: lg, ceil_lg", "src/data_structure/fenwick_tree.rs: partition_point", "src/data_structure/sparse_table.rs: from, get", "src/graph/binary_lifting.rs: from"]}
{"id": "C101", "title": "Modints holding values at or above the modulus", "statement": "raw(v) with v not below the modulus, and DynamicModInt values made before a set_modulus, hold any u32. With modulus 2<=m<=2^31: products, powers, quotients by units and products of iterators are right and reduced, whatever the operands; the inverse is right except that on the prime-hint path a non-zero multiple of m gives 0 (1 for m = 2) instead of a panic. A sum panics exactly when it reaches 2^32, is congruent to the right sum otherwise, and is reduced exactly when a + b < 2m. A difference never panics; it is congruent to a - b exactly when -m <= a-b < 2^32-m or m is a power of two, and is the reduced residue exactly when -m <= a-b < m (or, for powers of two, in two further ranges). Expressions mixing them are right when the operands of + and - are reduced. For moduli above 2^31 the wrong products of DynamicModInt are exactly characterised, likewise m = 1. == compares representatives; after a multiplication by 1 it decides congruence.", "quantifier": "all u32 values, every modulus in range, all expressions, every history before set_modulus", "why_tests_cant": "All operand pairs and moduli.", "anchors": ["src/misc/modint.rs: raw, set_modulus, add_impl, sub_impl, mul_impl, div_impl, pow, inv", "src/math/internal_math.rs: mul_mod, inv_gcd"]}
{"id": "C102", "title": "HLD after caught panics", "statement": "HLD over an operation that may panic, every panic caught and the structure used further: every answer is explained by a set of candidate values per vertex. A completed apply_path/apply_subtree/set acts on all candidates of exactly the vertices it names. An apply_path that unwound has completed the first pieces of the path (in the order of path_prod), left exactly one descending piece in doubt (mapped or not, per vertex), and not touched the rest; an unwound apply_subtree leaves its subtree in doubt, an unwound set its vertex; unwound queries change nothing. path_prod and subtree_prod return a product over some choice of candidates, in their usual order, get the value stored last; where one candidate is left the answers are exact. Over operations that never panic only calls naming a vertex out of range unwind, without a trace.", "quantifier": "every tree, root, lawful map monoid, way the operation may panic, and history of calls with caught panics", "why_tests_cant": "Which calls panic and how the structure is left depends on values, tree shape and the decomposition.", "anchors": ["src/graph/heavy_light_decomp.rs: apply_path, path_prod, apply_subtree, subtree_prod, get, set", "src/data_structure/lazy_segtree.rs"]}
{"id": "C103", "title": "Matching size: covers, Hall's condition, and agreement with Dinic", "statement": "After any history of add_edge and solve calls, a solve that returns gives the size of the smallest vertex cover of the edges added (Konig); the number of left vertices it leaves single is the largest amount by which a set of left vertices exceeds its set of neighbours, so it matches every left vertex if and only if Hall's condition holds; n + m minus the answer is the size of the largest independent set. Dinic on the unit network of the same graph (source to every left vertex and every right vertex to the sink with capacity 1, the graph's edges with any capacities of at least 1, everything added in any order, repeated edges allowed) returns the same number from get_max_flow, or panics when that number does not fit the capacity type.", "quantifier": "all bipartite graphs, histories, capacities and primitive integer types, all orders of adding the network's edges", "why_tests_cant": "Relates two algorithms and a minimum over all vertex sets; every graph and order of insertion.", "anchors": ["src/graph/bipartite_matching.rs: solve", "src/graph/max_flow.rs: add_edge, get_max_flow"]}
{"id": "C104", "title": "Borders, periods, powers and searching with kmp, z_function and AhoCorasick", "statement": "The loop j = pi[j-1] started at kmp(s)[i] meets exactly the lengths of the borders of s[0..=i]; z_function gives the same borders (k is one iff z[i+1-k] >= k). For non-empty s, d = len(s) - kmp(s).last() is the smallest period; if d divides len(s) then s is a power of its first d letters, and the root of every proper power equal to s has a length that is a multiple of d. For a separator occurring in neither word, entry len(p)+1+i of kmp(p sep t) is at most len(p), with equality iff p ends at position i of t; without any separator, entry len(p)+i of z_function(p t) is at least len(p) iff p starts at position i of t. An AhoCorasick of the one pattern p, kmp and z_function find the same occurrences in every text.", "quantifier": "all words over any type with a correct ==, all patterns, texts and separators", "why_tests_cant": "All words and alphabets; minimality over all periods and roots; agreement of three algorithms.", "anchors": ["src/string/kmp.rs: kmp", "src/string/z_algorithm.rs: z_function", "src/string/aho_corasick.rs: from, find_all"]}
{"id": "C105", "title": "The debugging macros", "statement": "With debug assertions de!(a, b, ...) writes to stderr # and the line number, then evaluates its arguments from left to right, each exactly once, and after each value writes a space, the argument's source text, \" = \" and the value under {:?} (what an argument writes itself comes before its value), and ends the line; if an argument unwinds, de! unwinds, later arguments are not evaluated and what was written stays. debug_single! returns its argument's value. de!() writes the line number only. A release build evaluates and writes nothing, so the program goes on in the same state as with debug assertions if the arguments leave the state alone and do not unwind, and not in general otherwise.", "quantifier": "all argument lists, programs states, effects and panics of the arguments, all line numbers", "why_tests_cant": "Any number of arguments with any effects, nested output and panics.", "anchors": ["src/misc/debug.rs: debug_single!, de!"]}
{"id": "C106", "title": "BinaryLifting's tin and tout are an Euler tour", "statement": "BinaryLifting::from visits a tree in the depth-first order that takes the neighbours in the order of their lists: tin[u] is the number of vertices visited before u, the vertices of u's subtree are exactly those at positions tin[u]..tout[u], and tout[u] - tin[u] is their number. On any graph, whenever dfs returns, the timer has counted the visits, vertices not visited keep their entries, and if no vertex is visited twice the entries are the positions in the visiting order. A Segtree filled and updated at positions tin[v] answers prod(tin[u], tout[u]) with the product of the current values of u's subtree in the visiting order, for any monoid and any history of updates and queries, and panics exactly for vertices out of range.", "quantifier": "all trees, roots, neighbour orders, monoids, values and histories; dfs: all graphs, tables, timers and parents", "why_tests_cant": "All trees and all histories of two structures combined.", "anchors": ["src/graph/binary_lifting.rs: from, dfs, fields tin, tout", "src/data_structure/segtree.rs: from, set, get, prod"]}
{"id": "C107", "title": "HLD and BinaryLifting over one tree agree", "statement": "After any history of an HLD over a commutative monoid, with l the lca(u,v) of a BinaryLifting rooted at r on the same tree: path_prod(u,v)*path_prod(r,l)^2 = path_prod(r,u)*path_prod(r,v)*get(l). apply_path(u,v,f) maps exactly the vertices c with dis(u,c)+dis(c,v)=dis(u,v), for any monoid. With all values 1 under addition path_prod(u,v)=dis(u,v)+1 and subtree_prod(u)=tout[u]-tin[u]. Any history of set, get and subtree_prod gives the same answers and panics as a Segtree over the order tin of a BinaryLifting with the same root.", "quantifier": "all trees, roots of both structures, monoids (commutative where said), mappings, histories, vertices", "why_tests_cant": "Relations between two structures for all trees, roots and histories.", "anchors": ["src/graph/heavy_light_decomp.rs: path_prod, apply_path, subtree_prod, get, set", "src/graph/binary_lifting.rs: from, lca, dis, fields tin, tout", "src/data_structure/segtree.rs: from, set, get, prod"]}
{"id": "C108", "title": "Clients assigning the public fields dep and data", "statement": "On a BinaryLifting of a tree the field dep may be replaced by any W: is_ancestor and lca do not change, and dis(u,v) is W[u]-W[l]+W[v]-W[l] with l the lowest common ancestor, panicking exactly when an index is missing or a step leaves usize. With W the weighted depths for symmetric edge weights, dis(u,v) is the weighted length of the path (or panics when W[u]-W[l]+W[v] does not fit). On an HLD after any history the field data may be replaced by any LazySegtree with one entry per vertex, after any history of its own; every later history of the HLD then acts on the values that tree holds at the positions of the vertices.", "quantifier": "all trees, roots, contents of dep, symmetric weights, monoids with mappings, histories before and after the assignment, vertices", "why_tests_cant": "All field contents and histories on both sides of the assignment.", "anchors": ["src/graph/binary_lifting.rs: fields dep; is_ancestor, lca, dis", "src/graph/heavy_light_decomp.rs: field data; all methods"]}
{"id": "C109", "title": "Connected components: union-find, scc and dijkstra agree", "statement": "A client that passes the endpoints of every edge of an undirected graph through find and joins the representatives never panics for endpoints in range: afterwards is_same(a,b) holds exactly when a and b are connected, groups lists the components, size is the number of vertices connected to it, join answered true exactly for the edges whose ends were not connected by the edges before, and (number of true answers) + (number of groups) = n. On the graph with every edge in both directions scc returns the same partition and the number of groups, and dijkstra with any non-negative weights reaches exactly the component of its source. An endpoint out of range makes the client panic.", "quantifier": "all n < 2^64 (n < 2^31 for scc), all edge lists with repetitions, loops and cycles in any order, all adjacency lists with these edges, weights and sources", "why_tests_cant": "Agreement of three algorithms on every graph.", "anchors": ["src/data_structure/union_find.rs: find, join, is_same, size, groups", "src/graph/tarjan.rs: scc", "src/graph/shortest_path.rs: dijkstra"]}
{"id": "C110", "title": "Kruskal's algorithm on UnionFind gives a minimum spanning forest", "statement": "For edges in order of weight, the edges for which join (of the representatives found by find) answers true connect exactly what all edges connect; none of them can be left out; and any other choice of edges that connects the same has at least as many edges, and at least their total weight if weights are not negative or the number of edges is the same.", "quantifier": "all n < 2^64, all sorted edge lists (repetitions, loops, equal and negative weights), all competing choices of edges", "why_tests_cant": "Minimality against every other choice of edges, on every weighted graph.", "anchors": ["src/data_structure/union_find.rs: find, join"]}
{"id": "C111", "title": "dijkstra and BinaryLifting agree on weighted trees", "statement": "On a tree with non-negative edge weights dijkstra(s) gives every vertex the total weight of the path from s, and panics exactly when the weight of a path plus the weight of one more edge at its end does not fit usize. With all weights 1 it gives dis(s,v) of a BinaryLifting. With symmetric weights, storing the answers of dijkstra(root) in the field dep makes dis(u,v) equal to the answer of dijkstra(u) at v for all pairs (or panic when the sum dis adds up does not fit), without changing lca.", "quantifier": "all trees, roots, symmetric weights, vertices, heaps meeting BinaryHeap's contract", "why_tests_cant": "Agreement of two algorithms on all weighted trees and pairs.", "anchors": ["src/graph/shortest_path.rs: dijkstra", "src/graph/binary_lifting.rs: from, lca, dis, field dep"]}
{"id": "C112", "title": "The array structures agree on shared tasks", "statement": "A LazySegtree on which nothing is applied answers and panics exactly as a Segtree. A FenwickTree over an abelian group answers point additions, prefix and range sums exactly as a Segtree used by get/set/prod, and partition_point(pred) equals max_right(0,pred) after the same additions when pred holds for the empty sum and turns false once along the prefixes. A FenwickTree of differences answers and panics on range updates and point queries exactly as a LazySegtree whose maps form an abelian group. A SparseTable over an idempotent monoid answers every non-empty range as a Segtree.", "quantifier": "all value types, operations meeting the stated laws, arrays up to the length Segtree accepts, histories", "why_tests_cant": "Equality of two implementations over all histories and all lawful operations.", "anchors": ["src/data_structure/segtree.rs: from, set, get, prod, max_right", "src/data_structure/lazy_segtree.rs: from, set, get, prod, apply_range", "src/data_structure/fenwick_tree.rs: new, from, add, pref, sum, partition_point", "src/data_structure/sparse_table.rs: from, get"]}
{"id": "C113", "title": "2-SAT and topological sorting with scc", "statement": "Running scc on the implication graph of a 2-CNF formula and comparing the colours of each variable and its negation gives an assignment that satisfies all clauses, or None when the formula is unsatisfiable; it panics exactly when a literal names no variable or there are too many vertices for i32. Listing the vertices by decreasing colour is a topological order (loops aside) when the number of components equals the number of vertices, and otherwise two vertices lie on a common cycle.", "quantifier": "all formulas with any number of variables and clauses, all graphs", "why_tests_cant": "Needs the reverse topological numbering and the partition on every graph; unsatisfiability is a statement about all assignments.", "anchors": ["src/graph/tarjan.rs: scc"]}
{"id": "C114", "title": "get_max_flow as a number of paths: Menger's theorem", "statement": "The answer of get_max_flow(s,t) on a network is the largest number of paths from s to t that together use no edge more often than its capacity, and the smallest total capacity of a set of edges that meets every path from s to t. With unit capacities it is the largest number of paths sharing no edge and the smallest number of edges whose removal disconnects t from s.", "quantifier": "all networks, capacities, s <> t, integer types", "why_tests_cant": "Combinatorial duality over all families of paths and all edge sets.", "anchors": ["src/graph/max_flow.rs: new, add_edge, get_max_flow"]}
{"id": "C115", "title": "Relations between several runs of dijkstra", "statement": "Answers of dijkstra from several sources or on related graphs fit together: they obey the triangle inequality and Bellman's equations (no edge improves an answer; every answer but the source's comes over an edge from another answer); on the graph with all edges turned round source and target exchange roles, so on graphs with every edge in both directions distances are symmetric; adding edges never raises or loses an answer; and the outcome, panics included, depends only on the set of edges, not on list order, repetitions or the heap's tie-breaking.", "quantifier": "all graphs with non-negative weights, all sources, every heap meeting BinaryHeap's contract", "why_tests_cant": "Relates pairs of runs over all graphs and over all heap implementations.", "anchors": ["src/graph/shortest_path.rs: dijkstra"]}
{"id": "C116", "title": "Relations between answers of get_max_flow on related networks", "statement": "For a network built edge by edge and asked once, the outcome (answer or panic) is decided by its cuts alone. Hence it does not depend on the order of the add_edge calls, on splitting an edge into parallel ones, on edges into s or out of t, loops and empty edges, or on the numbering of the vertices; turning all edges round and exchanging s and t changes nothing, so networks with every edge in both directions are symmetric; one more edge raises the answer by at most its capacity and never lowers it; multiplying all capacities multiplies the answer; and the flow from s to t is at least the smaller of the flows from s to u and from u to t.", "quantifier": "all networks, vertices s, t, u, integer types, renamings, factors", "why_tests_cant": "Relates pairs of runs over all networks; the algorithm's internal path differs completely between the related inputs.", "anchors": ["src/graph/max_flow.rs: new, add_edge, get_max_flow"]}
{"id": "C117", "title": "The number-theoretic functions agree with each other", "statement": "Modulo a prime, inv_gcd, pow_mod with exponent m-2, ex_gcd, ex_crt on one congruence, and inv of StaticModInt (with and without the prime hint) and DynamicModInt give the same inverse. ex_gcd returns the same gcd as gcd, sign included, and gcd times lcm is the product. Every number 1..m-1 is exactly one of the powers 0..m-2 (by pow_mod) of primitive_root(m). ex_crt does not depend on the order of the congruences, and solving two parts first and combining their answers gives the answer of the whole. choose obeys Pascal's rule and symmetry under modint addition, rows sum to powers of two, and perm(n,k) = choose(n,k) * perm(k,k).", "quantifier": "all primes, integers, systems of congruences, n and k in the stated ranges", "why_tests_cant": "Agreement of independent algorithms over all inputs, including uniqueness of discrete logarithms modulo every i32 prime.", "anchors": ["src/math/number_theory.rs", "src/math/internal_math.rs: pow_mod, inv_gcd, primitive_root", "src/math/factorial.rs", "src/misc/modint.rs: inv, pow, add, sum"]}
{"id": "C118", "title": "Multisets, inversions and increasing subsequences with FenwickTree and Segtree", "statement": "A FenwickTree of counts, used through add, pref and partition_point, behaves as a multiset: rank is the number of smaller elements and partition_point(c <= k) is the k-th smallest element (n if there is none), over any history of insertions and removals. Counting with pref and add gives the number of inversions. A Segtree with maximum computes the length of a longest strictly increasing subsequence.", "quantifier": "all n, all legal histories, all sequences of numbers below n", "why_tests_cant": "Unbounded histories of mixed calls, and optimality over all subsequences.", "anchors": ["src/data_structure/fenwick_tree.rs: add, pref, partition_point", "src/data_structure/segtree.rs: prod, get, set, all_prod"]}
{"id": "C119", "title": "Relations between several runs of scc", "statement": "The count returned by scc is the size of any system of representatives of the strong components. Order and multiplicity of edges, and turning all edges round, keep the count and the partition; renaming vertices renames the partition; more edges can only merge components, and one more edge x->y lowers the count iff y reaches x and x did not reach y; for two graphs side by side the counts add up. If no edge goes to a larger vertex, scc returns the identity; in particular scc of the condensation built from its own answer returns the identity.", "quantifier": "all graphs with at most 2^31-1 vertices, all renamings, all added edges", "why_tests_cant": "Relations between runs on unboundedly many pairs of related graphs.", "anchors": ["src/graph/tarjan.rs: scc, SCC::dfs"]}
{"id": "C120", "title": "MinHeap over the array algorithm of BinaryHeap", "statement": "With BinaryHeap replaced by the array algorithm of the standard library (hole-based sift_up, sift_down_range, sift_down_to_bottom, rebuild, rebuild_tail, append, into_sorted_vec), every history of MinHeap calls over an ordered type answers as a priority queue, every access to the array is in bounds, every parent stays no larger than its children and into_sorted_vec lists the content in descending order. If cmp answers arbitrarily, no call panics or loops and no element is lost or duplicated. The algorithm meets the contract that C14 assumes of BinaryHeap.", "quantifier": "all element types, all cmp functions (ordered or not), all histories of calls", "why_tests_cant": "Unboundedly many histories and comparison functions, including ones that break the contract of Ord.", "anchors": ["src/data_structure/min_heap.rs: MinHeap"]}
{"id": "C121", "title": "Number of comparisons of MinHeap and dijkstra", "statement": "Over the array algorithm of BinaryHeap, a heap of n elements asks the comparison of its elements at most log2(n+1) times in push, 2 log2(n-1) times in pop, 2(n-1) times in rebuild, max(2(n+m), min(n,m) log2(n+m)) times in append with m elements and 2(n-1) log2(n-1) times in into_sorted_vec, whatever the comparison answers and whatever side effects it has; a history of MinHeap calls costs at most the sum with n the number of elements put in. dijkstra over this heap returns the distances with at most 3(m+1) log2(m+1) comparisons, m being the number of edges.", "quantifier": "all element types, comparison functions with side effects, histories of calls, graphs and sources meeting the hypotheses of C27", "why_tests_cant": "Worst-case bounds over unboundedly many inputs.", "anchors": ["src/data_structure/min_heap.rs: MinHeap", "src/graph/shortest_path.rs: dijkstra"]}
{"id": "C122", "title": "Tree metric: paths, medians and diameters with BinaryLifting", "statement": "On the structure built from any tree and root: dis is symmetric, 0 exactly on equal vertices, and satisfies the triangle inequality, the even-perimeter rule and the four-point condition; dis(u,x)+dis(x,v)=dis(u,v) exactly for the vertices x of the path from u to v; the exclusive or of lca(u,v), lca(v,w), lca(u,w) is the one vertex common to the three paths, so it is the lowest common ancestor of v and w for the tree rooted at u; two sweeps of farthest vertices from vertex 0 find a pair at the greatest distance; jumping through the public table pa gives the k-th vertex of every path.", "quantifier": "all trees of fewer than 2^64 vertices, all roots, all vertices", "why_tests_cant": "Universal over trees of any shape and over roots; uniqueness and maximality claims range over all walks.", "anchors": ["src/graph/binary_lifting.rs: BinaryLifting::lca", "src/graph/binary_lifting.rs: BinaryLifting::dis", "src/graph/binary_lifting.rs: BinaryLifting (public fields level, pa, dep)"]}
{"id": "C123", "title": "Relations between several runs of bipartite matching", "statement": "solve depends only on the set of edges: not on order, repetition, unused vertices, or on solve calls between add_edge calls. Exchanging the two sides, or renaming vertices injectively, leaves the answer; identifying vertices never increases it. For two edge sets together the answer is at least either answer and at most their sum, and equals the sum if they share no vertex; the edges of one vertex, hence one edge, add at most 1. A vertex of either side that is matched stays matched through any later add_edge and solve calls, and a second solve returns the same size and leaves all fields unchanged.", "quantifier": "all sizes, edge lists in range, renamings, histories of calls; the last two for every state of the structure", "why_tests_cant": "Relations between pairs of runs over all graphs and histories.", "anchors": ["src/graph/bipartite_matching.rs: AugmentedPath::solve", "src/graph/bipartite_matching.rs: AugmentedPath::add_edge", "src/graph/bipartite_matching.rs: AugmentedPath::dfs"]}
{"id": "C124", "title": "AhoCorasick: insert after build", "statement": "Inserting, after build, strings that the finished automaton can follow (every nonempty prefix ends with a nonempty prefix of an early string) adds no node; each index is stored at the longest suffix of its string that is a prefix of an early string, and find, find_all and find_cnt answer exactly accordingly: the index at the current state, then the indices of the other suffixes that were indexed before build. Consequences: a string inserted again after build gives the same answers of all three searches as inserting it before build; a prefix of an early string gives the same answers of find, and find_all lists a sublist of the correct list.", "quantifier": "all alphabets, early inserts, followable late inserts and texts of the alphabet", "why_tests_cant": "Universal over all automata and texts.", "anchors": ["src/string/aho_corasick.rs: AhoCorasick::insert", "src/string/aho_corasick.rs: AhoCorasick::build", "src/string/aho_corasick.rs: AhoCorasick::find_all"]}
{"id": "C125", "title": "BinaryLifting with the public field level assigned", "statement": "After level is set to k not above the built level, is_ancestor is unchanged and lca(u, v) never panics: it returns v if v is an ancestor of u, and otherwise the ancestor of u that is min(2^k, d) above u, where d is the distance from u to the lowest common ancestor; so it is right whenever d <= 2^k. After level is set above the built level, lca and dis panic on every pair of vertices neither of which is an ancestor of the other, and are unchanged on all other pairs.", "quantifier": "all trees, roots, pairs of vertices and values of level", "why_tests_cant": "Universal over all trees and levels; a level that is too small gives a wrong answer only on deep trees.", "anchors": ["src/graph/binary_lifting.rs: BinaryLifting.level", "src/graph/binary_lifting.rs: BinaryLifting::lca", "src/graph/binary_lifting.rs: BinaryLifting::dis"]}
{"id": "C126", "title": "The queue of bfs and build: VecDeque as a ring buffer", "statement": "Over the ring buffer algorithm of VecDeque (wrapped indices, growth that moves the shorter part): pushes and pops in any order never leave the buffer and never read an uninitialised or moved slot, and pops answer in the order of the pushes. Growth copies at most 3 slots per push in total, and a queue of never more than m values has at most max(4, 2m) slots. bfs and get_max_flow of Dinic and build of AhoCorasick give the same result, including panics, over the ring buffer as over a plain list.", "quantifier": "all histories of pushes and pops, all networks, automata and arguments", "why_tests_cant": "Universal over all histories; the branches of growth depend on where the queue is wrapped.", "anchors": ["src/graph/max_flow.rs: Dinic::bfs", "src/graph/max_flow.rs: Dinic::get_max_flow", "src/string/aho_corasick.rs: AhoCorasick::build"]}
{"id": "C127", "title": "Debug text of MinHeap", "statement": "After any history of calls on an ordered type, {:?} of a MinHeap prints MinHeap([Reverse(x), Reverse(y), ...]) with exactly the elements of the queue, the least first, and every other element after one that is not greater. If no element prints a closing parenthesis and different elements print differently, equal texts mean equal arrays. {:#?} prints each element whose own text is one line in three lines, indented by 8, 12 and 8 spaces, between fixed lines.", "quantifier": "all element types, orders, element texts and histories of calls", "why_tests_cant": "Universal over all histories and element types.", "anchors": ["src/data_structure/min_heap.rs: derive(Debug) for MinHeap"]}
{"id": "C128", "title": "The auxiliary tree of a set of vertices with BinaryLifting", "statement": "Sorting a list of vertices by tin, adding the lca of every two neighbours, sorting again and removing repetitions gives, in the order of tin and without repetition, the least set that contains the vertices and is closed under lowest common ancestors; for k vertices it has at most 2k - 1. The lca of every two neighbours of the result is the parent of the second one: the lowest member of the set properly above it; the first member is above all others.", "quantifier": "all trees, roots and lists of vertices", "why_tests_cant": "Universal over all trees and lists of vertices.", "anchors": ["src/graph/binary_lifting.rs: BinaryLifting.tin", "src/graph/binary_lifting.rs: BinaryLifting::lca"]}
{"id": "C129", "title": "Two-colouring a graph with UnionFind", "statement": "Joining the representatives of u and of the copy of v and those of the copy of u and of v, for every edge (u, v), in a UnionFind of 2n elements, and comparing find of every vertex with find of its copy, gives a proper two-colouring of the vertices if there is one, in which case every closed walk is even; otherwise it is reported that some vertex is joined with its own copy, there is no two-colouring, and there is a closed walk of odd length. No step panics.", "quantifier": "all numbers of vertices below 2^63 and all lists of edges between them, with loops and repetitions", "why_tests_cant": "Universal over all graphs.", "anchors": ["src/data_structure/union_find.rs: UnionFind::join", "src/data_structure/union_find.rs: UnionFind::find"]}
{"id": "C130", "title": "Flows with lower bounds by get_max_flow", "statement": "Give every edge the room between its bounds, send its lower bound from a new vertex to its head and from its tail to another new vertex, and compare get_max_flow between the new vertices with the sum of the lower bounds: they are equal exactly if there is a circulation within the bounds, and they differ exactly if for some set of vertices the lower bounds of the edges into it exceed the upper bounds of the edges out of it. With one more edge from t to s the answer tells whether there is a flow from s to t of at most m within the bounds.", "quantifier": "all capacity types, all graphs on up to 2^31 - 3 vertices, all bounds whose lower ones add up to a number of the type", "why_tests_cant": "Universal over all networks, flows and sets of vertices.", "anchors": ["src/graph/max_flow.rs: Dinic::add_edge", "src/graph/max_flow.rs: Dinic::get_max_flow"]}
{"id": "C131", "title": "How much the structures store", "statement": "After every history of calls, a Segtree over n > 0 values holds at least 2n and less than 4n values, a LazySegtree additionally at least n and less than 2n maps, a FenwickTree n values, a UnionFind n parents and n sizes, an HLD less than 4n values, less than 2n maps and six numbers per vertex, a Dinic two half-edges per edge added and two numbers per vertex, an AugmentedPath one number per edge added and two numbers per left and one per right vertex. A sparse table has floor(log2 n) + 1 rows of n values, a BinaryLifting a row of floor(log2 n) + 1 ancestors and three numbers per vertex. AhoCorasick::insert adds at most one node per byte, build none, and every node has N successors. The heap of dijkstra never holds more than one entry per edge and one for the start.", "quantifier": "all sizes, graphs, operations (without any law), words, orders of calls and heaps meeting the contract of BinaryHeap", "why_tests_cant": "Universal over all histories; a leak shows only after long ones.", "anchors": ["src/data_structure/segtree.rs", "src/data_structure/lazy_segtree.rs", "src/data_structure/fenwick_tree.rs", "src/data_structure/sparse_table.rs", "src/data_structure/union_find.rs", "src/graph/binary_lifting.rs", "src/graph/heavy_light_decomp.rs", "src/graph/max_flow.rs", "src/graph/bipartite_matching.rs", "src/string/aho_corasick.rs", "src/graph/shortest_path.rs"]}
{"id": "C132", "title": "Range additions and range sums with two FenwickTrees", "statement": "Keep the differences of neighbouring entries in one FenwickTree and the differences times their index in another: add x to a range by two additions to each, and read a prefix sum as k times the first prefix minus the second. Every history of range additions, range sums and single reads gives the answers of a plain array; an addition reaching the end is fine because add ignores the index n, and reading out of range panics.", "quantifier": "all commutative rings, sizes and histories", "why_tests_cant": "Universal over rings, sizes and histories.", "anchors": ["src/data_structure/fenwick_tree.rs: FenwickTree::add", "src/data_structure/fenwick_tree.rs: FenwickTree::pref"]}
{"id": "C133", "title": "Choosing items by a minimum cut with get_max_flow", "statement": "Give each item with a profit an edge from a source and each item with a loss an edge to a sink, and each penalty for taking u without v an edge from u to v: the sum of the profits minus get_max_flow is the largest total of a set of items, penalties deducted. With T::MAX as penalty it is the largest total of a set in which every item has the items it requires.", "quantifier": "all capacity types, all profits, losses and penalties of the type whose positive profits add up to a number of the type, all requirements, up to 2^31 - 3 items", "why_tests_cant": "Universal over all 2^n sets of items for all n.", "anchors": ["src/graph/max_flow.rs: Dinic::add_edge", "src/graph/max_flow.rs: Dinic::get_max_flow"]}
{"id": "C134", "title": "Path covers and antichains with bipartite matching", "statement": "Give every vertex of a directed acyclic graph a left and a right copy and add an edge for every edge: n - solve() is the smallest number of disjoint paths that cover all vertices. If the graph is transitive as well, it is the size of the largest set of vertices no two of which are joined (Dilworth's theorem).", "quantifier": "all directed acyclic graphs, all path covers, all sets of vertices", "why_tests_cant": "Universal over graphs, covers and sets.", "anchors": ["src/graph/bipartite_matching.rs: AugmentedPath::add_edge", "src/graph/bipartite_matching.rs: AugmentedPath::solve"]}
{"id": "C135", "title": "Lowest common ancestors with SparseTable over the visiting order", "statement": "Write (dep[v], v) at position tin[v] and build a SparseTable with the smaller depth: for any two vertices the parent of the shallowest vertex after the first, up to the second, is their lowest common ancestor, the same vertex as BinaryLifting::lca.", "quantifier": "all trees with fewer than 2^64 vertices, all roots, all pairs of vertices", "why_tests_cant": "Universal over trees and pairs; joins the visiting order of one structure to the answers of another.", "anchors": ["src/graph/binary_lifting.rs: BinaryLifting::from", "src/graph/binary_lifting.rs: BinaryLifting::lca", "src/data_structure/sparse_table.rs: SparseTable::from", "src/data_structure/sparse_table.rs: SparseTable::get"]}
{"id": "C136", "title": "BinaryLifting with all public fields filled by the client", "statement": "All fields of BinaryLifting are public. On a tree, with tin and tout that tell ancestors by intervals, and with pa holding in column i jumps of any length js[i] (js[0] = 1, one per level), is_ancestor is right and lca never panics; on a pair not in line it climbs from u the lengths that fit below the lowest common ancestor, last to first, and then one edge. So lca and dis are right whenever no length exceeds the sum of the earlier ones by more than 1 and the sum is at least n - 2; increasing lengths climb every distance only under this condition. from fills the fields like this with the powers of two, and any strictly increasing renumbering of tin and tout keeps them right.", "quantifier": "all trees, roots, tables tin, tout, pa, dep, lists of jump lengths, pairs of vertices", "why_tests_cant": "Universal over trees and all contents of the fields.", "anchors": ["src/graph/binary_lifting.rs: BinaryLifting (fields)", "src/graph/binary_lifting.rs: BinaryLifting::is_ancestor", "src/graph/binary_lifting.rs: BinaryLifting::lca", "src/graph/binary_lifting.rs: BinaryLifting::dis", "src/graph/binary_lifting.rs: BinaryLifting::from"]}
{"id": "C137", "title": "HLD with the public field pos assigned by the client", "statement": "pos and data of HLD are public. After any history, with data replaced by any LazySegtree of length m after any history of its own, and pos replaced by any p giving the vertices different places below m and next places to neighbours that had next places before: every history of apply_path, path_prod, get and set does what HLD promises on the values at the places p[v], and the places of data outside p keep their values. With all places moved by k, subtree_prod (which reads the private field pos_r) misses the last k vertices of the subtree in the order of visiting, and panics if the subtree has fewer than k.", "quantifier": "all trees, roots, monoids, maps, histories before and after the assignment, layouts, LazySegtrees of any length", "why_tests_cant": "Universal over trees, layouts and histories.", "anchors": ["src/graph/heavy_light_decomp.rs: HLD (fields)", "src/graph/heavy_light_decomp.rs: HLD::apply_path", "src/graph/heavy_light_decomp.rs: HLD::path_prod", "src/graph/heavy_light_decomp.rs: HLD::get", "src/graph/heavy_light_decomp.rs: HLD::set", "src/graph/heavy_light_decomp.rs: HLD::subtree_prod"]}
{"id": "C138", "title": "MinHeap after caught panics of the comparison", "statement": "Over comparisons that may panic at any time, act on a state of their own or obey no law, every history of MinHeap calls with the panics caught keeps a bag: a push or append that unwinds has added its elements, a pop that unwinds has lost the element it took out, nothing else is lost or made up. Calls that return do what they do over the plain order. In a heap in order, a push that unwinds leaves the new element as the only one out of order, and peek as before; a pop that unwinds loses the least element and leaves at most the element that was last out of order.", "quantifier": "all element types, comparisons, states, histories, arrays", "why_tests_cant": "Universal over comparison behaviours and the moment of the panic.", "anchors": ["src/data_structure/min_heap.rs: MinHeap::push", "src/data_structure/min_heap.rs: MinHeap::pop", "src/data_structure/min_heap.rs: MinHeap::peek", "src/data_structure/min_heap.rs: MinHeap::append"]}
{"id": "C139", "title": "BinaryLifting::dfs after caught panics", "statement": "A BinaryLifting::dfs call on any graph, vertex and parent, whether it returns or unwinds half-way, keeps the level, the lengths of all fields and rows, does not lower the timer, and changes nothing stored for vertices the start does not reach; the answers of is_ancestor, lca and dis on a set of such vertices closed under the jumps are as before. After any history of such calls, dfs(g, r, r, timer) on a tree answers for the tree rooted at r as in C86. Uncaught, the stepwise code is the dfs of C86.", "quantifier": "all graphs, vertices, structures, histories with panics at any step", "why_tests_cant": "Universal over histories and over the step at which each call panics.", "anchors": ["src/graph/binary_lifting.rs: BinaryLifting::dfs", "src/graph/binary_lifting.rs: BinaryLifting::is_ancestor", "src/graph/binary_lifting.rs: BinaryLifting::lca", "src/graph/binary_lifting.rs: BinaryLifting::dis"]}
{"id": "C140", "title": "Sorting, selecting and merging with MinHeap", "statement": "Pushing all elements into a MinHeap and popping until None lists them in ascending order (over an antisymmetric order, exactly the reverse of into_sorted_vec). Pushing each and popping whenever the heap holds more than k leaves k largest elements. Merging sorted vectors through a heap of (value, vector, index) triples gives the sorted vector of all elements. A MinHeap of Reverse values and a MinHeap kept at equal size answer the lower median of every prefix.", "quantifier": "all element types, orders, vectors, k, and heaps meeting the contract of BinaryHeap", "why_tests_cant": "Universal over inputs and over the order of equal elements.", "anchors": ["src/data_structure/min_heap.rs: MinHeap::push", "src/data_structure/min_heap.rs: MinHeap::pop", "src/data_structure/min_heap.rs: MinHeap::peek", "src/data_structure/min_heap.rs: MinHeap::len", "src/data_structure/min_heap.rs: MinHeap::into_sorted_vec"]}
{"id": "C141", "title": "Prim's algorithm with MinHeap gives a minimum spanning tree", "statement": "Growing a tree from a root with a MinHeap of (weight, vertex, edge) triples never panics or diverges and returns distinct edge indices whose edges connect to the root exactly what all edges connect to it, one edge fewer than there are such vertices. No choice of edges that connects as much has fewer edges, and none is lighter, if the weights are not negative or it has as many edges. When every vertex is connected to the root, the number of edges and the weight equal those of the edges Kruskal's algorithm with UnionFind chooses. A root or endpoint out of range panics.", "quantifier": "all numbers of vertices, edge lists with loops, parallel edges and negative weights, roots, and heaps meeting the contract of BinaryHeap", "why_tests_cant": "Universal over graphs, over all other spanning sets of edges, and over the order of equal entries.", "anchors": ["src/data_structure/min_heap.rs: MinHeap::push", "src/data_structure/min_heap.rs: MinHeap::pop", "src/data_structure/union_find.rs: UnionFind::join"]}
{"id": "C142", "title": "Sums along the paths of a tree with FenwickTree and BinaryLifting", "statement": "Add x to a vertex v by adding x at tin[v] and -x at tout[v] of a FenwickTree::new(n); read the sum from the root to u as pref(tin[u] + 1), and the sum along the path from u to v from the sums to u, v and lca(u, v) and the value of the lca. Every history of additions, reads, root sums and path sums on a tree answers, and panics, as values kept by vertex and added up along the simple path of the tree.", "quantifier": "all trees, roots, commutative rings of values, and histories of calls, in range or not", "why_tests_cant": "Universal over trees, neighbour orders and histories.", "anchors": ["src/graph/binary_lifting.rs: BinaryLifting::from", "src/graph/binary_lifting.rs: BinaryLifting::lca", "src/data_structure/fenwick_tree.rs: FenwickTree::add", "src/data_structure/fenwick_tree.rs: FenwickTree::pref"]}
{"id": "C143", "title": "Palindromes, rotations and distinct substrings with kmp and z_function", "statement": "The last entry of kmp on s, a letter not in s, and s reversed is the length of the longest palindromic prefix of s; prepending the reversed rest gives a shortest palindrome ending with s. z_function on s and s reversed gives the lengths of all palindromic prefixes. z_function on s, t and t decides whether t is a rotation of s. Adding up, over the prefixes of s, the length less the largest entry of z_function of the reversed prefix counts the distinct nonempty substrings of s.", "quantifier": "all element types with an equality that decides equality, and all strings", "why_tests_cant": "Universal over strings; minimality and counting quantify over all palindromes and substrings.", "anchors": ["src/string/kmp.rs: kmp", "src/string/z_algorithm.rs: z_function"]}
{"id": "C144", "title": "Keys, sealed messages, powers and roots with pow_mod, inv_gcd and primitive_root", "statement": "For primes p, q with p*q an i32 the exponent inv_gcd gives for e modulo (p-1)(q-1) undoes pow_mod with exponent e on every message below p*q, in both orders; if the gcd is not 1 two messages have the same power. Two parties raising primitive_root(p) to secret exponents agree on the same number; a message multiplied by a power of a public key is recovered with inv_gcd. inv_gcd and pow_mod decide whether a number is a k-th power modulo a prime, give the only k-th root when k is invertible modulo p-1 (p > 2), and give square roots modulo primes that are 3 modulo 4.", "quantifier": "all primes in i32 range, all exponents, secrets and messages in the argument types", "why_tests_cant": "Universal over primes, exponents and messages; the negative answers say that no root exists at all.", "anchors": ["src/math/internal_math.rs: pow_mod", "src/math/internal_math.rs: inv_gcd", "src/math/internal_math.rs: primitive_root", "src/math/internal_math.rs: safe_mod"]}
{"id": "C145", "title": "Huffman's algorithm with MinHeap gives the shortest prefix code", "statement": "Pushing the numbers of occurrences into a MinHeap and repeatedly popping two, adding their sum to a total and pushing it back, computes the least number of bits with which a binary prefix code can write the message; the u64 additions panic exactly if that number does not fit.", "quantifier": "all heaps meeting BinaryHeap's contract, all nonempty lists of non-negative numbers, all prefix codes", "why_tests_cant": "Optimality quantifies over all prefix codes for all lists of numbers.", "anchors": ["src/data_structure/min_heap.rs: MinHeap::push", "src/data_structure/min_heap.rs: MinHeap::pop"]}
{"id": "C146", "title": "Additions to paths and subtrees of a tree with FenwickTree and BinaryLifting", "statement": "Over any commutative ring, adding x to all vertices of a path (adds at tin of both ends and of their lca, and at the lca itself) and to all vertices of a subtree (adds at tin and tout), and reading a vertex (a difference of two prefix sums plus a prefix sum), with two FenwickTrees over the fields tin and tout of a BinaryLifting, answers and panics as values kept by vertex, over every history of calls.", "quantifier": "all commutative rings, all trees with fewer than 2^64 vertices, all roots, all histories of calls", "why_tests_cant": "Universal over trees, roots and histories.", "anchors": ["src/data_structure/fenwick_tree.rs: FenwickTree::add", "src/data_structure/fenwick_tree.rs: FenwickTree::pref", "src/graph/binary_lifting.rs: BinaryLifting::lca", "src/graph/binary_lifting.rs: tin", "src/graph/binary_lifting.rs: tout"]}
{"id": "C147", "title": "Size of the least connected set around given vertices of a tree, with BinaryLifting", "statement": "For any list of vertices of a tree, in any order and with repetitions, sorting them by the field tin, adding up BinaryLifting::dis once around this order, halving and adding one gives the number of vertices of the least connected set that contains them all (0 for the empty list). A vertex out of range panics.", "quantifier": "all trees with fewer than 2^64 vertices, all roots, all lists of vertices", "why_tests_cant": "Universal over trees, roots and sets of vertices.", "anchors": ["src/graph/binary_lifting.rs: BinaryLifting::dis", "src/graph/binary_lifting.rs: BinaryLifting::lca", "src/graph/binary_lifting.rs: tin"]}
{"id": "C148", "title": "Counting words, arrangements, sums, brackets and anagrams with Factorial", "statement": "With the tables of Factorial::new(N) modulo a prime p > N: choose(n, k) is the residue of the number of 0/1-words of length n with k ones; perm(n, k) of the number of sequences of k different numbers below n; choose(n + k - 1, k) of the number of n-tuples of naturals with sum k; choose(2n, n) / (n + 1) of the number of balanced words of n pairs of brackets; the product of choose(k_0 + ... + k_i, k_i) of the number of words with exactly k_i letters i. The last three panic exactly when their arguments leave the tables.", "quantifier": "all primes p <= 2^31, both inverse paths, all N < p, all arguments", "why_tests_cant": "Universal over primes and sizes; the numbers of words grow beyond enumeration.", "anchors": ["src/math/factorial.rs: Factorial::new", "src/math/factorial.rs: Factorial::choose", "src/math/factorial.rs: Factorial::perm", "src/misc/modint.rs: Div"]}
{"id": "C149", "title": "Inclusion and exclusion with Factorial: surjections and derangements", "statement": "With the tables of Factorial::new(N) modulo a prime p > N: the alternating sum over j of choose(k, j) * ModInt(k - j)^n is the residue of the number of words of n letters in which each of k letters occurs; the alternating sum over j of perm(n, n - j) is the residue of the number of permutations of n numbers without a fixed point. The calls panic exactly when k, or n, is beyond the tables.", "quantifier": "all primes p <= 2^31, both inverse paths, all N < p, all arguments (n < 2^64)", "why_tests_cant": "Universal over primes and sizes; the numbers of words and permutations grow beyond enumeration.", "anchors": ["src/math/factorial.rs: Factorial::new", "src/math/factorial.rs: Factorial::choose", "src/math/factorial.rs: Factorial::perm", "src/misc/modint.rs: pow"]}
{"id": "C150", "title": "Numbering permutations with FenwickTree and Factorial", "statement": "On a FenwickTree of n ones, reading pref(x) and then add(x, -1) for the entries x of a permutation gives for every place the number of smaller entries after it; partition_point and add(x, -1) turn these numbers back into the permutation, and turn every sequence of n numbers whose i-th is below n - i into the permutation it belongs to. The sum of these numbers times perm(k, k), k = n-1, ..., 0, of Factorial::new(N) modulo a prime p > N is the residue of the number of permutations that come before the given one in the order of the dictionary.", "quantifier": "all permutations and codes of length below 2^64; for the rank all primes p <= 2^31, both inverse paths, all N < p and n <= N + 1", "why_tests_cant": "There are n! permutations of every length n; ranks of long ones cannot be found by enumeration.", "anchors": ["src/data_structure/fenwick_tree.rs: pref", "src/data_structure/fenwick_tree.rs: add", "src/data_structure/fenwick_tree.rs: partition_point", "src/math/factorial.rs: Factorial::perm"]}
{"id": "C151", "title": "Lengths of the queues of bfs and build", "statement": "The queue of Dinic's bfs never holds more than max(1, n - 2) vertices when t is a vertex other than s, n the number of vertices (max(1, n - 1) in general), for arbitrary edges, and there are graphs of every size for which fewer places are not enough; so every history of add_edge and get_max_flow(s, t), s different from t, gives the same answers and panics with a queue of that size. The queue of AhoCorasick::build never holds more nodes than the loop has turns, and after any inserts never more than all nodes but the root.", "quantifier": "all graphs, all (also inconsistent) edge lists and arguments of bfs; all histories of Dinic; all sequences of inserts, all alphabets", "why_tests_cant": "The longest queue depends on the order of edges and letters; tests see the answers, not the length of the queue.", "anchors": ["src/graph/max_flow.rs: Dinic::bfs", "src/graph/max_flow.rs: Dinic::get_max_flow", "src/string/aho_corasick.rs: AhoCorasick::build"]}
{"id": "C152", "title": "How many vertices the stack of scc holds", "statement": "The stack of scc never holds more than n vertices, n the number of vertices: with a stack refusing more than k >= n entries scc gives the same result or panics alike, for arbitrary adjacency lists; for every n below 2^31 there is a graph of n vertices whose stack holds all n at some time. A run with a smaller stack that does not overflow gives the same answer, and its stack has room for every strongly connected component.", "quantifier": "all adjacency lists, also with edges out of range", "why_tests_cant": "The longest stack depends on the order of the edges; tests see the components, not the stack.", "anchors": ["src/graph/tarjan.rs: scc", "src/graph/tarjan.rs: SCC::dfs"]}
{"id": "C153", "title": "Different values in sections of a list, with FenwickTree", "statement": "Client code that walks a list a of values below m, keeping in a FenwickTree a one at the last place of every value seen so far (add(j, -1) at the old place, add(i, 1) at the new), answers for every left end l <= n asked at place i with sum(l, i + 1) exactly the number of different values among a[l], ..., a[i]; it never panics.", "quantifier": "all lists, bounds of the values and lists of left ends up to n for every place, also left ends past i (answer 0)", "why_tests_cant": "The count depends on the last places of all values in the prefix; tests compare few short lists.", "anchors": ["src/data_structure/fenwick_tree.rs: FenwickTree::add", "src/data_structure/fenwick_tree.rs: FenwickTree::sum"]}
{"id": "C154", "title": "The circle counting game with FenwickTree", "statement": "Client code that keeps the people of a circle as ones in a FenwickTree, finds the next to leave with partition_point at position (pos + k) mod left and removes them with add(x, -1), lists 0, ..., n - 1 in exactly the order of the game in which k times the first of a queue goes to the back and then the first leaves; it never panics, everybody is listed once, and no other order follows the rules.", "quantifier": "all n below 2^64 and all k, also k larger than n, with sums that do not overflow", "why_tests_cant": "The order depends on n and k in no closed form; tests compare few small circles.", "anchors": ["src/data_structure/fenwick_tree.rs: FenwickTree::partition_point", "src/data_structure/fenwick_tree.rs: FenwickTree::add"]}
{"id": "C155", "title": "How many slots the queues of bfs and build allocate", "statement": "The ring buffer of the queue of bfs (VecDeque, growing from 0 to 4 and then doubling) never has more than max(4, 2(n - 2)) slots, n the number of vertices, and never more than max(4, 2(n - 3)) when t is a vertex other than s, as in get_max_flow: with a buffer refusing to grow beyond that, bfs and get_max_flow give the same results or panic alike; for n = 2^i + 3, i >= 2, there is a graph needing all 2(n - 3) slots. The queue of build never has more than max(4, 2(f - 1)) slots if build ends after f turns, which after inserts that do not panic is max(4, 2(n - 2)) for n nodes.", "quantifier": "all edges, adjacency lists and s, t, also with indices out of range; all nodes for which build ends, and all inserts that do not panic", "why_tests_cant": "Allocation does not show in the results; the longest queue depends on the order of the edges.", "anchors": ["src/graph/max_flow.rs: bfs", "src/graph/max_flow.rs: get_max_flow", "src/string/aho_corasick.rs: build"]}
{"id": "C156", "title": "Sections and their greatest values with Segtree", "statement": "Client code over a Segtree of maxima with identity 0 that calls max_right(i + 1, |y| y <= v[i]) and min_left(i, |y| y < v[i]) for every place i finds, for positive values, the widest section around i in which v[i] is the leftmost greatest value, and with these the sum of the greatest values of all non-empty sections of the list; a value 0, equal to the identity, makes it panic.", "quantifier": "all lists of fewer than 2^32 positive values, with sums that do not overflow, and all such lists with a 0", "why_tests_cant": "The sum ranges over all sections and depends on ties being counted once; the panic shows only for the identity.", "anchors": ["src/data_structure/segtree.rs: Segtree::max_right", "src/data_structure/segtree.rs: Segtree::min_left"]}
{"id": "C157", "title": "Sections with a small sum with Segtree", "statement": "Client code over a Segtree of sums that calls max_right(l, |s| s <= k) for every place l counts exactly the non-empty sections of the list with sum at most k, and finds the greatest length of such a section (0 if there is none).", "quantifier": "all bounds k and all lists of fewer than 2^32 non-negative values, with sums that do not overflow", "why_tests_cant": "The count ranges over all sections of a list of any length and relies on max_right being maximal, not only on it satisfying the predicate.", "anchors": ["src/data_structure/segtree.rs: Segtree::max_right"]}
