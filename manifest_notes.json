{
 "C09": {
  "status": "partial",
  "note": "REFUTED as stated: get(3,6) on a 5-element table returns a value. Positive: for every l<r the exact panic condition and the exact value otherwise (blocks that do not fit count as init)."
 },
 "C11": {
  "status": "partial",
  "note": "REFUTED as stated: join(0,1);join(0,2) separates 0 from 1. Positive: exact merge when x is a representative; return value and x~y afterwards for every x. For every x, the exact shape of the result: a subset of the class of x containing x moves over to the class of y, and nothing else changes (C11_join_moves_partial). Also find after the join, for every vertex."
 },
 "C12": {
  "status": "partial",
  "note": "REFUTED as stated. Positive: exact when every join of the history was applied to two representatives."
 },
 "C32": {
  "status": "partial",
  "note": "REFUTED as stated: lcm(65536,65536) overflows i32 although the result fits. Positive: exact whenever a*b fits; lcm(0,0) panics; for any signs, up to sign the least common multiple, and a panic exactly when the product overflows or both are 0 (C32_lcm_any_partial)."
 },
 "C34": {
  "status": "partial",
  "note": "REFUTED for negative a[i]. Positive: for non-negative a[i] every returned answer is exact, and none is lost to overflow when i64 has room for each coefficient times the lcm of the moduli before it plus |b[i]|, and for twice the lcm of all moduli. Vectors of different lengths: C34_lengths_partial. For every sign of a and m the returned pair still describes exactly the solutions, without the normal form 0<=x<l (C34_ex_crt_any_partial)."
 },
 "C53": {
  "status": "partial",
  "note": "REFUTED as stated: Reverse makes the vector non-increasing. Positive: permutation of the bag in non-increasing order."
 },
 "C54": {
  "status": "partial",
  "note": "REFUTED as stated: sizes overflow usize after 184 joins on 4 elements. Positive: no panic when joins get representatives, and none in any history before 91 joins have merged two sets. In a release build sizes wrap and nothing panics (C61)."
 },
 "C38": {
  "note": "C38_is_prime is the full claim: for every i32 the answer is exactly primality. It uses Coq's primitive 63-bit integers (standard-library primitives and their specification axioms). C38_is_prime_strong_tests, axiom-free, gives termination, absence of panics and the three-test criterion."
 },
 "C44": {
  "status": "partial",
  "note": "REFUTED as stated: modulo 1 the zeroth power is stored as 1. Positive: exact for m>=2 or n>0, static and dynamic."
 },
 "C45": {
  "status": "partial",
  "note": "REFUTED for moduli >= 2^31 with the prime hint (debug conversion to i32 panics). Positive: exact on the Fermat path for primes below 2^31, on the gcd path for every u32 modulus, and for DynamicModInt; panics otherwise. C45_wrong_hint: a prime hint on a non-prime value makes every inv() panic (debug build). In a release build the restriction disappears (C60). C45_large_value: for every VALUE >= 2^31 with the hint every inv() panics."
 },
 "C47": {
  "status": "partial",
  "note": "REFUTED as stated: a product between the two stores gives 11 for 2*3 with moduli 7 and 5. Positive: exact on every interleaving where both loads fall on the same side of their stores."
 },
 "C28": {
  "status": "partial",
  "note": "REFUTED as stated: on the path 0-1-2 with a non-commutative operation path_prod(2,0) multiplies from 0 to 2. Positive: the product along the path for commutative operations; for every monoid the product of the path's values piece by piece: at most 2 log2 n + 1 pieces, each taken downwards along the visiting order, deepest top first (by_pieces in C30_history)."
 },
 "C19": {
  "status": "partial",
  "note": "REFUTED second half (patterns abc, b; text ab): C19_find_complete_refuted. Proved: the first half, and exactly what find returns (index of the longest suffix that is a prefix of an inserted string)."
 },
 "C52": {
  "note": "The aliasing of &mut through UnsafeCell (undefined behaviour in Rust's terms) is not modelled: the captured state is threaded through nested calls."
 },
 "C63": {
  "status": "partial",
  "note": "REFUTED as stated: join(0,1);join(1,2);[find(0)];join(1,3);is_same(0,1) depends on the find(0), because join(1,3) relinks a vertex that is not a representative. Positive: up to the next join no answer changes, in every reachable state; if joins get representatives the call can be left out of any history."
 },
 "C67": {
  "note": "Model at the granularity of single atomic accesses (ConcModel.v), proved to do alone what the model of C46 does (C67_alone); every interleaving of threads that do not set the modulus gives each thread its own answers (C67_threads); operations during which nobody stores are unaffected by the other threads (C67_undisturbed)."
 },
 "C68": {
  "note": "Same code with the closure in the res monad (SparseChkModel.v); positive form under range products the closure can compute, and never-wrong form for any closure that computes the operation or panics."
 },
 "C73": {
  "status": "proved",
  "note": "C73_history is the whole statement. C73_past_end is the last sentence: over f64 max_right returns 15 on 13 elements."
 },
 "C75": {
  "status": "proved",
  "note": "C75_ex_crt_wrong is the clause that the release ex_crt can return an x that solves nothing."
 },
 "C99": {
  "note": "Only references to the closure made by call are counted, not the reference to the RecursiveFunction handed to the closure."
 }
}