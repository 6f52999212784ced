(** C91: number of steps of AhoCorasick. *)
From Verif Require Import Prelude Eff UtilModel AhoSpec AhoModel AhoStr AhoTrie AhoBuild AhoProof AhoProps GraphWorkModel AhoWorkSpec AhoWorkModel AhoWorkProof.

(** C91, insert: |s| steps, on any automaton whatever; the answer (or the panic) is that of the program without the counter. *)
Theorem C91_insert : forall off N a s i, costs (aho_insertW off N a s i) (aho_insert off N a s i) (fun _ => length s).
Proof. exact insert_costs. Qed.
Print Assumptions C91_insert.

(** C91, searches on any automaton whatever: find reads every byte once; find_all also allocates one list per byte and takes one step per index
    listed; find_cnt also allocates n counters and takes one step per match counted. *)
Theorem C91_searches : forall off a text,
  costs (aho_findW off a text) (aho_find off a text) (fun _ => length text) /\
  costs (aho_find_allW off a text) (aho_find_all off a text) (fun r => 2 * length text + length (concat r)) /\
  costs (aho_find_cntW off a text) (aho_find_cnt off a text) (fun r => ah_n a + length text + sum_list r).
Proof. intros off a text. split; [apply find_costs|]. split; [apply find_all_costs|apply find_cnt_costs]. Qed.
Print Assumptions C91_searches.

(** C91, construction: with P distinct non-empty prefixes, the inserts and build make P + 1 nodes and take, besides one step per byte inserted,
    N steps for the root and N + 1 for every other node; P is at most the number of bytes inserted. *)
Theorem C91_build : forall off N n ins, Forall (insertable off N) ins ->
  exists ps a, prefixes_once ins ps /\ length ps <= sum_list_with (fun x => length x.1) ins /\
    aho_of off N n ins = Ok a /\ length (ah_nodes a) = 1 + length ps /\
    costs (aho_ofW off N n ins) (aho_of off N n ins) (fun _ => sum_list_with (fun x => length x.1) ins + N + length ps * (N + 1)).
Proof.
  intros off N n ins Hg. destruct (of_costs off N n ins Hg) as (ps & a & Hp & E & Hl & W). exists ps, a. split; [exact Hp|]. split; [apply prefixes_few; exact Hp|]. split; [exact E|].
  split; [exact Hl|]. intros w. rewrite (W w), E. cbn [mbind res_bind]. f_equal. f_equal. lia.
Qed.
Print Assumptions C91_build.

(** C91, from: the same over the patterns numbered from 0. *)
Theorem C91_from : forall off N patterns, Forall (fun s => s <> [] /\ in_alphabet off N s) patterns ->
  exists ps a, prefixes_once (numbered patterns) ps /\ length ps <= sum_list_with length patterns /\
    aho_from off N patterns = Ok a /\ length (ah_nodes a) = 1 + length ps /\
    costs (aho_fromW off N patterns) (aho_from off N patterns) (fun _ => sum_list_with length patterns + N + length ps * (N + 1)).
Proof.
  intros off N patterns Hg. apply numbered_insertable in Hg. destruct (C91_build off N (length patterns) (numbered patterns) Hg) as (ps & a & H1 & H2 & H3 & H4 & H5).
  assert (sum_list_with (fun x => length x.1) (numbered patterns) = sum_list_with length patterns) as Hs.
  { unfold numbered. clear. assert (forall g : nat -> nat, sum_list_with (fun x => length x.1) (imap (fun i s => (s, g i)) patterns) = sum_list_with length patterns) as H; [|exact (H (fun i => i))].
    induction patterns as [|p l IH]; intros g; [reflexivity|]. cbn. f_equal. apply (IH (fun i => g (S i))). }
  rewrite Hs in *. exists ps, a. rewrite from_eq. split; [exact H1|]. split; [exact H2|]. split; [exact H3|]. split; [exact H4|]. intros w. rewrite fromW_eq. apply H5.
Qed.
Print Assumptions C91_from.

(** Non-vacuity: "ab", "b", "abc" over 3 letters: 4 prefixes, 6 bytes; text "abcab" with 5 matches. *)
Example C91_nonvacuous :
  Forall (fun s => s <> [] /\ in_alphabet 97 3 s) [[97; 98]; [98]; [97; 98; 99]] /\
  exists a, aho_from 97 3 [[97; 98]; [98]; [97; 98; 99]] = Ok a /\ length (ah_nodes a) = 5 /\
    aho_fromW 97 3 [[97; 98]; [98]; [97; 98; 99]] 0 = Ok (a, 6 + 3 + 4 * 4) /\
    aho_find_allW 97 a [97; 98; 99; 97; 98] 0 = Ok ([[]; [0; 1]; [2]; []; [0; 1]], 2 * 5 + 5) /\
    aho_find_cntW 97 a [97; 98; 99; 97; 98] 0 = Ok ([2; 2; 1], 3 + 5 + 5) /\
    aho_findW 97 a [97; 98; 99; 97; 98] 0 = Ok ([None; Some 0; Some 2; None; Some 0], 5) /\
    aho_findW 97 a [97; 64] 0 = Panic.
Proof.
  split; [unfold in_alphabet; repeat (constructor; [split; [discriminate|]; repeat (constructor; [lia|]); constructor|]); constructor|].
  eexists. split; [vm_compute; reflexivity|]. repeat (split; [vm_compute; reflexivity|]). vm_compute. reflexivity.
Qed.
