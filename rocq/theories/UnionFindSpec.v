(** What a UnionFind user relies on: each vertex carries the label of its set; no parent pointers, no sizes stored. *)
From Verif Require Import Prelude UnionFindModel.

(** The sets in the order of their labels, each in increasing order. *)
Definition lab_groups (lab : list nat) : list (list nat) :=
  filter (fun g => g <> [])
    (map (fun r => filter (fun i => lab !! i = Some r) (seq 0 (length lab))) (seq 0 (length lab))).

(** The calls on a plain labelling: join(x,y) gives the vertices of x's set the label of y's. *)
Definition uf_spec_step (lab : list nat) (o : uf_op) : res (list nat * uf_out) :=
  match o with
  | UfFind i => match lab !! i with Some r => Ok (lab, UfIdx r) | None => Panic end
  | UfSame x y =>
      match lab !! x, lab !! y with
      | Some a, Some b => Ok (lab, UfBool (a =? b))
      | _, _ => Panic
      end
  | UfJoin x y =>
      match lab !! x, lab !! y with
      | Some a, Some b => Ok (map (fun r => if r =? a then b else r) lab, UfBool (negb (a =? b)))
      | _, _ => Panic
      end
  | UfSize x =>
      match lab !! x with
      | Some a => Ok (lab, UfNum (Z.of_nat (length (filter (fun r => r = a) lab))))
      | None => Panic
      end
  | UfGroups => Ok (lab, UfLists (lab_groups lab))
  end.

(** What the caller has to take care of: a join of two vertices names the representatives of their sets. *)
Definition join_of_reps (lab : list nat) (o : uf_op) : Prop :=
  match o with
  | UfJoin x y => x < length lab -> y < length lab -> lab !! x = Some x /\ lab !! y = Some y
  | _ => True
  end.

(** The same along a history of the plain labelling. *)
Fixpoint joins_of_reps (lab : list nat) (ops : list uf_op) : Prop :=
  match ops with
  | [] => True
  | o :: ops =>
      join_of_reps lab o /\
      match uf_spec_step lab o with Ok (lab', _) => joins_of_reps lab' ops | _ => True end
  end.

(** Calls that only ask. *)
Definition is_query (o : uf_op) : bool := match o with UfJoin _ _ => false | _ => true end.
