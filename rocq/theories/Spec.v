(** Small specification vocabulary for trees, independent of the modelled code. *)
From Verif Require Export Node.

(** The node reached by following one child key per step. *)
Fixpoint walk {T A} (path : list string) (n : node T A) : option (node T A) :=
  match path with
  | [] => Some n
  | k :: ks => match dget k (nch n) with
               | Some c => walk ks c
               | None => None
               end
  end.

(** Child keys form a dict at every level (no duplicate keys); every Python tree
    satisfies this. *)
Inductive wf {T A} : node T A -> Prop :=
| wf_node t v ch : NoDup (map fst ch) -> Forall (fun kc => wf (snd kc)) ch -> wf (Node t v ch).

(** No child key at any level contains a slash. *)
Inductive slashfree {T A} : node T A -> Prop :=
| sf_node t v ch : Forall (fun kc => noslash (fst kc) = true) ch ->
                   Forall (fun kc => slashfree (snd kc)) ch -> slashfree (Node t v ch).

(** [p] is an initial part of [q]. *)
Definition prefix_of (p q : list string) : Prop := exists r, q = p ++ r.

(** Same child keys in the same order at every level. *)
Inductive same_shape {T A T' A'} : node T A -> node T' A' -> Prop :=
| shape_node t v ch t' v' ch' :
    map fst ch = map fst ch' ->
    Forall2 (fun x y => same_shape (snd x) (snd y)) ch ch' ->
    same_shape (Node t v ch) (Node t' v' ch').

(** Paths of all nodes, parents first, children in order. *)
Fixpoint paths {T A} (n : node T A) : list (list string) :=
  match n with
  | Node _ _ ch => [] :: flat_map (fun kc => map (List.cons (fst kc)) (paths (snd kc))) ch
  end.

(** The key text of a path below a root key: each component after a slash. *)
Fixpoint path_key (root : string) (p : list string) : string :=
  match p with
  | [] => root
  | k :: r => path_key (root ++ String slash k)%string r
  end.

(** Sum of all values of a tree. *)
Fixpoint tree_sum {T} (n : node T nat) : nat :=
  match n with
  | Node _ v ch => v + fold_right Nat.add 0 (map (fun kc => tree_sum (snd kc)) ch)
  end.

(** The values of a tree, parents first, children in order, with [i] added after the
    value of each leaf. *)
Fixpoint listing {T A} (i : A) (n : node T A) : list A :=
  match n with
  | Node _ v [] => [v; i]
  | Node _ v ch => v :: flat_map (fun kc => listing i (snd kc)) ch
  end.

(** Number of leaves. *)
Fixpoint leaf_count {T A} (n : node T A) : nat :=
  match n with
  | Node _ _ [] => 1
  | Node _ _ ch => fold_right Nat.add 0 (map (fun kc => leaf_count (snd kc)) ch)
  end.

(** All nodes of a tree, parents first, children in order. *)
Fixpoint preorder {T A} (n : node T A) : list (node T A) :=
  match n with
  | Node _ _ ch => n :: flat_map (fun kc => preorder (snd kc)) ch
  end.

(** [path] is the list of '/'-separated components of [key]. *)
Definition components (key : string) (path : list string) : Prop :=
  path <> [] /\ Forall (fun k => noslash k = true) path /\ join path = key.

(** Same class, same value, same child keys in the same order. *)
Definition same_node {T A} (c c' : node T A) : Prop :=
  ntype c' = ntype c /\ nval c' = nval c /\ map fst (nch c') = map fst (nch c).
