(** Vocabulary for pytrees of nodes. *)
From Coq Require Import Sorted Permutation.
From Verif Require Export Spec Pytree.

(** Python's order of (distinct) strings: a proper prefix first, otherwise by the first
    differing character. *)
Definition precedes (a b : string) : Prop :=
  (exists c r, b = (a ++ String c r)%string) \/
  (exists p x y r s, a = (p ++ String x r)%string /\ b = (p ++ String y s)%string /\ nat_of_ascii x < nat_of_ascii y).
(** The keys of every node of a tree are in that order. *)
Definition in_key_order {T A} (n : node T A) : Prop :=
  forall path c, walk path n = Some c -> StronglySorted precedes (nkeys c).
(** [m] has the nodes of [n], with the same classes and values [f v], at the same paths,
    and every dict of children has the same keys, in key order. *)
Definition reordered {T A B} (f : A -> B) (n : node T A) (m : node T B) : Prop :=
  wf m /\ in_key_order m /\
  forall path,
    match walk path n, walk path m with
    | Some c, Some d => ntype d = ntype c /\ nval d = f (nval c) /\ Permutation (nkeys c) (nkeys d)
    | None, None => True
    | _, _ => False
    end.
(** The same classes at the same paths. *)
Definition same_classes {T A B} (n : node T A) (m : node T B) : Prop :=
  forall path, option_map ntype (walk path n) = option_map ntype (walk path m).
