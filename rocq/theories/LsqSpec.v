(** Linear least squares on lists of real numbers. *)
From Coq Require Import Reals List.
Import ListNotations.
Local Open Scope R_scope.

(** The inner product and the sum of squares. *)
Definition dotp (a b : list R) : R := fold_right Rplus 0 (map (fun xy => fst xy * snd xy) (combine a b)).
Definition sumsq (a : list R) : R := dotp a a.
Definition minus (a b : list R) : list R := map (fun xy => fst xy - snd xy) (combine a b).
(** The matrix with these rows times the vector [x]. *)
Definition times (A : list (list R)) (x : list R) : list R := map (fun row => dotp row x) A.
(** [d] is the shortest of the vectors of [n] entries that minimise the sum of squares of
    [A d - b]. *)
Definition least (n : nat) (A : list (list R)) (b d : list R) : Prop :=
  length d = n /\ forall d', length d' = n ->
    sumsq (minus (times A d) b) <= sumsq (minus (times A d') b) /\
    (sumsq (minus (times A d') b) = sumsq (minus (times A d) b) -> sumsq d <= sumsq d').
