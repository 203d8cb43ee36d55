(** What the properties of solve(method='minimize') assume of the optimiser (scipy's
    L-BFGS-B): [m f x0 k] is the sequence of intermediate results (value, vector) that the
    optimiser reports for the objective [f] from [x0] with iteration limit [k]. *)
From Coq Require Import Reals.
From Verif Require Export MoveSpec.
Local Open Scope R_scope.

Definition optimiser : Type := (list R -> result R) -> list R -> nat -> list (R * list R).

(** Intermediate vectors have the length of the starting vector. *)
Definition right_lengths (m : optimiser) : Prop :=
  forall f x0 k, Forall (fun fx => length (snd fx) = length x0) (m f x0 k).
(** It depends on the objective only through its values. *)
Definition reads_values (m : optimiser) (n : nat) : Prop :=
  forall f f' x0 k, length x0 = n ->
    (forall g v, length g = n -> (f g = Ok v <-> f' g = Ok v)) -> m f x0 k = m f' x0 k.
(** It does not depend on where the origin is. *)
Definition origin_free (m : optimiser) (n : nat) : Prop :=
  forall f x0 e k, length x0 = n -> length e = n ->
    m f (shifted x0 1 e) k = map (fun fx => (fst fx, shifted (snd fx) 1 e)) (m (fun g => f (shifted g 1 e)) x0 k).
(** The values reported are the values of the objective, and none is worse than at the
    start. *)
Definition descends (m : optimiser) : Prop :=
  forall f x0 k v0, f x0 = Ok v0 -> Forall (fun fx => f (snd fx) = Ok (fst fx) /\ fst fx <= v0) (m f x0 k).
(** From [x0] it moves along gradients of [f] only: not in the directions in which [f] does
    not change. *)
Definition along_gradients (m : optimiser) (f : list R -> result R) (x0 : list R) : Prop :=
  forall e k, length e = length x0 ->
    (forall g v t, length g = length x0 -> f g = Ok v -> f (shifted g t e) = Ok v) ->
    Forall (fun fx => dotp (snd fx) e = dotp x0 e) (m f x0 k).
(** The sum of squares of the constraints at [p]. *)
Definition misfit (l : layout R) (p : prim R) (v : R) : Prop :=
  exists r, layout_residual l p = Ok r /\ v = fold_right Rplus 0 (map (fun x => x * x) r).
