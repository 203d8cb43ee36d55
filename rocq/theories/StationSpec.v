(** Differentiability of residuals and slopes of the sum of squares. *)
From Coq Require Import Reals.
From Verif Require Export BackendSpec.
Local Open Scope R_scope.

(** [res] is differentiable at [g]: some matrix [J] gives the derivatives in all directions. *)
Definition has_jacobian (res : list R -> result (list R)) (g : list R) (J : list (list R)) : Prop :=
  Forall (fun row => length row = length g) J /\ forall d, length d = length g -> directional res g d (times J d).
Definition smooth_at (res : list R -> result (list R)) (g : list R) : Prop := exists J, has_jacobian res g J.
(** The slope at [g] in the direction [d] of the sum of squares (what 'minimize' minimises). *)
Definition slope (l : layout R) (g d : list R) (v : R) : Prop :=
  exists eps f, 0 < eps /\ (forall t, Rabs t < eps -> objective l (shifted g t d) = Ok (f t)) /\ derivable_pt_lim f 0 v.
