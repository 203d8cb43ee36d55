(** Vocabulary for the property that drawing succeeds. *)
From Coq Require Import Reals.
From Verif Require Export EndSpec.
Local Open Scope R_scope.

(** [key] names an Axes with a frame, and with or without the parts of an x and a y axis:
    quadrilaterals for the axes, points in the plane for the labels. *)
Definition axes_in (root : prim R) (key : string) : Prop :=
  exists a, get_child root key = Ok a /\ ntype a = TAxes /\
    (exists f, dget "Frame" (nch a) = Some f /\ closed_quad f) /\
    forall pre, In pre axis_names ->
      (dget (pre ++ "Axis") (nch a) = None \/ exists q, dget (pre ++ "Axis") (nch a) = Some q /\ closed_quad q) /\
      (dget (pre ++ "AxisLabel") (nch a) = None \/ exists p, dget (pre ++ "AxisLabel") (nch a) = Some p /\ exists i, corner p i).
