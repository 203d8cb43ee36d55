(** Vocabulary for layouts that one Newton iteration solves. *)
From Coq Require Import Reals.
From Verif Require Export StationSpec GridEndSpec GeomSpec.
From Verif Require Export P_Affine.
Local Open Scope R_scope.

(** [Q] names a quadrilateral of the layout that starts as the unit square (the default of
    every quadrilateral, and of the frame of an Axes) and is asked to be a box. *)
Definition boxed_square (acts : list (action R)) (l : layout) (Q : string) : Prop :=
  quad_in (l_prim l) Q /\ (exists q, get_child (l_prim l) Q = Ok q /\ box_at q 0 0 1 1) /\ asked acts Box [Q] [].
(** A box of positive width and height. *)
Definition upright (p : prim) (Q : string) : Prop :=
  exists q l b r t, get_child p Q = Ok q /\ box_at q l b r t /\ l < r /\ b < t.
Definition side_names : list string := ["Line0"; "Line1"; "Line2"; "Line3"]%string.
Definition edge (Q side : string) : string := (Q ++ "/" ++ side)%string.
(** Requests that compare straight boxes: those with affine residuals (on any primitives:
    Fix, Box, Width, Height, margins, distances, ...); the constraints on lengths and on
    alignment, on (sides of) boxed squares; and the grids of boxed squares. *)
Inductive plain_request (acts : list (action R)) (l : layout) : cons -> list string -> list (pyval R) -> Prop :=
| plain_affine c ks ps : affine_constraint c -> plain_request acts l c ks ps
| plain_collinear Q Q' side : boxed_square acts l Q -> boxed_square acts l Q' -> In side side_names ->
    plain_request acts l Collinear [edge Q side; edge Q' side] []
| plain_ratio c Q Q' side side' v k : RelativeLength = Ok c -> boxed_square acts l Q -> boxed_square acts l Q' -> In side side_names -> In side' side_names ->
    number v k -> plain_request acts l c [edge Q side; edge Q' side'] [v]
| plain_length c Q side v k : crLength = Ok c -> boxed_square acts l Q -> In side side_names ->
    number v k -> plain_request acts l c [edge Q side] [v]
| plain_align c Q Q' : AlignRow = Ok c \/ AlignColumn = Ok c -> boxed_square acts l Q -> boxed_square acts l Q' ->
    plain_request acts l c [Q; Q'] []
| plain_rectilinear r m c Qs : RectilinearGrid r m = Ok c -> Forall (boxed_square acts l) Qs -> length Qs = (r * m)%nat ->
    plain_request acts l c Qs []
| plain_grid r m c Qs v1 v2 v3 v4 ws hs : (1 <= r)%nat -> (1 <= m)%nat -> Grid r m = Ok c -> Forall (boxed_square acts l) Qs -> length Qs = (r * m)%nat ->
    numbers v1 ws -> numbers v2 hs -> length ws = (m - 1)%nat -> length hs = (r - 1)%nat ->
    plain_request acts l c Qs [v1; v2; v3; v4].
