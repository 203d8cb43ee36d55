(** Specification vocabulary for the geometric properties: where a primitive is, and
    what it means for a constraint to be satisfied.  Points of the plane are pairs. *)
From Coq Require Import Reals.
From Verif Require Export CstrR Constr ConsSpec.
Local Open Scope R_scope.

Definition pt := (R * R)%type.

(** [p] is a Point primitive at [P]. *)
Definition point_at (p : prim R) (P : pt) : Prop :=
  exists i ch, p = Node TPoint {| vid := i; vdata := [fst P; snd P] |} ch.
(** [l] is a Line primitive from [P] to [Q]. *)
Definition line_at (l : prim R) (P Q : pt) : Prop :=
  exists v a b, l = Node TLine v [("Point0", a); ("Point1", b)] /\ point_at a P /\ point_at b Q.
(** [q] is a Quadrilateral with vertices [P0] .. [P3]; Line{i} runs from [Pi] to the
    next vertex. *)
Definition quad_at (q : prim R) (P0 P1 P2 P3 : pt) : Prop :=
  exists v l0 l1 l2 l3, q = Node TQuad v [("Line0", l0); ("Line1", l1); ("Line2", l2); ("Line3", l3)] /\
    line_at l0 P0 P1 /\ line_at l1 P1 P2 /\ line_at l2 P2 P3 /\ line_at l3 P3 P0.
(** The quadrilateral is the box with left, bottom, right, top edges [l b r t]. *)
Definition box_at (q : prim R) (l b r t : R) : Prop := quad_at q (l, b) (r, b) (r, t) (l, t).

(** The constraint evaluates and all its residuals are zero. *)
Definition vanishes (c : cons R) (prims : list (prim R)) (params : list (pyval R)) : Prop :=
  exists r, call c prims params = Ok r /\ Forall (fun x => x = 0) r.

(** Difference vector, inner product, 2-d cross product, length. *)
Definition vec (P Q : pt) : pt := (fst Q - fst P, snd Q - snd P).
Definition inner (u v : pt) : R := fst u * fst v + snd u * snd v.
Definition cross (u v : pt) : R := fst u * snd v - snd u * fst v.
Definition len (u : pt) : R := sqrt (inner u u).
Definition mid (P Q : pt) : pt := ((fst P + fst Q) / 2, (snd P + snd Q) / 2).

(** Four vertices; the edge of a quadrilateral on a side, in the direction of its line. *)
Definition vertices := (pt * pt * pt * pt)%type.
Definition edge (side : string) (v : vertices) : pt * pt :=
  let '(P0, P1, P2, P3) := v in
  if String.eqb side "bottom" then (P0, P1) else if String.eqb side "right" then (P1, P2)
  else if String.eqb side "top" then (P2, P3) else (P3, P0).
Definition across (side : string) : string :=
  if String.eqb side "bottom" then "top" else if String.eqb side "top" then "bottom"
  else if String.eqb side "left" then "right" else "left".
Definition box_vertices (l b r t : R) : vertices := ((l, b), (r, b), (r, t), (l, t)).
Definition quad_is (q : prim R) (v : vertices) : Prop := let '(P0, P1, P2, P3) := v in quad_at q P0 P1 P2 P3.

(** [a] is an Axes primitive whose child [key] is a quadrilateral with vertices [v] /
    a point at [P]. *)
Definition axes_quad (a : prim R) (key : string) (v : vertices) : Prop :=
  ntype a = TAxes /\ exists q, dget key (nch a) = Some q /\ quad_is q v.
Definition axes_point (a : prim R) (key : string) (P : pt) : Prop :=
  ntype a = TAxes /\ exists p, dget key (nch a) = Some p /\ point_at p P.
