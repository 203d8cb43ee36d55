(** Vocabulary for the property of the whole workflow: build a layout, solve it, draw it. *)
From Coq Require Import Reals.
From Verif Require Export LayoutSpec CstrProofs MplSpec SolverSpec Cons.
Local Open Scope R_scope.

(** [p] is a Point with two coordinates, held in the array [i]. *)
Definition corner (p : prim R) (i : nat) : Prop := ntype p = TPoint /\ vid (nval p) = i /\ length (vdata (nval p)) = 2%nat.
(** A Line from the array [i] to the array [j]. *)
Definition side_of (l : prim R) (i j : nat) : Prop :=
  exists v a b, l = Node TLine v [("Point0", a); ("Point1", b)] /\ corner a i /\ corner b j.
(** A quadrilateral as its constructor makes it: each line ends in the array that the
    next one starts from. *)
Definition closed_quad (q : prim R) : Prop :=
  exists v l0 l1 l2 l3 i0 i1 i2 i3, q = Node TQuad v [("Line0", l0); ("Line1", l1); ("Line2", l2); ("Line3", l3)] /\
    side_of l0 i0 i1 /\ side_of l1 i1 i2 /\ side_of l2 i2 i3 /\ side_of l3 i3 i0.
(** [key] names such a quadrilateral. *)
Definition quad_in (root : prim R) (key : string) : Prop := exists q, get_child root key = Ok q /\ closed_quad q.

(** A numeric parameter. *)
Definition number (v : pyval R) (x : R) : Prop := num_of v = Some x /\ is_number v = true.
(** The history contains add_constraint(c, keys, params). *)
Definition asked (acts : list (action R)) (c : result (cons R)) (keys : list string) (params : list (pyval R)) : Prop :=
  exists c', c = Ok c' /\ In (c', keys, params) (LayoutSpec.added acts).

Record margins4 := { m_left : R; m_right : R; m_bottom : R; m_top : R }.
Definition margin (m : margins4) (side : string) : R :=
  if String.eqb side "left" then m_left m else if String.eqb side "right" then m_right m
  else if String.eqb side "bottom" then m_bottom m else m_top m.
(** The figure is asked to be a box of width [w] and height [h]. *)
Definition sized (acts : list (action R)) (fig : string) (w h : R) : Prop :=
  asked acts Box [fig] [] /\
  (exists v, number v w /\ asked acts crWidth [fig] [v]) /\ (exists v, number v h /\ asked acts crHeight [fig] [v]).
(** The frame of the axes [key] is asked to be a box with these inner margins in the figure. *)
Definition framed (acts : list (action R)) (fig key : string) (m : margins4) : Prop :=
  asked acts Box [(key ++ "/Frame")%string] [] /\
  forall side, In side ["left"; "right"; "bottom"; "top"]%string ->
    exists v, number v (margin m side) /\ asked acts (crInnerMargin side) [(key ++ "/Frame")%string; fig] [v].

(** matplotlib: the margins, in inches, that an axes placed at [rect] (fractions of the
    figure) has in a figure of [w] by [h] inches. *)
Definition inches (w h : R) (rect : R * R * R * R) : margins4 :=
  let '(x, y, a, b) := rect in
  {| m_left := x * w; m_right := (1 - (x + a)) * w; m_bottom := y * h; m_top := (1 - (y + b)) * h |}.
Definition near (e : R) (x y : R) : Prop := Rabs (x - y) <= e.
Definition near_margins (e : R) (m n : margins4) : Prop :=
  near e (m_left m) (m_left n) /\ near e (m_right m) (m_right n) /\ near e (m_bottom m) (m_bottom n) /\ near e (m_top m) (m_top n).
