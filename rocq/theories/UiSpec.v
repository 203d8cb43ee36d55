(** Specification vocabulary for the primitive plots (ui.py). *)
From Coq Require Import Reals.
From Verif Require Export Ui GeomSpec Spec.
Local Open Scope R_scope.

Definition opacity_of (d : drawn (F:=R)) : R :=
  match d with DPoint _ a _ _ => a | DLine _ a _ _ _ _ _ => a | DPolygon _ a _ _ _ => a end.

(** The opacity documented for a primitive with [h] levels below it and [d] levels
    above: from 1 at the top level down to 1/5 at the leaves. *)
Definition fade (h d : nat) : R :=
  if Nat.eqb (h + d) 0 then 1 else INR h / INR (h + d) + 1 / 5 * (1 - INR h / INR (h + d)).
(** The label: one dot per level, the last key; none below the deepest labelled level
    and for a top-level primitive with the empty key. *)
Definition label_of (deepest : nat) (path : list string) : option string :=
  if Nat.ltb deepest (length path - 1) || String.eqb (join path) EmptyString then None
  else Some (string_of_list_ascii (List.repeat "."%char (length path - 1)) ++ "/" ++ last path EmptyString)%string.

(** The node [n] at [path] in the tree is one to draw: no node above it (below the
    root) is a line. *)
Definition to_draw (root : prim R) (path : list string) (n : prim R) : Prop :=
  path <> [] /\ walk path root = Some n /\
  forall q r c, path = q ++ r -> q <> [] -> r <> [] -> walk q root = Some c -> ntype c <> TLine.

(** Degrees. *)
Definition rad (degrees : R) : R := degrees * PI / 180.
(** [theta] (in degrees) is the direction of [u]. *)
Definition direction (theta : R) (u : pt) : Prop := len u * cos (rad theta) = fst u /\ len u * sin (rad theta) = snd u.

(** A polygon with vertices [Ps]: side i starts at the i-th vertex. *)
Definition polygon_at (n : prim R) (Ps : list pt) : Prop :=
  (ntype n = TPolygon \/ ntype n = TQuad) /\ Ps <> [] /\ length (nch n) = length Ps /\
  forall i P, nth_error Ps i = Some P ->
    exists p, walk [("Line" ++ dec i)%string; "Point0"] n = Some p /\ point_at p P.
(** The angle written next to a line with direction [u]: that of the line, except that it
    is mirrored for lines pointing downwards (C68). *)
Definition label_angle (theta : R) (u : pt) : Prop :=
  0 <= theta <= 360 /\ (0 <= snd u -> direction theta u) /\ (snd u < 0 -> direction theta (- fst u, snd u)).
(** What is drawn for one primitive with the given label and opacity: a point; a line with
    its label at the middle, along it; nothing for a line of length zero; a polygon by its
    vertices, its label at the first one, its inside at a tenth of the opacity; nothing for a primitive that only groups others. *)
Inductive shown (label : option string) (a : R) : prim R -> list (drawn (F:=R)) -> Prop :=
| shown_point n P : point_at n P -> shown label a n [DPoint label a (fst P) (snd P)]
| shown_line n P Q theta : line_at n P Q -> P <> Q -> label_angle theta (vec P Q) ->
    shown label a n [DLine label a [fst P; fst Q] [snd P; snd Q] (fst (mid P Q)) (snd (mid P Q)) theta]
| shown_zero_line n P : line_at n P P -> shown label a n []
| shown_polygon n Ps : polygon_at n Ps ->
    shown label a n [DPolygon label a (1 / 10 * a) (match Ps with P :: _ => [fst P; snd P] | [] => [] end) (map (fun P => [fst P; snd P]) Ps)]
| shown_group n : (ntype n = TNode \/ ntype n = TPrimNode \/ ntype n = TAxes) -> shown label a n [].
(** A primitive of one of these kinds. *)
Definition drawable (n : prim R) : Prop :=
  (exists P, point_at n P) \/ (exists P Q, line_at n P Q) \/ (exists Ps, polygon_at n Ps) \/
  (ntype n = TNode \/ ntype n = TPrimNode \/ ntype n = TAxes).
(** [l] is [m] with some elements left out. *)
Inductive subseq {A} : list A -> list A -> Prop :=
| subseq_nil : subseq [] []
| subseq_keep x l m : subseq l m -> subseq (x :: l) (x :: m)
| subseq_drop x l m : subseq l m -> subseq l (x :: m).
