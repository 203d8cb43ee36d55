(** Specification vocabulary for the matplotlib properties: the setter calls of a run,
    and where the figure, frames, labels and axes of a solved tree are. *)
From Coq Require Import Reals.
From Verif Require Export MplUtils GeomSpec.
Local Open Scope R_scope.

(** The calls of one kind, in order. *)
Definition sizes (t : list (mplcall R)) : list (R * R) :=
  flat_map (fun c => match c with SetSizeInches w h => [(w, h)] | _ => [] end) t.
Definition positions (t : list (mplcall R)) : list (string * (R * R * R * R)) :=
  flat_map (fun c => match c with SetPosition k x y w h => [(k, (x, y, w, h))] | _ => [] end) t.
Definition labels (t : list (mplcall R)) : list (string * string * (R * R)) :=
  flat_map (fun c => match c with SetLabelCoords k a x y => [(k, a, (x, y))] | _ => [] end) t.
Definition ticks (t : list (mplcall R)) : list (string * string * string) :=
  flat_map (fun c => match c with SetTicksPosition k a s => [(k, a, s)] | _ => [] end) t.
Definition added (t : list (mplcall R)) : list string :=
  flat_map (fun c => match c with AddAxes k => [k] | _ => [] end) t.
Definition figures (t : list (mplcall R)) : nat :=
  length (flat_map (fun c => match c with NewFigure => [tt] | _ => [] end) t).

(** The primitive called [key] in the tree is a box with edges [l b r t]. *)
Definition box_in (root : prim R) (key : string) (l b r t : R) : Prop :=
  exists q, get_child root key = Ok q /\ box_at q l b r t.
(** The primitive called [key] has a child [name] which is a box / a point / missing. *)
Definition part_box (root : prim R) (key name : string) (e : R * R * R * R) : Prop :=
  exists a q, get_child root key = Ok a /\ dget name (nch a) = Some q /\
    let '(l, b, r, t) := e in box_at q l b r t.
Definition part_point (root : prim R) (key name : string) (P : pt) : Prop :=
  exists a p, get_child root key = Ok a /\ dget name (nch a) = Some p /\ point_at p P.
Definition part_quad (root : prim R) (key name : string) : Prop :=
  exists a q v, get_child root key = Ok a /\ dget name (nch a) = Some q /\ quad_is q v.
Definition part_missing (root : prim R) (key name : string) : Prop :=
  exists a, get_child root key = Ok a /\ dget name (nch a) = None.

(** matplotlib: the point [(x, y)] in figure coordinates, for a figure box with lower
    left corner [(fl, fb)] and size [(w, h)], in the coordinates of the layout. *)
Definition shown (fl fb fr ft : R) (x y : R) : pt := (fl + x * (fr - fl), fb + y * (ft - fb)).
(** The rectangle handed to [set_position] covers exactly the box [l b r t]. *)
Definition covers (fl fb fr ft : R) (rect : R * R * R * R) (e : R * R * R * R) : Prop :=
  let '(x, y, w, h) := rect in let '(l, b, r, t) := e in
  shown fl fb fr ft x y = (l, b) /\ shown fl fb fr ft (x + w) (y + h) = (r, t).

Definition axis_names : list string := ["X"; "Y"].
