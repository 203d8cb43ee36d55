(** A figure of given width and aspect ratio: the program, and the heights that Newton's
    method goes through. *)
From Coq Require Import Reals.
From Verif Require Export StationSpec GeomSpec MplSpec P_End.
Local Open Scope R_scope.

(** The program: a default quadrilateral, a Box, of width [W] and aspect ratio [k]. *)
Definition aspect_program (W k : R) : list (action R) :=
  [AddPrim readme_quad "Figure";
   AddConstraint (ok_cons Box) ["Figure"%string] [] "";
   AddConstraint (ok_cons crWidth) ["Figure"%string] [PFlt W] "";
   AddConstraint (ok_cons crAspectRatio) ["Figure"%string] [PFlt k] ""].
Definition aspect_layout (W k : R) : layout := after (empty_layout 0) (aspect_program W k).
(** The height after [S j] iterations. *)
Fixpoint height (W k : R) (j : nat) : R :=
  match j with
  | O => W + 1 - k
  | S j => height W k j * (2 - k * Rabs (height W k j) / W)
  end.
(** [p] has a box "Figure" of width [w] and (signed) height [h]. *)
Definition figure_is (p : prim) (w h : R) : Prop :=
  exists q x y, get_child p "Figure" = Ok q /\ box_at q x y (x + w) (y + h).
