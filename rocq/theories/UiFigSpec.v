(** Specification vocabulary for the colours of a figure. *)
From Coq Require Import Reals.
From Verif Require Export UiFig UiSpec.
Local Open Scope R_scope.

(** The items drawn, without colours. *)
Definition items {C} (calls : list (figcall R C)) : list (drawn (F:=R)) :=
  flat_map (fun c => match c with Draw _ d => [d] | _ => [] end) calls.
(** The calls that do not draw a primitive. *)
Definition decorations {C} (calls : list (figcall R C)) : list (figcall R C) :=
  filter (fun c => match c with Draw _ _ => false | _ => true end) calls.
(** Colour maps of matplotlib are tables of 256 colours, indexed by the integer part. *)
Definition table {C} (colors : Z -> C) (x : R) : C := colors (Int_part (256 * x)).
