(** A figure of given height and aspect ratio: the program. *)
From Coq Require Import Reals.
From Verif Require Export AspectSpec.
Local Open Scope R_scope.

(** The program: a default quadrilateral, a Box, of height [H] and aspect ratio [k]. *)
Definition tall_program (H k : R) : list (action R) :=
  [AddPrim readme_quad "Figure";
   AddConstraint (ok_cons Box) ["Figure"%string] [] "";
   AddConstraint (ok_cons crHeight) ["Figure"%string] [PFlt H] "";
   AddConstraint (ok_cons crAspectRatio) ["Figure"%string] [PFlt k] ""].
Definition tall_layout (H k : R) : layout := after (empty_layout 0) (tall_program H k).
(** 1 or -1. *)
Definition sign (x : R) : R := if Rlt_dec x 0 then -1 else 1.
