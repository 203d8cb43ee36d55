(** Changing the unit of length. *)
From Coq Require Import Reals.
From Verif Require Export MplUtils Inst.
Local Open Scope R_scope.

(** All coordinates of a tree multiplied by k. *)
Fixpoint scale (k : R) (p : prim R) : prim R :=
  match p with
  | Node t v ch => Node t {| vid := vid v; vdata := map (Rmult k) (vdata v) |} (map (fun kc => (fst kc, scale k (snd kc))) ch)
  end.
(** The same drawing, k times the size: sizes in inches are multiplied; positions, label
    coordinates (fractions of the figure or axes) and tick sides are the same. *)
Definition scale_call (k : R) (c : mplcall R) : mplcall R :=
  match c with
  | SetSizeInches w h => SetSizeInches (k * w) (k * h)
  | _ => c
  end.
Definition scale_drawing {A} (k : R) (d : list (mplcall R) * result A) : list (mplcall R) * result A :=
  (map (scale_call k) (fst d), snd d).
