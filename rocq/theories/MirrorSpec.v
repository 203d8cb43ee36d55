(** Mirroring primitives about a line through the origin. *)
From Coq Require Import Reals.
From Verif Require Export MoveSpec.
Local Open Scope R_scope.

(** A position mirrored about the line through the origin at half the angle with cosine [co]
    and sine [si]: about the x axis for 1, 0; about the y axis for -1, 0; about the diagonal
    (x and y exchanged) for 0, 1. *)
Definition mirrored (co si : R) (d : list R) : list R :=
  match d with [x; y] => [co * x + si * y; si * x - co * y] | _ => d end.
(** All positions of a tree mirrored. *)
Fixpoint mirror (co si : R) (p : prim R) : prim R :=
  match p with
  | Node t v ch => Node t {| vid := vid v; vdata := mirrored co si (vdata v) |} (map (fun kc => (fst kc, mirror co si (snd kc))) ch)
  end.
(** The constructions that measure neither along the axes nor to the left or right of a line. *)
Definition side_free_leaves : list (cons R) :=
  [Scalar; Length; PointOnLineDistance; RelativePointOnLineDistance; AspectRatio; Orthogonal].
(** What the transforms, operators and compound classes make of them. *)
Definition side_free : cons R -> Prop := expression side_free_leaves.
