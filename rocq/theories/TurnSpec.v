(** Turning primitives about the origin. *)
From Coq Require Import Reals.
From Verif Require Export MoveSpec.
Local Open Scope R_scope.

(** A position turned by the angle with cosine [co] and sine [si]. *)
Definition turned (co si : R) (d : list R) : list R :=
  match d with [x; y] => [co * x - si * y; si * x + co * y] | _ => d end.
(** All positions of a tree turned. *)
Fixpoint turn (co si : R) (p : prim R) : prim R :=
  match p with
  | Node t v ch => Node t {| vid := vid v; vdata := turned co si (vdata v) |} (map (fun kc => (fst kc, turn co si (snd kc))) ch)
  end.
(** The constructions that measure lengths and angles between lines, not along the axes. *)
Definition free_leaves : list (cons R) :=
  [Scalar; Length; PointOnLineDistance; PointToLineDistance; RelativePointOnLineDistance; AspectRatio; Orthogonal; Parallel; Collinear].
(** What the transforms, operators and compound classes make of them. *)
Definition orientation_free : cons R -> Prop := expression free_leaves.
