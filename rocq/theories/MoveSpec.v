(** Moving primitives. *)
From Coq Require Import Reals.
From Verif Require Export BackendSpec LayoutSpec ExprSpec Inst Cons.
Local Open Scope R_scope.

(** Every array of the tree is empty or a pair of numbers (a position). *)
Definition planar (p : prim R) : Prop :=
  Forall (fun m => vdata (nval m) = [] \/ exists x y, vdata (nval m) = [x; y]) (preorder p).
(** All positions of a tree moved by (a, b). *)
Definition displace (a b : R) (d : list R) : list R :=
  match d with [x; y] => [x + a; y + b] | _ => d end.
Fixpoint move (a b : R) (p : prim R) : prim R :=
  match p with
  | Node t v ch => Node t {| vid := vid v; vdata := displace a b (vdata v) |} (map (fun kc => (fst kc, move a b (snd kc))) ch)
  end.
(** The same calls with moved primitives. *)
Definition move_action (a b : R) (act : action R) : action R :=
  match act with
  | AddPrim p key => AddPrim (move a b p) key
  | AddPrims ps => AddPrims (map (fun kp => (fst kp, move a b (snd kp))) ps)
  | AddConstraint c ks ps key => AddConstraint c ks ps key
  end.
(** Gradients commute with translations of the argument. *)
Definition shift_gradients (bk : backend) (n : nat) : Prop :=
  forall f g e, length g = n -> length e = n -> grad bk f (shifted g 1 e) = grad bk (fun h => f (shifted h 1 e)) g.
(** A well-formed constraint made of the shipped constructions that do not refer to
    absolute positions. *)
Definition tidy_relative (c : cons R) : Prop := wf c /\ slashfree c /\ relative c.
(** The sums of the x and of the y coordinates in a vector of positions. *)
Fixpoint sum_x (g : list R) : R := match g with x :: _ :: r => x + sum_x r | _ => 0 end.
Fixpoint sum_y (g : list R) : R := match g with _ :: y :: r => y + sum_y r | _ => 0 end.
