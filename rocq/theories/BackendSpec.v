(** What the backend is trusted to do: differentiate and solve least-squares problems, in
    exact arithmetic. *)
From Coq Require Import Reals.
From Verif Require Export Backend LsqSpec SolverSpec LayoutSpec ExprSpec AllocProofs HistWf.
Local Open Scope R_scope.

(** [g] with [t] added to its entry [j]. *)
Fixpoint bump (g : list R) (j : nat) (t : R) : list R :=
  match g, j with
  | [], _ => []
  | x :: g, O => x + t :: g
  | x :: g, S j => x :: bump g j t
  end.
(** Where [f] has a partial derivative, the gradient has it as its entry. *)
Definition exact_gradient (bk : backend) (n : nat) (f : list R -> R) : Prop :=
  forall g, length g = n -> length (grad bk f g) = n /\
    forall j v, (j < n)%nat -> derivable_pt_lim (fun t => f (bump g j t)) 0 v -> nth j (grad bk f g) 0 = v.
(** The gradient at a vector of [n] entries depends on the values at such vectors only. *)
Definition same_gradients (bk : backend) (n : nat) : Prop :=
  forall f f' g, length g = n -> (forall h, length h = n -> f h = f' h) -> grad bk f g = grad bk f' g.
(** [lstsq] returns the minimum-norm least-squares solution. *)
Definition exact_lstsq (bk : backend) : Prop :=
  forall n A b, Forall (fun row => length row = n) A -> length b = length A ->
    exists d, lstsq bk n A b = Ok d /\ least n A b d.
Definition exact (bk : backend) (n : nat) (res : list R -> result (list R)) : Prop :=
  exact_lstsq bk /\ forall i, exact_gradient bk n (component res i).
(** The same on the residual of a layout. *)
Definition exact_on (bk : backend) (l : layout R) : Prop :=
  exact bk (length (initial_global (l_prim l))) (global_res l).
(** The distance (squared) between two vectors of numbers. *)
Definition distance2 (g h : list R) : R := sumsq (minus g h).

(** [l] is the outcome of calls on an empty layout (failing ones included) of well-formed
    primitives with arrays of one store, and of constraints with the property [P]. *)
Definition reached (P : cons R -> Prop) (l : layout R) : Prop :=
  exists rid (acts : list (action R)) (L : list (pv R)) (n : nat),
    l = after (empty_layout rid) acts /\ pool L n /\ In {| vid := rid; vdata := [] |} L /\
    Forall (fun a => Forall (drawn L) (given_prims a) /\ Forall P (given_cons a)) acts.
(** A well-formed constraint made of the shipped constructions. *)
Definition tidy_expression (c : cons R) : Prop := wf c /\ slashfree c /\ expressible c.
(** [l] is the outcome of successful calls [acts] on an empty layout, with primitives as
    above and shipped constraints (with parameters of the documented form) under keys
    without '/'. *)
Definition shipped_layout (acts : list (action R)) (l : layout R) : Prop :=
  exists rid tw (L : list (pv R)) n, runs (empty_layout rid) acts l /\ Forall (shipped_act tw) acts /\ Forall top_key acts /\
    pool L n /\ In {| vid := rid; vdata := [] |} L /\ Forall (fun a => Forall (drawn L) (given_prims a)) acts.
