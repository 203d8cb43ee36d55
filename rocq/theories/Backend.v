(** Model of the linear-algebra and differentiation calls of [src/mpllayout/solver.py]. *)
From Coq Require Import Reals.
From Verif Require Export Solver Inst.
Local Open Scope R_scope.

(** What jax and numpy provide: the vector of partial derivatives of a real function of a
    vector ([jax.jacfwd], one row per component, solver.py:121) and [np.linalg.lstsq] on a
    matrix given by its rows, with [n] columns (solver.py:134-136).  Both are arbitrary
    here; what they are trusted to do is [exact] in BackendSpec.v. *)
Record backend := {
  grad : (list R -> R) -> list R -> list R;
  lstsq : nat -> list (list R) -> list R -> result (list R)
}.
(** Entry [i] of the residual vector as a function of the global vector.  (Simplified: 0
    where the residual cannot be evaluated or has no such entry.) *)
Definition component (res : list R -> result (list R)) (i : nat) (g : list R) : R :=
  match res g with Ok r => nth i r 0 | Err _ => 0 end.
(** [assem_global_jac(global_param_n)], solver.py:121,132: [m] rows *)
Definition jacobian (bk : backend) (res : list R -> result (list R)) (m : nat) (g : list R) : list (list R) :=
  map (fun i => grad bk (component res i) g) (seq 0 m).
(** [np.linalg.lstsq(global_jac, -global_res, rcond=None)[0]], solver.py:134-136 *)
Definition lstsq_step (bk : backend) (res : list R -> result (list R)) (g r : list R) : result (list R) :=
  lstsq bk (length g) (jacobian bk res (length r) g) (map Ropp r).
(** [solve_newton] with this backend, solver.py:74-157 *)
Definition newton_solve (bk : backend) (l : layout R) := solve_newton (lstsq_step bk (global_res l)) l.
