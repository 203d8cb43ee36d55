(** Vocabulary for the solver properties: tolerances, directional derivatives, affine
    residuals, and what the linear-algebra backend is trusted to do. *)
From Coq Require Import Reals.
From Verif Require Export Spec Solver Inst.
Local Open Scope R_scope.
Local Open Scope nat_scope.

(** An error measure is within a tolerance: not greater than it.  (In floating point nan
    is not greater than anything.) *)
Definition within {F} {N : Num F} (e : ext (F:=F)) (tol : F) : Prop :=
  match e with Fin x => nltb tol x = false | PInf => False | NaN => True end.

(** Two primitive trees of the same structure: the same keys in the same order, the same
    classes and vector sizes at every path, and the same sharing of arrays. *)
Definition same_structure {F} (p q : prim F) : Prop :=
  (forall k, option_map (fun n => (ntype n, nkeys n, length (vdata (nval n)))) (walk k p) =
             option_map (fun n => (ntype n, nkeys n, length (vdata (nval n)))) (walk k q)) /\
  (forall k1 k2 n1 n2 m1 m2, walk k1 p = Some n1 -> walk k2 p = Some n2 -> walk k1 q = Some m1 -> walk k2 q = Some m2 ->
     (vid (nval n1) = vid (nval n2) <-> vid (nval m1) = vid (nval m2))).
(** The same numbers at every path. *)
Definition same_numbers {F} (p q : prim F) : Prop :=
  forall k, option_map (fun n => vdata (nval n)) (walk k p) = option_map (fun n => vdata (nval n)) (walk k q).

(** The square root of the sum of squares. *)
Definition two_norm {F} {N : Num F} (r : list F) : result F := nsqrt (fold_right nadd n0 (map (fun x => nmul x x) r)).
(** [e] is the ratio of two error measures in floating point: the quotient, or nan for 0/0
    and infinity for other divisions by zero. *)
Definition ratio {F} {N : Num F} (a a0 : F) (e : ext (F:=F)) : Prop :=
  (forall q, ndiv a a0 = Ok q -> e = Fin q) /\
  ((forall q, ndiv a a0 <> Ok q) -> (neqb a n0 = true -> e = NaN) /\ (neqb a n0 = false -> e = PInf)).

(** The sum of two vectors. *)
Definition plus {F} {N : Num F} (g d : list F) : list F := map (fun xy => nadd (fst xy) (snd xy)) (zip g d).

(** A run of the iteration, as a sequence of primitive trees.  [ps] are the iterates,
    [ae] and [re] the reported errors, [initial_global p] the vector of all numbers in the
    tree [p] (each shared array once). *)
Record newton_run {F} {N : Num F} (step : list F -> list F -> result (list F)) (l : layout F)
       (abs_tol rel_tol : F) (max_iter : nat) (ps : list (prim F)) (ae : list F) (re : list (ext (F:=F))) : Prop := {
  (** it starts at the layout's primitives and keeps their structure; *)
  nr_start : exists p, nth_error ps 0 = Some p /\ same_numbers (l_prim l) p;
  nr_structure : Forall (same_structure (l_prim l)) ps;
  (** there is one error per step, and each step adds the backend's correction; *)
  nr_count : length ps = S (length ae) /\ length re = length ae;
  nr_step : forall k p p', nth_error ps k = Some p -> nth_error ps (S k) = Some p' ->
    exists r d, layout_residual l p = Ok r /\ step (initial_global p) r = Ok d /\
      length d = length (initial_global p) /\
      initial_global p' = plus (initial_global p) d;
  (** entry [k] is the 2-norm of the residual of iterate [k], and its ratio to entry 0; *)
  nr_abs : forall k a, nth_error ae k = Some a ->
    exists p r, nth_error ps k = Some p /\ layout_residual l p = Ok r /\ two_norm r = Ok a;
  nr_rel : forall k a a0, nth_error ae k = Some a -> nth_error ae 0 = Some a0 ->
    exists e, nth_error re k = Some e /\ ratio a a0 e;
  (** it stops at the limit or at the first entry within a tolerance. *)
  nr_limit : length ae <= max_iter;
  nr_on : forall k a e, S k < length ae -> nth_error ae k = Some a -> nth_error re k = Some e ->
    ~ within (Fin a) abs_tol /\ ~ within e rel_tol;
  nr_stop : length ae < max_iter -> exists k a e, length ae = S k /\ nth_error ae k = Some a /\ nth_error re k = Some e /\
    (within (Fin a) abs_tol \/ within e rel_tol)
}.

Local Open Scope R_scope.
(** The point at [s] between [a] (at 0) and [b] (at 1). *)
Definition mix (s : R) (a b : list R) : list R :=
  map (fun xy => (1 - s) * fst xy + s * snd xy) (zip a b).
(** [g + t d] *)
Definition shifted (g : list R) (t : R) (d : list R) : list R :=
  map (fun xy => fst xy + t * snd xy) (zip g d).

(** The derivative of [res] at [g] in the direction [d] is [v]: the product of the
    Jacobian matrix with [d]. *)
Definition directional (res : list R -> result (list R)) (g d v : list R) : Prop :=
  length d = length g /\
  exists eps (rs : R -> list R), 0 < eps /\
    (forall t, Rabs t < eps -> res (shifted g t d) = Ok (rs t) /\ length (rs t) = length v) /\
    (forall i, derivable_pt_lim (fun t => nth i (rs t) 0) 0 (nth i v 0)).

(** The backend, [np.linalg.lstsq(jac(g), -res(g))] in exact arithmetic, on vectors of [n]
    entries: if the linear system has a solution it returns one. *)
Definition solves_linear_systems (n : nat) (res : list R -> result (list R))
           (step : list R -> list R -> result (list R)) : Prop :=
  forall g r, length g = n -> res g = Ok r -> (exists d, directional res g d (map Ropp r)) ->
    exists d, step g r = Ok d /\ directional res g d (map Ropp r).

(** [res] is affine on vectors of [n] entries. *)
Definition affine (n : nat) (res : list R -> result (list R)) : Prop :=
  forall s g h, length g = n -> length h = n ->
    exists rg rh, res g = Ok rg /\ res h = Ok rh /\ length rg = length rh /\
      res (mix s g h) = Ok (mix s rg rh).

Definition zeros (r : list R) : Prop := Forall (fun x => x = 0) r.
