(** Model of [src/mpllayout/solver.py]. *)
From Verif Require Export Layout.

Section Solver.
  Context {F : Type} {N : Num F}.
  Notation prim := (prim F).

  (** [assem_constraint_residual], solver.py:253-284 *)
  Definition assem_constraint_residual (root : prim) (constraints : list (cls F))
             (graph : list (list string)) (params : list (list (pyval F)))
    : result (list (list F)) :=
    mapM (fun x : cls F * (list string * list (pyval F)) =>
            prims <- mapM (get_child root) (fst (snd x)) ;;
            assem1 (fst x) prims (snd (snd x)))
         (zip constraints (zip graph params)).

  (** The residual of a layout at a primitive tree: [jnp.concatenate] of the
      above (it raises on an empty list), solver.py:109-119. *)
  Definition layout_residual (l : layout F) (root : prim) : result (list F) :=
    let '(cs, ks, ps) := flat_constraints l in
    rs <- assem_constraint_residual root cs ks ps ;;
    match rs with
    | [] => Err ValueErr
    | _ => Ok (List.concat rs)
    end.

  (** [prim_idx_bounds], the initial global vector, and the slices of a global
      vector, solver.py:102-107,110-114 (and 190-202). *)
  Definition sizes_of (values : list (pv F)) : list nat :=
    map (fun v => length (vdata v)) values.
  Definition global_of (values : list (pv F)) : list F := List.concat (map vdata values).
  Definition slices (values : list (pv F)) (g : list F) : list (list F) :=
    let b := accum 0 (sizes_of values) in
    map (fun se => slice (fst se) (snd se) g) (zip (removelast b) (tl b)).

  (** Fresh arrays, one per slice ([np.array(...)], solver.py:151-154); the
      identities are the slice numbers. *)
  Definition fresh_values (chunks : list (list F)) : list (pv F) :=
    map (fun ic => {| vid := fst ic; vdata := snd ic |}) (zip (seq 0 (length chunks)) chunks).

  (** The tree for a global vector, solver.py:102-115,151-155 *)
  Definition tree_of_global (root : prim) (g : list F) : result prim :=
    let (graph, values) := filter_unique root in
    build_prim (flatten EmptyString root) graph (fresh_values (slices values g)).

  Definition initial_global (root : prim) : list F := global_of (snd (filter_unique root)).

  (** [assem_global_res], solver.py:109-119 *)
  Definition global_res (l : layout F) (g : list F) : result (list F) :=
    root <- tree_of_global (l_prim l) g ;; layout_residual l root.

  (** Floating-point error measures: finite, infinite, nan. *)
  Inductive ext := Fin (x : F) | PInf | NaN.
  (** [e > tol]: false for nan. *)
  Definition gtb (e : ext) (tol : F) : bool :=
    match e with Fin x => nltb tol x | PInf => true | NaN => false end.
  (** [abs_errs[-1] / abs_errs[0]] on numpy floats. *)
  Definition rel_of (a a0 : F) : ext :=
    match ndiv a a0 with
    | Ok r => Fin r
    | Err _ => if neqb a n0 then NaN else PInf
    end.

  Record newton_state := {
    ns_n : nat; ns_g : list F; ns_abs : list F; ns_rel : list ext;
    ns_abs_err : ext; ns_rel_err : ext
  }.

  (** One pass of the loop body, solver.py:131-147.  [step g res] stands for
      [np.linalg.lstsq(jac(g), -res)], where [jac] is jax's forward derivative. *)
  Definition newton_body (res : list F -> result (list F))
             (step : list F -> list F -> result (list F)) (s : newton_state)
    : result newton_state :=
    r <- res (ns_g s) ;;
    d <- step (ns_g s) r ;;
    g <- vadd (ns_g s) d ;;
    a <- norm r ;;
    let abs_errs := ns_abs s ++ [a] in
    let rel := rel_of a (hd a abs_errs) in
    Ok {| ns_n := ns_n s + 1; ns_g := g; ns_abs := abs_errs;
          ns_rel := ns_rel s ++ [rel]; ns_abs_err := Fin a; ns_rel_err := rel |}.

  (** The while loop, solver.py:127-147; [left] = [max_iter - n]. *)
  Fixpoint newton_loop (res : list F -> result (list F))
           (step : list F -> list F -> result (list F)) (abs_tol rel_tol : F)
           (left : nat) (s : newton_state) : result newton_state :=
    match left with
    | O => Ok s
    | S left' =>
        if gtb (ns_abs_err s) abs_tol && gtb (ns_rel_err s) rel_tol
        then s' <- newton_body res step s ;; newton_loop res step abs_tol rel_tol left' s'
        else Ok s
    end.

  Definition newton_init (g : list F) : newton_state :=
    {| ns_n := 0; ns_g := g; ns_abs := []; ns_rel := [];
       ns_abs_err := PInf; ns_rel_err := PInf |}.

  (** [solve_newton], solver.py:74-157 *)
  Definition solve_newton (step : list F -> list F -> result (list F)) (l : layout F)
             (abs_tol rel_tol : F) (max_iter : nat)
    : result (prim * (list F * list ext)) :=
    s <- newton_loop (global_res l) step abs_tol rel_tol max_iter
                     (newton_init (initial_global (l_prim l))) ;;
    root <- tree_of_global (l_prim l) (ns_g s) ;;
    Ok (root, (ns_abs s, ns_rel s)).

  (** [assem_objective], solver.py:197-207 *)
  Definition objective (l : layout F) (g : list F) : result F :=
    r <- global_res l g ;; Ok (nsum (map (fun x => nmul x x) r)).

  (** [MinHistory.callback], solver.py:209-223, over the sequence of intermediate
      results that [scipy.optimize.minimize] produces; StopIteration ends the
      sequence.  An item is (value of the objective, x).  Returns the histories
      and the last [x] seen. *)
  Fixpoint run_callback (abs_tol rel_tol : F) (its : list (F * list F))
           (abs_errs rel_errs : list F) (x : list F)
    : result (list F * list F * list F) :=
    match its with
    | [] => Ok (abs_errs, rel_errs, x)
    | (f, x') :: rest =>
        let abs_errs := abs_errs ++ [f] in
        rel <- ndiv f (hd f abs_errs) ;;
        let rel_errs := rel_errs ++ [rel] in
        if nltb rel rel_tol || nltb f abs_tol
        then Ok (abs_errs, rel_errs, x')
        else run_callback abs_tol rel_tol rest abs_errs rel_errs x'
    end.

  (** [solve_minimize], solver.py:160-250.  [minimizer obj x0 max_iter] stands for
      L-BFGS-B: the intermediate results, at most [max_iter] of them. *)
  Definition solve_minimize
             (minimizer : (list F -> result F) -> list F -> nat -> list (F * list F))
             (l : layout F) (abs_tol rel_tol : F) (max_iter : nat)
    : result (prim * (list F * list F)) :=
    let g0 := initial_global (l_prim l) in
    _ <- objective l g0 ;;
    '(abs_errs, rel_errs, x) <-
       run_callback abs_tol rel_tol (minimizer (objective l) g0 max_iter) [] [] g0 ;;
    root <- tree_of_global (l_prim l) x ;;
    Ok (root, (abs_errs, rel_errs)).

  (** [solve], solver.py:25-70 *)
  Definition solve (step : list F -> list F -> result (list F))
             (minimizer : (list F -> result F) -> list F -> nat -> list (F * list F))
             (l : layout F) (abs_tol rel_tol : F) (max_iter : nat) (method : string)
    : result (prim * (list F * list ext)) :=
    if String.eqb method "newton" then solve_newton step l abs_tol rel_tol max_iter
    else if String.eqb method "minimize" then
      '(p, (a, r)) <- solve_minimize minimizer l abs_tol rel_tol max_iter ;;
      Ok (p, (a, map Fin r))
    else Err ValueErr.
End Solver.
