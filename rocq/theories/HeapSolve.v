(** Model of [src/mpllayout/solver.py] with object identity: the layout to solve is made of
    objects, and every tree the solver builds is made of new ones.  Solver.v is the same
    code on trees; P_HeapSolve.v relates the two. *)
From Verif Require Export HeapLayout Solver.

Section HeapSolve.
  Context {F : Type} {N : Num F}.
  Notation pheap := (heap ptype (pv F)).

  (** [filter_unique_values_from_prim], primitives.py:583-618 *)
  Definition hfilter_unique (h : pheap) (r : nat) : result (dict nat * list (pv F)) :=
    l <- hiter_flat (length h) h EmptyString r ;;
    l <- mapM (fun kr => n <- glance h (snd kr) ;; Ok (fst kr, n)) l ;;
    let s := fold_left filter_step l {| fs_ids := []; fs_values := []; fs_map := [] |} in
    Ok (fs_map s, fs_values s).

  (** [build_prim_from_unique_values], primitives.py:620-648: the objects afterwards and
      the new root. *)
  Definition hbuild_prim (h : pheap) (flat : list (flat_struct ptype (pv F)))
             (prim_to_idx : dict nat) (values : list (pv F)) : result (pheap * nat) :=
    structs <- mapM (fun s : flat_struct ptype (pv F) =>
                 let '(key, t, _, child_keys) := s in
                 match dget key prim_to_idx with
                 | None => Err (KeyError key)
                 | Some i =>
                     match nth_error values i with
                     | None => Err IndexErr
                     | Some v => Ok (key, t, v, child_keys)
                     end
                 end) flat ;;
    '(h, r, _) <- hunflatten h structs ;;
    Ok (h, r).

  (** [assem_constraint_residual], solver.py:253-284: [root_prim[key]] finds an object; the
      residual reads the tree below it. *)
  Definition hassem_constraint_residual (h : pheap) (root : nat) (constraints : list (cls F))
             (graph : list (list string)) (params : list (list (pyval F)))
    : result (list (list F)) :=
    mapM (fun x : cls F * (list string * list (pyval F)) =>
            prims <- mapM (fun key => p <- hget_child h root key ;; tree_at h p) (fst (snd x)) ;;
            assem1 (fst x) prims (snd (snd x)))
         (zip constraints (zip graph params)).

  (** The variables the solver's functions close over, solver.py:102-107 (and 190-195). *)
  Record problem := {
    q_flat : list (flat_struct ptype (pv F));
    q_graph : dict nat; q_values : list (pv F);
    q_cons : list (cls F); q_keys : list (list string); q_params : list (list (pyval F))
  }.
  Definition hproblem (w : world F) (l : hlayout) : result problem :=
    flat <- hflatten (length (w_prims w)) (w_prims w) EmptyString (r_prim l) ;;
    '(graph, values) <- hfilter_unique (w_prims w) (r_prim l) ;;
    '(cs, ks, ps) <- hflat_constraints w l ;;
    Ok {| q_flat := flat; q_graph := graph; q_values := values;
          q_cons := cs; q_keys := ks; q_params := ps |}.

  (** A new tree for a global vector, solver.py:110-115,151-155 *)
  Definition hroot_of (q : problem) (h : pheap) (g : list F) : result (pheap * nat) :=
    hbuild_prim h (q_flat q) (q_graph q) (fresh_values (slices (q_values q) g)).

  (** [assem_global_res], solver.py:109-119: makes a tree of its own.  Simplification:
      every call makes one (under [jax.jit] only tracing calls do). *)
  Definition hglobal_res (q : problem) (h : pheap) (g : list F) : result (pheap * list F) :=
    '(h, root) <- hroot_of q h g ;;
    rs <- hassem_constraint_residual h root (q_cons q) (q_keys q) (q_params q) ;;
    match rs with
    | [] => Err ValueErr
    | _ => Ok (h, List.concat rs)
    end.

  (** One pass of the loop body, solver.py:131-147; as [newton_body]. *)
  Definition hnewton_body (q : problem) (step : list F -> list F -> result (list F))
             (h : pheap) (s : newton_state) : result (pheap * newton_state (F := F)) :=
    '(h, r) <- hglobal_res q h (ns_g s) ;;
    d <- step (ns_g s) r ;;
    g <- vadd (ns_g s) d ;;
    a <- norm r ;;
    let abs_errs := ns_abs s ++ [a] in
    let rel := rel_of a (hd a abs_errs) in
    Ok (h, {| ns_n := ns_n s + 1; ns_g := g; ns_abs := abs_errs;
              ns_rel := ns_rel s ++ [rel]; ns_abs_err := Fin a; ns_rel_err := rel |}).

  (** The while loop, solver.py:127-147; [left] = [max_iter - n]. *)
  Fixpoint hnewton_loop (q : problem) (step : list F -> list F -> result (list F))
           (abs_tol rel_tol : F) (left : nat) (h : pheap) (s : newton_state)
    : result (pheap * newton_state) :=
    match left with
    | O => Ok (h, s)
    | S left' =>
        if gtb (ns_abs_err s) abs_tol && gtb (ns_rel_err s) rel_tol
        then '(h, s') <- hnewton_body q step h s ;;
             hnewton_loop q step abs_tol rel_tol left' h s'
        else Ok (h, s)
    end.

  (** [solve_newton], solver.py:74-157: the objects afterwards, the root of the solved
      tree, the error histories. *)
  Definition hsolve_newton (step : list F -> list F -> result (list F)) (w : world F)
             (l : hlayout) (abs_tol rel_tol : F) (max_iter : nat)
    : result (world F * nat * (list F * list ext)) :=
    q <- hproblem w l ;;
    '(h, s) <- hnewton_loop q step abs_tol rel_tol max_iter (w_prims w)
                            (newton_init (global_of (q_values q))) ;;
    '(h, root) <- hroot_of q h (ns_g s) ;;
    Ok (set_w_prims w h, root, (ns_abs s, ns_rel s)).

  (** [assem_objective], solver.py:197-207, as a function of the global vector
      (simplification: the trees it makes for scipy are not kept track of; nothing refers
      to them after the call). *)
  Definition hobjective (q : problem) (h : pheap) (g : list F) : result F :=
    '(_, r) <- hglobal_res q h g ;; Ok (nsum (map (fun x => nmul x x) r)).

  (** [solve_minimize], solver.py:160-250 *)
  Definition hsolve_minimize
             (minimizer : (list F -> result F) -> list F -> nat -> list (F * list F))
             (w : world F) (l : hlayout) (abs_tol rel_tol : F) (max_iter : nat)
    : result (world F * nat * (list F * list F)) :=
    q <- hproblem w l ;;
    let g0 := global_of (q_values q) in
    let obj := hobjective q (w_prims w) in
    _ <- obj g0 ;;
    '(abs_errs, rel_errs, x) <- run_callback abs_tol rel_tol (minimizer obj g0 max_iter) [] [] g0 ;;
    '(h, root) <- hroot_of q (w_prims w) x ;;
    Ok (set_w_prims w h, root, (abs_errs, rel_errs)).

  (** [solve], solver.py:25-70 *)
  Definition hsolve (step : list F -> list F -> result (list F))
             (minimizer : (list F -> result F) -> list F -> nat -> list (F * list F))
             (w : world F) (l : hlayout) (abs_tol rel_tol : F) (max_iter : nat) (method : string)
    : result (world F * nat * (list F * list ext)) :=
    if String.eqb method "newton" then hsolve_newton step w l abs_tol rel_tol max_iter
    else if String.eqb method "minimize" then
      '(w, r, (a, b)) <- hsolve_minimize minimizer w l abs_tol rel_tol max_iter ;;
      Ok (w, r, (a, map Fin b))
    else Err ValueErr.
End HeapSolve.
