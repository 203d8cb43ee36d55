(** Solving with objects (proofs only). *)
From Verif Require Export P_HeapLayout HeapSolve HeapLater HeapHist.
From Verif Require Export HeapLayoutSpec SolverProofs PrimProofs.

Local Open Scope nat_scope.
Local Open Scope list_scope.
Section HS.
  Context {F : Type} {N : Num F}.
  Notation pheap := (heap ptype (pv F)).
  Notation prim := (prim F).

  Lemma filter_fold (l m : list (string * prim)) : Forall2 (fun a b => fst a = fst b /\ nval (snd a) = nval (snd b)) l m ->
    forall s, fold_left filter_step l s = fold_left filter_step m s.
  Proof.
    intros H. induction H as [|a b l m [E1 E2] H IH]; intros s; [reflexivity|]. cbn [fold_left]. rewrite <- IH. f_equal.
    unfold filter_step. now rewrite E1, E2.
  Qed.
  Lemma hfilter_same (h : pheap) r t : dicts h -> shows h r t -> hfilter_unique h r = Ok (filter_unique t).
  Proof.
    intros D S. unfold hfilter_unique, filter_unique.
    destruct (hiter_flat_shows h (length h) t r EmptyString S (height_bound _ _ _ D S)) as (l & -> & Fl). cbn [bind].
    destruct (mapM_F2 (fun kr => n <- glance h (snd kr) ;; Ok (fst kr, n)) _
       (fun (a b : string * prim) => fst a = fst b /\ nval (snd a) = nval (snd b)) _ _ Fl) as (m & -> & Fm).
    { intros x y _ _ [E Sx]. rewrite (glance_shows _ _ _ Sx). cbn [bind]. eexists. split; [reflexivity|]. cbn. auto. }
    cbn [bind]. now rewrite (filter_fold _ _ Fm).
  Qed.

  Definition problem_of (L : layout F) : problem :=
    {| q_flat := flatten EmptyString (l_prim L); q_graph := fst (filter_unique (l_prim L)); q_values := snd (filter_unique (l_prim L));
       q_cons := fst (fst (flat_constraints L)); q_keys := snd (fst (flat_constraints L)); q_params := snd (flat_constraints L) |}.
  Lemma hproblem_same (w : world F) l (L : layout F) : all_dicts w -> shows_layout w l L -> hproblem w l = Ok (problem_of L).
  Proof.
    intros D S. unfold hproblem. pose proof D as (D1 & _). pose proof S as (S1 & _).
    rewrite (hflatten_shows _ _ _ _ EmptyString S1 (height_bound _ _ _ D1 S1)). cbn [bind].
    rewrite (hfilter_same _ _ _ D1 S1), (flat_same w l L D S). cbn [bind]. unfold problem_of.
    destruct (filter_unique (l_prim L)), (flat_constraints L) as [[? ?] ?]. reflexivity.
  Qed.

  Lemma hbuild_same (root : prim) values (h : pheap) : wf root -> slashfree root -> length values = length (snd (filter_unique root)) ->
    exists new r, hbuild_prim h (flatten EmptyString root) (fst (filter_unique root)) values = Ok (h ++ new, r) /\
      fresh_tree h (h ++ new) r (rebuilt root values).
  Proof.
    intros Hw Hs Hl. pose proof (build_spec root values Hw Hs Hl) as B. unfold build_prim in B. unfold hbuild_prim.
    match type of B with bind ?m _ = _ => destruct m as [structs|] eqn:E end; [|discriminate]. cbn [bind] in *.
    assert (Sk : map nokey structs = map skel (preorder (rebuilt root values))).
    { set (g := fun n : prim => (ntype n, match pos (vid (nval n)) (snd (filter_unique root)) with
                    | Some i => nth i values (nval n) | None => nval n end)).
      assert (G : rebuilt root values = tmap g root) by reflexivity. rewrite G, <- (iter_flat_preorder (tmap g root) EmptyString), map_map.
      assert (Hm : structs = map (fun kn : string * prim => (fst kn, fst (g (snd kn)), snd (g (snd kn)), nkeys (snd kn))) (iter_flat EmptyString root)).
      { cut (Ok structs = Ok (map (fun kn : string * prim => (fst kn, fst (g (snd kn)), snd (g (snd kn)), nkeys (snd kn))) (iter_flat EmptyString root))); [now intros [=]|].
        rewrite <- E, <- mapM_Ok_map. unfold flatten. rewrite mapM_map. apply mapM_ext. intros [k n] Hin. cbn [fst snd].
        rewrite (filter_map_pos root Hw Hs k n Hin).
        destruct (pos_unique root Hw Hs (nval n)) as (i & Hi & Hlt).
        { rewrite <- (node_values_flat root EmptyString). apply in_map_iff. eexists; split; [|exact Hin]. reflexivity. }
        unfold g. cbn [fst snd]. rewrite Hi. rewrite (nth_error_nth' values (nval n)) by lia. reflexivity. }
      rewrite Hm, map_map.
      pose proof (tmap_preorder g root) as P. rewrite <- (iter_flat_preorder root EmptyString), <- (iter_flat_preorder (tmap g root) EmptyString), !map_map in P.
      etransitivity; [|symmetry; etransitivity; [|exact P]]; apply map_ext; reflexivity. }
    destruct (hunflatten_spec (rebuilt root values) h structs [] (tmap_wf _ _ Hw) Sk) as (new & r & E2 & Fr). rewrite app_nil_r in E2.
    rewrite E2. cbn [bind]. eauto.
  Qed.

  Lemma hroot_same (L : layout F) (h : pheap) g : wf (l_prim L) -> slashfree (l_prim L) -> dicts h ->
    exists new r, hroot_of (problem_of L) h g = Ok (h ++ new, r) /\ tree_of_global (l_prim L) g = Ok (new_tree (l_prim L) g) /\
      fresh_tree h (h ++ new) r (new_tree (l_prim L) g) /\ dicts (h ++ new).
  Proof.
    intros Hw Hs D. destruct (hbuild_same (l_prim L) (fresh_values (slices (snd (filter_unique (l_prim L))) g)) h Hw Hs) as (new & r & E & Fr);
      [now rewrite fresh_length, slices_length|].
    exists new, r. unfold hroot_of, problem_of. cbn [q_flat q_graph q_values]. split; [exact E|]. split; [now apply tree_of_global_ok|]. split; [exact Fr|].
    unfold hbuild_prim in E. match type of E with bind ?m _ = _ => destruct m as [structs|] end; [|discriminate]. cbn [bind] in E.
    unfold hunflatten in E. match type of E with bind ?m _ = _ => destruct m as [[[h1 r1] rest]|] eqn:E1 end; [|discriminate]. cbn [bind] in E.
    injection E as -> _. eapply hunflatten_f_dicts; [exact D|exact E1].
  Qed.

  Lemma hassem_same (h : pheap) r t cs ks ps : dicts h -> shows h r t ->
    hassem_constraint_residual h r cs ks ps = assem_constraint_residual t cs ks ps.
  Proof.
    intros D S. unfold hassem_constraint_residual, assem_constraint_residual. apply mapM_ext. intros [c [k p]] _. cbn [fst snd].
    f_equal. apply mapM_ext. intros key _. pose proof (hget_child_shows h r t key S) as H.
    destruct (get_child t key) as [n|e].
    - destruct H as (x & -> & Sx). cbn [bind]. now apply tree_at_shows.
    - now rewrite H.
  Qed.

  Lemma hglobal_same (L : layout F) (h : pheap) g : wf (l_prim L) -> slashfree (l_prim L) -> dicts h ->
    match global_res L g with
    | Err e => hglobal_res (problem_of L) h g = Err e
    | Ok r => exists new, hglobal_res (problem_of L) h g = Ok (h ++ new, r) /\ dicts (h ++ new)
    end.
  Proof.
    intros Hw Hs D. unfold global_res, hglobal_res, layout_residual. destruct (hroot_same L h g Hw Hs D) as (new & r & -> & -> & (S & _) & D').
    cbn [bind]. rewrite (hassem_same _ _ _ _ _ _ D' S). unfold problem_of. cbn [q_cons q_keys q_params].
    destruct (flat_constraints L) as [[cs ks] ps]. cbn [fst snd].
    destruct (assem_constraint_residual _ cs ks ps) as [rs|e]; [|reflexivity]. cbn [bind]. destruct rs; [reflexivity|]. eauto.
  Qed.

  Lemma hbody_same (L : layout F) step (h : pheap) s : wf (l_prim L) -> slashfree (l_prim L) -> dicts h ->
    match newton_body (global_res L) step s with
    | Err e => hnewton_body (problem_of L) step h s = Err e
    | Ok s' => exists new, hnewton_body (problem_of L) step h s = Ok (h ++ new, s') /\ dicts (h ++ new)
    end.
  Proof.
    intros Hw Hs D. unfold newton_body, hnewton_body. pose proof (hglobal_same L h (ns_g s) Hw Hs D) as H.
    destruct (global_res L (ns_g s)) as [r|e]; [|now rewrite H]. destruct H as (new & -> & D'). cbn [bind].
    destruct (step (ns_g s) r) as [d|e]; [|reflexivity]. cbn [bind].
    destruct (vadd (ns_g s) d) as [g|e]; [|reflexivity]. cbn [bind].
    destruct (norm r) as [a|e]; [|reflexivity]. cbn [bind]. eauto.
  Qed.

  Lemma hloop_same (L : layout F) step at' rt : wf (l_prim L) -> slashfree (l_prim L) -> forall left (h : pheap) s, dicts h ->
    match newton_loop (global_res L) step at' rt left s with
    | Err e => hnewton_loop (problem_of L) step at' rt left h s = Err e
    | Ok s' => exists new, hnewton_loop (problem_of L) step at' rt left h s = Ok (h ++ new, s') /\ dicts (h ++ new)
    end.
  Proof.
    intros Hw Hs. induction left as [|left IH]; intros h s D; cbn [newton_loop hnewton_loop].
    - exists []. now rewrite app_nil_r.
    - destruct (gtb (ns_abs_err s) at' && gtb (ns_rel_err s) rt).
      2:{ exists []. now rewrite app_nil_r. }
      pose proof (hbody_same L step h s Hw Hs D) as H. destruct (newton_body (global_res L) step s) as [s'|e]; [|now rewrite H].
      destruct H as (new & -> & D'). cbn [bind]. specialize (IH (h ++ new) s' D').
      destruct (newton_loop (global_res L) step at' rt left s') as [s2|e]; [|exact IH].
      destruct IH as (new2 & E & D2). exists (new ++ new2). rewrite app_assoc. auto.
  Qed.

  (** What a successful solve leaves behind. *)
  Definition solved_in (w w' : world F) (r : nat) (p : prim) : Prop :=
    exists h1 new, w' = set_w_prims w ((w_prims w ++ h1) ++ new) /\ dicts ((w_prims w ++ h1) ++ new) /\ fresh_tree (w_prims w ++ h1) ((w_prims w ++ h1) ++ new) r p.

  Lemma hnewton_same (w : world F) l (L : layout F) step at' rt n : all_dicts w -> shows_layout w l L -> slashfree (l_prim L) ->
    match solve_newton step L at' rt n with
    | Err e => hsolve_newton step w l at' rt n = Err e
    | Ok (p, info) => exists w' r, hsolve_newton step w l at' rt n = Ok (w', r, info) /\ solved_in w w' r p
    end.
  Proof.
    intros D S Hs. pose proof D as (D1 & _). pose proof S as (S1 & _). pose proof (shows_wf _ _ _ D1 S1) as Hw.
    unfold solve_newton, hsolve_newton. rewrite (hproblem_same w l L D S). cbn [bind]. unfold initial_global.
    pose proof (hloop_same L step at' rt Hw Hs n (w_prims w) (newton_init (global_of (snd (filter_unique (l_prim L))))) D1) as H.
    change (q_values (problem_of L)) with (snd (filter_unique (l_prim L))).
    destruct (newton_loop (global_res L) step at' rt n _) as [s|e]; [|now rewrite H]. destruct H as (h1 & -> & D2). cbn [bind].
    destruct (hroot_same L (w_prims w ++ h1) (ns_g s) Hw Hs D2) as (new & r & -> & -> & Fr & D3). cbn [bind].
    eexists _, r. split; [reflexivity|]. exists h1, new. auto.
  Qed.

  Lemma hminimize_same (w : world F) l (L : layout F) (mi : (list F -> result F) -> list F -> nat -> list (F * list F)) at' rt n :
    (forall f f' x k, (forall g, f g = f' g) -> mi f x k = mi f' x k) ->
    all_dicts w -> shows_layout w l L -> slashfree (l_prim L) ->
    match solve_minimize mi L at' rt n with
    | Err e => hsolve_minimize mi w l at' rt n = Err e
    | Ok (p, info) => exists w' r, hsolve_minimize mi w l at' rt n = Ok (w', r, info) /\ solved_in w w' r p
    end.
  Proof.
    intros Hm D S Hs. pose proof D as (D1 & _). pose proof S as (S1 & _). pose proof (shows_wf _ _ _ D1 S1) as Hw.
    unfold solve_minimize, hsolve_minimize. rewrite (hproblem_same w l L D S). cbn [bind]. unfold initial_global.
    change (q_values (problem_of L)) with (snd (filter_unique (l_prim L))).
    assert (Ho : forall g, hobjective (problem_of L) (w_prims w) g = objective L g).
    { intros g. unfold hobjective, objective. pose proof (hglobal_same L (w_prims w) g Hw Hs D1) as H.
      destruct (global_res L g) as [r|e]; [|now rewrite H]. destruct H as (new & -> & _). reflexivity. }
    set (g0 := global_of (snd (filter_unique (l_prim L)))). rewrite Ho. destruct (objective L g0) as [o|e]; [|reflexivity]. cbn [bind].
    rewrite (Hm _ (objective L) g0 n Ho).
    destruct (run_callback at' rt (mi (objective L) g0 n) [] [] g0) as [[[ae re] x]|e]; [|reflexivity]. cbn [bind].
    destruct (hroot_same L (w_prims w) x Hw Hs D1) as (new & r & -> & -> & Fr & D3). cbn [bind].
    eexists _, r. split; [reflexivity|]. exists [], new. rewrite app_nil_r. auto.
  Qed.

  Lemma hsolve_same (w : world F) l (L : layout F) step (mi : (list F -> result F) -> list F -> nat -> list (F * list F)) at' rt n method :
    (forall f f' x k, (forall g, f g = f' g) -> mi f x k = mi f' x k) ->
    all_dicts w -> shows_layout w l L -> slashfree (l_prim L) ->
    match solve step mi L at' rt n method with
    | Err e => hsolve step mi w l at' rt n method = Err e
    | Ok (p, info) => exists w' r, hsolve step mi w l at' rt n method = Ok (w', r, info) /\ solved_in w w' r p
    end.
  Proof.
    intros Hm D S Hs. unfold solve, hsolve. destruct (String.eqb method "newton"); [now apply hnewton_same|].
    destruct (String.eqb method "minimize"); [|reflexivity].
    pose proof (hminimize_same w l L mi at' rt n Hm D S Hs) as H. destruct (solve_minimize mi L at' rt n) as [[p [a b]]|e]; [|now rewrite H].
    destruct H as (w' & r & -> & H). cbn [bind]. eauto.
  Qed.

  Lemma solved_facts w w' r p : all_dicts w -> solved_in w w' r p ->
    extends (w_prims w) (w_prims w') /\ w_cons w' = w_cons w /\ w_keys w' = w_keys w /\ w_params w' = w_params w /\
    shows (w_prims w') r p /\ (forall x, HeapSpec.holds (w_prims w') r x -> length (w_prims w) <= x) /\ unshared (w_prims w') r /\ all_dicts w'.
  Proof.
    intros (_ & D2 & D3 & D4) (h1 & new & -> & D & S & B & U). cbn [set_w_prims w_prims w_cons w_keys w_params].
    split; [exists (h1 ++ new); now rewrite app_assoc|]. do 3 (split; [reflexivity|]). split; [exact S|].
    split; [intros x [p' Hp]; apply B in Hp; rewrite app_length in Hp; lia|]. split; [exact U|]. split; [exact D|auto].
  Qed.
End HS.
