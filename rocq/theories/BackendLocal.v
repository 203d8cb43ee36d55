(** Arrays that no constraint refers to do not take part in a solve. *)
From Coq Require Import Reals Lra.
From Verif Require Export BackendAffine P_Expr EndProofs.
Local Open Scope R_scope.
Local Open Scope nat_scope.

(** ** Blocks of a vector *)
Fixpoint block (sizes : list nat) (u j : nat) : Prop :=
  match sizes, u with
  | [], _ => False
  | s :: _, O => j < s
  | s :: r, S u => s <= j /\ block r u (j - s)
  end.
Lemma block_disjoint sizes : forall i u j, block sizes i j -> block sizes u j -> i = u.
Proof.
  induction sizes as [|s r IH]; intros i u j Hi Hu; [contradiction|]. destruct i as [|i], u as [|u]; cbn in Hi, Hu; [reflexivity|lia|lia|]. f_equal. now apply (IH i u (j - s)).
Qed.
Lemma firstn_bump s : forall g j t, s <= j -> firstn s (bump g j t) = firstn s g.
Proof. induction s as [|s IH]; intros g j t H; [reflexivity|]. destruct g as [|x g]; [destruct j; reflexivity|]. destruct j as [|j]; [lia|]. cbn. f_equal. apply IH. lia. Qed.
Lemma skipn_bump_lt s : forall g j t, j < s -> skipn s (bump g j t) = skipn s g.
Proof. induction s as [|s IH]; intros g j t H; [lia|]. destruct g as [|x g]; [destruct j; reflexivity|]. destruct j as [|j]; [reflexivity|]. cbn. apply IH. lia. Qed.
Lemma skipn_bump_ge s : forall g j t, s <= j -> skipn s (bump g j t) = bump (skipn s g) (j - s) t.
Proof. induction s as [|s IH]; intros g j t H; [cbn; now rewrite Nat.sub_0_r|]. destruct g as [|x g]; [destruct j; cbn; try destruct (j - s); reflexivity|]. destruct j as [|j]; [lia|]. cbn. apply IH. lia. Qed.
Lemma cut_bump sizes : forall g i j t, ~ block sizes i j -> nth_error (cut (bump g j t) sizes) i = nth_error (cut g sizes) i.
Proof.
  induction sizes as [|s r IH]; intros g i j t H; [destruct i; reflexivity|]. destruct i as [|i]; cbn in H |- *.
  - f_equal. apply firstn_bump. lia.
  - destruct (Nat.lt_ge_cases j s) as [Hj|Hj]; [now rewrite skipn_bump_lt|]. rewrite skipn_bump_ge by exact Hj. apply IH. tauto.
Qed.
Lemma nth_skipn_ s : forall (g : list R) j, nth j (skipn s g) 0%R = nth (s + j) g 0%R.
Proof. induction s as [|s IH]; intros g j; [reflexivity|]. destruct g as [|x g]; [destruct j; reflexivity|]. cbn. apply IH. Qed.
Lemma firstn_agree s : forall g g' : list R, length g = length g' -> (forall j, j < s -> nth j g 0%R = nth j g' 0%R) -> firstn s g = firstn s g'.
Proof.
  induction s as [|s IH]; intros [|x g] [|y g'] L H; try discriminate; try reflexivity. cbn. f_equal; [apply (H 0); lia|]. apply IH; [now injection L|]. intros j Hj. apply (H (S j)). lia.
Qed.
Lemma cut_block sizes : forall g g' u, length g = length g' -> (forall j, block sizes u j -> nth j g 0%R = nth j g' 0%R) -> nth_error (cut g sizes) u = nth_error (cut g' sizes) u.
Proof.
  induction sizes as [|s r IH]; intros g g' u L H; [destruct u; reflexivity|]. destruct u as [|u]; cbn.
  - f_equal. apply firstn_agree; [exact L|]. intros j Hj. now apply H.
  - apply IH; [rewrite !skipn_length; lia|]. intros j Hj. rewrite !nth_skipn_. apply H. cbn. replace (s + j - s) with j by lia. split; [lia|exact Hj].
Qed.
Lemma block_lt sizes : forall u j, block sizes u j -> j < fold_right Nat.add 0 sizes.
Proof. induction sizes as [|s r IH]; intros [|u] j H; cbn in *; try contradiction; [lia|]. destruct H as [H1 H2]. apply IH in H2. lia. Qed.

Lemma walk_wf {T A} path : forall (n m : node T A), wf n -> walk path n = Some m -> wf m.
Proof.
  induction path as [|k path IH]; intros n m Hw E; cbn in E; [congruence|]. destruct (dget k (nch n)) as [c|] eqn:D; [|discriminate]. apply (IH c); [|exact E].
  destruct n as [t v ch]. apply wf_children in Hw as [_ Hf]. rewrite Forall_forall in Hf. apply dget_In in D. exact (Hf _ D).
Qed.
Lemma get_wf {T A} (n m : node T A) key : get_child n key = Ok m -> wf n -> wf m.
Proof. rewrite get_child_walk. destruct (walk (split_all key) n) as [m'|] eqn:W; [|discriminate]. intros E Hw. injection E as <-. eapply walk_wf; eassumption. Qed.

(** ** Trees *)
(** The array [v] of the tree and the block of the vector that holds its numbers. *)
Definition in_block (root : prim) (v : pv R) (j : nat) : Prop :=
  exists u, pos (vid v) (snd (filter_unique root)) = Some u /\ block (sizes_of (snd (filter_unique root))) u j.
Lemma renew_bump root g v w j t : wf root -> slashfree root -> In v (node_values root) -> In w (node_values root) -> vid w <> vid v -> in_block root v j ->
  vdata (renew root (bump g j t) w) = vdata (renew root g w).
Proof.
  intros Hw Hs Hv Hin Hne (u & Hu & Hb). destruct (new_value root g Hw Hs w Hin) as (i & c & Hp & Hc & E). destruct (new_value root (bump g j t) Hw Hs w Hin) as (i' & c' & Hp' & Hc' & E').
  rewrite Hp in Hp'. injection Hp' as <-. unfold renew. rewrite Hp, E, E'. cbn [vdata].
  unfold slices in Hc, Hc'. rewrite chunk_cut in Hc, Hc'. rewrite cut_bump in Hc'; [congruence|]. intros Hbi. pose proof (block_disjoint _ _ _ _ Hbi Hb) as ->.
  apply pos_Some in Hu as (x & Hx & Ex). apply pos_Some in Hp as (y & Hy & Ey). congruence.
Qed.
Lemma renew_block root g g' v : wf root -> slashfree root -> In v (node_values root) -> length g = length g' ->
  (forall j, in_block root v j -> nth j g 0%R = nth j g' 0%R) -> vdata (renew root g v) = vdata (renew root g' v).
Proof.
  intros Hw Hs Hv L H. destruct (new_value root g Hw Hs v Hv) as (i & c & Hp & Hc & E). destruct (new_value root g' Hw Hs v Hv) as (i' & c' & Hp' & Hc' & E').
  rewrite Hp in Hp'. injection Hp' as <-. unfold renew. rewrite Hp, E, E'. cbn [vdata]. unfold slices in Hc, Hc'. rewrite chunk_cut in Hc, Hc'.
  rewrite (cut_block _ g g' i L) in Hc; [congruence|]. intros j Hj. apply H. exists i. auto.
Qed.

(** ** Residuals *)
Definition untouched (root : prim) (ks : list string) (v : pv R) : Prop :=
  forall key q w, In key ks -> get_child root key = Ok q -> In w (node_values q) -> vid w <> vid v.
Lemma get_new (root : prim) g key (q : prim) : get_child root key = Ok q -> exists q', get_child (new_tree root g) key = Ok q' /\
  forall k, option_map (fun n : prim => (ntype n, nkeys n, vdata (nval n))) (walk k q') = option_map (fun n : prim => (ntype n, nkeys n, vdata (renew root g (nval n)))) (walk k q).
Proof.
  intros E. rewrite get_child_walk in E. destruct (walk (split_all key) root) as [q0|] eqn:W; [|discriminate]. injection E as ->.
  destruct (new_walk root g _ _ W) as (q' & W' & _). exists q'. split; [now rewrite get_child_walk, W'|]. intros k.
  destruct (walk k q) as [n|] eqn:Wn.
  - assert (W2 : walk (split_all key ++ k) root = Some n) by (rewrite walk_app, W; exact Wn). destruct (new_walk root g _ _ W2) as (n' & Wn' & H1 & H2 & H3). rewrite walk_app, W' in Wn'. rewrite Wn'. cbn. now rewrite H1, H2, H3.
  - assert (W2 : walk (split_all key ++ k) root = None) by (rewrite walk_app, W; exact Wn). apply (new_walk_none root g) in W2. rewrite walk_app, W' in W2. now rewrite W2.
Qed.
Lemma get_bump root g v ks j t prims : wf root -> slashfree root -> In v (node_values root) -> untouched root ks v -> in_block root v j ->
  mapM (get_child (new_tree root g)) ks = Ok prims -> exists prims', mapM (get_child (new_tree root (bump g j t))) ks = Ok prims' /\ Forall wf prims /\ Forall wf prims' /\ Forall2 same_content prims prims'.
Proof.
  intros Hw Hs Hv Hu Hb. revert prims. induction ks as [|key ks IH]; intros prims E; cbn [mapM] in *.
  - injection E as <-. exists []. repeat constructor.
  - inv_bind E. inv_bind E. injection E as <-. destruct (IH) with (prims := x0) as (ps' & E' & W1 & W2 & W3); [intros k' q w Hk; apply (Hu k' q w); now right|exact E1|].
    assert (G : exists q, get_child root key = Ok q).
    { rewrite get_child_walk in *. destruct (walk (split_all key) root) as [q|] eqn:W; [now exists q|]. apply (new_walk_none root g) in W. rewrite W in E0. discriminate. }
    destruct G as [q Eq]. destruct (get_new root g key q Eq) as (q1 & Eq1 & S1). destruct (get_new root (bump g j t) key q Eq) as (q2 & Eq2 & S2).
    assert (x = q1) by congruence. subst q1. rewrite Eq2. cbn [bind]. rewrite E'. cbn [bind]. eexists. split; [reflexivity|].
    assert (Wq : wf q) by (eapply get_wf; eassumption).
    split; [|split]; constructor; try assumption; try (eapply get_wf; [eassumption|]; now apply new_wf).
    + intros k. rewrite S1, S2. destruct (walk k q) as [n|] eqn:Wn; [|reflexivity]. cbn [option_map]. rewrite (renew_bump root g v (nval n) j t); [reflexivity|assumption..| | |assumption].
      * rewrite get_child_walk in Eq. destruct (walk (split_all key) root) as [q0|] eqn:W; [|discriminate]. assert (q0 = q) by congruence. subst q0. apply (node_values_In root (split_all key ++ k)); [exact Hw|]. rewrite walk_app, W. exact Wn.
      * apply (Hu key q); [now left|exact Eq|]. now apply (node_values_In q k).
Qed.

Section Solve.
  Variables (rid : nat) (tw : bool) (acts : list (action R)) (l : layout).
  Hypotheses (Hr : runs (empty_layout rid) acts l) (Hsh : Forall (shipped_act tw) acts) (Hk : Forall top_key acts).
  Hypotheses (Hw : wf (l_prim l)) (Hs : slashfree (l_prim l)) (Hi : ids_consistent (l_prim l)).
  Notation root := (l_prim l).
  Notation n := (length (initial_global root)).

  Lemma residual_split p z : same_structure root p -> LayoutSpec.added acts <> [] ->
    (layout_residual l p = Ok z <-> exists vs, Forall2 (value_at p) (LayoutSpec.added acts) vs /\ z = List.concat vs).
  Proof.
    intros Hp Hne. assert (Hcl : Forall classes acts) by (eapply Forall_impl; [|exact Hsh]; apply shipped_classes). eapply C53_residual; try eassumption.
    - eapply Forall_impl; [|exact Hsh]. apply shipped_complete.
    - eapply Forall_impl; [|exact Hsh]. apply shipped_sound.
    - rewrite Forall_forall in *. intros a Ha. eapply shipped_toplevel; eauto.
    - eapply Forall_impl; [|eapply typed_runs; eassumption]. intros x. now apply structure_typed.
  Qed.
  Lemma added_expressible c ks ps : In (c, ks, ps) (LayoutSpec.added acts) -> expressible c.
  Proof.
    intros H. unfold LayoutSpec.added in H. apply in_flat_map in H as (a & Ha & H). rewrite Forall_forall in Hsh. specialize (Hsh a Ha). destruct a as [| |c' ks' ps' key]; try contradiction.
    destruct H as [E|[]]. injection E as <- <- <-. cbn in Hsh. eapply shipped_expressible. exact Hsh.
  Qed.
  Lemma global_new g : global_res l g = layout_residual l (new_tree root g).
  Proof. unfold global_res. now rewrite tree_of_global_ok. Qed.

  Variable v : pv R.
  Hypothesis Hv : In v (node_values root).
  Hypothesis Hu : forall c ks ps, In (c, ks, ps) (LayoutSpec.added acts) -> untouched root ks v.
  Lemma residual_bump g j t z : length g = n -> in_block root v j -> global_res l g = Ok z -> global_res l (bump g j t) = Ok z.
  Proof.
    intros Hg Hb. rewrite !global_new. destruct (LayoutSpec.added acts) as [|a0 rest] eqn:Ea; [rewrite (C53_no_constraints rid acts l _ Hr Ea); discriminate|].
    assert (Hne : LayoutSpec.added acts <> []) by (rewrite Ea; discriminate). rewrite <- Ea in *. clear Ea a0 rest.
    assert (Hg' : length (bump g j t) = n) by now rewrite bump_length.
    rewrite (residual_split (new_tree root g) z), (residual_split (new_tree root (bump g j t)) z); [|apply new_structure; assumption|exact Hne|apply new_structure; assumption|exact Hne].
    intros (vs & Hvs & ->). exists vs. split; [|reflexivity].
    assert (G : forall x r, In x (LayoutSpec.added acts) -> value_at (new_tree root g) x r -> value_at (new_tree root (bump g j t)) x r).
    { intros [[c ks] ps] r Hin (prims & E1 & E2). destruct (get_bump root g v ks j t prims Hw Hs Hv (Hu c ks ps Hin) Hb E1) as (prims' & E1' & W1 & W2 & W3).
      exists prims'. split; [exact E1'|]. rewrite <- E2. symmetry. apply C80_value; try assumption. eapply added_expressible; eassumption. }
    clear -Hvs G. induction Hvs as [|x r xs rs H _ IH]; constructor; [apply G; [now left|exact H]|]. apply IH. intros. apply G; [now right|assumption].
  Qed.
  Lemma bump_back g j t : bump (bump g j t) j (- t) = g.
  Proof. revert j. induction g as [|x g IH]; intros [|j]; cbn; try reflexivity; f_equal; [lra|apply IH]. Qed.
  Lemma component_bump i g j t : length g = n -> in_block root v j -> component (global_res l) i (bump g j t) = component (global_res l) i g.
  Proof.
    intros Hg Hb. unfold component. destruct (global_res l g) as [z|] eqn:E; [now rewrite (residual_bump g j t z)|].
    destruct (global_res l (bump g j t)) as [z|] eqn:E'; [|reflexivity]. apply (residual_bump _ j (- t)) in E'; [|now rewrite bump_length|exact Hb]. rewrite bump_back in E'. congruence.
  Qed.
  Lemma in_block_lt j : in_block root v j -> j < n.
  Proof.
    intros (u & _ & H). apply block_lt in H. unfold initial_global, global_of, sizes_of in *. revert H. generalize (snd (filter_unique root)). clear. intros vs.
    replace (length (List.concat (map vdata vs))) with (fold_right Nat.add 0 (map (fun v : pv R => length (vdata v)) vs)); [auto|]. induction vs as [|v vs IH]; [reflexivity|]. cbn. rewrite app_length, IH. reflexivity.
  Qed.
  Variable bk : backend.
  Hypothesis Hbk : exact_on bk l.
  Lemma bystander_step g r d j : length g = n -> lstsq_step bk (global_res l) g r = Ok d -> length d = n /\ (in_block root v j -> nth j d 0%R = 0%R).
  Proof.
    intros Hg Ed. destruct (lstsq_defined n (global_res l) bk Hbk g r Hg) as (d' & Ed' & Hd). rewrite Ed in Ed'. injection Ed' as <-. split; [apply Hd|]. intros Hb.
    eapply least_column; [|exact Hd]. unfold jacobian. apply Forall_map, Forall_forall. intros i _. apply (proj2 (proj2 Hbk i g Hg) j); [now apply in_block_lt|].
    intros e He. exists (mkposreal 1 Rlt_0_1). intros h Hh _. rewrite Rplus_0_l, !component_bump by assumption. match goal with |- (Rabs ?x < e)%R => replace x with 0%R end; [now rewrite Rabs_R0|]. field. exact Hh.
  Qed.
  Lemma bystander_solve abs_tol rel_tol max_iter p info : newton_solve bk l abs_tol rel_tol max_iter = Ok (p, info) ->
    exists g, p = new_tree root g /\ length g = n /\ vdata (renew root g v) = vdata v.
  Proof.
    unfold newton_solve, solve_newton. destruct (newton_loop _ _ _ _ _ _) as [s|] eqn:El; [|discriminate]. cbn [bind]. rewrite tree_of_global_ok by assumption. cbn [bind]. intros E. injection E as <- _.
    exists (ns_g s). split; [reflexivity|].
    assert (G : length (ns_g s) = n /\ forall j, in_block root v j -> nth j (ns_g s) 0%R = nth j (initial_global root) 0%R).
    { refine (loop_good _ _ _ _ (fun g => length g = n /\ forall j, in_block root v j -> nth j g 0%R = nth j (initial_global root) 0%R) _ _ _ _ _ El); [|split; reflexivity].
      intros g r d g' a [Hg Hj] _ Ed Ev _. assert (Hd : length d = length g) by (rewrite Hg; apply (bystander_step g r d 0 Hg Ed)). rewrite shifted_vadd in Ev by exact Hd. injection Ev as <-.
      split; [now rewrite shifted_length|]. intros j Hb. rewrite shifted_nth by exact Hd. rewrite (proj2 (bystander_step g r d j Hg Ed) Hb), (Hj j Hb). lra. }
    destruct G as [Hg Hj]. split; [exact Hg|]. rewrite <- (new_initial root Hw Hs Hi v Hv). now apply renew_block.
  Qed.
End Solve.
