(** C82-C85: solving with a backend that differentiates and solves least squares exactly. *)
From Coq Require Import Reals Lra Permutation.
From Verif Require Export P_Wf BackendAffine BackendOrder GlobalProofs P_Expr P_Affine.
Local Open Scope R_scope.

Lemma reached_sane (P : cons -> Prop) (l : layout) : (forall c, P c -> wf c /\ slashfree c) -> reached P l -> wf (l_prim l) /\ slashfree (l_prim l) /\ ids_consistent (l_prim l).
Proof.
  intros HP (rid & acts & L & n & -> & [Hp _] & Hr & Ha).
  assert (Hsane : sane_layout (after (empty_layout rid) acts)).
  { apply after_sane; [apply empty_sane|]. eapply Forall_impl; [|exact Ha]. intros a [H1 H2]. split.
    - eapply Forall_impl; [|exact H1]. intros p H. apply H.
    - eapply Forall_impl; [|exact H2]. exact HP. }
  destruct Hsane as ([Hw Hs] & _). split; [exact Hw|]. split; [exact Hs|].
  assert (G : forall w, In w (held (l_prim (after (empty_layout rid) acts))) -> In w L).
  { intros w Hw'. apply after_held in Hw' as [Hw'|(a & p & H1 & H2 & H3)].
    - destruct Hw' as [<-|[]]. exact Hr.
    - rewrite Forall_forall in Ha. destruct (Ha a H1) as [Ha' _]. rewrite Forall_forall in Ha'. now apply (Ha' p H2). }
  intros a b H1 H2. apply Hp; now apply G.
Qed.

(** Same structure and numbers is same content. *)
Lemma structure_content (p q : prim) : same_structure p q -> same_numbers p q -> same_content p q.
Proof.
  intros [H _] Hn k. specialize (H k). specialize (Hn k). destruct (walk k p), (walk k q); cbn in *; congruence.
Qed.
Lemma reached_residual (l : layout) p q : reached tidy_expression l -> wf p -> wf q -> same_content p q -> layout_residual l p = layout_residual l q.
Proof.
  intros (rid & acts & L & n & -> & _ & _ & Ha) Hp Hq H. apply C80_residual; try assumption. apply Forall_flat_map. eapply Forall_impl; [|exact Ha].
  intros a [_ H2]. eapply Forall_impl; [|exact H2]. intros c (_ & _ & Hc). exact Hc.
Qed.
Lemma tidy_expression_tidy c : tidy_expression c -> wf c /\ slashfree c.
Proof. intros (H1 & H2 & _). auto. Qed.
Lemma global_residual (l : layout) g : wf (l_prim l) -> slashfree (l_prim l) -> global_res l g = layout_residual l (new_tree (l_prim l) g).
Proof. intros Hw Hs. unfold global_res. now rewrite tree_of_global_ok. Qed.
Lemma shifted_zeros g d : length d = length g -> zeros d -> shifted g 1 d = g.
Proof.
  intros Hl Hz. apply nth_eq; [now apply shifted_length|]. intros i. rewrite shifted_nth by exact Hl.
  assert (nth i d 0 = 0) as ->; [|lra]. destruct (nth_in_or_default i d 0) as [H|H]; [|exact H]. unfold zeros in Hz. rewrite Forall_forall in Hz. now apply Hz.
Qed.
Lemma norm_zeros r : zeros r -> norm r = Ok 0.
Proof.
  intros H. unfold norm. assert (E : nsum (map (fun x => nmul x x) r) = 0). { unfold nsum. induction H as [|x r -> _ IH]; [reflexivity|]. cbn [map fold_right]. rewrite IH. cbn. lra. }
  rewrite E. cbn. unfold Rsqrt_r. destruct (Rlt_dec 0 0); [lra|]. now rewrite sqrt_0.
Qed.

(** C82.  A layout whose constraints are all satisfied is returned as it is: after a
    single iteration, with error 0. *)
Theorem C82_left_alone (l : layout) bk r abs_tol rel_tol max_iter :
  reached tidy_expression l -> exact_on bk l -> layout_residual l (l_prim l) = Ok r -> zeros r ->
  exists p re, newton_solve bk l abs_tol rel_tol max_iter = Ok (p, (repeat 0 (min 1 max_iter), re)) /\
    same_structure (l_prim l) p /\ same_numbers (l_prim l) p.
Proof.
  intros Hl Hbk Er Hz. destruct (reached_sane _ l tidy_expression_tidy Hl) as (Hw & Hs & Hi). set (g0 := initial_global (l_prim l)).
  assert (N1 : same_structure (l_prim l) (new_tree (l_prim l) g0)) by now apply new_structure.
  assert (N2 : same_numbers (l_prim l) (new_tree (l_prim l) g0)) by now apply new_numbers.
  assert (E0 : global_res l g0 = Ok r).
  { rewrite global_residual, <- Er by assumption. symmetry. apply reached_residual; [exact Hl|exact Hw|now apply new_wf|now apply structure_content]. }
  destruct (lstsq_defined (length g0) (global_res l) bk Hbk g0 r eq_refl) as (d & Ed & Hd).
  assert (Hdz : zeros d) by (eapply least_zero; [|exact Hd]; now apply zeros_opp). assert (Hdl : length d = length g0) by apply Hd.
  unfold newton_solve, solve_newton. fold g0. destruct max_iter as [|m].
  - cbn [newton_loop bind newton_init ns_g ns_abs ns_rel]. rewrite tree_of_global_ok by assumption. cbn [bind]. do 2 eexists. split; [reflexivity|]. now split.
  - cbn [newton_loop newton_init ns_abs_err ns_rel_err gtb andb]. unfold newton_body. cbn [ns_g newton_init]. rewrite E0. cbn [bind]. rewrite Ed. cbn [bind].
    rewrite (shifted_vadd g0 d Hdl), (shifted_zeros g0 d Hdl Hdz). cbn [bind]. rewrite (norm_zeros r Hz). cbn [bind app hd ns_abs ns_rel ns_n newton_init].
    assert (Rel : rel_of 0 0 = @NaN R). { unfold rel_of. cbn. unfold Rdiv_r. destruct (Req_EM_T 0 0) as [E|E]; [|congruence]. unfold neqb. cbn. unfold Rltb. destruct (Rlt_dec 0 0); [lra|reflexivity]. }
    change (@rel_of R NumR 0 0) with (rel_of 0 0). rewrite Rel.
    assert (Stop : forall st, ns_rel_err st = @NaN R -> newton_loop (global_res l) (lstsq_step bk (global_res l)) abs_tol rel_tol m st = Ok st).
    { intros st Est. destruct m; [reflexivity|]. cbn [newton_loop]. rewrite Est. cbn [gtb]. now rewrite andb_false_r. }
    rewrite Stop by reflexivity. cbn [bind ns_g ns_abs ns_rel]. rewrite tree_of_global_ok by assumption. cbn [bind]. do 2 eexists. split; [reflexivity|]. now split.
Qed.

(** C83.  Layouts of affine constraints, satisfiable or not: after the first iteration the
    primitives minimise the sum of squares of the constraints over all trees of the same
    structure, and among the minimisers they are the closest to where they were, and the only such. *)
Lemma affine_kinds (l : layout) : reached affine_constraint l -> Forall affine_cls (kinds (l_cons l)).
Proof.
  intros (rid & acts & L & n & -> & _ & _ & Ha). apply Forall_forall. intros t Ht. apply after_kinds in Ht as [[<-|[]]|(a & c & H1 & H2 & H3)].
  - apply const_affine. intros al bl ps. reflexivity.
  - rewrite Forall_forall in Ha. destruct (Ha a H1) as [_ Ha']. rewrite Forall_forall in Ha'. pose proof (Ha' c H2) as Hac. apply affine_constraint_ok in Hac.
    unfold affine_cons in Hac. unfold kinds in H3. apply in_map_iff in H3 as (m & <- & Hmm). rewrite Forall_forall in Hac. now apply Hac.
Qed.
Lemma same_structure_refl (p : prim) : same_structure p p.
Proof. split; [reflexivity|]. intros k1 k2 n1 n2 m1 m2 E1 E2 E3 E4. assert (n1 = m1) by congruence. assert (n2 = m2) by congruence. subst. reflexivity. Qed.
Lemma same_structure_trans (p q r : prim) : same_structure p q -> same_structure q r -> same_structure p r.
Proof.
  intros [A1 A2] [B1 B2]. split; [intros k; now rewrite A1|]. intros k1 k2 n1 n2 m1 m2 E1 E2 E3 E4.
  pose proof (A1 k1) as C1. pose proof (A1 k2) as C2. rewrite E1 in C1. rewrite E2 in C2. destruct (walk k1 q) as [x1|] eqn:X1; [|discriminate]. destruct (walk k2 q) as [x2|] eqn:X2; [|discriminate].
  rewrite (A2 k1 k2 n1 n2 x1 x2) by assumption. now apply B2 with k1 k2.
Qed.
Lemma same_structure_sym (p q : prim) : same_structure p q -> same_structure q p.
Proof. intros [A1 A2]. split; [intros k; now rewrite A1|]. intros k1 k2 n1 n2 m1 m2 E1 E2 E3 E4. symmetry. now apply (A2 k1 k2). Qed.
Lemma keys_tidy (p : prim) : forall q : prim, wf p -> slashfree p -> (forall k, option_map (@nkeys _ _) (walk k p) = option_map (@nkeys _ _) (walk k q)) -> slashfree q.
Proof.
  induction p as [t v ch IH] using node_ind'. intros [t' v' ch'] Hw Hs H. pose proof (H []) as H0. cbn in H0. injection H0 as Hk. unfold nkeys, dkeys in Hk. cbn [nch] in Hk.
  apply wf_children in Hw as [Hn Hf]. inversion Hs as [? ? ? S1 S2]; subst.
  assert (Hn' : NoDup (map fst ch')) by now rewrite <- Hk.
  assert (Hin : forall k y, In (k, y) ch' -> exists x, In (k, x) ch).
  { intros k y Hy. assert (In k (map fst ch)) as Hin by (rewrite Hk; now apply (in_map fst) in Hy). apply in_map_iff in Hin as ([k2 x] & E & Hx). cbn in E. subst. eauto. }
  constructor; apply Forall_forall; intros [k y] Hy; destruct (Hin k y Hy) as [x Hx]; cbn [fst snd].
  - rewrite Forall_forall in S1. exact (S1 _ Hx).
  - rewrite Forall_forall in IH, Hf, S2. apply (IH _ Hx); [apply (Hf _ Hx)|apply (S2 _ Hx)|]. intros path. specialize (H (k :: path)). cbn [walk nch] in H.
    rewrite (In_dget _ _ _ Hn Hx), (In_dget _ _ _ Hn' Hy) in H. exact H.
Qed.
(** The vector of a tree of the same structure. *)
Lemma vector_of (l : layout) q : wf (l_prim l) -> slashfree (l_prim l) -> ids_consistent (l_prim l) -> Forall affine_cls (kinds (l_cons l)) -> same_structure (l_prim l) q -> ids_consistent q ->
  length (initial_global q) = length (initial_global (l_prim l)) /\ forall z, layout_residual l q = Ok z -> global_res l (initial_global q) = Ok z.
Proof.
  intros Hw Hs Hi Hc Hq Hiq. destruct (structure_vector _ q Hw Hs Hi Hq Hiq) as (gs & Hgs & Hb).
  assert (Hk : forall k, option_map (@nkeys _ _) (walk k (l_prim l)) = option_map (@nkeys _ _) (walk k q)).
  { intros k. pose proof (proj1 Hq k) as H1. destruct (walk k (l_prim l)), (walk k q); cbn in *; congruence. }
  destruct (keys_shape _ _ Hw Hk) as [_ Wq]. pose proof (keys_tidy _ _ Hw Hs Hk) as Sq.
  assert (Eg : initial_global q = gs).
  { rewrite <- (new_global (l_prim l) gs Hw Hs Hgs). apply same_global; try assumption; [now apply new_wf|now apply new_slashfree| |].
    - eapply same_structure_trans; [apply same_structure_sym; exact Hq|]. now apply new_structure.
    - intros k. pose proof (blend_walk 0 k q q _ Hb) as G. destruct (walk k q) as [x|], (walk k (new_tree (l_prim l) gs)) as [y|]; try contradiction; cbn; [|reflexivity]. f_equal.
      inversion G; subst. cbn. match goal with E : _ = mix 0 _ _ |- _ => rewrite mix_same in E; now symmetry end. }
  rewrite Eg. split; [exact Hgs|]. intros z Ez. rewrite global_residual by assumption.
  destruct (residual_tri 0 l q q (new_tree (l_prim l) gs) Hc Hb z Ez) as (r2 & E2 & _ & ->). assert (r2 = z) by congruence. subst. now rewrite mix_same.
Qed.
Theorem C83_least_squares (l : layout) bk r abs_tol rel_tol max_iter :
  reached affine_constraint l -> exact_on bk l -> layout_residual l (l_prim l) = Ok r -> (1 <= max_iter)%nat ->
  exists p info z, newton_solve bk l abs_tol rel_tol max_iter = Ok (p, info) /\ same_structure (l_prim l) p /\ layout_residual l p = Ok z /\
    forall q zq, same_structure (l_prim l) q -> ids_consistent q -> layout_residual l q = Ok zq ->
      sumsq z <= sumsq zq /\
      (sumsq zq = sumsq z ->
         distance2 (initial_global p) (initial_global (l_prim l)) <= distance2 (initial_global q) (initial_global (l_prim l)) /\
         (distance2 (initial_global q) (initial_global (l_prim l)) <= distance2 (initial_global p) (initial_global (l_prim l)) -> initial_global q = initial_global p)).
Proof.
  intros Hl Hbk Er Hm. destruct (reached_sane _ l affine_constraint_tidy Hl) as (Hw & Hs & Hi). pose proof (affine_kinds l Hl) as Hc. set (g0 := initial_global (l_prim l)) in *.
  destruct (affine_layout l (l_prim l) r Hw Hs Hi Hc (same_structure_refl _) Hi Er) as [Haff _]. fold g0 in Haff.
  destruct max_iter as [|m]; [lia|]. destruct (least_loop (length g0) (global_res l) bk Haff Hbk g0 abs_tol rel_tol m eq_refl) as (d & s & Es & Eg & Hd & [Hlen Hmin] & Hclose).
  unfold newton_solve, solve_newton. fold g0. rewrite Es. cbn [bind]. rewrite tree_of_global_ok by assumption. cbn [bind]. rewrite Eg in *.
  destruct (affine_at _ _ Haff _ Hlen) as [z Ez]. do 2 eexists. exists z. split; [reflexivity|]. split; [now apply new_structure|]. split; [now rewrite <- global_residual|].
  intros q zq Hq Hiq Ezq. destruct (vector_of l q Hw Hs Hi Hc Hq Hiq) as [Hlq Hrq]. specialize (Hrq zq Ezq). fold g0 in Hlq. split.
  - exact (Hmin z zq (initial_global q) Ez Hlq Hrq).
  - intros Eq. rewrite new_global by assumption. exact (Hclose z (initial_global q) zq Ez Hlq Hrq Eq).
Qed.
(** In particular the backend meets the assumption of C60 and C79. *)
Theorem C83_solves_systems (l : layout) bk r : reached affine_constraint l -> exact_on bk l -> layout_residual l (l_prim l) = Ok r ->
  solves_linear_systems (length (initial_global (l_prim l))) (global_res l) (lstsq_step bk (global_res l)).
Proof.
  intros Hl Hbk Er. destruct (reached_sane _ l affine_constraint_tidy Hl) as (Hw & Hs & Hi). pose proof (affine_kinds l Hl) as Hc.
  destruct (affine_layout l (l_prim l) r Hw Hs Hi Hc (same_structure_refl _) Hi Er) as [Haff _]. now apply exact_solves.
Qed.

Lemma shipped_sane acts (l : layout) : shipped_layout acts l -> wf (l_prim l) /\ slashfree (l_prim l) /\ ids_consistent (l_prim l).
Proof.
  intros (rid & tw & L & n & Hr & Hs & Hk & Hp & HL & Ha). pose proof (runs_after _ _ _ Hr) as <-.
  assert (S : sane_layout (after (empty_layout rid) acts)).
  { apply after_sane; [apply empty_sane|]. rewrite Forall_forall in *. intros a Hin. split.
    - eapply Forall_impl; [|exact (Ha a Hin)]. intros p H. apply H.
    - specialize (Hs a Hin). destruct a as [| |c ks ps key]; cbn [given_cons]; try apply Forall_nil. apply Forall_cons; [|apply Forall_nil]. cbn in Hs. eapply C71_shipped_constraints. exact Hs. }
  destruct S as ([S1 S2] & _). split; [exact S1|]. split; [exact S2|]. eapply C71_arrays_consistent; eassumption.
Qed.
(** C84.  Bystanders: an array that no constraint refers to (it occurs nowhere below the
    primitives that the constraints' keys name) is not moved by a solve. *)
Theorem C84_bystanders acts (l : layout) bk abs_tol rel_tol max_iter p info path x :
  shipped_layout acts l -> exact_on bk l -> newton_solve bk l abs_tol rel_tol max_iter = Ok (p, info) ->
  walk path (l_prim l) = Some x ->
  (forall c ks ps key q below y, In (c, ks, ps) (LayoutSpec.added acts) -> In key ks -> get_child (l_prim l) key = Ok q -> walk below q = Some y ->
     vid (nval y) <> vid (nval x)) ->
  exists x', walk path p = Some x' /\ ntype x' = ntype x /\ vdata (nval x') = vdata (nval x).
Proof.
  intros Hl Hbk E Hx Hu. destruct (shipped_sane acts l Hl) as (Hw & Hs & Hi). destruct Hl as (rid & tw & L & n & Hr & Hsh & Hk & _).
  assert (Hun : forall c ks ps, In (c, ks, ps) (LayoutSpec.added acts) -> untouched (l_prim l) ks (nval x)).
  { intros c ks ps Hin key q w Hkey Eq Hw'. pose proof (get_wf _ _ _ Eq Hw) as Wq. rewrite (node_values_paths q Wq) in Hw'. apply in_map_iff in Hw' as (below & <- & Hb). apply in_paths_iff in Hb; [|exact Wq].
    unfold GlobalProofs.value_at. destruct (walk below q) as [y|] eqn:Ey; [|congruence]. eapply Hu; eassumption. }
  destruct (bystander_solve rid tw acts l Hr Hsh Hk Hw Hs Hi (nval x) (node_values_In _ _ _ Hw Hx) Hun bk Hbk abs_tol rel_tol max_iter p info E) as (g & -> & Hg & Hv).
  destruct (new_walk (l_prim l) g _ _ Hx) as (x' & E' & H1 & H2 & _). exists x'. split; [exact E'|]. split; [exact H1|]. now rewrite H2.
Qed.
(** C85.  The order in which constraints were added, and the keys they were added under,
    do not matter: the same primitives and errors are returned. *)
Theorem C85_order acts acts' (l l' : layout) bk abs_tol rel_tol max_iter x :
  shipped_layout acts l -> shipped_layout acts' l' -> l_prim l' = l_prim l -> Permutation (LayoutSpec.added acts) (LayoutSpec.added acts') ->
  exact_on bk l -> exact_on bk l' -> same_gradients bk (length (initial_global (l_prim l))) ->
  newton_solve bk l abs_tol rel_tol max_iter = Ok x <-> newton_solve bk l' abs_tol rel_tol max_iter = Ok x.
Proof.
  intros Hl Hl' Heq Hp Hbk Hbk' Hext. destruct (shipped_sane acts l Hl) as (Hw & Hs & Hi). destruct Hl as (rid & tw & L & n & Hr & Hsh & Hk & _). destruct Hl' as (rid' & tw' & L' & n' & Hr' & Hsh' & Hk' & _). split.
  - exact (solve_same rid rid' tw tw' acts acts' l l' Hr Hsh Hk Hr' Hsh' Hk' Hw Hs Hi Heq Hp bk Hext Hbk Hbk' abs_tol rel_tol max_iter x).
  - rewrite <- Heq in Hw, Hs, Hi, Hext. exact (solve_same rid' rid tw' tw acts' acts l' l Hr' Hsh' Hk' Hr Hsh Hk Hw Hs Hi (eq_sym Heq) (Permutation_sym Hp) bk Hext Hbk' Hbk abs_tol rel_tol max_iter x).
Qed.

(** A backend that is exact on affine residuals: difference quotients, and the solution of
    the normal equations. *)
Definition quotients (f : list R -> R) (g : list R) : list R := map (fun j => f (bump g j 1) - f g) (seq 0 (length g)).
Definition bk83 : backend := {| grad := quotients; lstsq := fun n A b => Ok (shortest n A b) |}.
Lemma bk83_exact n res : affine n res -> exact bk83 n res.
Proof.
  intros Haff. split.
  - intros k A b HA Hb. exists (shortest k A b). split; [reflexivity|]. now apply shortest_least.
  - intros i g Hg. cbn [grad bk83]. unfold quotients. split; [now rewrite map_length, seq_length|]. intros j v Hj Hv.
    assert (G : forall s h, length h = n -> component res i (mix s g h) = (1 - s) * component res i g + s * component res i h) by (intros; now apply affine_component with n).
    rewrite nth_indep with (d' := (fun j => component res i (bump g j 1) - component res i g) 0%nat) by (rewrite map_length, seq_length; congruence).
    rewrite (map_nth (fun j => component res i (bump g j 1) - component res i g)), seq_nth by congruence. cbn [Nat.add]. eapply uniqueness_limite; [|exact Hv].
    set (A := component res i g). set (B := component res i (bump g j 1)).
    intros e Hpos. exists (mkposreal 1 Rlt_0_1). intros h Hh0 _. rewrite Rplus_0_l, <- (bump_mix g j h), <- (bump_mix g j 0), !G by (rewrite ?bump_length; assumption). fold A B.
    match goal with |- Rabs ?x < e => replace x with 0 end; [now rewrite Rabs_R0|]. field. exact Hh0.
Qed.
(** The figure of C60, asked to have width 3 and width 5. *)
Definition acts83 : list (action R) := acts60 ++ [AddConstraint (ok_cons crWidth) ["Q"%string] [PFlt 5%R] "W2"].
Definition l83 : layout := after (empty_layout 0) acts83.
Lemma reached83 : reached affine_constraint l83.
Proof.
  destruct C60_case as (L & n & H1 & H2 & H3 & _). exists 0%nat, acts83, L, n. split; [reflexivity|]. split; [exact H1|]. split; [exact H2|]. apply Forall_app. split; [exact H3|].
  apply Forall_cons; [|apply Forall_nil]. split; [apply Forall_nil|]. apply Forall_cons; [|apply Forall_nil]. apply affine60. cbn [In]. tauto.
Qed.
Lemma residual83 : exists r, layout_residual l83 (l_prim l83) = Ok r.
Proof. eexists. lazy -[IZR Rplus Rminus Rmult Ropp Rlt_dec Req_EM_T Rdiv sqrt]. reflexivity. Qed.
Example C83_case : exists r, reached affine_constraint l83 /\ layout_residual l83 (l_prim l83) = Ok r /\ exact_on bk83 l83.
Proof.
  destruct residual83 as [r Er]. exists r. split; [exact reached83|]. split; [exact Er|].
  destruct (reached_sane _ l83 affine_constraint_tidy reached83) as (Hw & Hs & Hi). apply bk83_exact.
  exact (proj1 (affine_layout l83 (l_prim l83) r Hw Hs Hi (affine_kinds l83 reached83) (same_structure_refl _) Hi Er)).
Qed.

(** A unit square at the origin, asked to be one. *)
Definition acts82 : list (action R) :=
  [AddPrim quad60 "Q"; AddConstraint (ok_cons Box) ["Q"%string] [] "B"; AddConstraint (ok_cons crFix) ["Q/Line0/Point0"%string] [PA1 [0%R;0%R]] "F";
   AddConstraint (ok_cons crWidth) ["Q"%string] [PFlt 1%R] "W"; AddConstraint (ok_cons crHeight) ["Q"%string] [PFlt 1%R] "H"].
Definition l82 : layout := after (empty_layout 0) acts82.
Lemma expressible60 : forall rc, In rc [Box; crFix; crWidth; crHeight] -> tidy_expression (ok_cons rc).
Proof.
  intros rc H. destruct (affine_constraint_tidy _ (affine60 rc H)) as [H1 H2]. split; [exact H1|]. split; [exact H2|].
  assert (G : forallb (fun rc : result cons => if rc then true else false) [Box; crFix; crWidth; crHeight] = true) by (vm_compute; reflexivity). rewrite forallb_forall in G. pose proof (ok_of _ (G rc H)) as E.
  assert (M : In rc plain \/ In rc (dimensions ++ margins)). { cbn [In] in H. unfold plain, dimensions. cbn [In List.app]. tauto. }
  rewrite E in M. destruct M as [M|M].
  - apply (shipped_expressible false _ (repeat PNone (nparams (csig (nval (ok_cons rc)))))). apply sh_plain; [exact M|]. now rewrite repeat_length.
  - apply (shipped_expressible false _ [PFlt 0]). apply sh_dimension; [exact M|]. now left.
Qed.
Lemma given82 (P : cons -> Prop) : (forall rc, In rc [Box; crFix; crWidth; crHeight] -> P (ok_cons rc)) -> reached P l82.
Proof.
  intros HP. destruct C60_case as (L & n & H1 & H2 & H3 & _). exists 0%nat, acts82, L, n. split; [reflexivity|]. split; [exact H1|]. split; [exact H2|].
  assert (Hq : Forall (drawn L) (given_prims (AddPrim quad60 "Q"))).
  { rewrite Forall_forall in H3. apply (H3 (AddPrim quad60 "Q")). unfold acts60. left. reflexivity. }
  cbn [given_prims] in Hq. unfold acts82. repeat (apply Forall_cons; [split; cbn [given_prims given_cons]; [first [exact Hq|apply Forall_nil]|]; first [apply Forall_nil|apply Forall_cons; [apply HP; cbn [In]; tauto|apply Forall_nil]]|]). apply Forall_nil.
Qed.
Lemma residual82 : exists r, layout_residual l82 (l_prim l82) = Ok r /\ zeros r.
Proof.
  eexists. split; [lazy -[IZR Rplus Rminus Rmult Ropp Rlt_dec Req_EM_T Rdiv sqrt]; reflexivity|]. repeat (apply Forall_cons; [lra|]). apply Forall_nil.
Qed.
Example C82_case : exists r, reached tidy_expression l82 /\ layout_residual l82 (l_prim l82) = Ok r /\ zeros r /\ exact_on bk83 l82.
Proof.
  destruct residual82 as (r & Er & Hr). exists r. split; [apply given82, expressible60|]. split; [exact Er|]. split; [exact Hr|]. pose proof (given82 affine_constraint affine60) as Ra.
  destruct (reached_sane _ l82 affine_constraint_tidy Ra) as (Hw & Hs & Hi). apply bk83_exact.
  exact (proj1 (affine_layout l82 (l_prim l82) r Hw Hs Hi (affine_kinds l82 Ra) (same_structure_refl _) Hi Er)).
Qed.

(** The figure of C60 with a second quadrilateral that no constraint mentions, and the
    same constraints in another order under other keys. *)
Definition quad84 : prim := match mk_quad (F:=R) 10 VNone None with Ok (p, _) => p | Err _ => Node TPrimNode {| vid := 0; vdata := [] |} [] end.
Definition acts84 : list (action R) := AddPrim quad84 "P" :: acts60.
Definition acts85 : list (action R) :=
  [AddPrim quad84 "P"; AddPrim quad60 "Q"; AddConstraint (ok_cons crHeight) ["Q"%string] [PFlt 4%R] ""; AddConstraint (ok_cons crFix) ["Q/Line0/Point0"%string] [PA1 [0%R;0%R]] "anchor";
   AddConstraint (ok_cons crWidth) ["Q"%string] [PFlt 3%R] ""; AddConstraint (ok_cons Box) ["Q"%string] [] ""].
Definition l84 : layout := after (empty_layout 0) acts84.
Definition l85 : layout := after (empty_layout 0) acts85.
Lemma pool84 : exists L n, pool L n /\ In {| vid := 0; vdata := [] |} L /\ drawn L quad60 /\ drawn L quad84.
Proof.
  assert (P0 : pool (F:=R) [{| vid := 0; vdata := [] |}] 1).
  { split; cbn; [intros a b [<-|[]] [<-|[]]; reflexivity|intros a [<-|[]]; cbn; lia]. }
  destruct (quad_built [{| vid := 0; vdata := [] |}] 1 VNone None quad60 10) as (L & (M1 & M2 & M3) & Hsn & Hq); [exact P0|exact I|exact I|vm_compute; reflexivity|].
  destruct (quad_built _ 10 VNone None quad84 19 M1) as (L' & (M1' & M2' & M3') & Hsn' & Hq'); [exact I|exact I|vm_compute; reflexivity|].
  do 2 eexists. split; [exact M1'|]. split; [apply in_or_app; right; apply in_or_app; right; left; reflexivity|]. split; [|split; [exact Hsn'|exact Hq']]. split; [exact Hsn|]. intros w H. apply in_or_app. right. now apply Hq.
Qed.
Lemma shipped60 : forall rc ks key, In rc [Box; crFix; crWidth; crHeight] -> noslash key = true -> forall ps, In (rc, ps) [(Box, []); (crFix, [PA1 [0%R;0%R]]); (crWidth, [PFlt 3%R]); (crHeight, [PFlt 4%R])] ->
  shipped_act false (AddConstraint (ok_cons rc) ks ps key) /\ top_key (AddConstraint (ok_cons rc) ks ps key).
Proof.
  intros rc ks key H Hn ps Hin. split; [|exact Hn].
  assert (G : forallb (fun rc : result cons => if rc then true else false) [Box; crFix; crWidth; crHeight] = true) by (vm_compute; reflexivity). rewrite forallb_forall in G. pose proof (ok_of _ (G rc H)) as E.
  unfold shipped_act.
  assert (M : (In rc plain /\ length ps = nparams (csig (nval (ok_cons rc)))) \/ (In rc (dimensions ++ margins) /\ exists v, ps = [PFlt v])).
  { cbn [In] in Hin. destruct Hin as [Hin|[Hin|[Hin|[Hin|[]]]]]; apply pair_equal_spec in Hin as [<- <-].
    - left. split; [unfold plain; cbn [In List.app]; tauto|vm_compute; reflexivity].
    - left. split; [unfold plain; cbn [In List.app]; tauto|vm_compute; reflexivity].
    - right. split; [unfold dimensions; cbn [In List.app]; tauto|eauto].
    - right. split; [unfold dimensions; cbn [In List.app]; tauto|eauto]. }
  rewrite E in M. destruct M as [[M L]|[M [v ->]]]; [now apply sh_plain|]. apply sh_dimension; [exact M|]. now left.
Qed.

Lemma shipped_layout84 : shipped_layout acts84 l84.
Proof.
  destruct pool84 as (L & n & P1 & P2 & P3 & P4). exists 0%nat, false, L, n. split; [apply all_ok_runs; vm_compute; reflexivity|].
  split; [|split; [|split; [exact P1|split; [exact P2|]]]]; unfold acts84, acts60.
  - repeat (apply Forall_cons; [first [exact I | apply shipped60; [cbn [In]; tauto|reflexivity|cbn [In]; tauto]]|]). apply Forall_nil.
  - repeat (apply Forall_cons; [first [exact I | reflexivity]|]). apply Forall_nil.
  - repeat (apply Forall_cons; [cbn [given_prims]; repeat (apply Forall_cons; [first [exact P3|exact P4]|]); apply Forall_nil|]). apply Forall_nil.
Qed.
Lemma shipped_layout85 : shipped_layout acts85 l85.
Proof.
  destruct pool84 as (L & n & P1 & P2 & P3 & P4). exists 0%nat, false, L, n. split; [apply all_ok_runs; vm_compute; reflexivity|].
  split; [|split; [|split; [exact P1|split; [exact P2|]]]]; unfold acts85.
  - repeat (apply Forall_cons; [first [exact I | apply shipped60; [cbn [In]; tauto|reflexivity|cbn [In]; tauto]]|]). apply Forall_nil.
  - repeat (apply Forall_cons; [first [exact I | reflexivity]|]). apply Forall_nil.
  - repeat (apply Forall_cons; [cbn [given_prims]; repeat (apply Forall_cons; [first [exact P3|exact P4]|]); apply Forall_nil|]). apply Forall_nil.
Qed.
Lemma reached84 : reached affine_constraint l84 /\ reached affine_constraint l85.
Proof.
  destruct pool84 as (L & n & P1 & P2 & P3 & P4). split; exists 0%nat; eexists; exists L, n; (split; [reflexivity|]); (split; [exact P1|]); (split; [exact P2|]);
    [unfold acts84, acts60|unfold acts85]; repeat (apply Forall_cons; [split; cbn [given_prims given_cons]; [first [apply Forall_nil|apply Forall_cons; [first [exact P3|exact P4]|apply Forall_nil]]|first [apply Forall_nil|apply Forall_cons; [apply affine60; cbn [In]; tauto|apply Forall_nil]]]|]); apply Forall_nil.
Qed.
Lemma residual84 : (exists r, layout_residual l84 (l_prim l84) = Ok r) /\ (exists r, layout_residual l85 (l_prim l85) = Ok r).
Proof. split; eexists; lazy -[IZR Rplus Rminus Rmult Ropp Rlt_dec Req_EM_T Rdiv sqrt]; reflexivity. Qed.
Lemma exact83 (l : layout) r : reached affine_constraint l -> layout_residual l (l_prim l) = Ok r -> exact_on bk83 l.
Proof.
  intros Hl Er. destruct (reached_sane _ l affine_constraint_tidy Hl) as (Hw & Hs & Hi). apply bk83_exact.
  exact (proj1 (affine_layout l (l_prim l) r Hw Hs Hi (affine_kinds l Hl) (same_structure_refl _) Hi Er)).
Qed.
Lemma bk83_same n : same_gradients bk83 n.
Proof.
  intros f f' g Hg H. cbn [grad bk83]. unfold quotients. apply map_ext. intros j. rewrite (H g Hg). f_equal. apply H. now rewrite bump_length.
Qed.
Definition bystander_ok (l : layout) (acts : list (action R)) (id : nat) : bool :=
  forallb (fun key => match get_child (l_prim l) key with Ok q => forallb (fun w => negb (Nat.eqb (vid w) id)) (node_values q) | Err _ => true end)
          (flat_map (fun a => match a with AddConstraint _ ks _ _ => ks | _ => [] end) acts).
Lemma bystander_ok_sound (l : layout) acts id : wf (l_prim l) -> bystander_ok l acts id = true ->
  forall c ks ps key q below y, In (c, ks, ps) (LayoutSpec.added acts) -> In key ks -> get_child (l_prim l) key = Ok q -> walk below q = Some y -> vid (nval y) <> id.
Proof.
  intros Hw H c ks ps key q below y Hin Hkey Eq Ey. unfold bystander_ok in H. rewrite forallb_forall in H. specialize (H key). rewrite Eq, forallb_forall in H.
  assert (G : In key (flat_map (fun a => match a with AddConstraint _ ks _ _ => ks | _ => [] end) acts)).
  { unfold LayoutSpec.added in Hin. apply in_flat_map in Hin as (a & Ha & Hin). apply in_flat_map. exists a. split; [exact Ha|]. destruct a; try contradiction. destruct Hin as [E|[]]. injection E as <- <- <-. exact Hkey. }
  specialize (H G (nval y) (node_values_In q below y (get_wf _ _ _ Eq Hw) Ey)). apply negb_true_iff, Nat.eqb_neq in H. exact H.
Qed.
Example C84_case : exists r x, shipped_layout acts84 l84 /\ exact_on bk83 l84 /\ layout_residual l84 (l_prim l84) = Ok r /\
  walk ["P"; "Line2"; "Point0"]%string (l_prim l84) = Some x /\ vdata (nval x) = [1; 1]%R /\
  (forall c ks ps key q below y, In (c, ks, ps) (LayoutSpec.added acts84) -> In key ks -> get_child (l_prim l84) key = Ok q -> walk below q = Some y ->
     vid (nval y) <> vid (nval x)).
Proof.
  destruct residual84 as [(r & Er) _]. destruct (shipped_sane _ _ shipped_layout84) as (Hw & _).
  assert (E : exists x, walk ["P"; "Line2"; "Point0"]%string (l_prim l84) = Some x /\ vdata (nval x) = [1; 1]%R /\ bystander_ok l84 acts84 (vid (nval x)) = true).
  { eexists. split; [lazy -[IZR]; reflexivity|]. split; [reflexivity|]. lazy -[IZR]. reflexivity. }
  destruct E as (x & E1 & E2 & E3). exists r, x. split; [exact shipped_layout84|]. split; [exact (exact83 _ _ (proj1 reached84) Er)|]. split; [exact Er|]. split; [exact E1|]. split; [exact E2|].
  exact (bystander_ok_sound _ _ _ Hw E3).
Qed.
Example C85_case : shipped_layout acts84 l84 /\ shipped_layout acts85 l85 /\ l_prim l85 = l_prim l84 /\ Permutation (LayoutSpec.added acts84) (LayoutSpec.added acts85) /\
  LayoutSpec.added acts84 <> LayoutSpec.added acts85 /\ exact_on bk83 l84 /\ exact_on bk83 l85 /\ same_gradients bk83 (length (initial_global (l_prim l84))).
Proof.
  destruct residual84 as [(r & Er) (r' & Er')]. split; [exact shipped_layout84|]. split; [exact shipped_layout85|]. split; [lazy -[IZR]; reflexivity|]. split; [|split; [|split; [exact (exact83 _ _ (proj1 reached84) Er)|split; [exact (exact83 _ _ (proj2 reached84) Er')|apply bk83_same]]]].
  - unfold LayoutSpec.added, acts84, acts85, acts60. cbn [flat_map List.app]. generalize (ok_cons Box), (ok_cons crFix), (ok_cons crWidth), (ok_cons crHeight). intros b f w h.
    assert (G : forall (A : Type) (x y z u : A), Permutation [x; y; z; u] [u; y; z; x]).
    { intros A x y z u. apply (Permutation_trans (Permutation_cons_append [y; z; u] x)). cbn. apply (perm_trans (l' := [y; u; z; x])); [apply perm_skip, perm_swap|apply perm_swap]. }
    apply G.
  - intros E. apply (f_equal (map (fun x => length (snd x)))) in E. unfold LayoutSpec.added, acts84, acts85, acts60 in E. cbn [flat_map List.app map snd length] in E. discriminate E.
Qed.

Print Assumptions C82_left_alone.
Print Assumptions C83_least_squares.
Print Assumptions C83_solves_systems.
Print Assumptions C84_bystanders.
Print Assumptions C85_order.
