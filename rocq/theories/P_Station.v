(** C87: Newton steps and the slope of the sum of squares. *)
From Coq Require Import Reals Lra.
From Verif Require Export Station P_Backend.
Local Open Scope R_scope.

Lemma start_residual (l : layout) r : reached tidy_expression l -> layout_residual l (l_prim l) = Ok r -> global_res l (initial_global (l_prim l)) = Ok r.
Proof.
  intros Hl Er. destruct (reached_sane _ l tidy_expression_tidy Hl) as (Hw & Hs & Hi). rewrite global_residual, <- Er by assumption. symmetry.
  apply reached_residual; [exact Hl|exact Hw|now apply new_wf|]. apply structure_content; [now apply new_structure|now apply new_numbers].
Qed.
Lemma dotp_opp r y : dotp (map Ropp r) y = - dotp r y.
Proof. revert y. induction r as [|x r IH]; intros [|v y]; cbn [map]; try (cbn; lra). rewrite !dotp_cons, IH. lra. Qed.
(** The step of the exact backend. *)
Lemma first_step (l : layout) bk g J r : exact_on bk l -> length g = length (initial_global (l_prim l)) -> has_jacobian (global_res l) g J -> global_res l g = Ok r ->
  exists d, lstsq_step bk (global_res l) g r = Ok d /\ length d = length g /\ least (length g) J (map Ropp r) d.
Proof.
  intros Hbk Hg HJ Er. destruct (lstsq_defined _ (global_res l) bk Hbk g r Hg) as (d & Ed & Hd). exists d. split; [exact Ed|]. unfold exact_on in Hbk. rewrite <- Hg in Hbk, Hd.
  rewrite (exact_jacobian l g J r HJ Er bk Hbk) in Hd. split; [apply Hd|exact Hd].
Qed.

Lemma dotp_comm_z a b : zeros a -> dotp a b = 0.
Proof. intros H. revert b. induction H as [|x a -> _ IH]; intros [|y b]; try reflexivity. rewrite dotp_cons, IH. lra. Qed.

(** At a stationary point nothing moves: whatever the tolerances and the number of iterations. *)
Theorem C87_stationary (l : layout) bk r abs_tol rel_tol max_iter :
  reached tidy_expression l -> exact_on bk l -> layout_residual l (l_prim l) = Ok r ->
  smooth_at (global_res l) (initial_global (l_prim l)) ->
  (forall d, length d = length (initial_global (l_prim l)) -> slope l (initial_global (l_prim l)) d 0) ->
  exists p info, newton_solve bk l abs_tol rel_tol max_iter = Ok (p, info) /\ same_structure (l_prim l) p /\ same_numbers (l_prim l) p.
Proof.
  intros Hl Hbk Er [J HJ] Hst. destruct (reached_sane _ l tidy_expression_tidy Hl) as (Hw & Hs & Hi). pose proof (start_residual l r Hl Er) as E0. set (g0 := initial_global (l_prim l)) in *.
  destruct (first_step l bk g0 J r Hbk eq_refl HJ E0) as (d & Ed & Ld & Hd). pose proof (rows_count l g0 J r HJ E0) as LJ.
  assert (Hz : zeros d).
  { apply (stuck (length g0) J (map Ropp r)); [apply HJ|now rewrite map_length|exact Hd|]. intros y Hy. rewrite dotp_opp.
    pose proof (slope_unique l g0 y _ _ (Hst y Hy) (slope_at l g0 J r HJ E0 y Hy)). lra. }
  destruct (loop_total (global_res l) (lstsq_step bk (global_res l)) abs_tol rel_tol (fun g => g = g0)) with (left := max_iter) (s := newton_init g0) as (s & Es & Eg); [|reflexivity|].
  - intros g ->. destruct (norm_total r) as [a Ea]. exists r, d, g0, a. split; [exact E0|]. split; [exact Ed|]. split; [|now split]. rewrite shifted_vadd by exact Ld. now rewrite shifted_zeros.
  - unfold newton_solve, solve_newton. fold g0. rewrite Es. cbn [bind]. rewrite Eg, tree_of_global_ok by assumption. cbn [bind]. do 2 eexists. split; [reflexivity|]. split; [now apply new_structure|now apply new_numbers].
Qed.

(** One iteration, in the direction of descent. *)
Lemma one_step (l : layout) bk abs_tol rel_tol r p info : wf (l_prim l) -> slashfree (l_prim l) -> exact_on bk l -> global_res l (initial_global (l_prim l)) = Ok r -> smooth_at (global_res l) (initial_global (l_prim l)) ->
  newton_solve bk l abs_tol rel_tol 1 = Ok (p, info) ->
  exists J d, has_jacobian (global_res l) (initial_global (l_prim l)) J /\ least (length (initial_global (l_prim l))) J (map Ropp r) d /\ p = new_tree (l_prim l) (shifted (initial_global (l_prim l)) 1 d).
Proof.
  intros Hw Hs Hbk E0 [J HJ] E. set (g0 := initial_global (l_prim l)) in *. destruct (first_step l bk g0 J r Hbk eq_refl HJ E0) as (d & Ed & Ld & Hd). destruct (norm_total r) as [a Ea].
  exists J, d. split; [exact HJ|]. split; [exact Hd|]. unfold newton_solve, solve_newton in E. fold g0 in E. cbn [newton_loop newton_init ns_abs_err ns_rel_err gtb andb] in E. unfold newton_body in E. cbn [ns_g newton_init] in E.
  rewrite E0 in E. cbn [bind] in E. rewrite Ed in E. cbn [bind] in E. rewrite (shifted_vadd g0 d Ld) in E. cbn [bind] in E. rewrite Ea in E. cbn [bind ns_g] in E. rewrite tree_of_global_ok in E by assumption. cbn [bind] in E. congruence.
Qed.
Theorem C87_descent (l : layout) bk r abs_tol rel_tol p info :
  reached tidy_expression l -> exact_on bk l -> layout_residual l (l_prim l) = Ok r ->
  smooth_at (global_res l) (initial_global (l_prim l)) -> newton_solve bk l abs_tol rel_tol 1 = Ok (p, info) ->
  exists v, slope l (initial_global (l_prim l)) (minus (initial_global p) (initial_global (l_prim l))) v /\ v <= 0 /\ (v = 0 -> same_numbers (l_prim l) p).
Proof.
  intros Hl Hbk Er Hsm E. destruct (reached_sane _ l tidy_expression_tidy Hl) as (Hw & Hs & Hi). pose proof (start_residual l r Hl Er) as E0.
  destruct (one_step l bk abs_tol rel_tol r p info Hw Hs Hbk E0 Hsm E) as (J & d & HJ & Hd & ->). set (g0 := initial_global (l_prim l)) in *. pose proof (rows_count l g0 J r HJ E0) as LJ.
  assert (Ld : length d = length g0) by apply Hd. rewrite new_global by (try assumption; now rewrite shifted_length). fold g0.
  assert (Em : minus (shifted g0 1 d) g0 = d). { apply nth_eq; [rewrite minus_length; rewrite shifted_length; congruence|]. intros i. rewrite nth_minus by now rewrite shifted_length. rewrite shifted_nth by exact Ld. lra. }
  rewrite Em. exists (2 * dotp r (times J d)). split; [now apply slope_at|].
  pose proof (least_orth (length g0) J (map Ropp r) (proj1 HJ) ltac:(now rewrite map_length) d d Hd Ld) as O. rewrite dotp_opp in O. pose proof (sumsq_nonneg (times J d)) as P. unfold sumsq in P. split; [lra|].
  intros V. assert (Hz : zeros d). { apply (still (length g0) J (map Ropp r)); [exact Hd|]. apply sumsq_zero. unfold sumsq. lra. }
  rewrite shifted_zeros by assumption. now apply new_numbers.
Qed.
(** Conversely, where a single iteration moves nothing the sum of squares is stationary. *)
Theorem C87_unmoved (l : layout) bk r abs_tol rel_tol p info :
  reached tidy_expression l -> exact_on bk l -> layout_residual l (l_prim l) = Ok r ->
  smooth_at (global_res l) (initial_global (l_prim l)) -> newton_solve bk l abs_tol rel_tol 1 = Ok (p, info) -> same_numbers (l_prim l) p ->
  forall d, length d = length (initial_global (l_prim l)) -> slope l (initial_global (l_prim l)) d 0.
Proof.
  intros Hl Hbk Er Hsm E Hn y Hy. destruct (reached_sane _ l tidy_expression_tidy Hl) as (Hw & Hs & Hi). pose proof (start_residual l r Hl Er) as E0.
  destruct (one_step l bk abs_tol rel_tol r p info Hw Hs Hbk E0 Hsm E) as (J & d & HJ & Hd & Ep). set (g0 := initial_global (l_prim l)) in *. pose proof (rows_count l g0 J r HJ E0) as LJ.
  assert (Ld : length d = length g0) by apply Hd.
  assert (Eg : g0 = shifted g0 1 d).
  { rewrite <- (new_global (l_prim l) (shifted g0 1 d)) by (try assumption; now rewrite shifted_length). rewrite <- Ep. unfold g0. subst p. apply same_global; try assumption; [now apply new_wf|now apply new_slashfree|]. apply new_structure; try assumption; now rewrite shifted_length. }
  assert (Hz : zeros d). { apply Forall_forall. intros x Hx. apply (In_nth _ _ 0) in Hx as (i & Hi' & <-). apply (f_equal (fun g => nth i g 0)) in Eg. rewrite shifted_nth in Eg by exact Ld. lra. }
  pose proof (least_orth (length g0) J (map Ropp r) (proj1 HJ) ltac:(now rewrite map_length) d y Hd Hy) as O. rewrite dotp_opp, dotp_comm_z in O by (now apply times_zeros).
  replace 0 with (2 * dotp r (times J y)) by lra. now apply slope_at.
Qed.

(** Affine residuals are smooth. *)
Lemma affine_smooth n res g : affine n res -> length g = n -> smooth_at res g.
Proof.
  intros Haff Hg. destruct (affine_at _ _ Haff g Hg) as [r Er]. pose proof (bk83_exact n res Haff) as Hbk. destruct (jacobian_rows n res bk83 Hbk (length r) g Hg) as [J1 J2].
  exists (jacobian bk83 res (length r) g). unfold has_jacobian. rewrite Hg. split; [exact J1|]. intros d Hd. split; [congruence|]. pose proof (affine_residual n res bk83 Haff Hbk g r d Hg Er Hd) as E1.
  set (v := times _ d) in *. assert (Lv : length v = length r) by (unfold v; now rewrite times_length). set (r1 := minus v (map Ropp r)) in *. assert (L1 : length r1 = length r) by (unfold r1; rewrite minus_length; rewrite ?map_length; auto).
  assert (H1 : length (shifted g 1 d) = n) by (rewrite shifted_length; congruence).
  exists 1, (fun t => mix t r r1). split; [lra|]. split.
  - intros t _. rewrite (shifted_mix t) by congruence. destruct (Haff t g _ Hg H1) as (a & b & Ea & Eb & _ & ->). rewrite Er in Ea. rewrite E1 in Eb. injection Ea as <-. injection Eb as <-. split; [reflexivity|]. rewrite mix_length; congruence.
  - intros i. assert (Ei : nth i r1 0 = nth i v 0 + nth i r 0). { unfold r1. rewrite nth_minus by now rewrite map_length. replace (nth i (map Ropp r) 0) with (- nth i r 0); [lra|]. symmetry. rewrite <- Ropp_0 at 1. apply map_nth. }
    intros e Hpos. exists (mkposreal 1 Rlt_0_1). intros h Hh0 _. rewrite Rplus_0_l, !mix_nth, Ei by congruence. match goal with |- Rabs ?x < e => replace x with 0 end; [now rewrite Rabs_R0|]. field. exact Hh0.
Qed.

(** A unit square asked to have width 0 and width 2: stationary, and neither is satisfied. *)
Definition acts87 : list (action R) := [AddPrim quad60 "Q"; AddConstraint (ok_cons crWidth) ["Q"%string] [PFlt 0%R] "W"; AddConstraint (ok_cons crWidth) ["Q"%string] [PFlt 2%R] "W2"].
Definition l87 : layout := after (empty_layout 0) acts87.
Lemma given87 (P : cons -> Prop) : P (ok_cons crWidth) -> reached P l87.
Proof.
  intros HP. destruct C60_case as (L & n & H1 & H2 & H3 & _). exists 0%nat, acts87, L, n. split; [reflexivity|]. split; [exact H1|]. split; [exact H2|].
  assert (Hq : Forall (drawn L) (given_prims (AddPrim quad60 "Q"))).
  { rewrite Forall_forall in H3. apply (H3 (AddPrim quad60 "Q")). unfold acts60. left. reflexivity. }
  cbn [given_prims] in Hq. unfold acts87. repeat (apply Forall_cons; [split; cbn [given_prims given_cons]; [first [exact Hq|apply Forall_nil]|]; first [apply Forall_nil|apply Forall_cons; [exact HP|apply Forall_nil]]|]). apply Forall_nil.
Qed.
Lemma start87 : exists g, initial_global (l_prim l87) = g /\ length g = 8%nat.
Proof. eexists. split; [lazy -[IZR]; reflexivity|reflexivity]. Qed.
Lemma residual87 : exists r, layout_residual l87 (l_prim l87) = Ok r /\ map (fun x => x * x) r = [1; 1].
Proof. eexists. split; [lazy -[IZR Rplus Rminus Rmult Ropp Rlt_dec Req_EM_T Rdiv sqrt]; reflexivity|]. cbn [map]. f_equal; [lra|]. f_equal. lra. Qed.
Lemma objective87 d : length d = 8%nat -> exists e, forall t, objective l87 (shifted (initial_global (l_prim l87)) t d) = Ok (2 + 2 * (t * e) * (t * e)).
Proof.
  intros H. destruct d as [|d0 [|d1 [|d2 [|d3 [|d4 [|d5 [|d6 [|d7 [|d8 d]]]]]]]]]; try discriminate H. exists (d2 - d0). intros t.
  lazy -[IZR Rplus Rminus Rmult Ropp Rlt_dec Req_EM_T Rdiv sqrt]. f_equal. ring.
Qed.
Example C87_case : exists r, reached tidy_expression l87 /\ exact_on bk83 l87 /\ layout_residual l87 (l_prim l87) = Ok r /\ ~ zeros r /\
  smooth_at (global_res l87) (initial_global (l_prim l87)) /\ (forall d, length d = length (initial_global (l_prim l87)) -> slope l87 (initial_global (l_prim l87)) d 0).
Proof.
  destruct residual87 as (r & Er & Hr). assert (Ra : reached affine_constraint l87) by (apply given87, affine60; cbn [In]; tauto). exists r.
  split; [apply given87, expressible60; cbn [In]; tauto|]. split; [exact (exact83 _ _ Ra Er)|]. split; [exact Er|]. split; [|split].
  - intros Hz. destruct Hz as [|x r Hx _]; cbn [map] in Hr; [discriminate|]. injection Hr as H _. rewrite Hx in H. lra.
  - destruct (reached_sane _ l87 affine_constraint_tidy Ra) as (Hw & Hs & Hi). eapply affine_smooth; [|reflexivity].
    exact (proj1 (affine_layout l87 (l_prim l87) r Hw Hs Hi (affine_kinds l87 Ra) (same_structure_refl _) Hi Er)).
  - intros d Hd. destruct start87 as (g & Eg & Lg). rewrite Eg, Lg in Hd. destruct (objective87 d Hd) as [e E]. exists 1, (fun t => 2 + 2 * (t * e) * (t * e)). split; [lra|]. split; [intros t _; apply E|].
    clear. replace 0 with (0 + 2 * e * e * (2 * 0)) at 2 by lra. 
    apply (near_limit (fun t => 2 + (2 * e * e) * Rsqr t) _ 1); [lra|intros t _; unfold Rsqr; ring|].
    apply (derivable_pt_lim_plus (fct_cte 2) (mult_real_fct (2 * e * e) Rsqr)); [apply derivable_pt_lim_const|]. apply derivable_pt_lim_scal, derivable_pt_lim_Rsqr.
Qed.
(** The figure of C83 asked to have two widths: C87_descent applies to it. *)
Lemma tidy83 : reached tidy_expression l83.
Proof.
  destruct C60_case as (L & n & H1 & H2 & H3 & _). exists 0%nat, acts83, L, n. split; [reflexivity|]. split; [exact H1|]. split; [exact H2|].
  assert (Hq : Forall (drawn L) (given_prims (AddPrim quad60 "Q"))).
  { rewrite Forall_forall in H3. apply (H3 (AddPrim quad60 "Q")). unfold acts60. left. reflexivity. }
  cbn [given_prims] in Hq. unfold acts83, acts60. cbn [List.app]. repeat (apply Forall_cons; [split; cbn [given_prims given_cons]; [first [exact Hq|apply Forall_nil]|]; first [apply Forall_nil|apply Forall_cons; [apply expressible60; cbn [In]; tauto|apply Forall_nil]]|]). apply Forall_nil.
Qed.
Example C87_descent_case : exists r x, reached tidy_expression l83 /\ exact_on bk83 l83 /\ layout_residual l83 (l_prim l83) = Ok r /\
  smooth_at (global_res l83) (initial_global (l_prim l83)) /\ newton_solve bk83 l83 0 0 1 = Ok x.
Proof.
  destruct C83_case as (r & H1 & H2 & H3). destruct (C83_least_squares l83 bk83 r 0 0 1 H1 H3 H2 (Nat.le_refl 1)) as (p & info & _ & E & _). exists r, (p, info).
  split; [exact tidy83|]. split; [exact H3|]. split; [exact H2|]. split; [|exact E].
  destruct (reached_sane _ l83 affine_constraint_tidy H1) as (Hw & Hs & Hi). eapply affine_smooth; [|reflexivity].
  exact (proj1 (affine_layout l83 (l_prim l83) r Hw Hs Hi (affine_kinds l83 H1) (same_structure_refl _) Hi H2)).
Qed.

Print Assumptions C87_stationary.
Print Assumptions C87_descent.
Print Assumptions C87_unmoved.
