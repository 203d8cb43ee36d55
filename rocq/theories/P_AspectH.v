(** * C102: a figure of given height and aspect ratio is found in two iterations *)
From Coq Require Import Reals Lra.
From Verif Require Import P_Station BackendLocal BackendOrder EndProofs Tangent P_Backend AspectStep AspectH P_Ideal P_Aspect.
From Verif Require Export AspectHSpec.
From Verif Require Import P_Affine.
Local Open Scope R_scope.

Lemma same_start H k : l_prim (tall_layout H k) = l_prim (aspect_layout 1 1).
Proof. now rewrite tall_prim, aspect_prim. Qed.
Lemma tall_sane H k : wf (l_prim (tall_layout H k)) /\ slashfree (l_prim (tall_layout H k)) /\ ids_consistent (l_prim (tall_layout H k)).
Proof. rewrite same_start. apply aspect_sane. Qed.
Lemma tall_satisfied H k x y w : 0 < H -> Rabs w = k * H -> exists z, layout_residual (tall_layout H k) (new_tree (l_prim (tall_layout H k)) (box_vec x y w H)) = Ok z /\ zeros z.
Proof.
  intros HH Hw. destruct (tall_sane H k) as (S1 & S2 & _). eexists. split; [apply (residual_vector _ _ _ S1 S2); apply AspectH.box_res; lra|].
  rewrite Hw, (Rabs_pos_eq H) by lra. repeat (apply Forall_cons; [lra|]). apply Forall_cons; [field; lra|apply Forall_nil].
Qed.
(** From the default square, whatever the tolerances (unless the square itself is within
    them), for [H + k <> 1]: two iterations give a figure of exactly the height [H] and
    the aspect ratio [k], and further ones keep it; its width is [k H], or [- k H] if
    [H + k < 1]. *)
Theorem C102_two_iterations H k bk abs_tol rel_tol m : 0 < H -> 0 < k -> H + k <> 1 -> exact_on bk (tall_layout H k) ->
  0 <= abs_tol -> abs_tol < sqrt ((1 - H) * (1 - H) + (1 - k) * (1 - k)) -> rel_tol < 1 ->
  exists p a b errs rels z tr, newton_solve bk (tall_layout H k) abs_tol rel_tol (2 + m) = Ok (p, (a :: b :: errs, rels)) /\
    zeros errs /\ figure_is p (sign (H + k - 1) * (k * H)) H /\ layout_residual (tall_layout H k) p = Ok z /\ zeros z /\
    subplots p "Figure" None = (tr, Ok tt) /\ sizes tr = [(sign (H + k - 1) * (k * H), H)].
Proof.
  intros HH Hk Hne Hbk Ha Ha1 Hr. unfold newton_solve, solve_newton. destruct (tall_sane H k) as (Sw & Ss & _). set (l := tall_layout H k) in *. set (a := sqrt _) in *.
  change (2 + m)%nat with (S (S m)). rewrite loop_start.
  assert (Es : initial_global (l_prim l) = box_vec 0 0 1 1).
  { unfold l. rewrite tall_start. unfold box_vec. repeat (apply (f_equal2 (@Datatypes.cons R)); [lra|]). reflexivity. }
  pose proof (AspectH.box_res H k 0 0 1 1 R1_neq_R0) as Er. destruct (tall_step H k bk 0 0 1 1 _ Hbk R1_neq_R0 R1_neq_R0 Er) as (d & x & y & Ed & Ev). fold l in Er, Ed. unfold newton_body at 1. cbn [ns_g newton_init]. rewrite Es, Er. cbn [bind]. rewrite Ed. cbn [bind]. rewrite Ev. cbn [bind].
  assert (En : norm [0; 0; 0; 0; 1 - H; Rabs 1 / Rabs 1 - k] = Ok a).
  { unfold norm. cbn [nsqrt NumR map]. unfold Rsqrt_r. cbn. rewrite Rabs_R1. match goal with |- context [Rlt_dec ?x 0] => assert (E : x = (1 - H) * (1 - H) + (1 - k) * (1 - k)) by field; rewrite E end.
    destruct (Rlt_dec _ 0) as [X|_]; [pose proof (Rle_0_sqr (1 - H)); pose proof (Rle_0_sqr (1 - k)); unfold Rsqr in *; lra|reflexivity]. }
  rewrite En. cbn [bind ns_abs newton_init List.app hd]. rewrite (next_first H k). rewrite rel_value by lra. assert (Hw : H + k - 1 <> 0) by lra.
  set (s1 := {| ns_n := _ |}). cbn [newton_loop]. replace (gtb (ns_abs_err s1) abs_tol) with true by (symmetry; now apply gt_yes). replace (gtb (ns_rel_err s1) rel_tol) with true by (symmetry; apply gt_yes; replace (a / a) with 1 by (field; lra); exact Hr). cbn [andb].
  destruct (AspectH.body H k HH bk s1 x y (H + k - 1) Hbk eq_refl Hw) as (s2 & x2 & y2 & E2 & G2 & A2). fold l in E2. rewrite E2. cbn [bind].
  destruct (AspectH.loop H k HH Hk bk abs_tol rel_tol m (H + k - 1) Hbk Hw s2 x2 y2 G2) as (s' & x' & y' & errs & E & G & A & Z). fold l in E. rewrite E. cbn [bind]. rewrite tree_of_global_ok by assumption. cbn [bind]. rewrite G, A, A2.
  destruct (tall_satisfied H k x' y' (sign (H + k - 1) * (k * H)) HH (sign_size H k HH Hk _)) as (z & Ez & Hz). fold l in Ez.
  assert (D : exists tr, subplots (new_tree (l_prim l) (box_vec x' y' (sign (H + k - 1) * (k * H)) H)) "Figure" None = (tr, Ok tt) /\ sizes tr = [(sign (H + k - 1) * (k * H), H)]) by (unfold l; rewrite same_start; apply drawn_vec).
  destruct D as (tr & D1 & D2). eexists _, _, _, errs, _, z, tr. split; [reflexivity|]. split; [exact Z|]. split; [unfold l; rewrite same_start; apply figure_vec|]. split; [exact Ez|]. split; [exact Hz|]. split; [exact D1|exact D2].
Qed.
(** In particular the figure is as asked for [H + k > 1] ... *)
Theorem C102_as_asked H k bk abs_tol rel_tol m : 0 < H -> 0 < k -> 1 < H + k -> exact_on bk (tall_layout H k) ->
  0 <= abs_tol -> abs_tol < sqrt ((1 - H) * (1 - H) + (1 - k) * (1 - k)) -> rel_tol < 1 ->
  exists p info z tr, newton_solve bk (tall_layout H k) abs_tol rel_tol (2 + m) = Ok (p, info) /\
    figure_is p (k * H) H /\ layout_residual (tall_layout H k) p = Ok z /\ zeros z /\ subplots p "Figure" None = (tr, Ok tt) /\ sizes tr = [(k * H, H)].
Proof.
  intros HH Hk Hs Hbk Ha Ha1 Hr. destruct (C102_two_iterations H k bk abs_tol rel_tol m HH Hk ltac:(lra) Hbk Ha Ha1 Hr) as (p & a & b & errs & rels & z & tr & E & _ & F & R & Z & D1 & D2).
  assert (S1 : sign (H + k - 1) * (k * H) = k * H) by (unfold sign; destruct (Rlt_dec _ 0); lra). rewrite S1 in *. exists p, (a :: b :: errs, rels), z, tr. auto 8.
Qed.
(** ... but "the figure has a positive width" fails for [H + k < 1], although a box of
    positive width [k H] satisfies the constraints. *)
Theorem C102_positive_refuted H k bk abs_tol rel_tol m : 0 < H -> 0 < k -> H + k < 1 -> exact_on bk (tall_layout H k) ->
  0 <= abs_tol -> abs_tol < sqrt ((1 - H) * (1 - H) + (1 - k) * (1 - k)) -> rel_tol < 1 ->
  (exists q z, same_structure (l_prim (tall_layout H k)) q /\ ids_consistent q /\ layout_residual (tall_layout H k) q = Ok z /\ zeros z /\ figure_is q (k * H) H) /\
  exists p info z tr, newton_solve bk (tall_layout H k) abs_tol rel_tol (2 + m) = Ok (p, info) /\
    figure_is p (- (k * H)) H /\ layout_residual (tall_layout H k) p = Ok z /\ zeros z /\ subplots p "Figure" None = (tr, Ok tt) /\ sizes tr = [(- (k * H), H)].
Proof.
  intros HH Hk Hs Hbk Ha Ha1 Hr. assert (Hp : 0 < k * H) by now apply Rmult_lt_0_compat. split.
  - destruct (tall_sane H k) as (S1 & S2 & S3). destruct (tall_satisfied H k 0 0 (k * H) HH) as (z & Ez & Hz); [apply Rabs_pos_eq; lra|].
    exists (new_tree (l_prim (tall_layout H k)) (box_vec 0 0 (k * H) H)), z. split; [apply new_structure; [assumption|assumption|assumption|now rewrite (AspectH.start_length H k)]|]. split; [apply new_ids; assumption|]. split; [exact Ez|]. split; [exact Hz|]. rewrite same_start. apply figure_vec.
  - destruct (C102_two_iterations H k bk abs_tol rel_tol m HH Hk ltac:(lra) Hbk Ha Ha1 Hr) as (p & a & b & errs & rels & z & tr & E & _ & F & R & Z & D1 & D2).
    assert (S1 : sign (H + k - 1) * (k * H) = - (k * H)) by (unfold sign; destruct (Rlt_dec _ 0); lra). rewrite S1 in *. exists p, (a :: b :: errs, rels), z, tr. auto 8.
Qed.
(** A figure 6 by 2 asked for by its height and aspect ratio (compare C101_case, where the
    width and the same aspect ratio break the solve down), and one that is mirrored. *)
Example C102_case : exists bk, exact_on bk (tall_layout 2 3) /\ exact_on bk (tall_layout (1 / 2) (1 / 4)) /\
  runs (empty_layout 0) (tall_program 2 3) (tall_layout 2 3) /\
  (exists p info tr, newton_solve bk (tall_layout 2 3) (1 / 10 ^ 10) (1 / 10 ^ 7) 10 = Ok (p, info) /\ subplots p "Figure" None = (tr, Ok tt) /\ sizes tr = [(3 * 2, 2)]) /\
  exists p info tr, newton_solve bk (tall_layout (1 / 2) (1 / 4)) (1 / 10 ^ 10) (1 / 10 ^ 7) 10 = Ok (p, info) /\ subplots p "Figure" None = (tr, Ok tt) /\ sizes tr = [(- (1 / 4 * (1 / 2)), 1 / 2)].
Proof.
  destruct C82_ideal_backend as [bk Hbk]. exists bk.
  assert (G : forall l : layout, exact_on bk l). { intros l. destruct (Hbk (length (initial_global (l_prim l)))) as [H _]. specialize (H (global_res l)). exact H. }
  assert (B : forall H k, 1 / 4 < (1 - H) * (1 - H) + (1 - k) * (1 - k) -> 1 / 10 ^ 10 < sqrt ((1 - H) * (1 - H) + (1 - k) * (1 - k))).
  { intros H k X. assert (Y : sqrt (1 / 4) < sqrt ((1 - H) * (1 - H) + (1 - k) * (1 - k))) by (apply sqrt_lt_1_alt; lra). assert (S : sqrt (1 / 4) = 1 / 2) by (replace (1 / 4) with (Rsqr (1 / 2)) by (unfold Rsqr; field); apply sqrt_Rsqr; lra). lra. }
  split; [apply G|]. split; [apply G|]. split; [apply tall_runs|]. split.
  - destruct (C102_as_asked 2 3 bk (1 / 10 ^ 10) (1 / 10 ^ 7) 8 ltac:(lra) ltac:(lra) ltac:(lra) (G _) ltac:(lra) (B 2 3 ltac:(lra)) ltac:(lra)) as (p & info & z & tr & E & _ & _ & _ & D1 & D2). exists p, info, tr. split; [exact E|]. split; [exact D1|exact D2].
  - destruct (C102_positive_refuted (1 / 2) (1 / 4) bk (1 / 10 ^ 10) (1 / 10 ^ 7) 8 ltac:(lra) ltac:(lra) ltac:(lra) (G _) ltac:(lra) (B (1 / 2) (1 / 4) ltac:(lra)) ltac:(lra)) as (_ & p & info & z & tr & E & _ & _ & _ & D1 & D2). exists p, info, tr. split; [exact E|]. split; [exact D1|exact D2].
Qed.

Print Assumptions C102_two_iterations.
Print Assumptions C102_as_asked.
Print Assumptions C102_positive_refuted.
