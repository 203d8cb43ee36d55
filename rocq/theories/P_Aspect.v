(** * C101: a figure of given width and aspect ratio, solved from the default square *)
From Coq Require Import Reals Lra.
From Verif Require Import P_Station BackendLocal BackendOrder EndProofs Tangent P_Backend AspectStep P_Ideal.
From Verif Require Export AspectSpec.
From Verif Require Import P_Affine.
Local Open Scope R_scope.

Lemma loop_start f st abs_tol rel_tol m (g : list R) :
  newton_loop f st abs_tol rel_tol (S m) (newton_init g) = (s' <- newton_body f st (newton_init g) ;; newton_loop f st abs_tol rel_tol m s').
Proof. reflexivity. Qed.
Lemma solved_heights W k bk abs_tol rel_tol max_iter p errs rels : 0 < W -> exact_on bk (aspect_layout W k) ->
  newton_solve bk (aspect_layout W k) abs_tol rel_tol max_iter = Ok (p, (errs, rels)) ->
  forall j, length errs = S j -> (exists x y, p = new_tree (l_prim (aspect_layout W k)) (box_vec x y W (height W k j))) /\
    forall i, (i < j)%nat -> height W k i <> 0 /\ nth (S i) errs 0 = Rabs (W / Rabs (height W k i) - k).
Proof.
  intros HW Hbk E j Hj. destruct (aspect_sane W k) as (Sw & Ss & _). unfold newton_solve, solve_newton in E. set (l := aspect_layout W k) in *.
  destruct (newton_loop _ _ _ _ _ _) as [s|] eqn:El; [|discriminate]. cbn [bind] in E. rewrite tree_of_global_ok in E by assumption. cbn [bind] in E. apply Ok_inj in E. apply pair_equal_spec in E as [<- E]. apply pair_equal_spec in E as [<- _].
  destruct max_iter as [|m]; [apply Ok_inj in El; subst s; discriminate|]. rewrite loop_start in El.
  destruct (start_body W k bk Hbk) as (s1 & x & y & a & E1 & G1 & A1). fold l in E1. rewrite E1 in El. cbn [bind] in El.
  destruct (AspectStep.loop W k HW bk abs_tol rel_tol m Hbk s1 s x y 0 G1) as (j' & x' & y' & _ & L & G & A & N); [now rewrite A1|exact El|].
  assert (j' = j) by lia. subst j'. split; [exists x', y'; now rewrite G|]. intros i Hi. split; [apply N; lia|]. rewrite A, A1. cbn [List.app nth]. rewrite Nat.sub_0_r.
  change 0 with (0 : R). rewrite (nth_indep _ 0 (error W k 0)) by (rewrite map_length, seq_length; exact Hi). rewrite map_nth, seq_nth by exact Hi. reflexivity.
Qed.
Lemma solves W k bk abs_tol rel_tol max_iter : 0 < W -> exact_on bk (aspect_layout W k) -> (forall i, height W k i <> 0) ->
  exists p errs rels, newton_solve bk (aspect_layout W k) abs_tol rel_tol max_iter = Ok (p, (errs, rels)).
Proof.
  intros HW Hbk Hn. destruct (aspect_sane W k) as (Sw & Ss & _). unfold newton_solve, solve_newton. set (l := aspect_layout W k) in *.
  assert (L : exists s, newton_loop (global_res l) (lstsq_step bk (global_res l)) abs_tol rel_tol max_iter (newton_init (initial_global (l_prim l))) = Ok s).
  { destruct max_iter as [|m]; [eexists; reflexivity|]. rewrite loop_start. destruct (start_body W k bk Hbk) as (s1 & x & y & a & E1 & G1 & A1). fold l in E1. rewrite E1. cbn [bind].
    eapply (AspectStep.loop_total W k HW); [exact Hbk|exact Hn|exact G1]. }
  destruct L as [s ->]. cbn [bind]. rewrite tree_of_global_ok by assumption. cbn [bind]. eauto.
Qed.

(** After [S j] iterations the figure is a box of exactly the requested width; its height
    follows the recursion, and the errors reported are the deviations of the aspect ratio. *)
Theorem C101_heights W k bk abs_tol rel_tol max_iter p errs rels : 0 < W -> exact_on bk (aspect_layout W k) ->
  newton_solve bk (aspect_layout W k) abs_tol rel_tol max_iter = Ok (p, (errs, rels)) ->
  forall j, length errs = S j -> figure_is p W (height W k j) /\
    (exists tr, subplots p "Figure" None = (tr, Ok tt) /\ sizes tr = [(W, height W k j)]) /\
    forall i, (i < j)%nat -> height W k i <> 0 /\ nth (S i) errs 0 = Rabs (W / Rabs (height W k i) - k).
Proof.
  intros HW Hbk E j Hj. destruct (solved_heights W k bk abs_tol rel_tol max_iter p errs rels HW Hbk E j Hj) as ((x & y & ->) & H). split; [apply figure_vec|]. split; [apply drawn_vec|exact H].
Qed.

Section Converges.
  Context (W k : R) (HW : 0 < W) (Hk : 0 < k).
  Lemma height_closed : W + 1 <> k -> k * Rabs (W + 1 - k) < 2 * W ->
    let e := 1 - k * Rabs (W + 1 - k) / W in
    -1 < e < 1 /\ forall j, height W k j = (W + 1 - k) / Rabs (W + 1 - k) * (W / k * (1 - e ^ (2 ^ j))) /\ 0 < 1 - e ^ (2 ^ j).
  Proof.
    intros Hne Hlt e. assert (Ha : 0 < Rabs (W + 1 - k)) by (apply Rabs_pos_lt; lra).
    assert (He : -1 < e < 1).
    { unfold e. assert (0 < k * Rabs (W + 1 - k) / W) by (apply Rdiv_lt_0_compat; [now apply Rmult_lt_0_compat|exact HW]). split; [|lra].
      assert (k * Rabs (W + 1 - k) / W < 2) by (apply (Rmult_lt_reg_r W); [exact HW|]; unfold Rdiv; rewrite Rmult_assoc, Rinv_l, Rmult_1_r by lra; exact Hlt). lra. }
    split; [exact He|]. set (s := (W + 1 - k) / Rabs (W + 1 - k)). assert (Hs : Rabs s = 1).
    { unfold s, Rdiv. rewrite Rabs_mult, Rabs_inv, Rabs_Rabsolu. field. lra. }
    assert (Pos : forall j, 0 < 1 - e ^ (2 ^ j)).
    { intros j. assert (Rabs (e ^ (2 ^ j)) < 1).
      { rewrite <- RPow_abs. assert (Rabs e < 1) by (apply Rabs_def1; lra). destruct (Nat.eq_dec (2 ^ j) 0) as [X|X]; [pose proof (Nat.pow_nonzero 2 j ltac:(discriminate)); lia|].
        apply pow_lt_1_compat; [|lia]. split; [apply Rabs_pos|assumption]. }
      pose proof (Rle_abs (e ^ (2 ^ j))). lra. }
    intros j. split; [|apply Pos]. induction j as [|j IH].
    - cbn [height Nat.pow]. rewrite pow_1. unfold s, e. field. repeat split; lra.
    - cbn [height]. rewrite IH. assert (Hp : 0 < W / k * (1 - e ^ 2 ^ j)) by (apply Rmult_lt_0_compat; [now apply Rdiv_lt_0_compat|apply Pos]).
      rewrite Rabs_mult, Hs, Rmult_1_l, (Rabs_pos_eq _ (Rlt_le _ _ Hp)). replace (2 ^ S j)%nat with (2 ^ j + 2 ^ j)%nat by (cbn [Nat.pow]; lia). rewrite pow_add. field. lra.
  Qed.
  (** [x = k |h| / W] above 3 grows. *)
  Lemma height_grows : 3 * W < k * Rabs (W + 1 - k) -> forall j, 3 * W + 4 ^ j * (k * Rabs (W + 1 - k) - 3 * W) <= k * Rabs (height W k j).
  Proof.
    intros H. induction j as [|j IH]; [cbn [height pow]; lra|]. cbn [height pow]. set (x := k * Rabs (height W k j)) in *. set (D := k * Rabs (W + 1 - k) - 3 * W) in *.
    assert (P4 : 1 <= 4 ^ j) by (apply pow_R1_Rle; lra). assert (HD : 0 < D) by (unfold D; lra). assert (H1 : D <= 4 ^ j * D) by (rewrite <- (Rmult_1_l D) at 1; apply Rmult_le_compat_r; lra).
    rewrite Rabs_mult, <- Rmult_assoc. fold x. assert (Hx : 3 < x / W).
    { apply (Rmult_lt_reg_r W); [exact HW|]. unfold Rdiv. rewrite Rmult_assoc, Rinv_l, Rmult_1_r by lra. lra. }
    rewrite Rabs_left by lra. set (q := x / W) in *. assert (Ex : x = q * W) by (unfold q; field; lra). rewrite Ex in *.
    assert (Hq : 4 ^ j * D <= (q - 3) * W) by lra. assert (K : 4 * ((q - 3) * W) <= (q + 1) * ((q - 3) * W)) by (apply Rmult_le_compat_r; [apply Rmult_le_pos; lra|lra]).
    replace (q * W * - (2 - q)) with (3 * W + (q + 1) * ((q - 3) * W)) by ring. lra.
  Qed.
End Converges.

(** From [0 < k |W + 1 - k| < 2 W], all is well: the solve returns, and the height tends
    quadratically to [W / k], or to [- W / k] if [k > W + 1]. *)
Theorem C101_converges W k bk abs_tol rel_tol max_iter : 0 < W -> 0 < k -> W + 1 <> k -> k * Rabs (W + 1 - k) < 2 * W ->
  exact_on bk (aspect_layout W k) ->
  exists p errs rels, newton_solve bk (aspect_layout W k) abs_tol rel_tol max_iter = Ok (p, (errs, rels)) /\
    forall j, length errs = S j -> exists h, figure_is p W h /\ (exists tr, subplots p "Figure" None = (tr, Ok tt) /\ sizes tr = [(W, h)]) /\
      Rabs h = W / k * (1 - (1 - k * Rabs (W + 1 - k) / W) ^ (2 ^ j)) /\ (k < W + 1 -> 0 < h) /\ (W + 1 < k -> h < 0).
Proof.
  intros HW Hk Hne Hlt Hbk. destruct (height_closed W k HW Hk Hne Hlt) as [_ Hc]. cbn zeta in Hc. set (e := 1 - _) in *. assert (Hd : 0 < W / k) by now apply Rdiv_lt_0_compat.
  assert (Ha : 0 < Rabs (W + 1 - k)) by (apply Rabs_pos_lt; lra).
  assert (Sg : forall j, Rabs (height W k j) = W / k * (1 - e ^ (2 ^ j)) /\ (k < W + 1 -> 0 < height W k j) /\ (W + 1 < k -> height W k j < 0)).
  { intros j. destruct (Hc j) as [-> Hp]. pose proof (Rmult_lt_0_compat _ _ Hd Hp) as Hm. set (z := W / k * _) in *. split; [|split].
    - rewrite Rabs_mult. unfold Rdiv. rewrite Rabs_mult, Rabs_inv, Rabs_Rabsolu, (Rabs_pos_eq z) by lra. field. lra.
    - intros H. rewrite (Rabs_pos_eq (W + 1 - k)) by lra. replace ((W + 1 - k) / (W + 1 - k)) with 1 by (field; lra). lra.
    - intros H. rewrite (Rabs_left (W + 1 - k)) by lra. replace ((W + 1 - k) / - (W + 1 - k)) with (-1) by (field; lra). lra. }
  destruct (solves W k bk abs_tol rel_tol max_iter HW Hbk) as (p & errs & rels & E).
  { intros i Hz. destruct (Sg i) as [X _]. rewrite Hz, Rabs_R0 in X. destruct (Hc i) as [_ Hp]. pose proof (Rmult_lt_0_compat _ _ Hd Hp). lra. }
  exists p, errs, rels. split; [exact E|]. intros j Hj. destruct (C101_heights W k bk abs_tol rel_tol max_iter p errs rels HW Hbk E j Hj) as (F & D & _). exists (height W k j). split; [exact F|]. split; [exact D|]. apply Sg.
Qed.

Lemma satisfiable W k : 0 < W -> 0 < k -> exists q z, same_structure (l_prim (aspect_layout W k)) q /\ ids_consistent q /\ layout_residual (aspect_layout W k) q = Ok z /\ zeros z /\ figure_is q W (W / k).
Proof.
  intros HW Hk. destruct (aspect_sane W k) as (S1 & S2 & S3). assert (Hp : 0 < W / k) by now apply Rdiv_lt_0_compat. exists (new_tree (l_prim (aspect_layout W k)) (box_vec 0 0 W (W / k))). eexists.
  split; [apply new_structure; [assumption|assumption|assumption|now rewrite (start_length W k)]|]. split; [apply new_ids; assumption|].
  split; [apply (residual_vector _ _ _ S1 S2); apply box_res; [exact HW|lra]|]. split; [|apply figure_vec].
  rewrite Rabs_pos_eq by lra. repeat (apply Forall_cons; [lra|]). apply Forall_cons; [field; lra|apply Forall_nil].
Qed.
(** "A satisfiable layout gets solved" fails: for [k |W + 1 - k| > 3 W] a box of height
    [W / k] satisfies all constraints, but Newton's method from the default square moves
    away: [k |h|] exceeds [3 W] by at least a factor 4 more in each iteration, and every
    error reported after the first is more than [2 k / 3]. *)
Theorem C101_always_solved_refuted W k bk abs_tol rel_tol max_iter : 0 < W -> 0 < k -> 3 * W < k * Rabs (W + 1 - k) ->
  exact_on bk (aspect_layout W k) ->
  (exists q z, same_structure (l_prim (aspect_layout W k)) q /\ ids_consistent q /\ layout_residual (aspect_layout W k) q = Ok z /\ zeros z /\ figure_is q W (W / k)) /\
  exists p errs rels, newton_solve bk (aspect_layout W k) abs_tol rel_tol max_iter = Ok (p, (errs, rels)) /\
    (forall j, length errs = S j -> exists h, figure_is p W h /\ 3 * W + 4 ^ j * (k * Rabs (W + 1 - k) - 3 * W) <= k * Rabs h) /\
    forall e, In e (tl errs) -> 2 / 3 * k < e.
Proof.
  intros HW Hk Hlt Hbk. split; [now apply satisfiable|]. pose proof (height_grows W k HW Hlt) as G.
  assert (B : forall j, 3 * W < k * Rabs (height W k j)).
  { intros j. eapply Rlt_le_trans; [|apply G]. assert (0 < 4 ^ j) by (apply pow_lt; lra). pose proof (Rmult_lt_0_compat (4 ^ j) (k * Rabs (W + 1 - k) - 3 * W)). lra. }
  destruct (solves W k bk abs_tol rel_tol max_iter HW Hbk) as (p & errs & rels & E).
  { intros i Hz. specialize (B i). rewrite Hz, Rabs_R0 in B. lra. }
  exists p, errs, rels. split; [exact E|]. split.
  - intros j Hj. destruct (C101_heights W k bk abs_tol rel_tol max_iter p errs rels HW Hbk E j Hj) as (F & _). exists (height W k j). split; [exact F|apply G].
  - intros e He. destruct errs as [|a errs]; [destruct He|]. cbn [tl] in He. destruct (In_nth _ _ 0 He) as (i & Hi & <-).
    destruct (C101_heights W k bk abs_tol rel_tol max_iter p (a :: errs) rels HW Hbk E (length errs) eq_refl) as (_ & _ & N). destruct (N i Hi) as [Hh En]. cbn [nth] in En. rewrite En.
    specialize (B i). pose proof (Rabs_pos_lt _ Hh) as Hp. set (h := Rabs (height W k i)) in *. assert (X : W / h < k / 3).
    { apply (Rmult_lt_reg_r h); [exact Hp|]. unfold Rdiv at 1. rewrite Rmult_assoc, Rinv_l, Rmult_1_r by lra. lra. }
    rewrite Rabs_left by lra. lra.
Qed.
(** "An aspect ratio gives an upright figure" fails: for [k > W + 1] not too large the solve
    converges to a box of negative height, which is passed on to matplotlib. *)
Theorem C101_upright_refuted W k bk abs_tol rel_tol max_iter : 0 < W -> W + 1 < k -> k * (k - W - 1) < 2 * W -> (1 <= max_iter)%nat ->
  exact_on bk (aspect_layout W k) ->
  (exists q z, same_structure (l_prim (aspect_layout W k)) q /\ ids_consistent q /\ layout_residual (aspect_layout W k) q = Ok z /\ zeros z /\ figure_is q W (W / k)) /\
  exists p info h tr, newton_solve bk (aspect_layout W k) abs_tol rel_tol max_iter = Ok (p, info) /\
    figure_is p W h /\ h < 0 /\ subplots p "Figure" None = (tr, Ok tt) /\ sizes tr = [(W, h)].
Proof.
  intros HW Hk Hlt Hm Hbk. split; [apply satisfiable; lra|].
  destruct (C101_converges W k bk abs_tol rel_tol max_iter HW ltac:(lra) ltac:(lra)) as (p & errs & rels & E & H).
  - rewrite Rabs_left by lra. replace (- (W + 1 - k)) with (k - W - 1) by ring. exact Hlt.
  - exact Hbk.
  - exists p, (errs, rels). assert (Hl : exists j, length errs = S j).
    { destruct errs as [|a errs]; [|exists (length errs); reflexivity]. exfalso. revert E. unfold newton_solve, solve_newton. destruct max_iter as [|m]; [lia|]. rewrite loop_start.
      destruct (start_body W k bk Hbk) as (s1 & x & y & a & E1 & G1 & A1). rewrite E1. cbn [bind]. destruct (newton_loop _ _ _ _ m s1) as [s'|] eqn:El; [|discriminate].
      destruct (AspectStep.loop W k HW bk abs_tol rel_tol m Hbk s1 s' x y 0 G1 ltac:(now rewrite A1) El) as (j' & _ & _ & _ & L & _). cbn [bind]. destruct (tree_of_global _ _); [|discriminate]. cbn [bind]. intros E. apply Ok_inj in E. apply pair_equal_spec in E as [_ E]. apply pair_equal_spec in E as [E _]. rewrite E in L. discriminate. }
    destruct Hl as [j Hj]. destruct (H j Hj) as (h & F & (tr & D1 & D2) & _ & _ & Hn). exists h, tr. split; [exact E|]. split; [exact F|]. split; [now apply Hn|]. split; [exact D1|exact D2].
Qed.

Lemma gt_yes x t : t < x -> gtb (Fin x) t = true.
Proof. intros H. cbn [gtb nltb NumR]. unfold Rltb. destruct (Rlt_dec t x); [reflexivity|contradiction]. Qed.
Lemma rel_value a b : b <> 0 -> rel_of a b = Fin (a / b).
Proof. intros H. unfold rel_of. cbn [ndiv NumR]. unfold Rdiv_r. destruct (Req_EM_T b 0); [contradiction|reflexivity]. Qed.
(** And for [k |W + 1 - k| = 2 W] the second iteration flattens the figure completely, and
    the third one meets a division by zero.  (Unless tolerances as coarse as the residuals
    of the first two iterations stop it before.) *)
Theorem C101_always_finite_refuted W k bk abs_tol rel_tol m : 0 < W -> 0 < k -> k * Rabs (W + 1 - k) = 2 * W ->
  exact_on bk (aspect_layout W k) ->
  let a := sqrt ((1 - W) * (1 - W) + (1 - k) * (1 - k)) in
  0 <= abs_tol -> abs_tol < a -> abs_tol < k / 2 -> rel_tol < 1 -> rel_tol < k / 2 / a ->
  (exists q z, same_structure (l_prim (aspect_layout W k)) q /\ ids_consistent q /\ layout_residual (aspect_layout W k) q = Ok z /\ zeros z /\ figure_is q W (W / k)) /\
  newton_solve bk (aspect_layout W k) abs_tol rel_tol (3 + m) = Err NonFinite.
Proof.
  intros HW Hk He Hbk a Ha Ha1 Ha2 Hr1 Hr2. split; [now apply satisfiable|]. unfold newton_solve, solve_newton. set (l := aspect_layout W k) in *.
  change (3 + m)%nat with (S (S (S m))). rewrite loop_start.
  assert (Es : initial_global (l_prim l) = box_vec 0 0 1 1).
  { unfold l. rewrite aspect_start. unfold box_vec. repeat (apply (f_equal2 (@Datatypes.cons R)); [lra|]). reflexivity. }
  pose proof (box_res W k 0 0 1 1 Rlt_0_1 R1_neq_R0) as Er. destruct (aspect_step W k bk 0 0 1 1 _ Hbk Rlt_0_1 R1_neq_R0 Er) as (d & x & y & Ed & Ev). fold l in Er, Ed. unfold newton_body at 1. cbn [ns_g newton_init]. rewrite Es, Er. cbn [bind]. rewrite Ed. cbn [bind]. rewrite Ev. cbn [bind].
  assert (En : norm [0; 0; 0; 0; 1 - W; 1 / Rabs 1 - k] = Ok a).
  { unfold norm. cbn [nsqrt NumR map]. unfold Rsqrt_r. cbn. rewrite Rabs_R1. match goal with |- context [Rlt_dec ?x 0] => assert (E : x = (1 - W) * (1 - W) + (1 - k) * (1 - k)) by field; rewrite E end.
    destruct (Rlt_dec _ 0) as [X|_]; [pose proof (Rle_0_sqr (1 - W)); pose proof (Rle_0_sqr (1 - k)); unfold Rsqr in *; lra|reflexivity]. }
  rewrite En. cbn [bind ns_abs newton_init List.app hd]. rewrite (first_height W k). rewrite rel_value by lra.
  set (s1 := {| ns_n := _ |}). cbn [newton_loop]. replace (gtb (ns_abs_err s1) abs_tol) with true by (symmetry; now apply gt_yes). replace (gtb (ns_rel_err s1) rel_tol) with true by (symmetry; apply gt_yes; replace (a / a) with 1 by (field; lra); exact Hr1). cbn [andb].
  assert (Hh : height W k 0 <> 0). { cbn [height]. intros X. rewrite X, Rabs_R0 in He. lra. }
  pose proof (Rabs_pos_lt _ Hh) as Hp. assert (Eh : W / Rabs (height W k 0) = k / 2). { cbn [height] in *. replace W with (k * Rabs (W + 1 - k) / 2) at 1 by lra. field. lra. }
  pose proof (box_res W k x y W (height W k 0) HW Hh) as Er'. destruct (aspect_step W k bk x y W (height W k 0) _ Hbk HW Hh Er') as (d' & x' & y' & Ed' & Ev'). fold l in Er', Ed'.
  unfold newton_body at 1. cbn [ns_g s1]. rewrite Er'. cbn [bind]. rewrite Ed'. cbn [bind]. rewrite Ev'. cbn [bind]. rewrite norm_last. cbn [bind ns_abs s1 List.app hd]. rewrite rel_value by lra.
  rewrite Eh. replace (Rabs (k / 2 - k)) with (k / 2) by (rewrite Rabs_left by lra; lra). set (s2 := {| ns_n := _ |}).
  replace (gtb (ns_abs_err s2) abs_tol) with true by (symmetry; now apply gt_yes). replace (gtb (ns_rel_err s2) rel_tol) with true by (symmetry; now apply gt_yes). cbn [andb].
  unfold newton_body. cbn [ns_g s2]. rewrite (next_height W k HW). assert (Hz : height W k 1 = 0). { cbn [height]. rewrite He. replace (2 - 2 * W / W) with 0 by (field; lra). ring. }
  rewrite Hz. unfold l. rewrite box_flat. reflexivity.
Qed.

(** A figure of width 6: aspect ratio 2 is found (height 3), ratio 3 (height 2) breaks the
    solve down with the default tolerances, ratio 8 gives a figure upside down, ratio 10 is never found. *)
Example C101_case : exists bk2 bk8 bk10, exact_on bk2 (aspect_layout 6 2) /\ exact_on bk8 (aspect_layout 6 8) /\ exact_on bk10 (aspect_layout 6 10) /\
  2 * Rabs (6 + 1 - 2) < 2 * 6 /\ newton_solve bk2 (aspect_layout 6 3) (1 / 10 ^ 10) (1 / 10 ^ 7) 10 = Err NonFinite /\
  8 * (8 - 6 - 1) < 2 * 6 /\ 3 * 6 < 10 * Rabs (6 + 1 - 10) /\
  runs (empty_layout 0) (aspect_program 6 2) (aspect_layout 6 2).
Proof.
  destruct C82_ideal_backend as [bk Hbk]. exists bk, bk, bk.
  assert (G : forall l : layout, exact_on bk l). { intros l. destruct (Hbk (length (initial_global (l_prim l)))) as [H _]. specialize (H (global_res l)). exact H. }
  split; [apply G|]. split; [apply G|]. split; [apply G|]. rewrite Rabs_pos_eq by lra. split; [lra|].
  assert (B : 5 < sqrt ((1 - 6) * (1 - 6) + (1 - 3) * (1 - 3)) < 6).
  { assert (S5 : sqrt 25 = 5) by (replace 25 with (Rsqr 5) by (unfold Rsqr; lra); apply sqrt_Rsqr; lra). assert (S6 : sqrt 36 = 6) by (replace 36 with (Rsqr 6) by (unfold Rsqr; lra); apply sqrt_Rsqr; lra).
    assert (X : sqrt 25 < sqrt ((1 - 6) * (1 - 6) + (1 - 3) * (1 - 3)) < sqrt 36) by (split; apply sqrt_lt_1_alt; lra). rewrite S5, S6 in X. exact X. }
  split; [apply (C101_always_finite_refuted 6 3 bk (1 / 10 ^ 10) (1 / 10 ^ 7) 7); [lra|lra|rewrite Rabs_pos_eq; lra|apply G|lra|lra|lra|lra|]|].
  { apply (Rlt_trans _ (3 / 2 / 6)); [lra|]. unfold Rdiv. apply Rmult_lt_compat_l; [lra|]. apply Rinv_lt_contravar; nra. } split; [lra|]. rewrite Rabs_left by lra. split; [lra|]. apply aspect_runs.
Qed.

Print Assumptions C101_heights.
Print Assumptions C101_converges.
Print Assumptions C101_always_solved_refuted.
Print Assumptions C101_upright_refuted.
Print Assumptions C101_always_finite_refuted.
