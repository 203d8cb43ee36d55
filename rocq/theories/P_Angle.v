(** Property C37: the angle between two lines.  Claimed: the counter-clockwise angle
    from the first to the second line, in (-pi, pi].  The code returns the difference
    of two direction angles, which is that angle only up to a full turn. *)
From Coq Require Import Reals Lra.
From Verif Require Import GeomProofs P_Geom.
Local Open Scope R_scope.

(** [a] is an angle of the rotation taking direction [u] to direction [v]. *)
Definition turns (u v : pt) (a : R) : Prop :=
  len u * len v * cos a = inner u v /\ len u * len v * sin a = cross u v.
(** ... and it is the principal one: the property as claimed. *)
Definition oriented_angle (u v : pt) (a : R) : Prop := turns u v a /\ - PI < a <= PI.

Lemma atan2_unit x y : x * x + y * y = 1 ->
  cos (Ratan2 y x) = x /\ sin (Ratan2 y x) = y /\ - PI < Ratan2 y x <= PI.
Proof.
  intros H. pose proof PI_RGT_0 as Hpi. unfold Ratan2.
  assert (S : x <> 0 -> sqrt (1 + (y / x)²) = / Rabs x).
  { intros Hx. replace (1 + (y / x)²) with (/ (x * x)).
    - rewrite <- (sqrt_Rsqr_abs x). unfold Rsqr. apply sqrt_inv.
    - unfold Rsqr. replace (/ (x * x)) with ((x * x + y * y) / (x * x)) by (rewrite H; field; assumption). field. assumption. }
  destruct (Rlt_dec 0 x) as [Hx|Hx]; [|destruct (Rlt_dec x 0) as [Hx'|Hx']].
  - pose proof (atan_bound (y / x)). rewrite cos_atan, sin_atan, S, Rabs_right by lra.
    split; [field; lra|]. split; [field; lra|lra].
  - pose proof (atan_bound (y / x)) as Hb.
    assert (E1 : cos (atan (y / x)) = - x) by (rewrite cos_atan, S, Rabs_left by lra; field; lra).
    assert (E2 : sin (atan (y / x)) = - y) by (rewrite sin_atan, S, Rabs_left by lra; field; lra).
    destruct (Rle_dec 0 y) as [Hy|Hy].
    + rewrite neg_cos, neg_sin, E1, E2. split; [lra|]. split; [lra|]. split; [lra|].
      destruct Hy as [Hy|Hy].
      * assert (y / x < 0). { unfold Rdiv. apply Ropp_lt_cancel. rewrite Ropp_0. replace (- (y * / x)) with (y * / (- x)) by (field; lra). apply Rmult_lt_0_compat; [lra|]. apply Rinv_0_lt_compat. lra. }
        assert (atan (y / x) < 0) by (rewrite <- atan_0; now apply atan_increasing). lra.
      * subst y. unfold Rdiv. rewrite Rmult_0_l, atan_0. lra.
    + rewrite cos_minus, sin_minus, cos_PI, sin_PI, E1, E2. split; [lra|]. split; [lra|]. split; [|lra].
      assert (0 < y / x). { unfold Rdiv. replace (y * / x) with ((- y) * / (- x)) by (field; lra). apply Rmult_lt_0_compat; [lra|]. apply Rinv_0_lt_compat. lra. }
      assert (0 < atan (y / x)) by (rewrite <- atan_0; now apply atan_increasing). lra.
  - assert (x = 0) by lra. subst x. assert (Hy : y * y = 1) by lra.
    destruct (Rlt_dec 0 y) as [Hy1|Hy1]; [|destruct (Rlt_dec y 0) as [Hy2|Hy2]].
    + assert (y = 1) by nra. subst. rewrite cos_PI2, sin_PI2. lra.
    + assert (y = -1) by nra. subst. rewrite cos_neg, sin_neg, cos_PI2, sin_PI2. lra.
    + assert (y = 0) by lra. subst. lra.
Qed.

Definition unit_vec (u : pt) : pt := (fst u / len u, snd u / len u).
Lemma unit_vec_one u : len u <> 0 -> fst (unit_vec u) * fst (unit_vec u) + snd (unit_vec u) * snd (unit_vec u) = 1.
Proof.
  intros H. pose proof (len_sqr u) as Hs. unfold unit_vec, inner in *. cbn [fst snd].
  replace (fst u / len u * (fst u / len u) + snd u / len u * (snd u / len u)) with ((fst u * fst u + snd u * snd u) / (len u * len u)) by (field; exact H).
  rewrite <- Hs. field. exact H.
Qed.
Lemma nonzero_len A B : A <> B -> len (vec A B) <> 0.
Proof. intros Hne. rewrite len_zero. unfold vec. intros E. inversion E. apply Hne. destruct A, B; cbn in *; f_equal; lra. Qed.

Definition dirangle (u : pt) : R := Ratan2 (snd (unit_vec u)) (fst (unit_vec u)).
Lemma direction_angle_value l A B : line_at l A B -> A <> B -> direction_angle l = Ok (dirangle (vec A B)).
Proof.
  intros Hl Hne. unfold direction_angle. rewrite (unit_line_vector_value l A B Hl (nonzero_len A B Hne)). reflexivity.
Qed.
Lemma angle_value l m A B C D : line_at l A B -> line_at m C D -> A <> B -> C <> D ->
  call Angle [l; m] [] = Ok [dirangle (vec C D) - dirangle (vec A B)].
Proof.
  intros Hl Hm H1 H2. apply call_leaf; [typed|nonode|reflexivity|]. exists (PA0 (dirangle (vec C D) - dirangle (vec A B))). split; [|reflexivity].
  unfold no_params, angle_assem. rewrite (direction_angle_value l A B Hl H1), (direction_angle_value m C D Hm H2). reflexivity.
Qed.

Lemma dirangle_turns u v : len u <> 0 -> len v <> 0 -> turns u v (dirangle v - dirangle u) /\ - (2 * PI) < dirangle v - dirangle u < 2 * PI.
Proof.
  intros Hu Hv. destruct (atan2_unit _ _ (unit_vec_one u Hu)) as (C1 & S1 & B1). destruct (atan2_unit _ _ (unit_vec_one v Hv)) as (C2 & S2 & B2).
  fold (dirangle u) in *. fold (dirangle v) in *. split; [|lra]. unfold turns. rewrite cos_minus, sin_minus, C1, C2, S1, S2.
  unfold unit_vec, inner, cross; cbn [fst snd]. split; field; auto.
Qed.

(** The result is an angle from the first to the second line, within two pi of zero; not
    always the one in (-pi, pi] (C37_angle_range_refuted below). *)
Theorem C37_angle_modulo_full_turn l m A B C D : line_at l A B -> line_at m C D -> A <> B -> C <> D ->
  exists a, call Angle [l; m] [] = Ok [a] /\ turns (vec A B) (vec C D) a /\ - (2 * PI) < a < 2 * PI.
Proof.
  intros Hl Hm H1 H2. eexists. split; [now apply (angle_value l m A B C D)|]. apply dirangle_turns; now apply nonzero_len.
Qed.
(** The constraint: zero residual means that the second line has the target angle. *)
Theorem C37_angle_constraint_sound l m A B C D t k : line_at l A B -> line_at m C D -> A <> B -> C <> D -> num_of t = Some k ->
  exists c, crAngle = Ok c /\ (vanishes c [l; m] [t] -> turns (vec A B) (vec C D) k).
Proof.
  intros Hl Hm H1 H2 Ht. edestruct (leaf_constraint1 Angle _ _ _ [l; m] (@nil pyval) (dirangle (vec C D) - dirangle (vec A B)) t k eq_refl) as (c & C1 & C2);
    [typed|nonode|reflexivity| |exact Ht|].
  { exists (PA0 (dirangle (vec C D) - dirangle (vec A B))). split; [|reflexivity]. unfold no_params, angle_assem. rewrite (direction_angle_value l A B Hl H1), (direction_angle_value m C D Hm H2). reflexivity. }
  exists c. split; [exact C1|]. cbn [app] in C2. rewrite (vanishes1 _ _ _ _ C2). intros E.
  replace k with (dirangle (vec C D) - dirangle (vec A B)) by lra. apply dirangle_turns; now apply nonzero_len.
Qed.

Definition at_angle (x y : R) : prim :=
  Node TLine {| vid := 0; vdata := [] |} [("Point0", Node TPoint {| vid := 1; vdata := [0; 0] |} []); ("Point1", Node TPoint {| vid := 2; vdata := [x; y] |} [])].
Lemma at_angle_line x y : line_at (at_angle x y) (0, 0) (x, y).
Proof. exists {| vid := 0; vdata := [] |}; do 2 eexists. split; [reflexivity|]. split; do 2 eexists; reflexivity. Qed.

Lemma dirangle_diag s : s = 1 \/ s = -1 -> dirangle (-1, s) = s * (3 * (PI / 4)).
Proof.
  intros Hs. unfold dirangle, unit_vec. set (L := len (-1, s)).
  assert (HL : 0 < L). { unfold L. assert (H : len (-1, s) <> 0) by (rewrite len_zero; intros E; inversion E; lra).
    pose proof (sqrt_pos (inner (-1, s) (-1, s))). fold (len (-1, s)) in *. lra. }
  cbn [fst snd]. unfold Ratan2. assert (Hn : -1 / L < 0). { unfold Rdiv. apply Ropp_lt_cancel. rewrite Ropp_0. replace (- (-1 * / L)) with (/ L) by ring. now apply Rinv_0_lt_compat. }
  destruct (Rlt_dec 0 (-1 / L)); [lra|]. destruct (Rlt_dec (-1 / L) 0); [|lra].
  assert (Hl : 0 < / L) by now apply Rinv_0_lt_compat.
  destruct Hs; subst s.
  - destruct (Rle_dec 0 (1 / L)); [|exfalso; apply n0; unfold Rdiv; lra]. replace (1 / L / (-1 / L)) with (- (1)) by (field; lra).
    rewrite (atan_opp 1), atan_1. lra.
  - destruct (Rle_dec 0 (-1 / L)); [exfalso; lra|]. replace (-1 / L / (-1 / L)) with 1 by (field; lra). rewrite atan_1. lra.
Qed.
(** The claim fails: from direction 135 degrees to direction -135 degrees the code
    returns -270 degrees, not 90. *)
Theorem C37_angle_range_refuted :
  exists l m A B C D, line_at l A B /\ line_at m C D /\ A <> B /\ C <> D /\
    call Angle [l; m] [] = Ok [- (3 * (PI / 2))] /\ ~ oriented_angle (vec A B) (vec C D) (- (3 * (PI / 2))) /\
    oriented_angle (vec A B) (vec C D) (PI / 2).
Proof.
  pose proof PI_RGT_0 as Hpi.
  exists (at_angle (-1) 1), (at_angle (-1) (-1)), (0, 0), (-1, 1), (0, 0), (-1, -1).
  split; [apply at_angle_line|]. split; [apply at_angle_line|]. split; [intros E; inversion E; lra|]. split; [intros E; inversion E; lra|].
  split.
  - rewrite (angle_value _ _ _ _ _ _ (at_angle_line _ _) (at_angle_line _ _)) by (intros E; inversion E; lra).
    assert (V : forall s, vec (0, 0) (-1, s) = (-1, s)) by (intros; unfold vec; cbn; f_equal; ring). rewrite !V.
    rewrite (dirangle_diag 1), (dirangle_diag (-1)) by auto. do 2 f_equal. lra.
  - split; [intros [_ H]; lra|]. split; [|lra]. unfold turns. rewrite cos_PI2, sin_PI2.
    assert (E : len (vec (0, 0) (-1, 1)) * len (vec (0, 0) (-1, -1)) = 2).
    { replace (len (vec (0,0) (-1,-1))) with (len (vec (0,0) (-1,1))) by (unfold len, inner, vec; cbn; f_equal; ring). rewrite len_sqr. unfold inner, vec; cbn. ring. }
    rewrite E. unfold inner, cross, vec; cbn. lra.
Qed.
(** Hypotheses are met: the refutation's lines, and also a pair where the claim holds. *)
Example C37_case : line_at (at_angle 3 4) (0, 0) (3, 4) /\ line_at (at_angle 1 0) (0, 0) (1, 0) /\ ((0, 0) : pt) <> (3, 4) /\ ((0, 0) : pt) <> (1, 0) /\
  num_of (PFlt 2 : pyval) = Some 2.
Proof. repeat split; try apply at_angle_line; intros E; inversion E; lra. Qed.

Print Assumptions C37_angle_modulo_full_turn.
Print Assumptions C37_angle_constraint_sound.
Print Assumptions C37_angle_range_refuted.
