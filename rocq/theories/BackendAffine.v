(** The exact backend on affine residuals: the Newton step is the least-squares solution. *)
From Coq Require Import Reals Lra.
From Verif Require Export BackendProofs AffineProofs.
Local Open Scope R_scope.

Lemma nth_repeat0 n i : nth i (repeat 0 n) 0 = 0.
Proof. revert i. induction n as [|n IH]; intros [|i]; cbn; auto. Qed.
Lemma shifted_nth g t d i : length d = length g -> nth i (shifted g t d) 0 = nth i g 0 + t * nth i d 0.
Proof. revert d i. unfold shifted. induction g as [|x g IH]; intros [|y d] i H; try discriminate; destruct i; cbn; try lra. apply IH. now injection H. Qed.
Lemma nth_scale t a i : nth i (map (Rmult t) a) 0 = t * nth i a 0.
Proof. revert i. induction a as [|x a IH]; intros [|i]; cbn; try lra. apply IH. Qed.
Lemma dotp_cons x a y b : dotp (x :: a) (y :: b) = x * y + dotp a b.
Proof. reflexivity. Qed.

(** Linear functions of lists are inner products. *)
Definition unit_vector (n j : nat) : list R := bump (repeat 0 n) j 1.
Definition linear (n : nat) (f : list R -> R) : Prop :=
  (forall a b, length a = n -> length b = n -> f (shifted a 1 b) = f a + f b) /\ (forall t a, length a = n -> f (map (Rmult t) a) = t * f a).
Lemma linear_dotp n : forall f row d, linear n f -> length row = n -> length d = n -> (forall j, (j < n)%nat -> nth j row 0 = f (unit_vector n j)) -> f d = dotp row d.
Proof.
  induction n as [|n IH]; intros f row d [Hp Hs] Hr Hd Hu.
  - destruct d; [|discriminate]. destruct row; [|discriminate]. cbn. specialize (Hs 0 [] eq_refl). cbn in Hs. lra.
  - destruct d as [|x d]; [discriminate|]. destruct row as [|r row]; [discriminate|]. cbn in Hr, Hd. injection Hr as Hr. injection Hd as Hd.
    rewrite dotp_cons. pose proof (Hu 0%nat (Nat.lt_0_succ n)) as H0. cbn [nth] in H0. rewrite H0.
    assert (E : x :: d = shifted (map (Rmult x) (unit_vector (S n) 0)) 1 (0 :: d)).
    { apply nth_eq; [rewrite shifted_length; cbn; rewrite map_length, repeat_length; congruence|]. intros i. rewrite shifted_nth by (cbn; rewrite map_length, repeat_length; congruence). unfold unit_vector. cbn [repeat bump map].
      destruct i as [|i]; cbn [nth]; [lra|]. rewrite nth_scale, nth_repeat0. lra. }
    rewrite E, Hp, Hs by (unfold unit_vector; cbn; rewrite ?map_length, ?repeat_length; congruence).
    rewrite (Rmult_comm _ x). f_equal.
    apply (IH (fun d => f (0 :: d)) row d); [|exact Hr|exact Hd|].
    + split.
      * intros a b Ha Hb. rewrite <- Hp by (cbn; congruence). f_equal. unfold shifted. cbn. f_equal. lra.
      * intros t a Ha. rewrite <- Hs by (cbn; congruence). cbn. now rewrite Rmult_0_r.
    + intros j Hj. specialize (Hu (S j) (proj1 (Nat.succ_lt_mono j n) Hj)). exact Hu.
Qed.

Section Affine.
  Variables (n : nat) (res : list R -> result (list R)) (bk : backend).
  Hypothesis Haff : affine n res.
  Hypothesis Hbk : exact bk n res.

  Lemma affine_component i s g h : length g = n -> length h = n -> component res i (mix s g h) = (1 - s) * component res i g + s * component res i h.
  Proof. intros Hg Hh. unfold component. destruct (Haff s g h Hg Hh) as (a & b & -> & -> & L & ->). now apply mix_nth. Qed.
  Lemma bump_mix g j t : mix t g (bump g j 1) = bump g j t.
  Proof. unfold mix. revert j. induction g as [|x g IH]; intros [|j]; cbn; try reflexivity; f_equal; try lra; [|apply IH]. change (mix t g g = g). apply mix_same. Qed.
  Lemma gradient_affine i g j : length g = n -> (j < n)%nat -> nth j (grad bk (component res i) g) 0 = component res i (bump g j 1) - component res i g.
  Proof.
    intros Hg Hj. apply (proj2 (proj2 Hbk i g Hg) j); [exact Hj|]. set (A := component res i g). set (B := component res i (bump g j 1)).
    intros e Hpos. exists (mkposreal 1 Rlt_0_1). intros h Hh0 _. rewrite Rplus_0_l, <- (bump_mix g j h), <- (bump_mix g j 0), !affine_component by (rewrite ?bump_length; assumption). fold A B.
    match goal with |- Rabs ?x < e => replace x with 0 end; [now rewrite Rabs_R0|]. field. exact Hh0.
  Qed.
  Lemma affine_linear i g : length g = n -> linear n (fun d => component res i (shifted g 1 d) - component res i g).
  Proof.
    intros Hg. assert (T : forall t a, length a = n -> component res i (shifted g t a) = (1 - t) * component res i g + t * component res i (shifted g 1 a)).
    { intros t a Ha. rewrite (shifted_mix t) by congruence. apply affine_component; [exact Hg|]. rewrite shifted_length; congruence. }
    split.
    - intros a b Ha Hb. assert (E : shifted g 1 (shifted a 1 b) = mix (1/2) (shifted g 2 a) (shifted g 2 b)).
      { apply nth_eq; [rewrite mix_length, !shifted_length by (rewrite ?shifted_length; congruence); reflexivity|]. intros k. rewrite mix_nth, !shifted_nth by (rewrite ?shifted_length; congruence). lra. }
      rewrite E, affine_component, (T 2 a Ha), (T 2 b Hb) by (rewrite shifted_length; congruence). lra.
    - intros t a Ha. replace (shifted g 1 (map (Rmult t) a)) with (shifted g t a); [rewrite T by assumption; lra|].
      apply nth_eq; [rewrite !shifted_length; rewrite ?map_length; congruence|]. intros k. rewrite !shifted_nth by (rewrite ?map_length; congruence).
      rewrite nth_scale. lra.
  Qed.
  Lemma unit_shift g j : length g = n -> shifted g 1 (unit_vector n j) = bump g j 1.
  Proof.
    intros Hg. unfold unit_vector. rewrite <- Hg. clear Hg. revert j. unfold shifted. induction g as [|x g IH]; intros [|j]; cbn; try reflexivity; f_equal; try lra; [|apply IH].
    clear. induction g as [|y g IH]; [reflexivity|]. cbn. f_equal; [lra|exact IH].
  Qed.
  Lemma jacobian_rows m g : length g = n -> Forall (fun row => length row = n) (jacobian bk res m g) /\ length (jacobian bk res m g) = m.
  Proof.
    intros Hg. unfold jacobian. rewrite map_length, seq_length. split; [|reflexivity]. apply Forall_map, Forall_forall. intros i _. apply (proj1 (proj2 Hbk i g Hg)).
  Qed.
  (** The residual at [g + d] is the linearisation. *)
  Lemma affine_residual g r d : length g = n -> res g = Ok r -> length d = n ->
    res (shifted g 1 d) = Ok (minus (times (jacobian bk res (length r) g) d) (map Ropp r)).
  Proof.
    intros Hg Er Hd. assert (Hl : length (shifted g 1 d) = n) by (rewrite shifted_length; congruence).
    destruct (Haff 0 g _ Hg Hl) as (r' & r1 & E' & E1 & L & _). rewrite Er in E'. injection E' as <-. rewrite E1. f_equal.
    destruct (jacobian_rows (length r) g Hg) as [J1 J2]. apply nth_eq; [rewrite minus_length, times_length, J2; [auto|]; now rewrite times_length, J2, map_length|].
    intros i. rewrite nth_minus by now rewrite times_length, J2, map_length.
    replace (nth i (map Ropp r) 0) with (- nth i r 0); [|symmetry; rewrite <- Ropp_0 at 1; apply map_nth].
    destruct (Nat.lt_ge_cases i (length r)) as [Hi|Hi].
    - assert (T : nth i (times (jacobian bk res (length r) g) d) 0 = dotp (grad bk (component res i) g) d).
      { unfold times, jacobian. rewrite map_map. erewrite nth_indep by (rewrite map_length, seq_length; exact Hi). rewrite (map_nth (fun j => dotp (grad bk (component res j) g) d) (seq 0 (length r)) 0%nat). now rewrite seq_nth. }
      rewrite T, <- (linear_dotp n _ _ d (affine_linear i g Hg)); [|apply (proj1 (proj2 Hbk i g Hg))|exact Hd|intros j Hj; rewrite unit_shift by assumption; now apply gradient_affine].
      cbv beta. unfold component. rewrite E1, Er. lra.
    - rewrite !nth_overflow; [lra| | |]; rewrite ?times_length, ?J2; lia.
  Qed.
  (** The step and where it leads. *)
  Lemma lstsq_defined g r : length g = n -> exists d, lstsq_step bk res g r = Ok d /\ least n (jacobian bk res (length r) g) (map Ropp r) d.
  Proof.
    intros Hg. destruct (jacobian_rows (length r) g Hg) as [J1 J2]. unfold lstsq_step. rewrite Hg. apply (proj1 Hbk); [exact J1|]. now rewrite map_length, J2.
  Qed.
  Lemma minus_shift g h : length g = length h -> shifted g 1 (minus h g) = h.
  Proof. intros H. apply nth_eq; [now rewrite shifted_length; [|rewrite minus_length]|]. intros i. rewrite shifted_nth, nth_minus by (rewrite ?minus_length; auto). lra. Qed.
  Lemma shift_minus g d : length d = length g -> minus (shifted g 1 d) g = d.
  Proof.
    intros H. assert (L : length (shifted g 1 d) = length g) by now apply shifted_length. apply nth_eq; [now rewrite minus_length, L|].
    intros i. rewrite nth_minus, shifted_nth by assumption. lra.
  Qed.
  (** [g1] minimises the sum of squares of the residual. *)
  Definition minimal (g1 : list R) : Prop :=
    length g1 = n /\ forall z zh h, res g1 = Ok z -> length h = n -> res h = Ok zh -> sumsq z <= sumsq zh.
  Lemma least_step g r d : length g = n -> res g = Ok r -> lstsq_step bk res g r = Ok d -> least n (jacobian bk res (length r) g) (map Ropp r) d ->
    length d = n /\ minimal (shifted g 1 d) /\
    forall z h zh, res (shifted g 1 d) = Ok z -> length h = n -> res h = Ok zh -> sumsq zh = sumsq z -> distance2 (shifted g 1 d) g <= distance2 h g /\ (distance2 h g <= distance2 (shifted g 1 d) g -> h = shifted g 1 d).
  Proof.
    intros Hg Er Ed Hd. assert (Hdl : length d = n) by apply Hd. split; [exact Hdl|].
    assert (G : forall h zh, length h = n -> res h = Ok zh -> length (minus h g) = n /\ zh = minus (times (jacobian bk res (length r) g) (minus h g)) (map Ropp r)).
    { intros h zh Hh Eh. assert (L : length (minus h g) = n) by (rewrite minus_length; congruence). split; [exact L|].
      pose proof (affine_residual g r (minus h g) Hg Er L) as E. rewrite minus_shift, Eh in E by congruence. now injection E. }
    pose proof (affine_residual g r d Hg Er Hdl) as Ez. split; [split|].
    - rewrite shifted_length; congruence.
    - intros z zh h E Hh Eh. rewrite Ez in E. injection E as <-. destruct (G h zh Hh Eh) as [L ->]. now apply (proj2 Hd).
    - intros z h zh E Hh Eh. rewrite Ez in E. injection E as <-. destruct (G h zh Hh Eh) as [L ->]. intros Eq. unfold distance2. rewrite shift_minus by congruence. split; [now apply (proj2 Hd)|]. intros Hle.
      assert (U : minus h g = d).
      { destruct (jacobian_rows (length r) g Hg) as [J1 J2]. eapply least_unique; [exact J1|now rewrite J2, map_length| |exact Hd]. split; [exact L|]. intros d' Hd'. destruct (proj2 Hd d' Hd') as [D1 D2]. rewrite Eq. split; [exact D1|].
        intros E'. apply (Rle_trans _ (sumsq d)); [exact Hle|]. now apply D2. }
      rewrite <- U. symmetry. apply minus_shift. congruence.
  Qed.
  Lemma least_stay g r d : minimal g -> res g = Ok r -> least n (jacobian bk res (length r) g) (map Ropp r) d -> zeros d.
  Proof.
    intros [Hg Hm] Er Hd. assert (Hdl : length d = n) by apply Hd. apply sumsq_zero.
    set (o := repeat 0 n). assert (Ho : length o = n) by apply repeat_length. assert (Hz : zeros o) by apply zeros_repeat.
    rewrite <- (zeros_sumsq o Hz). destruct (proj2 Hd o Ho) as [H1 H2]. apply H2. apply Rle_antisym; [|exact H1].
    pose proof (affine_residual g r o Hg Er Ho) as Eo. pose proof (affine_residual g r d Hg Er Hdl) as Ed.
    assert (S : shifted g 1 o = g). { apply nth_eq; [apply shifted_length; congruence|]. intros i. rewrite shifted_nth by congruence. unfold o. rewrite nth_repeat0. lra. }
    rewrite S in Eo. apply (Hm _ _ (shifted g 1 d) Eo); [rewrite shifted_length; congruence|exact Ed].
  Qed.
  (** The whole loop: one step, then nothing moves. *)
  Lemma least_loop g0 abs_tol rel_tol m : length g0 = n ->
    exists d s, newton_loop res (lstsq_step bk res) abs_tol rel_tol (S m) (newton_init g0) = Ok s /\ ns_g s = shifted g0 1 d /\ length d = n /\ minimal (shifted g0 1 d) /\
    forall z h zh, res (shifted g0 1 d) = Ok z -> length h = n -> res h = Ok zh -> sumsq zh = sumsq z -> distance2 (shifted g0 1 d) g0 <= distance2 h g0 /\ (distance2 h g0 <= distance2 (shifted g0 1 d) g0 -> h = shifted g0 1 d).
  Proof.
    intros Hg. destruct (affine_at n res Haff g0 Hg) as [r Er]. destruct (lstsq_defined g0 r Hg) as (d & Ed & Hd). destruct (least_step g0 r d Hg Er Ed Hd) as (Hdl & Hm & Hc).
    exists d. cbn [newton_loop newton_init ns_abs_err ns_rel_err gtb andb]. unfold newton_body at 1. cbn [ns_g newton_init]. rewrite Er. cbn [bind]. rewrite Ed. cbn [bind].
    rewrite shifted_vadd by congruence. cbn [bind]. destruct (norm_total r) as [a Ea]. rewrite Ea. cbn [bind].
    match goal with |- context [newton_loop _ _ _ _ m ?st] => assert (T : exists s', newton_loop res (lstsq_step bk res) abs_tol rel_tol m st = Ok s' /\ (fun g => g = shifted g0 1 d) (ns_g s')) end.
    { apply (loop_total res (lstsq_step bk res) abs_tol rel_tol (fun g => g = shifted g0 1 d)); [|reflexivity]. intros g ->. destruct (affine_at n res Haff _ (proj1 Hm)) as [r1 Er1]. destruct (lstsq_defined _ r1 (proj1 Hm)) as (d1 & Ed1 & Hd1).
      pose proof (least_stay _ _ _ Hm Er1 Hd1) as Hz. assert (Hd1l : length d1 = n) by apply Hd1. destruct (norm_total r1) as [a1 Ea1]. exists r1, d1, (shifted g0 1 d), a1.
      split; [exact Er1|]. split; [exact Ed1|]. split; [|split; [exact Ea1|reflexivity]]. rewrite shifted_vadd by (rewrite Hd1l; symmetry; apply Hm). f_equal.
      rewrite (zeros_eq d1 Hz), Hd1l. apply nth_eq; [apply shifted_length; rewrite repeat_length; symmetry; apply Hm|].
      intros i. rewrite shifted_nth by (rewrite repeat_length; symmetry; apply Hm). rewrite nth_repeat0. lra. }
    destruct T as (s' & Es & Hs'). cbv beta in Hs'. exists s'. auto.
  Qed.
  (** Consistent systems are solved. *)
  Lemma exact_solves : solves_linear_systems n res (lstsq_step bk res).
  Proof.
    intros g r Hg Er (d0 & Hdir). destruct (lstsq_defined g r Hg) as (d & Ed & Hd). exists d. split; [exact Ed|]. assert (Hdl : length d = n) by apply Hd.
    destruct (affine_step n res Haff g d0 r _ Hg Er Hdir) as (r1 & E1 & Hl1 & _ & Hn). assert (H0 : length d0 = n) by (destruct Hdir; congruence).
    assert (Z1 : zeros r1).
    { apply Forall_forall. intros x Hx. apply (In_nth _ _ 0) in Hx as (i & _ & <-). rewrite Hn. replace (nth i (map Ropp r) 0) with (- nth i r 0); [lra|]. symmetry. rewrite <- Ropp_0 at 1. apply map_nth. }
    pose proof (affine_residual g r d0 Hg Er H0) as F1. rewrite E1 in F1. injection F1 as F1. pose proof (affine_residual g r d Hg Er Hdl) as F2.
    set (z := minus (times (jacobian bk res (length r) g) d) (map Ropp r)) in *.
    assert (Z : zeros z). { apply sumsq_zero. rewrite <- (zeros_sumsq r1 Z1), F1. now apply (proj2 Hd). }
    assert (Lz : length r = length z).
    { assert (Hs : length (shifted g 1 d) = n) by (rewrite shifted_length; congruence). destruct (Haff 0 g _ Hg Hs) as (a & b & Ea & Eb & L & _). congruence. }
    assert (Hdg : length d = length g) by congruence. split; [exact Hdg|]. exists 1, (fun t => mix t r z). split; [lra|]. split.
    - intros t _. rewrite (shifted_mix t g d Hdg). assert (Hs : length (shifted g 1 d) = n) by (rewrite shifted_length; congruence).
      destruct (Haff t g _ Hg Hs) as (a & b & Ea & Eb & _ & E). rewrite Er in Ea. rewrite F2 in Eb. injection Ea as <-. injection Eb as <-. split; [exact E|]. now rewrite map_length, mix_length.
    - intros i. assert (Hzi : nth i z 0 = 0). { destruct (nth_in_or_default i z 0) as [H|H]; [|exact H]. unfold zeros in Z. rewrite Forall_forall in Z. now apply Z. }
      assert (E : nth i (map Ropp r) 0 = - nth i r 0). { rewrite <- Ropp_0 at 1. apply map_nth. }
      rewrite E. intros e Hpos. exists (mkposreal 1 Rlt_0_1). intros h Hh0 _. rewrite Rplus_0_l, !mix_nth, Hzi by assumption.
      match goal with |- Rabs ?x < e => replace x with 0 end; [now rewrite Rabs_R0|]. field. exact Hh0.
  Qed.
End Affine.
