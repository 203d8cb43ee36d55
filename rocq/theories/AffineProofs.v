(** Newton's method on affine residuals. *)
From Coq Require Import Reals Lra.
From Verif Require Export SolverProofs SolverSpec.
Local Open Scope R_scope.

Lemma mix_length s a b : length a = length b -> length (mix s a b) = length a.
Proof. intros H. unfold mix. rewrite map_length, zip_length. lia. Qed.
Lemma mix_nth s : forall a b i, length a = length b -> nth i (mix s a b) 0 = (1 - s) * nth i a 0 + s * nth i b 0.
Proof.
  unfold mix. induction a as [|x a IH]; intros [|y b] i H; try discriminate; cbn.
  - destruct i; cbn; lra.
  - destruct i; cbn; [reflexivity|]. apply IH. now injection H.
Qed.
Lemma mix_same s a : mix s a a = a.
Proof. unfold mix. induction a as [|x a IH]; cbn; [reflexivity|]. rewrite IH. f_equal. lra. Qed.
Lemma shifted_length g t d : length d = length g -> length (shifted g t d) = length g.
Proof. intros H. unfold shifted. rewrite map_length, zip_length. lia. Qed.
Lemma shifted_mix t : forall g d, length d = length g -> shifted g t d = mix t g (shifted g 1 d).
Proof.
  unfold shifted, mix. induction g as [|x g IH]; intros [|y d] H; try discriminate; [reflexivity|]. cbn. f_equal; [lra|]. apply IH. now injection H.
Qed.
Lemma shifted_0 : forall g d, length d = length g -> shifted g 0 d = g.
Proof. unfold shifted. induction g as [|x g IH]; intros [|y d] H; try discriminate; [reflexivity|]. cbn. f_equal; [lra|]. apply IH. now injection H. Qed.
Lemma shifted_vadd : forall g d, length d = length g -> vadd g d = Ok (shifted g 1 d).
Proof.
  intros g d H. unfold vadd, bcast2. rewrite H, Nat.eqb_refl. unfold shifted. rewrite (mapM_Ok_map (fun xy => nadd (fst xy) (snd xy))). f_equal.
  apply map_ext. intros [x y]. cbn. lra.
Qed.
Lemma nth_eq (a b : list R) : length a = length b -> (forall i, nth i a 0 = nth i b 0) -> a = b.
Proof.
  revert b. induction a as [|x a IH]; intros [|y b] H E; try discriminate; [reflexivity|]. f_equal; [exact (E 0%nat)|]. apply IH; [now injection H|]. intros i. exact (E (S i)).
Qed.

Section Affine.
  Variables (n : nat) (res : list R -> result (list R)).
  Hypothesis Haff : affine n res.

  Lemma affine_at g : length g = n -> exists r, res g = Ok r.
  Proof. intros H. destruct (Haff 0 g g H H) as (r & _ & E & _). eauto. Qed.
  (** The residual along a direction with the given derivative. *)
  Lemma affine_step g d r v : length g = n -> res g = Ok r -> directional res g d v ->
    exists r1, res (shifted g 1 d) = Ok r1 /\ length r1 = length r /\ length v = length r /\ forall i, nth i r1 0 = nth i r 0 + nth i v 0.
  Proof.
    intros Hg Er (Hd & eps & rs & He & Hrs & Hv).
    assert (H1 : length (shifted g 1 d) = n) by (rewrite shifted_length; assumption).
    destruct (Haff 0 g _ Hg H1) as (r' & r1 & E' & E1 & Hl & _). rewrite Er in E'. injection E' as <-.
    assert (Hall : forall t, res (shifted g t d) = Ok (mix t r r1)).
    { intros t. rewrite (shifted_mix t g d Hd). destruct (Haff t g _ Hg H1) as (a & b & Ea & Eb & _ & E). rewrite Er in Ea. rewrite E1 in Eb. injection Ea as <-. injection Eb as <-. exact E. }
    assert (Ht : forall t, Rabs t < eps -> rs t = mix t r r1).
    { intros t H. destruct (Hrs t H) as [E _]. rewrite Hall in E. now injection E as <-. }
    exists r1. split; [assumption|]. split; [now symmetry|]. split.
    { destruct (Hrs 0) as [_ E]; [now rewrite Rabs_R0|]. rewrite Ht in E by now rewrite Rabs_R0. rewrite mix_length in E; auto. }
    intros i. specialize (Hv i).
    assert (Hlim : derivable_pt_lim (fun t => nth i (rs t) 0) 0 (nth i r1 0 - nth i r 0)).
    { intros e Hpos. exists (mkposreal eps He). intros h Hh0 Hh. cbn in Hh. rewrite Rplus_0_l, !Ht, !mix_nth by (assumption || now rewrite Rabs_R0).
      match goal with |- Rabs ?x < e => replace x with 0 end; [now rewrite Rabs_R0|]. field. exact Hh0. }
    pose proof (uniqueness_limite _ _ _ _ Hv Hlim). lra.
  Qed.
  Lemma affine_direction g gs r : length g = n -> length gs = n -> res g = Ok r -> (forall z, res gs = Ok z -> zeros z) ->
    exists d, directional res g d (map Ropp r).
  Proof.
    intros Hg Hgs Er Hz. set (d := map (fun xy => snd xy - fst xy) (zip g gs)).
    assert (Hd : length d = length g) by (unfold d; rewrite map_length, zip_length; lia). exists d. split; [exact Hd|].
    assert (Es : shifted g 1 d = gs).
    { unfold shifted, d. assert (L : length g = length gs) by lia. clear -L. revert gs L. induction g as [|x g IH]; intros [|y gs] H; try discriminate; [reflexivity|]. cbn. f_equal; [lra|]. apply IH. now injection H. }
    destruct (Haff 0 g gs Hg Hgs) as (r' & z & E' & Ez & Hl & _). rewrite Er in E'. injection E' as <-. specialize (Hz z Ez).
    exists 1, (fun t => mix t r z). split; [lra|]. split.
    - intros t _. rewrite (shifted_mix t g d Hd), Es. destruct (Haff t g gs Hg Hgs) as (a & b & Ea & Eb & _ & E). rewrite Er in Ea. rewrite Ez in Eb. injection Ea as <-. injection Eb as <-.
      split; [exact E|]. now rewrite map_length, mix_length.
    - intros i. assert (Hzi : nth i z 0 = 0). { destruct (nth_in_or_default i z 0) as [H|H]; [|exact H]. unfold zeros in Hz. rewrite Forall_forall in Hz. now apply Hz. }
      assert (E : nth i (map Ropp r) 0 = - nth i r 0). { rewrite <- Ropp_0 at 1. apply map_nth. }
      rewrite E. intros e Hpos. exists (mkposreal 1 Rlt_0_1). intros h Hh0 _. rewrite Rplus_0_l, !mix_nth, Hzi by assumption.
      match goal with |- Rabs ?x < e => replace x with 0 end; [now rewrite Rabs_R0|]. field. exact Hh0.
  Qed.
  (** One Newton step from anywhere solves a solvable affine system. *)
  Lemma affine_newton step g gs z : solves_linear_systems n res step -> length g = n -> length gs = n -> res gs = Ok z -> zeros z ->
    exists r d z', res g = Ok r /\ step g r = Ok d /\ vadd g d = Ok (shifted g 1 d) /\ length (shifted g 1 d) = n /\
      res (shifted g 1 d) = Ok z' /\ zeros z'.
  Proof.
    intros Hst Hg Hgs Ez Hz. destruct (affine_at g Hg) as [r Er].
    assert (Hdir : exists d, directional res g d (map Ropp r)) by (apply (affine_direction g gs r Hg Hgs Er); intros z' E; rewrite Ez in E; now injection E as <-).
    destruct (Hst g r Hg Er Hdir) as (d & Ed & Hd). destruct (affine_step g d r _ Hg Er Hd) as (r1 & E1 & Hl1 & _ & Hn).
    assert (Hdl : length d = length g) by apply Hd.
    exists r, d, r1. repeat split; auto.
    - now apply shifted_vadd.
    - now rewrite shifted_length.
    - apply Forall_forall. intros x Hx. apply (In_nth _ _ 0) in Hx as (i & _ & <-). rewrite Hn.
      replace (nth i (map Ropp r) 0) with (- nth i r 0); [lra|]. symmetry. rewrite <- Ropp_0 at 1. apply map_nth.
  Qed.
End Affine.

Lemma norm_total (r : list R) : exists a, norm r = Ok a.
Proof.
  unfold norm. cbn [nsqrt NumR]. unfold Rsqrt_r. destruct (Rlt_dec _ 0) as [H|]; [|eauto]. exfalso. revert H. apply Rle_not_lt.
  induction r as [|x r IH]; cbn; [lra|]. apply Rplus_le_le_0_compat; [|exact IH]. exact (Rle_0_sqr x).
Qed.

(** The whole solve. *)
Lemma affine_solve (l : layout R) step abs_tol rel_tol max_iter gs z :
  wf (l_prim l) -> slashfree (l_prim l) ->
  affine (length (initial_global (l_prim l))) (global_res l) -> solves_linear_systems (length (initial_global (l_prim l))) (global_res l) step ->
  length gs = length (initial_global (l_prim l)) -> global_res l gs = Ok z -> zeros z -> (1 <= max_iter)%nat ->
  exists p info z', solve_newton step l abs_tol rel_tol max_iter = Ok (p, info) /\ layout_residual l p = Ok z' /\ zeros z'.
Proof.
  intros Hw Hs Haff Hst Hgs Ez Hz Hm. set (n := length (initial_global (l_prim l))) in *.

  set (fine := fun g : list R => length g = n /\ exists z', global_res l g = Ok z' /\ zeros z').
  assert (Step : forall g, length g = n -> exists r d g' a, global_res l g = Ok r /\ step g r = Ok d /\ vadd g d = Ok g' /\ norm r = Ok a /\ fine g').
  { intros g Hg. destruct (affine_newton n _ Haff step g gs z Hst Hg Hgs Ez Hz) as (r & d & z' & E1 & E2 & E3 & Hl & E4 & Hz'). destruct (norm_total r) as [a Ea].
    exists r, d, (shifted g 1 d), a. repeat split; auto. exists z'. auto. }
  destruct max_iter as [|m]; [lia|].
  unfold solve_newton. cbn [newton_loop newton_init ns_abs_err ns_rel_err gtb andb].
  destruct (Step (initial_global (l_prim l)) eq_refl) as (r & d & g' & a & E1 & E2 & E3 & E4 & Hf).
  unfold newton_body at 1. cbn [ns_g newton_init]. rewrite E1. cbn [bind]. rewrite E2. cbn [bind]. rewrite E3. cbn [bind]. rewrite E4. cbn [bind].
  match goal with |- context [newton_loop _ _ _ _ m ?st] => assert (T : exists s', newton_loop (global_res l) step abs_tol rel_tol m st = Ok s' /\ fine (ns_g s')); [apply (loop_total (global_res l) step abs_tol rel_tol fine)|destruct T as (s' & Es & Hs')] end.
  - intros g [Hg _]. destruct (Step g Hg) as (r' & d' & g'' & a' & F1 & F2 & F3 & F4 & F5). exists r', d', g'', a'. auto.
  - exact Hf.
  - rewrite Es. cbn [bind]. rewrite tree_of_global_ok by assumption. cbn [bind]. destruct Hs' as [_ (z' & Hz1 & Hz2)].
    do 2 eexists. exists z'. split; [reflexivity|]. split; [|assumption]. unfold global_res in Hz1. rewrite tree_of_global_ok in Hz1 by assumption. exact Hz1.
Qed.
