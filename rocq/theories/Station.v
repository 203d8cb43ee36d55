(** Stationary points of the sum of squares, and Newton steps. *)
From Coq Require Import Reals Lra.
From Verif Require Export BackendAffine StationSpec.
Local Open Scope R_scope.

Lemma bump_shifted g : forall j t, bump g j t = shifted g t (unit_vector (length g) j).
Proof.
  unfold unit_vector, shifted. induction g as [|x g IH]; intros [|j] t; cbn; try reflexivity; f_equal; try lra; [|apply IH].
  clear. induction g as [|y g IH]; [reflexivity|]. cbn. f_equal; [lra|exact IH].
Qed.
Lemma unit_length n j : length (unit_vector n j) = n.
Proof. unfold unit_vector. now rewrite bump_length, repeat_length. Qed.
Lemma dotp_unit row : forall j, (j < length row)%nat -> dotp row (unit_vector (length row) j) = nth j row 0.
Proof.
  unfold unit_vector. induction row as [|y row IH]; intros [|j] H; cbn in H; try lia.
  - cbn [length repeat bump]. rewrite dotp_cons. cbn [nth]. rewrite (dotp_zeros row _ (zeros_repeat _)). lra.
  - cbn [length repeat bump]. rewrite dotp_cons, IH by lia. cbn [nth]. lra.
Qed.
Lemma nth_times A x i : nth i (times A x) 0 = dotp (nth i A []) x.
Proof. unfold times. change 0 with (dotp [] x). now rewrite (map_nth (fun row => dotp row x)). Qed.
Lemma near_limit f h eps v : 0 < eps -> (forall t, Rabs t < eps -> f t = h t) -> derivable_pt_lim f 0 v -> derivable_pt_lim h 0 v.
Proof.
  intros He E H e Hpos. destruct (H e Hpos) as [del Hdel]. assert (Hm : 0 < Rmin eps del) by (apply Rmin_pos; [assumption|apply cond_pos]).
  exists (mkposreal _ Hm). intros t Ht Hlt. cbn in Hlt. rewrite Rplus_0_l. rewrite <- !E.
  - specialize (Hdel t Ht). rewrite Rplus_0_l in Hdel. apply Hdel. eapply Rlt_le_trans; [exact Hlt|apply Rmin_r].
  - now rewrite Rabs_R0.
  - eapply Rlt_le_trans; [exact Hlt|apply Rmin_l].
Qed.

(** ** Least squares *)
Section Least.
  Variables (n : nat) (A : list (list R)) (b : list R).
  Hypothesis HA : Forall (fun row => length row = n) A.
  Hypothesis Hb : length b = length A.
  Lemma least_orth d y : least n A b d -> length y = n -> dotp (times A d) (times A y) = dotp b (times A y).
  Proof.
    intros Hd Hy. assert (N : normal n A b (at_ d)).
    { rewrite (least_shortest n A b HA Hb d Hd). intros j Hj. pose proof (x0_normal n A b j Hj) as H. etransitivity; [|exact H].
      apply dt_ext; [|reflexivity]. intros i Hi. now rewrite (shortest_app n A b Hb i Hi). }
    pose proof (normal_orth n A b (at_ d) (at_ y) N) as O. rewrite dt_comm, dt_minus in O.
    assert (G : forall x i, length x = n -> In i (seq 0 (length A)) -> at_ (times A x) i = Lsq.app n A (at_ x) i).
    { intros x i Hx Hi. apply in_seq in Hi. unfold at_ at 1. now apply times_at. }
    rewrite !(dotp_dt _ _ (length A)) by (rewrite ?times_length; auto). destruct Hd as [Hl _].
    rewrite (dt_ext _ (at_ (times A d)) (at_ (times A y)) (Lsq.app n A (at_ d)) (Lsq.app n A (at_ y))) by (intros; now apply G).
    rewrite (dt_ext _ (at_ b) (at_ (times A y)) (at_ b) (Lsq.app n A (at_ y))) by (intros; try reflexivity; now apply G).
    rewrite (dt_comm _ (Lsq.app n A (at_ y)) (at_ b)), (dt_comm _ (Lsq.app n A (at_ y)) (Lsq.app n A (at_ d))) in O. lra.
  Qed.
  Lemma still d : least n A b d -> zeros (times A d) -> zeros d.
  Proof.
    intros [Hl H] Hz. destruct (H (repeat 0 n) (repeat_length _ _)) as [_ H2]. apply sumsq_zero. rewrite <- (zeros_sumsq _ (zeros_repeat n)). apply H2. f_equal. f_equal.
    rewrite (zeros_eq _ Hz), (zeros_eq _ (times_zeros A _ (zeros_repeat n))), !times_length. reflexivity.
  Qed.
  Lemma stuck d : least n A b d -> (forall y, length y = n -> dotp b (times A y) = 0) -> zeros d.
  Proof.
    intros Hd H. apply still; [exact Hd|]. apply sumsq_zero. unfold sumsq. rewrite (least_orth d d Hd) by apply Hd. rewrite H by apply Hd. lra.
  Qed.
End Least.

(** ** Derivatives *)
Lemma sum_limit (s : list nat) : forall (F : nat -> R -> R) V, (forall i, In i s -> derivable_pt_lim (F i) 0 (V i)) -> derivable_pt_lim (fun t => sm s (fun i => F i t)) 0 (sm s V).
Proof.
  induction s as [|i s IH]; intros F V H; [apply (derivable_pt_lim_const 0)|].
  apply (derivable_pt_lim_plus (F i) (fun t => sm s (fun i => F i t))); [apply H; now left|]. apply IH. intros; apply H; now right.
Qed.
Lemma square_sum (r : list R) : nsum (map (fun x => nmul x x) r) = sm (seq 0 (length r)) (fun i => nth i r 0 * nth i r 0).
Proof. unfold nsum. induction r as [|x r IH]; [reflexivity|]. cbn [map fold_right length]. rewrite sm_seq_S. cbn [nth]. rewrite <- IH. reflexivity. Qed.

Section Slopes.
  Variables (l : layout R) (g : list R) (J : list (list R)) (r : list R).
  Notation res := (global_res l).
  Hypothesis HJ : has_jacobian res g J.
  Hypothesis Er : res g = Ok r.
  Lemma start d : directional res g d (times J d) -> length r = length J.
  Proof.
    intros (Hd & eps & rs & He & H1 & _). destruct (H1 0) as [E L]; [now rewrite Rabs_R0|]. rewrite (shifted_0 g d Hd), Er in E. rewrite times_length in L. congruence.
  Qed.
  Lemma rows_count : length r = length J.
  Proof. apply (start (repeat 0 (length g))). apply (proj2 HJ). apply repeat_length. Qed.
  Lemma slope_at d : length d = length g -> slope l g d (2 * dotp r (times J d)).
  Proof.
    intros Hd. destruct (proj2 HJ d Hd) as (_ & eps & rs & He & H1 & H2). exists eps, (fun t => nsum (map (fun x => nmul x x) (rs t))). split; [exact He|]. split.
    - intros t Ht. unfold objective. now rewrite (proj1 (H1 t Ht)).
    - apply (near_limit (fun t => sm (seq 0 (length r)) (fun i => nth i (rs t) 0 * nth i (rs t) 0)) _ eps); [exact He| |].
      + intros t Ht. rewrite square_sum, (proj2 (H1 t Ht)), times_length. now rewrite rows_count.
      + assert (E0 : rs 0 = r). { destruct (H1 0) as [E _]; [now rewrite Rabs_R0|]. rewrite (shifted_0 g d Hd), Er in E. congruence. }
        assert (Ev : 2 * dotp r (times J d) = sm (seq 0 (length r)) (fun i => nth i (times J d) 0 * nth i (rs 0) 0 + nth i (rs 0) 0 * nth i (times J d) 0)).
        { rewrite (dotp_dt r _ (length r)) by (rewrite ?times_length, ?rows_count; reflexivity). unfold dt. rewrite <- sm_scal. apply sm_ext. intros i _. rewrite E0. unfold at_. lra. }
        rewrite Ev. apply sum_limit. intros i _. apply (derivable_pt_lim_mult (fun t => nth i (rs t) 0) (fun t => nth i (rs t) 0)); apply H2.
  Qed.
  Lemma slope_unique d v w : slope l g d v -> slope l g d w -> v = w.
  Proof.
    intros (e1 & f1 & P1 & Q1 & R1) (e2 & f2 & P2 & Q2 & R2). eapply uniqueness_limite; [|exact R2].
    apply (near_limit f1 f2 (Rmin e1 e2)); [now apply Rmin_pos| |exact R1]. intros t Ht. pose proof (Rmin_l e1 e2). pose proof (Rmin_r e1 e2). specialize (Q1 t ltac:(lra)). specialize (Q2 t ltac:(lra)). congruence.
  Qed.
  (** The Jacobian that an exact backend computes. *)
  Lemma exact_jacobian bk : exact bk (length g) res -> jacobian bk res (length r) g = J.
  Proof.
    intros [_ Hg]. unfold jacobian. rewrite rows_count. apply (nth_ext _ _ (grad bk (component res 0) g) []); [now rewrite map_length, seq_length|].
    intros i Hi. rewrite map_length, seq_length in Hi. rewrite (map_nth (fun i => grad bk (component res i) g) (seq 0 (length J)) 0%nat), seq_nth by exact Hi. cbn [Nat.add].
    destruct (Hg i g eq_refl) as [L D]. destruct HJ as [R Dir]. rewrite Forall_forall in R. assert (Li : length (nth i J []) = length g) by (apply R; now apply nth_In).
    apply (nth_ext _ _ 0 0); [congruence|]. intros j Hj. rewrite L in Hj. apply D; [exact Hj|].
    destruct (Dir (unit_vector (length g) j) (unit_length _ _)) as (_ & eps & rs & He & H1 & H2). specialize (H2 i). rewrite nth_times, <- Li, dotp_unit in H2 by lia.
    apply (near_limit (fun t => nth i (rs t) 0) _ eps _ He); [|exact H2]. intros t Ht. rewrite bump_shifted. unfold component. now rewrite (proj1 (H1 t Ht)).
  Qed.
End Slopes.
