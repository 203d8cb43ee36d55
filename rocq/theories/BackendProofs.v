(** Newton steps with an exact backend. *)
From Coq Require Import Reals Lra Permutation.
From Verif Require Export Lsq BackendSpec AffineProofs.
Local Open Scope R_scope.

(** ** Vectors *)
Lemma bump_length g : forall j t, length (bump g j t) = length g.
Proof. induction g as [|x g IH]; intros j t; [destruct j; reflexivity|]. destruct j; cbn; [reflexivity|]. now rewrite IH. Qed.
Lemma bump_nth g : forall j t i, (j < length g)%nat -> nth i (bump g j t) 0 = if Nat.eqb i j then nth i g 0 + t else nth i g 0.
Proof.
  induction g as [|x g IH]; intros j t i H; [cbn in H; lia|]. destruct j as [|j].
  - destruct i; reflexivity.
  - destruct i; [reflexivity|]. cbn. apply IH. cbn in H. lia.
Qed.
Lemma sumsq_nonneg a : 0 <= sumsq a.
Proof. unfold sumsq. rewrite (dotp_dt a a (length a)) by reflexivity. apply dt_pos. Qed.
Lemma sumsq_cons x a : sumsq (x :: a) = x * x + sumsq a.
Proof. reflexivity. Qed.
Lemma sumsq_zero a : sumsq a <= 0 -> zeros a.
Proof.
  induction a as [|x a IH]; intros H; [constructor|]. rewrite sumsq_cons in H. pose proof (sumsq_nonneg a). pose proof (Rle_0_sqr x) as Hx. unfold Rsqr in Hx.
  constructor; [|apply IH; lra]. apply Rsqr_0_uniq. unfold Rsqr. lra.
Qed.
Lemma zeros_sumsq a : zeros a -> sumsq a = 0.
Proof. induction 1 as [|x a -> _ IH]; [reflexivity|]. rewrite sumsq_cons, IH. lra. Qed.
Lemma zeros_repeat n : zeros (repeat 0 n).
Proof. induction n; cbn; constructor; auto. Qed.
Lemma zeros_eq a : zeros a -> a = repeat 0 (length a).
Proof. induction 1 as [|x a -> _ IH]; [reflexivity|]. cbn. now rewrite <- IH. Qed.
Lemma dotp_zeros a b : zeros b -> dotp a b = 0.
Proof. intros H. revert a. induction H as [|x b -> _ IH]; intros [|y a]; try reflexivity. unfold dotp in *. cbn. rewrite IH. lra. Qed.
Lemma zeros_opp r : zeros r -> zeros (map Ropp r).
Proof. induction 1 as [|x r -> _ IH]; [constructor|]. constructor; [lra|exact IH]. Qed.
Lemma minus_zeros a b : zeros a -> zeros b -> zeros (minus a b).
Proof. intros H. revert b. induction H as [|x a -> _ IH]; intros [|y b] Hb; try constructor; inversion Hb; subst; [cbn; lra|]. now apply IH. Qed.
Lemma times_zeros A x : zeros x -> zeros (times A x).
Proof. intros H. apply Forall_map, Forall_forall. intros row _. now apply dotp_zeros. Qed.

(** A zero right-hand side: no correction. *)
Lemma least_zero n A b d : zeros b -> least n A b d -> zeros d.
Proof.
  intros Hb [Hd H]. destruct (H (repeat 0 n) (repeat_length _ _)) as [H1 H2]. pose proof (zeros_repeat n) as Z.
  rewrite (zeros_sumsq (minus (times A (repeat 0 n)) b)) in H1, H2 by (apply minus_zeros; [now apply times_zeros|exact Hb]).
  apply sumsq_zero. rewrite <- (zeros_sumsq _ Z). apply H2. pose proof (sumsq_nonneg (minus (times A d) b)). lra.
Qed.

(** A zero column: no correction of this entry. *)
Fixpoint clear (d : list R) (j : nat) : list R :=
  match d, j with [], _ => [] | x :: d, O => 0 :: d | x :: d, S j => x :: clear d j end.
Lemma clear_length d : forall j, length (clear d j) = length d.
Proof. induction d as [|x d IH]; intros [|j]; cbn; auto. Qed.
Lemma clear_sumsq d : forall j, sumsq d = sumsq (clear d j) + nth j d 0 * nth j d 0.
Proof. induction d as [|x d IH]; intros [|j]; cbn [clear nth]; rewrite ?sumsq_cons; try (unfold sumsq, dotp; cbn; lra). rewrite (IH j). lra. Qed.
Lemma clear_dotp row : forall d j, nth j row 0 = 0 -> dotp row (clear d j) = dotp row d.
Proof.
  unfold dotp. induction row as [|y row IH]; intros [|x d] [|j] H; cbn in *; try reflexivity; [rewrite H; lra|]. rewrite IH by exact H. reflexivity.
Qed.
Lemma least_column n A b d j : Forall (fun row => nth j row 0 = 0) A -> least n A b d -> nth j d 0 = 0.
Proof.
  intros HA [Hd H]. destruct (H (clear d j)) as [_ H2]; [now rewrite clear_length|].
  assert (E : times A (clear d j) = times A d). { apply map_ext_in. intros row Hr. rewrite Forall_forall in HA. now apply clear_dotp, HA. }
  rewrite E in H2. specialize (H2 eq_refl). rewrite (clear_sumsq d j) in H2. apply Rsqr_0_uniq. pose proof (Rle_0_sqr (nth j d 0)) as P. unfold Rsqr in *. lra.
Qed.

(** The equations can be listed in any order. *)
Definition misses (x : list R) (e : list R * R) : R := (dotp (fst e) x - snd e) * (dotp (fst e) x - snd e).
Lemma error_sum x : forall A b, length b = length A -> sumsq (minus (times A x) b) = fold_right Rplus 0 (map (misses x) (combine A b)).
Proof.
  induction A as [|row A IH]; intros [|y b] H; try discriminate; [reflexivity|].
  change (minus (times (row :: A) x) (y :: b)) with ((dotp row x - y) :: minus (times A x) b).
  rewrite sumsq_cons, IH by (now injection H). reflexivity.
Qed.
Lemma sum_perm (l l' : list R) : Permutation l l' -> fold_right Rplus 0 l = fold_right Rplus 0 l'.
Proof. induction 1; cbn; lra. Qed.
Lemma least_perm n A b A' b' d : length b = length A -> length b' = length A' -> Permutation (combine A b) (combine A' b') ->
  least n A b d -> least n A' b' d.
Proof.
  intros Hb Hb' P [Hd H]. split; [exact Hd|]. intros d' Hd'. specialize (H d' Hd').
  rewrite !error_sum in * by assumption. rewrite !(sum_perm _ _ (Permutation_map (misses _) (Permutation_sym P))). exact H.
Qed.
