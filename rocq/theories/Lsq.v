(** Minimum-norm least-squares solutions: existence (by Gram-Schmidt) and uniqueness. *)
From Coq Require Import Reals Lra List Arith Lia.
From Verif Require Export LsqSpec.
Import ListNotations.
Local Open Scope R_scope.

(** ** Sums *)
Definition vec := nat -> R.
Definition sm (s : list nat) (f : vec) : R := fold_right Rplus 0 (map f s).
Lemma sm_ext s f g : (forall i, In i s -> f i = g i) -> sm s f = sm s g.
Proof. unfold sm. intros H. f_equal. now apply map_ext_in. Qed.
Lemma sm_plus s f g : sm s (fun i => f i + g i) = sm s f + sm s g.
Proof. unfold sm. induction s as [|i s IH]; cbn; [lra|]. rewrite IH. lra. Qed.
Lemma sm_scal s a f : sm s (fun i => a * f i) = a * sm s f.
Proof. unfold sm. induction s as [|i s IH]; cbn; [lra|]. rewrite IH. lra. Qed.
Lemma sm_minus s f g : sm s (fun i => f i - g i) = sm s f - sm s g.
Proof. unfold sm. induction s as [|i s IH]; cbn; [lra|]. rewrite IH. lra. Qed.
Lemma sm_zero s : sm s (fun _ => 0) = 0.
Proof. unfold sm. induction s as [|i s IH]; cbn; [reflexivity|]. rewrite IH. lra. Qed.
Lemma sm_swap s u (f : nat -> nat -> R) : sm s (fun i => sm u (f i)) = sm u (fun j => sm s (fun i => f i j)).
Proof.
  induction s as [|i s IH]; [cbn; symmetry; apply sm_zero|]. cbn [sm map fold_right] in *. fold (sm s (fun i => sm u (f i))). rewrite IH. rewrite <- sm_plus. reflexivity.
Qed.
Lemma sm_nonneg s f : (forall i, In i s -> 0 <= f i) -> 0 <= sm s f.
Proof. unfold sm. induction s as [|i s IH]; cbn; intros H; [lra|]. pose proof (H i (or_introl eq_refl)). assert (0 <= fold_right Rplus 0 (map f s)) by (apply IH; intros; apply H; now right). lra. Qed.
Lemma sm_pos_zero s f : (forall i, In i s -> 0 <= f i) -> sm s f = 0 -> forall i, In i s -> f i = 0.
Proof.
  induction s as [|k s IH]; [intros ? ? ? []|]. cbn. intros H E i [<-|Hi].
  - assert (0 <= sm s f) by (apply sm_nonneg; intros; apply H; now right). pose proof (H k (or_introl eq_refl)). change (f k + sm s f = 0) in E. lra.
  - assert (0 <= sm s f) by (apply sm_nonneg; intros; apply H; now right). pose proof (H k (or_introl eq_refl)). change (f k + sm s f = 0) in E. apply IH; auto. lra.
Qed.
Definition dt (s : list nat) (f g : vec) : R := sm s (fun i => f i * g i).
Lemma dt_comm s f g : dt s f g = dt s g f.
Proof. apply sm_ext. intros. lra. Qed.
Lemma dt_plus s f g h : dt s f (fun i => g i + h i) = dt s f g + dt s f h.
Proof. unfold dt. rewrite <- sm_plus. apply sm_ext. intros; lra. Qed.
Lemma dt_minus s f g h : dt s f (fun i => g i - h i) = dt s f g - dt s f h.
Proof. unfold dt. rewrite <- sm_minus. apply sm_ext. intros; lra. Qed.
Lemma dt_scal s a f g : dt s f (fun i => a * g i) = a * dt s f g.
Proof. unfold dt. rewrite <- sm_scal. apply sm_ext. intros; lra. Qed.
Lemma dt_zero s f : dt s f (fun _ => 0) = 0.
Proof. unfold dt. erewrite sm_ext; [apply sm_zero|]. intros; cbn; lra. Qed.
Lemma dt_ext s f g f' g' : (forall i, In i s -> f i = f' i) -> (forall i, In i s -> g i = g' i) -> dt s f g = dt s f' g'.
Proof. intros H1 H2. apply sm_ext. intros i Hi. now rewrite H1, H2. Qed.
Lemma dt_pos s f : 0 <= dt s f f.
Proof. apply sm_nonneg. intros. apply Rle_0_sqr. Qed.
Lemma dt_null s f : dt s f f = 0 -> forall i, In i s -> f i = 0.
Proof. intros H i Hi. apply Rsqr_0_uniq. revert i Hi. apply sm_pos_zero; [|exact H]. intros. apply Rle_0_sqr. Qed.
Lemma dt_square s f g : dt s (fun i => f i + g i) (fun i => f i + g i) = dt s f f + 2 * dt s f g + dt s g g.
Proof. unfold dt. rewrite <- sm_scal, <- !sm_plus. apply sm_ext. intros; cbn; lra. Qed.

(** ** Orthogonal projections *)
Section Project.
  Variable s : list nat.
  Fixpoint comb (cs : list vec) (xs : list R) : vec :=
    match cs, xs with c :: cs, x :: xs => fun i => x * c i + comb cs xs i | _, _ => fun _ => 0 end.
  Fixpoint project (cs : list vec) (b : vec) : list R :=
    match cs with
    | [] => []
    | c :: cs =>
        let c' := fun i => c i - comb cs (project cs c) i in
        if Req_EM_T (dt s c' c') 0 then 0 :: project cs b
        else let a := dt s c' b / dt s c' c' in a :: project cs (fun i => b i - a * c i)
    end.
  Lemma project_length cs : forall b, length (project cs b) = length cs.
  Proof. induction cs as [|c cs IH]; intros b; cbn; [reflexivity|]. destruct (Req_EM_T _ 0); cbn; now rewrite IH. Qed.
  Lemma comb_orth v cs xs : Forall (fun c => dt s v c = 0) cs -> dt s v (comb cs xs) = 0.
  Proof.
    intros H. revert xs. induction H as [|c cs Hc _ IH]; intros xs; [cbn; apply dt_zero|]. destruct xs as [|x xs]; [cbn; apply dt_zero|]. cbn [comb].
    rewrite dt_plus, dt_scal, Hc, IH. lra.
  Qed.
  Lemma project_orth cs : forall b, Forall (fun c => dt s (fun i => b i - comb cs (project cs b) i) c = 0) cs.
  Proof.
    induction cs as [|c cs IH]; intros b; [constructor|]. cbn [project]. set (c' := fun i => c i - comb cs (project cs c) i).
    pose proof (IH c) as Hc. fold c' in Hc.
    assert (G : forall r, Forall (fun c => dt s r c = 0) cs -> dt s r c = dt s r c').
    { intros r Hr. unfold c'. rewrite dt_minus, (comb_orth r); [lra|exact Hr]. }
    destruct (Req_EM_T (dt s c' c') 0) as [E|E]; cbn [comb].
    - assert (K : Forall (fun c0 => dt s (fun i => b i - (0 * c i + comb cs (project cs b) i)) c0 = 0) cs).
      { eapply Forall_impl; [|apply (IH b)]. intros x Hx. cbv beta. etransitivity; [|exact Hx]. apply dt_ext; intros; ring. }
      constructor; [|exact K]. rewrite (G _ K). rewrite (dt_ext s _ _ (fun i => b i - (0 * c i + comb cs (project cs b) i)) (fun _ => 0)); [apply dt_zero|reflexivity|].
      intros i Hi. exact (dt_null s c' E i Hi).
    - set (a := dt s c' b / dt s c' c'). set (b' := fun i => b i - a * c i).
      assert (K : Forall (fun c0 => dt s (fun i => b i - (a * c i + comb cs (project cs b') i)) c0 = 0) cs).
      { eapply Forall_impl; [|apply (IH b')]. intros x Hx. cbv beta. etransitivity; [|exact Hx]. apply dt_ext; intros; unfold b'; ring. }
      constructor; [|exact K]. rewrite (G _ K), dt_comm.
      rewrite (dt_ext s c' _ c' (fun i => (b i - a * c' i) - (a * comb cs (project cs c) i + comb cs (project cs b') i))); [|reflexivity|intros; unfold c'; ring].
      rewrite dt_minus, dt_minus, dt_scal, dt_plus, dt_scal, !(comb_orth c') by exact Hc. unfold a. field. exact E.
  Qed.
End Project.

(** ** Lists as vectors *)
Definition at_ (l : list R) : vec := fun i => nth i l 0.
Lemma sm_seq_S n f : sm (seq 0 (S n)) f = f 0%nat + sm (seq 0 n) (fun i => f (S i)).
Proof. unfold sm. cbn [seq map fold_right]. rewrite <- seq_shift, map_map. reflexivity. Qed.
Lemma dotp_dt : forall a b n, length a = n -> length b = n -> dotp a b = dt (seq 0 n) (at_ a) (at_ b).
Proof.
  unfold dotp, dt. induction a as [|x a IH]; intros [|y b] n Ha Hb; cbn in Ha, Hb; subst n; try discriminate; [reflexivity|].
  cbn [combine map fold_right]. rewrite sm_seq_S. cbn [fst snd]. f_equal. rewrite (IH b (length a)); [reflexivity|reflexivity|congruence].
Qed.
Lemma nth_minus : forall a b i, length a = length b -> nth i (minus a b) 0 = nth i a 0 - nth i b 0.
Proof.
  unfold minus. induction a as [|x a IH]; intros [|y b] i H; try discriminate; cbn; [destruct i; lra|]. destruct i; cbn; [reflexivity|]. apply IH. now injection H.
Qed.
Lemma minus_length a b : length a = length b -> length (minus a b) = length a.
Proof. intros H. unfold minus. rewrite map_length, combine_length. lia. Qed.
Lemma times_length A x : length (times A x) = length A.
Proof. apply map_length. Qed.
Lemma times_at A x n : Forall (fun row => length row = n) A -> length x = n -> forall i, (i < length A)%nat ->
  nth i (times A x) 0 = dt (seq 0 n) (at_ (nth i A [])) (at_ x).
Proof.
  intros HA Hx i Hi. unfold times. rewrite (nth_indep _ 0 (dotp [] x)) by now rewrite map_length. rewrite (map_nth (fun row => dotp row x)).
  apply dotp_dt; [|exact Hx]. rewrite Forall_forall in HA. apply HA. now apply nth_In.
Qed.

Section Solve.
  Variables (n : nat) (A : list (list R)) (b : list R).
  Hypothesis HA : Forall (fun row => length row = n) A.
  Hypothesis Hb : length b = length A.
  Let m := length A.
  Let rw : list nat := seq 0 m.
  Let cl : list nat := seq 0 n.
  Definition entry (i j : nat) : R := nth j (nth i A []) 0.
  Definition app (x : vec) : vec := fun i => dt cl (entry i) x.
  Lemma error_dt x : length x = n -> sumsq (minus (times A x) b) = dt rw (fun i => app (at_ x) i - at_ b i) (fun i => app (at_ x) i - at_ b i).
  Proof.
    intros Hx. unfold sumsq. assert (L : length (times A x) = length b) by (rewrite times_length; congruence).
    rewrite (dotp_dt _ _ m); [|rewrite minus_length; [apply times_length|exact L]..].
    assert (G : forall i, In i rw -> at_ (minus (times A x) b) i = app (at_ x) i - at_ b i).
    { intros i Hi. apply in_seq in Hi. unfold at_ at 1. rewrite nth_minus by exact L. rewrite (times_at A x n) by (assumption || lia). reflexivity. }
    apply dt_ext; exact G.
  Qed.
  Lemma app_minus x y i : app (fun j => x j - y j) i = app x i - app y i.
  Proof. apply dt_minus. Qed.
  Lemma app_plus x y i : app (fun j => x j + y j) i = app x i + app y i.
  Proof. apply dt_plus. Qed.
  (** Normal equations: the residual is orthogonal to the columns. *)
  Definition normal (x : vec) : Prop := forall j, In j cl -> dt rw (fun i => at_ b i - app x i) (fun i => entry i j) = 0.
  Lemma normal_orth x y : normal x -> dt rw (fun i => at_ b i - app x i) (app y) = 0.
  Proof.
    intros H. unfold app at 2, dt at 1 2. unfold dt in H.
    transitivity (sm cl (fun j => y j * sm rw (fun i => (at_ b i - app x i) * entry i j))).
    - rewrite (sm_ext rw _ (fun i => sm cl (fun j => y j * ((at_ b i - app x i) * entry i j)))).
      + rewrite sm_swap. apply sm_ext. intros j _. apply sm_scal.
      + intros i _. rewrite <- sm_scal. apply sm_ext. intros j _. lra.
    - rewrite (sm_ext cl _ (fun _ => 0)); [apply sm_zero|]. intros j Hj. cbv beta. unfold normal, dt in H. rewrite (H j Hj). lra.
  Qed.
  Definition err (x : vec) : R := dt rw (fun i => app x i - at_ b i) (fun i => app x i - at_ b i).
  Lemma normal_err x y : normal x -> err y = err x + dt rw (app (fun j => y j - x j)) (app (fun j => y j - x j)).
  Proof.
    intros H. unfold err. rewrite (dt_ext rw (fun i => app y i - at_ b i) (fun i => app y i - at_ b i)
      (fun i => (app x i - at_ b i) + app (fun j => y j - x j) i) (fun i => (app x i - at_ b i) + app (fun j => y j - x j) i)); [|intros; rewrite app_minus; lra..].
    rewrite dt_square. pose proof (normal_orth x (fun j => y j - x j) H) as O.
    rewrite dt_comm in O. rewrite (dt_comm rw (fun i => app x i - at_ b i) (app (fun j => y j - x j))).
    assert (E : dt rw (app (fun j => y j - x j)) (fun i => app x i - at_ b i) = - dt rw (app (fun j => y j - x j)) (fun i => at_ b i - app x i)).
    { rewrite !dt_minus. lra. }
    rewrite E, O. lra.
  Qed.
  Definition column (j : nat) : vec := fun i => entry i j.
  Definition x0 : list R := project rw (map column cl) (at_ b).
  Lemma comb_columns xs : forall k, length xs = k -> forall off i, comb (map column (seq off k)) xs i = sm (seq 0 k) (fun j => nth j xs 0 * entry i (off + j)).
  Proof.
    induction xs as [|x xs IH]; intros k Hk off i; cbn in Hk; subst k; [reflexivity|]. rewrite sm_seq_S. cbn [seq map comb]. rewrite (IH _ eq_refl (S off)). cbn [nth]. unfold column at 1. rewrite Nat.add_0_r. f_equal.
    apply sm_ext. intros j _. now rewrite Nat.add_succ_r.
  Qed.
  Lemma x0_length : length x0 = n.
  Proof. unfold x0. rewrite project_length, map_length. apply seq_length. Qed.
  Lemma comb_app xs i : length xs = n -> comb (map column cl) xs i = app (at_ xs) i.
  Proof. intros H. unfold cl. rewrite (comb_columns xs n H). apply sm_ext. intros j _. unfold at_. cbn. lra. Qed.
  Lemma x0_normal : normal (at_ x0).
  Proof.
    intros j Hj. pose proof (project_orth rw (map column cl) (at_ b)) as H. rewrite Forall_map, Forall_forall in H. specialize (H j Hj). cbv beta in H.
    etransitivity; [|exact H]. apply dt_ext; [|reflexivity]. intros i _. fold x0. now rewrite comb_app by apply x0_length.
  Qed.
  (** The projection of the solution on the rows. *)
  Definition rows : list vec := map (fun i => entry i) rw.
  Definition shortest : list R := map (comb rows (project cl rows (at_ x0))) cl.
  Lemma shortest_length : length shortest = n.
  Proof. unfold shortest, cl. now rewrite map_length, seq_length. Qed.
  Lemma shortest_at j : In j cl -> at_ shortest j = comb rows (project cl rows (at_ x0)) j.
  Proof.
    intros Hj. apply in_seq in Hj. unfold at_, shortest. rewrite (nth_indep _ 0 (comb rows (project cl rows (at_ x0)) 0%nat)) by (unfold cl; rewrite map_length, seq_length; lia).
    rewrite map_nth. unfold cl. rewrite seq_nth by lia. reflexivity.
  Qed.
  Lemma shortest_app i : In i rw -> app (at_ shortest) i = app (at_ x0) i.
  Proof.
    intros Hi. pose proof (project_orth cl rows (at_ x0)) as H. rewrite Forall_forall in H.
    assert (Hin : In (entry i) rows) by (unfold rows; exact (in_map (fun i => entry i) rw i Hi)). specialize (H _ Hin). cbv beta in H.
    rewrite dt_comm, dt_minus in H. unfold app. rewrite (dt_ext cl (entry i) (at_ shortest) (entry i) (comb rows (project cl rows (at_ x0)))); [lra|reflexivity|apply shortest_at].
  Qed.
  Lemma err_ext x y : (forall i, In i rw -> app x i = app y i) -> err x = err y.
  Proof. intros H. apply dt_ext; intros i Hi; now rewrite H. Qed.
  (** Every minimiser is the shortest plus something orthogonal. *)
  Lemma pythagoras y : err y = err (at_ x0) ->
    dt cl y y = dt cl (at_ shortest) (at_ shortest) + dt cl (fun j => y j - at_ shortest j) (fun j => y j - at_ shortest j).
  Proof.
    intros E. rewrite (normal_err (at_ x0) y x0_normal) in E.
    assert (N : dt rw (app (fun j => y j - at_ x0 j)) (app (fun j => y j - at_ x0 j)) = 0) by lra.
    assert (Z : forall i, In i rw -> app (fun j => y j - at_ shortest j) i = 0).
    { intros i Hi. pose proof (dt_null _ _ N i Hi) as Hz. rewrite app_minus in *. rewrite shortest_app by exact Hi. exact Hz. }
    assert (O : dt cl (at_ shortest) (fun j => y j - at_ shortest j) = 0).
    { rewrite dt_comm. rewrite (dt_ext cl _ (at_ shortest) (fun j => y j - at_ shortest j) (comb rows (project cl rows (at_ x0)))); [|reflexivity|apply shortest_at].
      apply comb_orth. unfold rows. apply Forall_map, Forall_forall. intros i Hi. rewrite dt_comm. exact (Z i Hi). }
    rewrite (dt_ext cl y y (fun j => at_ shortest j + (y j - at_ shortest j)) (fun j => at_ shortest j + (y j - at_ shortest j))); [|intros; lra..].
    rewrite dt_square, O. lra.
  Qed.
  Lemma sumsq_dt x : length x = n -> sumsq x = dt cl (at_ x) (at_ x).
  Proof. intros H. now apply dotp_dt. Qed.
  Theorem shortest_least : least n A b shortest.
  Proof.
    split; [apply shortest_length|]. intros d' Hd. rewrite !error_dt by (assumption || apply shortest_length). fold (err (at_ shortest)) (err (at_ d')).
    assert (E : err (at_ shortest) = err (at_ x0)) by (apply err_ext, shortest_app). rewrite E. split.
    - rewrite (normal_err (at_ x0) (at_ d') x0_normal). pose proof (dt_pos rw (app (fun j => at_ d' j - at_ x0 j))). lra.
    - intros H. rewrite !sumsq_dt by (assumption || apply shortest_length). rewrite (pythagoras _ H). pose proof (dt_pos cl (fun j => at_ d' j - at_ shortest j)). lra.
  Qed.
  Theorem least_shortest d : least n A b d -> d = shortest.
  Proof.
    intros [Hd H]. destruct (H shortest shortest_length) as [H1 H2]. destruct shortest_least as [_ G]. destruct (G d Hd) as [G1 G2].
    assert (E : sumsq (minus (times A shortest) b) = sumsq (minus (times A d) b)) by lra. specialize (H2 E). specialize (G2 (eq_sym E)).
    assert (Eq : sumsq d = sumsq shortest) by lra.
    assert (E' : err (at_ d) = err (at_ x0)).
    { rewrite !error_dt in E by (assumption || apply shortest_length). transitivity (err (at_ shortest)); [symmetry; exact E|]. apply err_ext, shortest_app. }
    pose proof (pythagoras _ E') as P. rewrite !sumsq_dt in Eq by (assumption || apply shortest_length).
    assert (N : dt cl (fun j => at_ d j - at_ shortest j) (fun j => at_ d j - at_ shortest j) = 0) by lra.
    apply (nth_ext _ _ 0 0); [now rewrite shortest_length|]. intros i Hi. rewrite Hd in Hi. pose proof (dt_null _ _ N i) as Z. cbv beta in Z. unfold at_ in Z.
    assert (nth i d 0 - nth i shortest 0 = 0); [|lra]. apply Z. apply in_seq. lia.
  Qed.
End Solve.
Lemma least_unique n A b d d' : Forall (fun row => length row = n) A -> length b = length A -> least n A b d -> least n A b d' -> d = d'.
Proof. intros HA Hb H H'. rewrite (least_shortest n A b HA Hb d H), (least_shortest n A b HA Hb d' H'). reflexivity. Qed.
