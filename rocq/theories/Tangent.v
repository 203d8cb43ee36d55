(** Linearisations of residuals at a point, and one Newton step. *)
From Coq Require Import Reals Lra.
From Verif Require Export P_Station GeomSpec.
Local Open Scope R_scope.

Section Tangent.
  Context (n : nat) (g0 : list R) (H0 : length g0 = n).
  (** [m] is the linearisation of [f] at [g0]. *)
  Definition tangent (f : list R -> result (list R)) (m : list R -> list R) : Prop :=
    affine n (fun g => Ok (m g)) /\ f g0 = Ok (m g0) /\
    forall d, length d = n -> directional f g0 d (minus (m (shifted g0 1 d)) (m g0)).
  Lemma shift_len t d : length d = n -> length (shifted g0 t d) = n.
  Proof. intros H. rewrite shifted_length; congruence. Qed.
  Lemma affine_parts m s g h : affine n (fun g => Ok (m g)) -> length g = n -> length h = n -> length (m g) = length (m h) /\ m (mix s g h) = mix s (m g) (m h).
  Proof. intros H Hg Hh. destruct (H s g h Hg Hh) as (a & b & Ea & Eb & L & Em). injection Ea as <-. injection Eb as <-. split; [exact L|]. now injection Em. Qed.
  Lemma parts_affine m : (forall s g h, length g = n -> length h = n -> length (m g) = length (m h) /\ m (mix s g h) = mix s (m g) (m h)) -> affine n (fun g => Ok (m g)).
  Proof. intros H s g h Hg Hh. destruct (H s g h Hg Hh) as [L E]. exists (m g), (m h). rewrite E. auto. Qed.
  Lemma tangent_ext f f' m : (forall g, length g = n -> f g = f' g) -> tangent f m -> tangent f' m.
  Proof.
    intros E (A & B & D). split; [exact A|]. split; [now rewrite <- E|]. intros d Hd. destruct (D d Hd) as (L & eps & rs & He & H1 & H2). split; [exact L|]. exists eps, rs. split; [exact He|]. split; [|exact H2].
    intros t Ht. rewrite <- E; [now apply H1|now apply shift_len].
  Qed.
  Lemma affine_line x v t : x * 1 = x -> derivable_pt_lim (fun s => (1 - s) * x + s * v) t (v - x).
  Proof.
    intros _. replace (v - x) with ((0 - 1) * x + (1 - t) * 0 + (1 * v + t * 0)) by ring.
    apply derivable_pt_lim_plus; apply derivable_pt_lim_mult; first [apply derivable_pt_lim_const|apply derivable_pt_lim_id|idtac].
    apply derivable_pt_lim_minus; [apply derivable_pt_lim_const|apply derivable_pt_lim_id].
  Qed.
  Lemma affine_tangent f : affine n f -> tangent f (fun g => match f g with Ok r => r | Err _ => [] end).
  Proof.
    intros A. split; [|split].
    - intros s g h Hg Hh. destruct (A s g h Hg Hh) as (a & b & Ea & Eb & L & Em). exists a, b. rewrite Ea, Eb, Em. auto.
    - destruct (affine_at _ _ A g0 H0) as [r ->]. reflexivity.
    - intros d Hd. split; [congruence|]. destruct (A 0 g0 (shifted g0 1 d) H0 (shift_len 1 d Hd)) as (a & b & Ea & Eb & L & _). rewrite Ea, Eb.
      exists 1, (fun t => mix t a b). split; [lra|]. split.
      + intros t _. rewrite (shifted_mix t) by congruence. destruct (A t g0 _ H0 (shift_len 1 d Hd)) as (a' & b' & Ea' & Eb' & _ & ->). rewrite Ea in Ea'. rewrite Eb in Eb'. injection Ea' as <-. injection Eb' as <-.
        split; [reflexivity|]. rewrite mix_length, minus_length by congruence. congruence.
      + intros i. rewrite nth_minus by congruence. apply near_limit with (f := fun t => (1 - t) * nth i a 0 + t * nth i b 0) (eps := 1); [lra| |now apply affine_line; rewrite Rmult_1_r].
        intros t _. now rewrite mix_nth.
  Qed.
  Lemma tangent_nil : tangent (fun _ => Ok []) (fun _ => []).
  Proof.
    split; [apply parts_affine; intros; split; reflexivity|]. split; [reflexivity|]. intros d Hd. split; [congruence|]. exists 1, (fun _ => []). split; [lra|]. split; [intros; split; reflexivity|].
    intros i. destruct i; apply derivable_pt_lim_const.
  Qed.
  Lemma tangent_app f1 f2 m1 m2 : tangent f1 m1 -> tangent f2 m2 -> tangent (fun g => a <- f1 g ;; b <- f2 g ;; Ok (a ++ b)) (fun g => m1 g ++ m2 g)%list.
  Proof.
    intros (A1 & B1 & D1) (A2 & B2 & D2). split; [|split].
    - apply parts_affine. intros s g h Hg Hh. destruct (affine_parts m1 s g h A1 Hg Hh) as [L1 E1], (affine_parts m2 s g h A2 Hg Hh) as [L2 E2]. rewrite E1, E2, !app_length. split; [congruence|]. unfold mix. now rewrite zip_app, map_app.
    - rewrite B1. cbn [bind]. rewrite B2. reflexivity.
    - intros d Hd. pose proof (shift_len 1 d Hd) as Hs. destruct (affine_parts m1 0 _ _ A1 Hs H0) as [L1 _], (affine_parts m2 0 _ _ A2 Hs H0) as [L2 _].
      destruct (D1 d Hd) as (L & e1 & r1 & P1 & Q1 & T1), (D2 d Hd) as (_ & e2 & r2 & P2 & Q2 & T2). split; [exact L|].
      exists (Rmin e1 e2), (fun t => r1 t ++ r2 t)%list. assert (Hp : 0 < Rmin e1 e2) by now apply Rmin_glb_lt. split; [exact Hp|].
      assert (F1 : forall t, Rabs t < Rmin e1 e2 -> Rabs t < e1) by (intros; eapply Rlt_le_trans; [eassumption|apply Rmin_l]).
      assert (F2 : forall t, Rabs t < Rmin e1 e2 -> Rabs t < e2) by (intros; eapply Rlt_le_trans; [eassumption|apply Rmin_r]).
      split.
      + intros t Ht. destruct (Q1 t (F1 t Ht)) as [-> K1], (Q2 t (F2 t Ht)) as [-> K2]. cbn [bind]. split; [reflexivity|]. rewrite app_length, minus_length by (rewrite !app_length; congruence). rewrite K1, K2, !minus_length by congruence. now rewrite app_length.
      + intros i. assert (Em : minus (m1 (shifted g0 1 d) ++ m2 (shifted g0 1 d)) (m1 g0 ++ m2 g0) = (minus (m1 (shifted g0 1 d)) (m1 g0) ++ minus (m2 (shifted g0 1 d)) (m2 g0))%list).
        { unfold minus. change (@combine) with (@combine). revert L1. generalize (m1 (shifted g0 1 d)), (m1 g0). intros a. induction a as [|x a IH]; intros [|y b] Lab; try discriminate; [reflexivity|]. cbn. f_equal. apply IH. now injection Lab. }
        rewrite Em. set (v1 := minus (m1 _) _) in *. destruct (Nat.lt_ge_cases i (length v1)) as [Hi|Hi].
        * rewrite app_nth1 by exact Hi. eapply near_limit; [exact Hp| |exact (T1 i)]. intros t Ht. symmetry. apply app_nth1. destruct (Q1 t (F1 t Ht)) as [_ ->]. exact Hi.
        * rewrite app_nth2 by exact Hi. eapply near_limit; [exact Hp| |exact (T2 (i - length v1)%nat)]. intros t Ht. symmetry. destruct (Q1 t (F1 t Ht)) as [_ K]. rewrite <- K. apply app_nth2. lia.
  Qed.
  (** One component. *)
  Definition level (mu : list R -> R) : Prop := forall s g h, length g = n -> length h = n -> mu (mix s g h) = (1 - s) * mu g + s * mu h.
  Lemma level_along mu d t : level mu -> length d = n -> mu (shifted g0 t d) = (1 - t) * mu g0 + t * mu (shifted g0 1 d).
  Proof. intros H Hd. rewrite (shifted_mix t) by congruence. apply H; [exact H0|now apply shift_len]. Qed.
  Lemma tangent_1 phi mu : level mu -> phi g0 = mu g0 ->
    (forall d, length d = n -> derivable_pt_lim (fun t => phi (shifted g0 t d)) 0 (mu (shifted g0 1 d) - mu g0)) -> tangent (fun g => Ok [phi g]) (fun g => [mu g]).
  Proof.
    intros L E D. split; [|split].
    - apply parts_affine. intros s g h Hg Hh. split; [reflexivity|]. cbn. now rewrite L.
    - now rewrite E.
    - intros d Hd. split; [congruence|]. exists 1, (fun t => [phi (shifted g0 t d)]). split; [lra|]. split; [intros; split; reflexivity|]. intros [|i]; [exact (D d Hd)|]. cbn. destruct i; apply derivable_pt_lim_const.
  Qed.
  Lemma level_limit mu d : level mu -> length d = n -> derivable_pt_lim (fun t => mu (shifted g0 t d)) 0 (mu (shifted g0 1 d) - mu g0).
  Proof.
    intros L Hd. apply near_limit with (f := fun t => (1 - t) * mu g0 + t * mu (shifted g0 1 d)) (eps := 1); [lra| |apply affine_line; now rewrite Rmult_1_r].
    intros t _. now rewrite (level_along mu d t).
  Qed.
  (** Products, lengths. *)
  Definition levelpt (u : list R -> pt) : Prop := level (fun g => fst (u g)) /\ level (fun g => snd (u g)).
  Lemma shift0 d : length d = n -> shifted g0 0 d = g0.
  Proof. intros Hd. apply shifted_0. congruence. Qed.
  Lemma product_limit a b d : level a -> level b -> length d = n ->
    derivable_pt_lim (fun t => a (shifted g0 t d) * b (shifted g0 t d)) 0 (a g0 * b (shifted g0 1 d) + a (shifted g0 1 d) * b g0 - 2 * (a g0 * b g0)).
  Proof.
    intros A B Hd. replace (a g0 * b (shifted g0 1 d) + a (shifted g0 1 d) * b g0 - 2 * (a g0 * b g0)) with ((a (shifted g0 1 d) - a g0) * b (shifted g0 0 d) + a (shifted g0 0 d) * (b (shifted g0 1 d) - b g0)) by (rewrite shift0 by exact Hd; ring).
    apply (derivable_pt_lim_mult (fun t => a (shifted g0 t d)) (fun t => b (shifted g0 t d))); now apply level_limit.
  Qed.
  Lemma cross_tangent u v : levelpt u -> levelpt v ->
    tangent (fun g => Ok [cross (u g) (v g)]) (fun g => [cross (u g0) (v g) + cross (u g) (v g0) - cross (u g0) (v g0)]).
  Proof.
    intros [U1 U2] [V1 V2]. apply tangent_1.
    - intros s g h Hg Hh. unfold cross. rewrite (U1 s g h), (U2 s g h), (V1 s g h), (V2 s g h) by assumption. ring.
    - ring.
    - intros d Hd. unfold cross. set (u' := u (shifted g0 1 d)). set (v' := v (shifted g0 1 d)).
      pose proof (product_limit _ _ d U1 V2 Hd) as P1. pose proof (product_limit _ _ d U2 V1 Hd) as P2. cbn beta in P1, P2. fold u' v' in P1, P2.
      match goal with |- derivable_pt_lim _ _ ?x => replace x with (fst (u g0) * snd v' + fst u' * snd (v g0) - 2 * (fst (u g0) * snd (v g0)) - (snd (u g0) * fst v' + snd u' * fst (v g0) - 2 * (snd (u g0) * fst (v g0)))) by ring end.
      exact (derivable_pt_lim_minus _ _ _ _ _ P1 P2).
  Qed.
  Lemma inner_pos U : U <> (0, 0) -> 0 < inner U U.
  Proof.
    intros H. unfold inner. destruct (Req_dec (fst U) 0) as [E|E]; [|pose proof (Rle_0_sqr (snd U)); pose proof (Rlt_0_sqr _ E); unfold Rsqr in *; lra].
    destruct (Req_dec (snd U) 0) as [E'|E']; [destruct U; cbn in *; subst; contradiction|]. pose proof (Rle_0_sqr (fst U)). pose proof (Rlt_0_sqr _ E'). unfold Rsqr in *. lra.
  Qed.
  Lemma len_pos U : U <> (0, 0) -> 0 < len U.
  Proof. intros H. unfold len. apply sqrt_lt_R0. now apply inner_pos. Qed.
  Lemma len_limit u d : levelpt u -> u g0 <> (0, 0) -> length d = n ->
    derivable_pt_lim (fun t => len (u (shifted g0 t d))) 0 (inner (u g0) (u (shifted g0 1 d)) / len (u g0) - len (u g0)).
  Proof.
    intros [U1 U2] Hu Hd. pose proof (inner_pos _ Hu) as Hp. pose proof (len_pos _ Hu) as Hl. assert (Sq : len (u g0) * len (u g0) = inner (u g0) (u g0)) by (unfold len; apply sqrt_sqrt; lra).
    pose proof (product_limit _ _ d U1 U1 Hd) as P1. pose proof (product_limit _ _ d U2 U2 Hd) as P2. cbn beta in P1, P2. set (u' := u (shifted g0 1 d)) in *.
    pose proof (derivable_pt_lim_plus _ _ _ _ _ P1 P2) as P. unfold plus_fct in P.
    assert (Q : derivable_pt_lim (fun t => inner (u (shifted g0 t d)) (u (shifted g0 t d))) 0 (2 * (inner (u g0) u' - inner (u g0) (u g0)))).
    { unfold inner. match goal with |- derivable_pt_lim _ _ ?x => match type of P with derivable_pt_lim _ _ ?y => replace x with y by ring end end. exact P. }
    assert (S : derivable_pt_lim sqrt (inner (u (shifted g0 0 d)) (u (shifted g0 0 d))) (/ (2 * len (u g0)))).
    { rewrite shift0 by exact Hd. unfold len. now apply derivable_pt_lim_sqrt. }
    pose proof (derivable_pt_lim_comp _ sqrt 0 _ _ Q S) as C. unfold comp in C. unfold len at 1.
    match goal with |- derivable_pt_lim _ _ ?x => match type of C with derivable_pt_lim _ _ ?y => replace x with y end end; [exact C|]. rewrite <- Sq. field. lra.
  Qed.
  Lemma level_inner U u : levelpt u -> level (fun g => inner U (u g)).
  Proof. intros [U1 U2] s g h Hg Hh. unfold inner. rewrite (U1 s g h), (U2 s g h) by assumption. ring. Qed.
  Lemma ratio_tangent u v k : levelpt u -> levelpt v -> u g0 <> (0, 0) -> v g0 <> (0, 0) ->
    tangent (fun g => Ok [len (u g) - k * len (v g)]) (fun g => [inner (u g0) (u g) / len (u g0) - k * (inner (v g0) (v g) / len (v g0))]).
  Proof.
    intros U V Hu Hv. assert (E : forall w, w <> (0, 0) -> inner w w / len w = len w).
    { intros w Hw. pose proof (len_pos w Hw). pose proof (inner_pos w Hw). replace (inner w w) with (len w * len w); [field; lra|]. unfold len. apply sqrt_sqrt. lra. }
    apply tangent_1.
    - intros s g h Hg Hh. pose proof (level_inner (u g0) u U s g h Hg Hh) as E1. pose proof (level_inner (v g0) v V s g h Hg Hh) as E2. cbn beta in E1, E2. rewrite E1, E2. unfold Rdiv. ring.
    - now rewrite !E.
    - intros d Hd. rewrite (E _ Hu), (E _ Hv). pose proof (len_limit u d U Hu Hd) as A. pose proof (derivable_pt_lim_scal _ k _ _ (len_limit v d V Hv Hd)) as B. unfold mult_real_fct in B.
      match goal with |- derivable_pt_lim _ _ ?x => replace x with (inner (u g0) (u (shifted g0 1 d)) / len (u g0) - len (u g0) - k * (inner (v g0) (v (shifted g0 1 d)) / len (v g0) - len (v g0))) by ring end.
      exact (derivable_pt_lim_minus _ _ _ _ _ A B).
  Qed.
  Lemma length_tangent u k : levelpt u -> u g0 <> (0, 0) -> tangent (fun g => Ok [len (u g) - k]) (fun g => [inner (u g0) (u g) / len (u g0) - k]).
  Proof.
    intros U Hu. assert (E : inner (u g0) (u g0) / len (u g0) = len (u g0)).
    { pose proof (len_pos _ Hu). pose proof (inner_pos _ Hu). replace (inner (u g0) (u g0)) with (len (u g0) * len (u g0)); [field; lra|]. unfold len. apply sqrt_sqrt. lra. }
    apply tangent_1.
    - intros s g h Hg Hh. pose proof (level_inner (u g0) u U s g h Hg Hh) as E1. cbn beta in E1. rewrite E1. unfold Rdiv. ring.
    - now rewrite E.
    - intros d Hd. rewrite E. pose proof (len_limit u d U Hu Hd) as A. match goal with |- derivable_pt_lim _ _ ?x => replace x with (inner (u g0) (u (shifted g0 1 d)) / len (u g0) - len (u g0) - 0) by ring end.
      exact (derivable_pt_lim_minus _ _ _ _ _ A (derivable_pt_lim_const k 0)).
  Qed.
  (** Linearisations are unique. *)
  Lemma tangent_unique f m m' : tangent f m -> tangent f m' -> forall g, length g = n -> m g = m' g.
  Proof.
    intros (A & B & D) (A' & B' & D') g Hg. assert (Ld : length (minus g g0) = n) by (rewrite minus_length; congruence).
    destruct (D _ Ld) as (_ & e1 & r1 & P1 & Q1 & T1), (D' _ Ld) as (_ & e2 & r2 & P2 & Q2 & T2). rewrite minus_shift in * by congruence.
    assert (E0 : m g0 = m' g0) by congruence. destruct (affine_parts m 0 g g0 A Hg H0) as [L _], (affine_parts m' 0 g g0 A' Hg H0) as [L' _].
    apply nth_eq; [congruence|]. intros i. assert (E : nth i (minus (m g) (m g0)) 0 = nth i (minus (m' g) (m' g0)) 0).
    { eapply uniqueness_limite; [exact (T1 i)|]. assert (Hp : 0 < Rmin e1 e2) by now apply Rmin_glb_lt. apply near_limit with (f := fun t => nth i (r2 t) 0) (eps := Rmin e1 e2); [exact Hp| |exact (T2 i)].
      intros t Ht. destruct (Q1 t) as [F1 _]; [eapply Rlt_le_trans; [exact Ht|apply Rmin_l]|]. destruct (Q2 t) as [F2 _]; [eapply Rlt_le_trans; [exact Ht|apply Rmin_r]|]. congruence. }
    rewrite !nth_minus in E by congruence. rewrite E0 in E. lra.
  Qed.
  (** The Jacobian. *)
  Lemma tangent_jacobian f m : tangent f m -> exists J, has_jacobian f g0 J /\ forall d, length d = n -> times J d = minus (m (shifted g0 1 d)) (m g0).
  Proof.
    intros (A & B & D). destruct (affine_smooth n _ g0 A H0) as (J & HJ & HD). exists J.
    assert (E : forall d, length d = n -> times J d = minus (m (shifted g0 1 d)) (m g0)).
    { intros d Hd. destruct (affine_step n _ A g0 d (m g0) (times J d) H0 eq_refl (HD d ltac:(congruence))) as (r1 & E1 & L1 & L2 & Hn). injection E1 as <-.
      apply nth_eq; [rewrite minus_length; congruence|]. intros i. rewrite nth_minus by exact L1. rewrite Hn. lra. }
    split; [|exact E]. split; [exact HJ|]. intros d Hd. rewrite E by congruence. apply D. congruence.
  Qed.
End Tangent.

(** ** One Newton step solves a residual whose linearisation has a zero, and only zeros
    at which the residual itself vanishes *)
Lemma tangent_step (l : layout R) bk m h : let g0 := initial_global (l_prim l) in
  exact_on bk l -> tangent (length g0) g0 (global_res l) m -> length h = length g0 -> zeros (m h) ->
  exists d, lstsq_step bk (global_res l) g0 (m g0) = Ok d /\ length d = length g0 /\ zeros (m (shifted g0 1 d)) /\
    forall h', length h' = length g0 -> zeros (m h') -> distance2 (shifted g0 1 d) g0 <= distance2 h' g0 /\ (distance2 h' g0 <= distance2 (shifted g0 1 d) g0 -> h' = shifted g0 1 d).
Proof.
  intros g0 Hbk Ht Hh Hz. destruct (tangent_jacobian _ g0 eq_refl _ _ Ht) as (J & HJ & EJ). destruct Ht as (A & B & D).
  destruct (first_step l bk g0 J (m g0) Hbk eq_refl HJ B) as (d & Ed & Ld & Hd). exists d. split; [exact Ed|]. split; [exact Ld|].
  assert (Hs : length (shifted g0 1 d) = length g0) by (apply shift_len; auto). destruct (affine_parts _ m 0 _ _ A Hs eq_refl) as [L1 _].
  assert (Ez : forall x, length x = length (m g0) -> minus (minus x (m g0)) (map Ropp (m g0)) = x).
  { intros x Lx. apply nth_eq; [rewrite !minus_length; rewrite ?map_length, ?minus_length; congruence|]. intros i. rewrite nth_minus by (rewrite map_length, minus_length; congruence). rewrite nth_minus by congruence.
    replace (nth i (map Ropp (m g0)) 0) with (- nth i (m g0) 0); [lra|]. symmetry. rewrite <- Ropp_0 at 1. apply map_nth. }
  assert (Lm : forall h', length h' = length g0 -> length (minus h' g0) = length g0) by (intros; rewrite minus_length; congruence).
  assert (Ev : forall h', length h' = length g0 -> minus (times J (minus h' g0)) (map Ropp (m g0)) = m h').
  { intros h' Lh. rewrite EJ by now apply Lm. rewrite minus_shift by congruence. apply Ez. now destruct (affine_parts _ m 0 _ _ A Lh eq_refl). }
  assert (Ed1 : minus (times J d) (map Ropp (m g0)) = m (shifted g0 1 d)) by (rewrite EJ by exact Ld; apply Ez; exact L1).
  assert (Zd : zeros (m (shifted g0 1 d))).
  { pose proof (proj1 (proj2 Hd (minus h g0) (Lm h Hh))) as Hle. rewrite Ed1, Ev, (zeros_sumsq (m h) Hz) in Hle by exact Hh. now apply sumsq_zero. }
  split; [exact Zd|]. intros h' Lh Zh. unfold distance2. rewrite (shift_minus g0 d Ld).
  assert (Eq : sumsq (minus (times J (minus h' g0)) (map Ropp (m g0))) = sumsq (minus (times J d) (map Ropp (m g0)))) by (rewrite Ed1, Ev by exact Lh; now rewrite !zeros_sumsq).
  split; [exact (proj2 (proj2 Hd (minus h' g0) (Lm h' Lh)) Eq)|]. intros Hle.
  assert (E : minus h' g0 = d).
  { eapply (least_unique (length g0) J); [apply HJ| |split; [now apply Lm|]|exact Hd].
    - rewrite map_length. pose proof (f_equal (@length R) (EJ d Ld)) as El. rewrite minus_length in El by exact L1. rewrite L1 in El. rewrite <- El. unfold times. now rewrite map_length.
    - intros d' Ld'. rewrite Eq. destruct (proj2 Hd d' Ld') as [H1 H2]. split; [exact H1|]. intros E'. eapply Rle_trans; [exact Hle|]. now apply H2. }
  rewrite <- E. rewrite minus_shift; congruence.
Qed.
(** The loop: one step, then nothing moves, and every further error is 0. *)
Lemma tangent_loop (l : layout R) bk m h abs_tol rel_tol k : let g0 := initial_global (l_prim l) in
  exact_on bk l -> tangent (length g0) g0 (global_res l) m -> length h = length g0 -> zeros (m h) ->
  (forall g, length g = length g0 -> zeros (m g) -> exists z, global_res l g = Ok z /\ zeros z) ->
  exists s, newton_loop (global_res l) (lstsq_step bk (global_res l)) abs_tol rel_tol (S k) (newton_init g0) = Ok s /\
    length (ns_g s) = length g0 /\ zeros (m (ns_g s)) /\
    (forall h', length h' = length g0 -> zeros (m h') -> distance2 (ns_g s) g0 <= distance2 h' g0 /\ (distance2 h' g0 <= distance2 (ns_g s) g0 -> h' = ns_g s)) /\
    exists a errs, ns_abs s = a :: errs /\ zeros errs /\ (0 <= abs_tol -> (length errs <= 1)%nat).
Proof.
  intros g0 Hbk Ht Hh Hz Hsolve. destruct (tangent_step l bk m h Hbk Ht Hh Hz) as (d & Ed & Ld & Hd & Hc). fold g0 in Ed, Ld, Hd, Hc. set (g1 := shifted g0 1 d) in *.
  assert (L1 : length g1 = length g0) by (apply shift_len; auto). destruct (Hsolve g1 L1 Hd) as (z & Ez & Hzz). destruct Ht as (A & B & D).
  destruct (norm_total (m g0)) as [a Ea].
  assert (Loop : forall k st, ns_g st = g1 -> (exists errs, ns_abs st = a :: errs /\ zeros errs /\ (0 <= abs_tol -> errs = [] \/ (length errs = 1%nat /\ ns_abs_err st = Fin 0))) ->
    exists s, newton_loop (global_res l) (lstsq_step bk (global_res l)) abs_tol rel_tol k st = Ok s /\ ns_g s = g1 /\ exists errs, ns_abs s = a :: errs /\ zeros errs /\ (0 <= abs_tol -> (length errs <= 1)%nat)).
  { clear k. assert (Short : forall st, (exists errs, ns_abs st = a :: errs /\ zeros errs /\ (0 <= abs_tol -> errs = [] \/ (length errs = 1%nat /\ ns_abs_err st = Fin 0))) -> exists errs, ns_abs st = a :: errs /\ zeros errs /\ (0 <= abs_tol -> (length errs <= 1)%nat)).
    { intros st (errs & H1 & H2 & H3). exists errs. split; [exact H1|]. split; [exact H2|]. intros H. destruct (H3 H) as [->|[-> _]]; cbn; lia. }
    induction k as [|k IH]; intros st Est Hab; [exists st; auto|]. cbn [newton_loop]. destruct (gtb (ns_abs_err st) abs_tol && gtb (ns_rel_err st) rel_tol)%bool eqn:Eb; [|exists st; auto].
    unfold newton_body. rewrite Est, Ez. cbn [bind]. destruct (lstsq_defined (length g0) (global_res l) bk Hbk g1 z L1) as (d' & Ed' & Hd'). rewrite Ed'. cbn [bind].
    assert (Hdz : zeros d') by (eapply least_zero; [|exact Hd']; now apply zeros_opp). assert (Hdl : length d' = length g1) by (rewrite L1; apply Hd').
    rewrite (shifted_vadd g1 d' Hdl), (shifted_zeros g1 d' Hdl Hdz). cbn [bind]. rewrite (norm_zeros z Hzz). cbn [bind].
    apply IH; [reflexivity|]. cbn [ns_abs ns_abs_err]. destruct Hab as (errs & -> & He & Ht). exists (errs ++ [0])%list. split; [reflexivity|]. split; [apply Forall_app; split; [exact He|]; constructor; [reflexivity|constructor]|].
    intros Hp. right. destruct (Ht Hp) as [->|[_ Ee]]; [split; reflexivity|]. exfalso. rewrite Ee in Eb. cbn [gtb] in Eb. apply andb_prop in Eb as [Eb _]. cbn in Eb. unfold Rltb in Eb. destruct (Rlt_dec abs_tol 0) as [Hlt|Hlt]; [lra|discriminate]. }
  cbn [newton_loop newton_init ns_abs_err ns_rel_err gtb andb]. unfold newton_body. cbn [ns_g newton_init]. rewrite B. cbn [bind]. rewrite Ed. cbn [bind]. rewrite (shifted_vadd g0 d Ld). cbn [bind]. rewrite Ea. cbn [bind].
  edestruct (Loop k) as (s & -> & Es & Ha); [reflexivity|exists []; split; [reflexivity|split; [constructor|intros _; now left]]|]. exists s. rewrite Es. split; [reflexivity|]. split; [exact L1|]. split; [exact Hd|]. split; [exact Hc|].
  destruct Ha as (errs & H1 & H2 & H3). exists a, errs. auto.
Qed.
