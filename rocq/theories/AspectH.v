(** Newton's method on a figure of given height and aspect ratio. *)
From Coq Require Import Reals Lra.
From Verif Require Import P_Station BackendLocal BackendOrder EndProofs Tangent BackendProofs BackendAffine AffineProofs P_Backend AspectStep.
From Verif Require Export AspectHSpec.
From Verif Require Import P_Affine.
Local Open Scope R_scope.

Section Program.
  Context (H k : R).
  Notation l := (tall_layout H k).
  Lemma tall_runs : runs (empty_layout 0) (tall_program H k) l.
  Proof. unfold tall_layout. apply all_ok_runs. vm_compute. reflexivity. Qed.
  Lemma tall_prim : l_prim l = Node TPrimNode {| vid := 0; vdata := [] |} [("Figure", readme_quad)].
  Proof. vm_compute. reflexivity. Qed.
  Lemma tall_start : initial_global (l_prim l) = [0; 0; 1; 0; 1; 1; 0; 1].
  Proof. rewrite tall_prim. vm_compute. reflexivity. Qed.
  Lemma tall_res a b c d e f u v : global_res l [a; b; c; d; e; f; u; v] =
    (q <- ndiv (len (c - a, d - b)) (len (e - c, f - d)) ;; Ok [d - b; v - f; a - u; e - c; f - d - H; q - k]).
  Proof.
    eassert (E : global_res l [a; b; c; d; e; f; u; v] = _).
    { lazy -[IZR Rplus Rminus Rmult Ropp Rlt_dec Req_EM_T Rdiv Rinv sqrt]. reflexivity. }
    rewrite E. clear E.
    match goal with |- context [Rlt_dec ?x 0] => destruct (Rlt_dec x 0) as [X|_]; [exfalso; apply (Rlt_not_le _ _ X); pose proof (Rle_0_sqr (c - a)); pose proof (Rle_0_sqr (d - b)); unfold Rsqr in *; lra|] end.
    cbv beta iota.
    match goal with |- context [Rlt_dec ?x 0] => destruct (Rlt_dec x 0) as [X|_]; [exfalso; apply (Rlt_not_le _ _ X); pose proof (Rle_0_sqr (e - c)); pose proof (Rle_0_sqr (f - d)); unfold Rsqr in *; lra|] end.
    cbv beta iota.
    replace ((c - a) * (c - a) + ((d - b) * (d - b) + 0)) with (inner (c - a, d - b) (c - a, d - b)) by (unfold inner; cbn [fst snd]; ring).
    replace ((e - c) * (e - c) + ((f - d) * (f - d) + 0)) with (inner (e - c, f - d) (e - c, f - d)) by (unfold inner; cbn [fst snd]; ring).
    fold (len (c - a, d - b)). fold (len (e - c, f - d)). cbn [ndiv NumR]. unfold Rdiv_r. destruct (Req_EM_T (len (e - c, f - d)) 0); cbv beta iota zeta; [reflexivity|]. cbn [bind].
    f_equal. repeat (apply (f_equal2 (@Datatypes.cons R)); [try lra|]); reflexivity.
  Qed.
End Program.
Notation across := AspectStep.across.
Notation up := AspectStep.up.
Section Step.
  Context (H k : R).
  Notation l := (tall_layout H k).
  Definition rows (g : list R) : list R :=
    [nth 3 g 0 - nth 1 g 0; nth 7 g 0 - nth 5 g 0; nth 0 g 0 - nth 6 g 0; nth 4 g 0 - nth 2 g 0; nth 5 g 0 - nth 3 g 0 - H].
  Lemma rows_affine : affine 8 (fun g => Ok (rows g)).
  Proof.
    apply Tangent.parts_affine. intros s g h Hg Hh. split; [reflexivity|]. unfold rows. rewrite !mix_nth by congruence. cbn.
    repeat (apply (f_equal2 (@Datatypes.cons R)); [ring|]). reflexivity.
  Qed.
  Lemma res_rows g : length g = 8%nat -> (a <- Ok (rows g) ;; b <- (q <- ndiv (len (across g)) (len (up g)) ;; Ok [q - k]) ;; Ok (a ++ b))%list = global_res l g.
  Proof.
    intros Hg. destruct (eight g Hg) as (a & b & c & d & e & f & u & v & ->). rewrite tall_res. unfold rows, across, up. cbn [nth bind]. destruct (ndiv _ _); reflexivity.
  Qed.
  Lemma start_length : length (initial_global (l_prim l)) = 8%nat.
  Proof. now rewrite tall_start. Qed.
  (** The width after a step. *)
  Definition next (w h : R) : R := sign w * (k * Rabs h + Rabs w * (sign h * H - Rabs h) / Rabs h).
  Lemma abs_sign x : Rabs x = sign x * x.
  Proof. unfold sign. destruct (Rlt_dec x 0); [rewrite Rabs_left by assumption; ring|rewrite Rabs_pos_eq by lra; ring]. Qed.
  Lemma sign_sq x : sign x * sign x = 1.
  Proof. unfold sign. destruct (Rlt_dec x 0); ring. Qed.
  Lemma box_rows x y w h : rows (box_vec x y w h) = [0; 0; 0; 0; h - H].
  Proof. unfold rows, box_vec. cbn [nth]. repeat (apply (f_equal2 (@Datatypes.cons R)); [ring|]). reflexivity. Qed.
  Lemma box_res x y w h : h <> 0 -> global_res l (box_vec x y w h) = Ok [0; 0; 0; 0; h - H; Rabs w / Rabs h - k].
  Proof.
    intros Hh. rewrite <- res_rows by reflexivity. rewrite box_across, box_up, box_rows, len_across, len_up. cbn [bind ndiv NumR]. unfold Rdiv_r. pose proof (Rabs_pos_lt h Hh). destruct (Req_EM_T (Rabs h) 0) as [X|_]; [lra|]. reflexivity.
  Qed.
  Lemma tall_step bk x y w h r : exact_on bk l -> w <> 0 -> h <> 0 -> global_res l (box_vec x y w h) = Ok r ->
    exists d x' y', lstsq_step bk (global_res l) (box_vec x y w h) r = Ok d /\ vadd (box_vec x y w h) d = Ok (box_vec x' y' (next w h) H).
  Proof.
    intros Hbk Hw Hh Er. set (g0 := box_vec x y w h) in *. pose proof (Rabs_pos_lt h Hh) as Ha. pose proof (Rabs_pos_lt w Hw) as Hb.
    assert (Nu : across g0 <> (0, 0)) by (unfold g0; rewrite box_across; intros [= X]; lra).
    assert (Nv : up g0 <> (0, 0)) by (unfold g0; rewrite box_up; intros [= X]; lra).
    pose proof (tangent_app 8 g0 eq_refl _ _ _ _ (affine_tangent 8 g0 eq_refl _ rows_affine) (quotient_tangent 8 g0 eq_refl across up k across_level up_level Nu Nv)) as T. cbn beta in T.
    apply (tangent_ext 8 g0 eq_refl _ _ _ res_rows) in T.
    match type of T with tangent _ _ _ ?m => set (lin := m) in T end.
    assert (Iw : forall z, w * z / Rabs w = sign w * z). { intros z. replace w with (sign w * Rabs w) at 1 by (rewrite abs_sign, <- Rmult_assoc, sign_sq; ring). field. lra. }
    assert (Ih : forall z, h * z / Rabs h = sign h * z). { intros z. replace h with (sign h * Rabs h) at 1 by (rewrite abs_sign, <- Rmult_assoc, sign_sq; ring). field. lra. }
    assert (El : forall g, length g = 8%nat -> lin g = (rows g ++ [Rabs w / Rabs h - k + (sign w * fst (across g) - Rabs w) / Rabs h - Rabs w * (sign h * snd (up g) - Rabs h) / (Rabs h * Rabs h)])%list).
    { intros g _. unfold lin. f_equal. f_equal. unfold g0. rewrite box_across, box_up, len_across, len_up. unfold inner. cbn [fst snd]. rewrite !Rmult_0_l, Rplus_0_r, Rplus_0_l, Iw, Ih. reflexivity. }
    assert (E0 : lin g0 = r). { destruct T as (_ & B & _). rewrite Er in B. injection B as <-. reflexivity. }
    destruct (tangent_step_at l bk g0 lin (box_vec 0 0 (next w h) H) (eq_sym start_length) Hbk T eq_refl) as (d & Ed & Ld & Z).
    { rewrite El by reflexivity. rewrite box_rows, box_across, box_up. cbn [fst snd]. unfold next. repeat (apply Forall_cons; [ring|]). apply Forall_cons; [|apply Forall_nil].
      rewrite <- (Rmult_assoc (sign w)), sign_sq. field. lra. }
    rewrite E0 in Ed. exists d. assert (Ls : length (shifted g0 1 d) = 8%nat) by (rewrite shifted_length by exact Ld; reflexivity).
    rewrite El in Z by exact Ls. rewrite (shifted_vadd g0 d Ld). destruct (eight _ Ls) as (a & b & c & e & f & u & v & t & Es). rewrite Es in *. unfold rows, across, up in Z. cbn [nth fst snd List.app] in Z.
    apply Forall_cons_iff in Z as [Z1 Z]. apply Forall_cons_iff in Z as [Z2 Z]. apply Forall_cons_iff in Z as [Z3 Z]. apply Forall_cons_iff in Z as [Z4 Z]. apply Forall_cons_iff in Z as [Z5 Z]. apply Forall_cons_iff in Z as [Z6 _].
    exists a, b. split; [exact Ed|]. f_equal. unfold box_vec. replace (u - e) with H in Z6 by lra.
    assert (Eu : c - a = next w h).
    { unfold next. assert (X : sign w * (c - a) = k * Rabs h + Rabs w * (sign h * H - Rabs h) / Rabs h).
      { assert (X : sign w * (c - a) - (k * Rabs h + Rabs w * (sign h * H - Rabs h) / Rabs h) = Rabs h * (Rabs w / Rabs h - k + (sign w * (c - a) - Rabs w) / Rabs h - Rabs w * (sign h * H - Rabs h) / (Rabs h * Rabs h))) by (field; lra).
        rewrite Z6, Rmult_0_r in X. lra. }
      rewrite <- X, <- Rmult_assoc, sign_sq. ring. }
    repeat (apply (f_equal2 (@Datatypes.cons R)); [lra|]). reflexivity.
  Qed.
  (** ** The loop *)
  Context (HH : 0 < H) (Hk : 0 < k).
  Lemma sign_abs x : x <> 0 -> sign (sign x * (k * H)) = sign x.
  Proof. intros _. assert (0 < k * H) by now apply Rmult_lt_0_compat. unfold sign at 2 3. destruct (Rlt_dec x 0); unfold sign; destruct (Rlt_dec _ 0); lra. Qed.
  Lemma next_again w : w <> 0 -> next w H = sign w * (k * H).
  Proof. intros Hw. unfold next. replace (sign H) with 1 by (unfold sign; destruct (Rlt_dec H 0); lra). rewrite (Rabs_pos_eq H) by lra. field. lra. Qed.
  Lemma next_first : next 1 1 = H + k - 1.
  Proof. unfold next, sign. destruct (Rlt_dec 1 0); [lra|]. rewrite Rabs_R1. field. Qed.
  Lemma norm_last z : norm [0; 0; 0; 0; H - H; z] = Ok (Rabs z).
  Proof.
    unfold norm. cbn [nsqrt NumR map]. unfold Rsqrt_r. cbn. match goal with |- context [Rlt_dec ?x 0] => assert (E : x = Rsqr z) by (unfold Rsqr; ring); rewrite E end.
    destruct (Rlt_dec (Rsqr z) 0) as [X|_]; [pose proof (Rle_0_sqr z); lra|]. now rewrite sqrt_Rsqr_abs.
  Qed.
  Lemma body bk s x y w : exact_on bk l -> ns_g s = box_vec x y w H -> w <> 0 ->
    exists s' x' y', newton_body (global_res l) (lstsq_step bk (global_res l)) s = Ok s' /\ ns_g s' = box_vec x' y' (sign w * (k * H)) H /\ ns_abs s' = (ns_abs s ++ [Rabs (Rabs w / H - k)])%list.
  Proof.
    intros Hbk Eg Hw. pose proof (box_res x y w H ltac:(lra)) as Er. destruct (tall_step bk x y w H _ Hbk Hw ltac:(lra) Er) as (d & x' & y' & Ed & Ev).
    unfold newton_body. rewrite Eg, Er. cbn [bind]. rewrite Ed. cbn [bind]. rewrite Ev. cbn [bind]. rewrite norm_last. cbn [bind]. rewrite (next_again w Hw), (Rabs_pos_eq H) by lra.
    eexists _, x', y'. split; [reflexivity|]. split; reflexivity.
  Qed.
  Lemma sign_nz x : sign x * (k * H) <> 0.
  Proof. assert (0 < k * H) by now apply Rmult_lt_0_compat. unfold sign. destruct (Rlt_dec x 0); lra. Qed.
  Lemma sign_size x : Rabs (sign x * (k * H)) = k * H.
  Proof. assert (0 < k * H) by now apply Rmult_lt_0_compat. unfold sign. destruct (Rlt_dec x 0); [rewrite Rabs_left; lra|rewrite Rabs_pos_eq; lra]. Qed.
  (** Once of the right size, it stays so. *)
  Lemma loop bk abs_tol rel_tol m w : exact_on bk l -> w <> 0 -> forall s x y, ns_g s = box_vec x y (sign w * (k * H)) H ->
    exists s' x' y' errs, newton_loop (global_res l) (lstsq_step bk (global_res l)) abs_tol rel_tol m s = Ok s' /\ ns_g s' = box_vec x' y' (sign w * (k * H)) H /\
      ns_abs s' = (ns_abs s ++ errs)%list /\ zeros errs.
  Proof.
    intros Hbk Hw. induction m as [|m IH]; intros s x y Eg; cbn [newton_loop]; [exists s, x, y, []; rewrite app_nil_r; repeat split; auto; constructor|].
    destruct (_ && _)%bool; [|exists s, x, y, []; rewrite app_nil_r; repeat split; auto; constructor].
    destruct (body bk s x y _ Hbk Eg (sign_nz w)) as (s1 & x1 & y1 & -> & G1 & A1). cbn [bind]. rewrite (sign_abs w Hw) in G1. rewrite sign_size in A1.
    destruct (IH s1 x1 y1 G1) as (s' & x' & y' & errs & E & G & A & Z). exists s', x', y', (0 :: errs). split; [exact E|]. split; [exact G|]. split; [|constructor; [reflexivity|exact Z]].
    rewrite A, A1, <- app_assoc. f_equal. cbn [List.app]. f_equal. replace (k * H / H - k) with 0 by (field; lra). now rewrite Rabs_R0.
  Qed.
End Step.
