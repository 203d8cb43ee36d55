(** One iteration of Newton's method on boxes, and the loop. *)
From Coq Require Import Reals Lra.
From Verif Require Import P_Station BackendLocal BackendOrder EndProofs Tangent BackendProofs BackendAffine AffineProofs P_Backend.
From Verif Require Export Aspect.
From Verif Require Import P_Affine.
Local Open Scope R_scope.

Lemma tangent_step_at (l : layout) bk g0 m h : length g0 = length (initial_global (l_prim l)) ->
  exact_on bk l -> tangent (length g0) g0 (global_res l) m -> length h = length g0 -> zeros (m h) ->
  exists d, lstsq_step bk (global_res l) g0 (m g0) = Ok d /\ length d = length g0 /\ zeros (m (shifted g0 1 d)).
Proof.
  intros Hg0 Hbk Ht Hh Hz. destruct (tangent_jacobian _ g0 eq_refl _ _ Ht) as (J & HJ & EJ). destruct Ht as (A & B & D).
  destruct (first_step l bk g0 J (m g0) Hbk Hg0 HJ B) as (d & Ed & Ld & Hd). exists d. split; [exact Ed|]. split; [exact Ld|].
  assert (Hs : length (shifted g0 1 d) = length g0) by (apply shift_len; auto). destruct (affine_parts _ m 0 _ _ A Hs eq_refl) as [L1 _].
  assert (Ez : forall x, length x = length (m g0) -> minus (minus x (m g0)) (map Ropp (m g0)) = x).
  { intros x Lx. apply nth_eq; [rewrite !minus_length; rewrite ?map_length, ?minus_length; congruence|]. intros i. rewrite nth_minus by (rewrite map_length, minus_length; congruence). rewrite nth_minus by congruence.
    replace (nth i (map Ropp (m g0)) 0) with (- nth i (m g0) 0); [lra|]. symmetry. rewrite <- Ropp_0 at 1. apply map_nth. }
  assert (Lm : forall h', length h' = length g0 -> length (minus h' g0) = length g0) by (intros; rewrite minus_length; congruence).
  assert (Ev : forall h', length h' = length g0 -> minus (times J (minus h' g0)) (map Ropp (m g0)) = m h').
  { intros h' Lh. rewrite EJ by now apply Lm. rewrite minus_shift by congruence. apply Ez. now destruct (affine_parts _ m 0 _ _ A Lh eq_refl). }
  assert (Ed1 : minus (times J d) (map Ropp (m g0)) = m (shifted g0 1 d)) by (rewrite EJ by exact Ld; apply Ez; exact L1).
  assert (Zd : zeros (m (shifted g0 1 d))).
  { pose proof (proj1 (proj2 Hd (minus h g0) (Lm h Hh))) as Hle. rewrite Ed1, Ev, (zeros_sumsq (m h) Hz) in Hle by exact Hh. now apply sumsq_zero. }
  exact Zd.
Qed.

Definition box_vec (x y w h : R) : list R := [x; y; x + w; y; x + w; y + h; x; y + h].
Lemma eight {A} (d : list A) : length d = 8%nat -> exists a b c e f g h i, d = [a; b; c; e; f; g; h; i].
Proof. do 8 (destruct d as [|? d]; [discriminate|]). destruct d; [|discriminate]. intros _. repeat eexists. Qed.
Lemma len_across w : len (w, 0) = Rabs w.
Proof. unfold len, inner. cbn [fst snd]. replace (w * w + 0 * 0) with (Rsqr w) by (unfold Rsqr; ring). apply sqrt_Rsqr_abs. Qed.
Lemma len_up h : len (0, h) = Rabs h.
Proof. unfold len, inner. cbn [fst snd]. replace (0 * 0 + h * h) with (Rsqr h) by (unfold Rsqr; ring). apply sqrt_Rsqr_abs. Qed.

Lemma single_consistent t (v : pv R) key (q : prim) L : (forall w, In w (held q) -> In w (L ++ [v])) -> (forall a b, In a (L ++ [v]) -> In b (L ++ [v]) -> vid a = vid b -> a = b) ->
  ids_consistent (Node t v [(key, q)]).
Proof.
  intros Hq Hc. assert (G : forall a, In a (held (Node t v [(key, q)])) -> In a (L ++ [v])).
  { intros a Ha. rewrite held_unfold in Ha. cbn [flat_map snd] in Ha. rewrite app_nil_r in Ha. destruct Ha as [<-|Ha]; [apply in_or_app; right; now left|now apply Hq]. }
  intros a b Ha Hb. apply Hc; now apply G.
Qed.
Section Step.
  Context (W k : R).
  Notation l := (aspect_layout W k).
  Definition across (g : list R) : pt := (nth 2 g 0 - nth 0 g 0, nth 3 g 0 - nth 1 g 0).
  Definition up (g : list R) : pt := (nth 4 g 0 - nth 2 g 0, nth 5 g 0 - nth 3 g 0).
  Lemma level_nth i j : level 8 (fun g => nth i g 0 - nth j g 0).
  Proof. intros s g h Hg Hh. rewrite !mix_nth by congruence. ring. Qed.
  Lemma across_level : levelpt 8 across.
  Proof. split; apply level_nth. Qed.
  Lemma up_level : levelpt 8 up.
  Proof. split; apply level_nth. Qed.
  Definition rows (g : list R) : list R :=
    [nth 3 g 0 - nth 1 g 0; nth 7 g 0 - nth 5 g 0; nth 0 g 0 - nth 6 g 0; nth 4 g 0 - nth 2 g 0; nth 2 g 0 - nth 0 g 0 - W].
  Lemma rows_affine : affine 8 (fun g => Ok (rows g)).
  Proof.
    apply Tangent.parts_affine. intros s g h Hg Hh. split; [reflexivity|]. unfold rows. rewrite !mix_nth by congruence. cbn.
    repeat (apply (f_equal2 (@Datatypes.cons R)); [ring|]). reflexivity.
  Qed.
  Lemma res_rows g : length g = 8%nat -> (a <- Ok (rows g) ;; b <- (q <- ndiv (len (across g)) (len (up g)) ;; Ok [q - k]) ;; Ok (a ++ b))%list = global_res l g.
  Proof.
    intros Hg. destruct (eight g Hg) as (a & b & c & d & e & f & u & v & ->). rewrite aspect_res. unfold rows, across, up. cbn [nth bind]. destruct (ndiv _ _); reflexivity.
  Qed.
  Lemma start_length : length (initial_global (l_prim l)) = 8%nat.
  Proof. now rewrite aspect_start. Qed.
  Definition next (w h : R) : R := h * (W + w - k * Rabs h) / w.
  Lemma box_across x y w h : across (box_vec x y w h) = (w, 0).
  Proof. unfold across, box_vec. cbn [nth]. f_equal; ring. Qed.
  Lemma box_up x y w h : up (box_vec x y w h) = (0, h).
  Proof. unfold up, box_vec. cbn [nth]. f_equal; ring. Qed.
  Lemma box_rows x y w h : rows (box_vec x y w h) = [0; 0; 0; 0; w - W].
  Proof. unfold rows, box_vec. cbn [nth]. repeat (apply (f_equal2 (@Datatypes.cons R)); [ring|]). reflexivity. Qed.
  Lemma box_res x y w h : 0 < w -> h <> 0 -> global_res l (box_vec x y w h) = Ok [0; 0; 0; 0; w - W; w / Rabs h - k].
  Proof.
    intros Hw Hh. rewrite <- res_rows by reflexivity. rewrite box_across, box_up, box_rows, len_across, len_up. cbn [bind ndiv NumR]. unfold Rdiv_r. pose proof (Rabs_pos_lt h Hh). destruct (Req_EM_T (Rabs h) 0) as [X|_]; [lra|]. cbn [bind].
    rewrite (Rabs_pos_eq w) by lra. reflexivity.
  Qed.
  Lemma box_flat x y w : global_res l (box_vec x y w 0) = Err NonFinite.
  Proof.
    rewrite <- res_rows by reflexivity. rewrite box_across, box_up, box_rows, len_across, len_up. cbn [bind ndiv NumR]. unfold Rdiv_r. rewrite Rabs_R0. destruct (Req_EM_T 0 0) as [_|X]; [reflexivity|lra].
  Qed.
  Lemma aspect_step bk x y w h r : exact_on bk l -> 0 < w -> h <> 0 -> global_res l (box_vec x y w h) = Ok r ->
    exists d x' y', lstsq_step bk (global_res l) (box_vec x y w h) r = Ok d /\ vadd (box_vec x y w h) d = Ok (box_vec x' y' W (next w h)).
  Proof.
    intros Hbk Hw Hh Er. set (g0 := box_vec x y w h) in *. pose proof (Rabs_pos_lt h Hh) as Ha.
    assert (Hsq : Rabs h * Rabs h = h * h). { change (Rsqr (Rabs h) = Rsqr h). symmetry. apply Rsqr_abs. }
    assert (Nu : across g0 <> (0, 0)) by (unfold g0; rewrite box_across; intros [= X]; lra).
    assert (Nv : up g0 <> (0, 0)) by (unfold g0; rewrite box_up; intros [= X]; lra).
    pose proof (tangent_app 8 g0 eq_refl _ _ _ _ (affine_tangent 8 g0 eq_refl _ rows_affine) (quotient_tangent 8 g0 eq_refl across up k across_level up_level Nu Nv)) as T. cbn beta in T.
    apply (tangent_ext 8 g0 eq_refl _ _ _ res_rows) in T.
    match type of T with tangent _ _ _ ?m => set (lin := m) in T end.
    assert (El : forall g, length g = 8%nat -> lin g = (rows g ++ [w / Rabs h - k + (fst (across g) - w) / Rabs h - w * (h * snd (up g) / Rabs h - Rabs h) / (Rabs h * Rabs h)])%list).
    { intros g _. unfold lin. f_equal. f_equal. unfold g0. rewrite box_across, box_up, len_across, len_up, (Rabs_pos_eq w) by lra. unfold inner. cbn [fst snd]. field. split; lra. }
    assert (E0 : lin g0 = r). { destruct T as (_ & B & _). rewrite Er in B. injection B as <-. reflexivity. }
    destruct (tangent_step_at l bk g0 lin (box_vec 0 0 W (next w h)) (eq_sym start_length) Hbk T eq_refl) as (d & Ed & Ld & Z).
    { rewrite El by reflexivity. rewrite box_rows, box_across, box_up. cbn [fst snd]. unfold next. repeat (apply Forall_cons; [ring|]). apply Forall_cons; [|apply Forall_nil].
      replace (h * (h * (W + w - k * Rabs h) / w)) with (Rabs h * Rabs h * (W + w - k * Rabs h) / w) by (rewrite Hsq; field; lra). field. lra. }
    rewrite E0 in Ed. exists d. assert (Ls : length (shifted g0 1 d) = 8%nat) by (rewrite shifted_length by exact Ld; reflexivity).
    rewrite El in Z by exact Ls. rewrite (shifted_vadd g0 d Ld). destruct (eight _ Ls) as (a & b & c & e & f & u & v & t & Es). rewrite Es in *. unfold rows, across, up in Z. cbn [nth fst snd List.app] in Z.
    apply Forall_cons_iff in Z as [Z1 Z]. apply Forall_cons_iff in Z as [Z2 Z]. apply Forall_cons_iff in Z as [Z3 Z]. apply Forall_cons_iff in Z as [Z4 Z]. apply Forall_cons_iff in Z as [Z5 Z]. apply Forall_cons_iff in Z as [Z6 _].
    exists a, b. split; [exact Ed|]. f_equal. unfold box_vec.
    assert (Eh : h * (u - e) = Rabs h * Rabs h * (W + w - k * Rabs h) / w).
    { replace (c - a - w) with (W - w) in Z6 by lra.
      assert (X : h * (u - e) - Rabs h * Rabs h * (W + w - k * Rabs h) / w = - (Rabs h * Rabs h * Rabs h / w) * (w / Rabs h - k + (W - w) / Rabs h - w * (h * (u - e) / Rabs h - Rabs h) / (Rabs h * Rabs h))) by (field; split; lra).
      rewrite Z6, Rmult_0_r in X. lra. }
    assert (Eu : u - e = next w h).
    { unfold next. apply (Rmult_eq_reg_l h); [|exact Hh]. rewrite Eh, Hsq. field. lra. }
    repeat (apply (f_equal2 (@Datatypes.cons R)); [lra|]). reflexivity.
  Qed.

  (** ** The loop *)
  Context (HW : 0 < W).
  Lemma next_height j : next W (height W k j) = height W k (S j).
  Proof. unfold next. cbn [height]. field. lra. Qed.
  Lemma first_height : next 1 1 = height W k 0.
  Proof. unfold next. cbn [height]. rewrite Rabs_R1. field. Qed.
  Lemma norm_last z : norm [0; 0; 0; 0; W - W; z] = Ok (Rabs z).
  Proof.
    unfold norm. cbn [nsqrt NumR map]. unfold Rsqrt_r. cbn. match goal with |- context [Rlt_dec ?x 0] => assert (E : x = Rsqr z) by (unfold Rsqr; ring); rewrite E end.
    destruct (Rlt_dec (Rsqr z) 0) as [X|_]; [pose proof (Rle_0_sqr z); lra|]. now rewrite sqrt_Rsqr_abs.
  Qed.
  Definition error (j : nat) : R := Rabs (W / Rabs (height W k j) - k).
  Lemma body bk s x y j : exact_on bk l -> ns_g s = box_vec x y W (height W k j) -> height W k j <> 0 ->
    exists s' x' y', newton_body (global_res l) (lstsq_step bk (global_res l)) s = Ok s' /\ ns_g s' = box_vec x' y' W (height W k (S j)) /\ ns_abs s' = (ns_abs s ++ [error j])%list.
  Proof.
    intros Hbk Eg Hh. pose proof (box_res x y W (height W k j) HW Hh) as Er. destruct (aspect_step bk x y W (height W k j) _ Hbk HW Hh Er) as (d & x' & y' & Ed & Ev).
    unfold newton_body. rewrite Eg, Er. cbn [bind]. rewrite Ed. cbn [bind]. rewrite Ev. cbn [bind]. rewrite norm_last. cbn [bind]. rewrite next_height.
    eexists _, x', y'. split; [reflexivity|]. split; reflexivity.
  Qed.
  Lemma loop bk abs_tol rel_tol m : exact_on bk l -> forall s s' x y j, ns_g s = box_vec x y W (height W k j) -> length (ns_abs s) = S j ->
    newton_loop (global_res l) (lstsq_step bk (global_res l)) abs_tol rel_tol m s = Ok s' ->
    exists j' x' y', (j <= j')%nat /\ length (ns_abs s') = S j' /\ ns_g s' = box_vec x' y' W (height W k j') /\
      ns_abs s' = (ns_abs s ++ map error (seq j (j' - j)))%list /\ forall i, (j <= i < j')%nat -> height W k i <> 0.
  Proof.
    intros Hbk. induction m as [|m IH]; intros s s' x y j Eg Ea E; cbn [newton_loop] in E.
    - injection E as <-. exists j, x, y. rewrite Nat.sub_diag. cbn [seq map]. rewrite app_nil_r. repeat split; auto. lia.
    - destruct (_ && _)%bool; [|injection E as <-; exists j, x, y; rewrite Nat.sub_diag; cbn [seq map]; rewrite app_nil_r; repeat split; auto; lia].
      destruct (Req_dec (height W k j) 0) as [Hz|Hh].
      + unfold newton_body in E. rewrite Eg, Hz, box_flat in E. discriminate.
      + destruct (body bk s x y j Hbk Eg Hh) as (s1 & x1 & y1 & E1 & G1 & A1). rewrite E1 in E. cbn [bind] in E.
        destruct (IH s1 s' x1 y1 (S j) G1) as (j' & x' & y' & Hj & L & G & A & N); [rewrite A1, app_length; cbn; lia|exact E|].
        exists j', x', y'. split; [lia|]. split; [exact L|]. split; [exact G|]. split.
        * rewrite A, A1, <- app_assoc. f_equal. replace (j' - j)%nat with (S (j' - S j)) by lia. reflexivity.
        * intros i Hi. destruct (Nat.eq_dec i j) as [->|Ni]; [exact Hh|]. apply N. lia.
  Qed.
  Lemma loop_total bk abs_tol rel_tol m : exact_on bk l -> (forall i, height W k i <> 0) -> forall s x y j, ns_g s = box_vec x y W (height W k j) ->
    exists s', newton_loop (global_res l) (lstsq_step bk (global_res l)) abs_tol rel_tol m s = Ok s'.
  Proof.
    intros Hbk Hn. induction m as [|m IH]; intros s x y j Eg; cbn [newton_loop]; [eauto|]. destruct (_ && _)%bool; [|eauto].
    destruct (body bk s x y j Hbk Eg (Hn j)) as (s1 & x1 & y1 & -> & G1 & _). cbn [bind]. eapply IH. exact G1.
  Qed.
  Lemma start_body bk : exact_on bk l ->
    exists s x y a, newton_body (global_res l) (lstsq_step bk (global_res l)) (newton_init (initial_global (l_prim l))) = Ok s /\ ns_g s = box_vec x y W (height W k 0) /\ ns_abs s = [a].
  Proof.
    intros Hbk. assert (Es : initial_global (l_prim l) = box_vec 0 0 1 1).
    { rewrite aspect_start. unfold box_vec. repeat (apply (f_equal2 (@Datatypes.cons R)); [lra|]). reflexivity. }
    pose proof (box_res 0 0 1 1 Rlt_0_1 R1_neq_R0) as Er. destruct (aspect_step bk 0 0 1 1 _ Hbk Rlt_0_1 R1_neq_R0 Er) as (d & x' & y' & Ed & Ev).
    unfold newton_body. cbn [ns_g newton_init]. rewrite Es, Er. cbn [bind]. rewrite Ed. cbn [bind]. rewrite Ev. cbn [bind].
    match goal with |- context [norm ?v] => destruct (norm_total v) as [a ->] end. cbn [bind]. rewrite first_height.
    eexists _, x', y', a. split; [reflexivity|]. split; reflexivity.
  Qed.
  (** ** The tree *)
  Lemma aspect_sane : wf (l_prim l) /\ slashfree (l_prim l) /\ ids_consistent (l_prim l).
  Proof.
    assert (P0 : pool (F:=R) [{| vid := 0; vdata := [] |}] 1).
    { split; cbn; [intros a b [<-|[]] [<-|[]]; reflexivity|intros a [<-|[]]; cbn; lia]. }
    destruct (quad_built [{| vid := 0; vdata := [] |}] 1 VNone None readme_quad 10) as (L & (M1 & M2 & M3) & Hsn & Hq); [exact P0|exact I|exact I|vm_compute; reflexivity|].
    assert (S : sane (l_prim l)).
    { rewrite aspect_prim. apply sane_unfold. split; [cbn [map fst]; apply NoDup_cons; [intros []|apply NoDup_nil]|]. apply Forall_cons; [split; [reflexivity|exact Hsn]|apply Forall_nil]. }
    destruct S as [S1 S2]. split; [exact S1|]. split; [exact S2|]. rewrite aspect_prim. apply (single_consistent _ _ _ _ _ Hq (proj1 M1)).
  Qed.
  Lemma figure_vec x y w h : figure_is (new_tree (l_prim l) (box_vec x y w h)) w h.
  Proof.
    rewrite aspect_prim. unfold box_vec. eexists _, x, y. split; [lazy -[IZR Rplus]; reflexivity|].
    unfold box_at, quad_at, line_at, point_at. repeat eexists.
  Qed.
  Lemma drawn_vec x y w h :
    exists tr, subplots (new_tree (l_prim l) (box_vec x y w h)) "Figure" None = (tr, Ok tt) /\ sizes tr = [(w, h)].
  Proof.
    rewrite aspect_prim. unfold box_vec.
    lazy -[IZR Rplus Rminus Rmult Ropp Rlt_dec Req_EM_T Rdiv Rinv sqrt].
    eexists. split; [reflexivity|]. lazy -[IZR Rplus Rminus Rmult Ropp Rlt_dec Req_EM_T Rdiv Rinv sqrt]. repeat f_equal; ring.
  Qed.
End Step.
