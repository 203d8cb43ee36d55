(** Properties C67, C68, C73: primitive plots.  Vocabulary: UiSpec.v. *)
From Coq Require Import Reals Lra.
From Verif Require Import GeomProofs P_Geom CompProofs P_Comp ConsProofs TreeLemmas NodeProofs.
From Verif Require Export UiSpec.
Local Open Scope R_scope.
Notation prim := (prim R).

(** ** C68 *)
Lemma rotation_value l P Q : line_at l P Q -> P <> Q ->
  -1 <= fst (vec P Q) / len (vec P Q) <= 1 /\ len (vec P Q) > 0 /\
  rotation_from_line l = Ok (let t := 180 / PI * acos (fst (vec P Q) / len (vec P Q)) in
                             if Rlt_dec (snd (vec P Q)) 0 then t + 180 else t).
Proof.
  intros Hl Hne.
  assert (Hz : len (vec P Q) <> 0). { rewrite len_zero. unfold vec. intros E. inversion E. apply Hne. destruct P, Q; cbn in *; f_equal; lra. }
  pose proof (len_pos (vec P Q)) as Hp. assert (Hpos : 0 < len (vec P Q)) by lra.
  assert (Hr : -1 <= fst (vec P Q) / len (vec P Q) <= 1).
  { assert (Hsq : len (vec P Q) * len (vec P Q) = inner (vec P Q) (vec P Q)) by (apply sqrt_def; unfold inner; nra).
    unfold inner in Hsq. set (x := fst (vec P Q)) in *. set (y := snd (vec P Q)) in *. set (n := len (vec P Q)) in *.
    assert (Hx : - n <= x <= n) by (split; nra). 
    split; [apply (Rmult_le_reg_r n)|apply (Rmult_le_reg_r n)]; try assumption; unfold Rdiv; rewrite Rmult_assoc, Rinv_l by assumption; lra. }
  split; [exact Hr|]. split; [exact Hpos|].
  unfold rotation_from_line. rewrite (line_vector_value l P Q Hl). cbn [bind]. rewrite norm_value. cbn [bind mapM ndiv NumR].
  unfold Rdiv_r. destruct (Req_EM_T (len (vec P Q)) 0); [contradiction|]. cbn [bind nacos_deg NumR]. unfold Racos_deg.
  destruct (Rle_dec (-1) _) as [_|]; [|exfalso; lra]. destruct (Rle_dec _ 1) as [_|]; [|exfalso; lra]. cbn [bind nltb NumR n0 nofZ nadd].
  unfold Rltb, n0. cbn [nofZ NumR].
  destruct (Rlt_dec (snd (vec P Q) / len (vec P Q)) 0) as [H|H], (Rlt_dec (snd (vec P Q)) 0) as [G|G]; try reflexivity; exfalso.
  - apply G. apply (Rmult_lt_reg_r (/ len (vec P Q))); [now apply Rinv_0_lt_compat|]. rewrite Rmult_0_l. exact H.
  - apply H. apply (Rmult_lt_reg_r (len (vec P Q))); [assumption|]. unfold Rdiv. rewrite Rmult_assoc, Rinv_l by assumption. lra.
Qed.
Lemma sin_of_unit u : len u > 0 -> -1 <= fst u / len u <= 1 -> len u * sin (acos (fst u / len u)) = Rabs (snd u).
Proof.
  intros Hp Hr. rewrite sin_acos by assumption. unfold Rsqr.
  assert (Hsq : len u * len u = inner u u) by (apply sqrt_def; unfold inner; nra). unfold inner in Hsq.
  replace (1 - fst u / len u * (fst u / len u)) with ((snd u / len u)²).
  - rewrite sqrt_Rsqr_abs. unfold Rdiv. rewrite Rabs_mult, (Rabs_right (/ len u)) by (apply Rle_ge, Rlt_le, Rinv_0_lt_compat; exact Hp). field. lra.
  - unfold Rsqr. assert (E : snd u * snd u = len u * len u - fst u * fst u) by lra.
    replace (snd u / len u * (snd u / len u)) with ((snd u * snd u) / (len u * len u)) by (field; lra). rewrite E. field. lra.
Qed.
Lemma rad_deg x : rad (180 / PI * x) = x.
Proof. unfold rad. pose proof PI_RGT_0. field. lra. Qed.
Lemma rad_deg_180 x : rad (180 / PI * x + 180) = x + PI.
Proof. unfold rad. pose proof PI_RGT_0. field. lra. Qed.
(** Refuted: for lines that point downwards the angle is mirrored. *)
Theorem C68_rotation_refuted :
  ~ (forall l P Q theta, line_at l P Q -> P <> Q -> rotation_from_line l = Ok theta -> direction theta (vec P Q)).
Proof.
  intros H. assert (Hne : (0, 0) <> (1, -1)) by (intros E; inversion E; lra).
  destruct (rotation_value _ _ _ (gline_at 0 0 1 (-1)) Hne) as (Hr & Hp & E).
  specialize (H _ _ _ _ (gline_at 0 0 1 (-1)) Hne E). destruct H as [H _].
  cbn [snd vec fst] in H. destruct (Rlt_dec (-1 - 0) 0) as [_|]; [|lra]. rewrite rad_deg_180, neg_cos in H. rewrite cos_acos in H by exact Hr.
  unfold vec in *. cbn [fst snd] in *. set (n := len (1 - 0, -1 - 0)) in *.
  replace (n * - ((1 - 0) / n)) with (- (1)) in H by (field; lra). lra.
Qed.
(** Proved: an angle in [0, 360] for every line of positive length; its direction is
    right for lines that do not point downwards and for vertical ones; for the others
    its sine is right and its cosine has the wrong sign. *)
Theorem C68_rotation l P Q : line_at l P Q -> P <> Q ->
  exists theta, rotation_from_line l = Ok theta /\ 0 <= theta <= 360 /\
    (0 <= snd (vec P Q) \/ fst (vec P Q) = 0 -> direction theta (vec P Q)) /\
    (snd (vec P Q) < 0 -> direction theta (- fst (vec P Q), snd (vec P Q))).
Proof.
  intros Hl Hne. destruct (rotation_value l P Q Hl Hne) as (Hr & Hp & E). eexists. split; [exact E|]. cbv zeta. clear E.
  set (u := vec P Q) in *. set (c := fst u / len u) in *. pose proof (acos_bound c) as [B1 B2]. pose proof PI_RGT_0 as HPI.
  assert (B : 0 <= 180 / PI * acos c <= 180).
  { split; [apply Rmult_le_pos; [apply Rlt_le, Rdiv_lt_0_compat; lra|exact B1]|].
    replace 180 with (180 / PI * PI) at 2 by (field; lra). apply Rmult_le_compat_l; [apply Rlt_le, Rdiv_lt_0_compat; lra|exact B2]. }
  assert (Hc : len u * c = fst u) by (unfold c; field; lra).
  assert (Hl' : len (- fst u, snd u) = len u) by (unfold len, inner; cbn [fst snd]; f_equal; ring).
  pose proof (sin_of_unit u Hp Hr) as Hs. fold c in Hs.
  destruct (Rlt_dec (snd u) 0) as [Hneg|Hpos].
  - split; [lra|]. rewrite Rabs_left in Hs by assumption.
    assert (D : direction (180 / PI * acos c + 180) (- fst u, snd u)).
    { unfold direction. rewrite rad_deg_180, neg_cos, neg_sin, cos_acos by exact Hr. rewrite Hl'. cbn [fst snd]. split; [|]; nra. }
    split; [intros [H|H]; [lra|]|intros _; exact D].
    unfold direction in *. rewrite Hl' in D. cbn [fst snd] in D. rewrite H in D |- *. rewrite Ropp_0 in D. exact D.
  - split; [lra|]. rewrite Rabs_right in Hs by lra. split; [intros _|lra].
    unfold direction. rewrite rad_deg, cos_acos by exact Hr. split; [exact Hc|exact Hs].
Qed.

(** ** C67, C73 *)
Lemma nat_div (a b : nat) : b <> 0%nat -> ndiv (nofZ (Z.of_nat a)) (nofZ (Z.of_nat b)) = Ok (INR a / INR b).
Proof.
  intros H. cbn [ndiv nofZ NumR]. unfold Rdiv_r. rewrite <- !INR_IZR_INZ. destruct (Req_EM_T (INR b) 0) as [E|]; [|reflexivity].
  apply (INR_eq b 0) in E. contradiction.
Qed.
Lemma fifth : ndiv (F:=R) n1 (nofZ 5) = Ok (1 / 5).
Proof. cbn [ndiv nofZ NumR]. unfold Rdiv_r, n1. cbn [nofZ NumR]. destruct (Req_EM_T 5 0); [lra|reflexivity]. Qed.
Lemma opacity_value h d : opacity (F:=R) h d = Ok (fade h d).
Proof.
  unfold opacity, fade. destruct (Nat.eqb (h + d) 0) eqn:E; cbn [bind].
  - rewrite fifth. cbn [bind nadd nmul nsub NumR]. unfold n1. cbn [nofZ NumR]. f_equal. ring.
  - apply Nat.eqb_neq in E. rewrite nat_div by assumption. cbn [bind]. rewrite fifth. cbn [bind nadd nmul nsub NumR]. unfold n1. cbn [nofZ NumR].
    now rewrite Nat.add_sub.
Qed.
Lemma ratio_bounds h d : (h + d)%nat <> 0%nat -> 0 <= INR h / INR (h + d) <= 1.
Proof.
  intros H. assert (Hp : 0 < INR (h + d)) by (apply lt_0_INR; lia). pose proof (pos_INR h). pose proof (pos_INR d). rewrite plus_INR in *.
  split; [apply Rmult_le_pos; [assumption|apply Rlt_le, Rinv_0_lt_compat; assumption]|].
  apply (Rmult_le_reg_r (INR h + INR d)); [assumption|]. unfold Rdiv. rewrite Rmult_assoc, Rinv_l by lra. lra.
Qed.
Lemma fade_bounds h d : 1 / 5 <= fade h d <= 1.
Proof.
  unfold fade. destruct (Nat.eqb (h + d) 0) eqn:E; [lra|]. apply Nat.eqb_neq in E. pose proof (ratio_bounds h d E). lra.
Qed.
Lemma fade_top h : fade h 0 = 1.
Proof.
  unfold fade. rewrite Nat.add_0_r. destruct (Nat.eqb h 0) eqn:E; [reflexivity|]. apply Nat.eqb_neq in E.
  assert (INR h <> 0) by (apply not_0_INR; exact E). field. assumption.
Qed.
Lemma fade_mono h d h' d' : (h' <= h)%nat -> (d <= d')%nat -> fade h' d' <= fade h d.
Proof.
  intros Hh Hd. unfold fade at 2. destruct (Nat.eqb (h + d) 0) eqn:E; [apply fade_bounds|]. apply Nat.eqb_neq in E.
  unfold fade. destruct (Nat.eqb (h' + d') 0) eqn:E'.
  - apply Nat.eqb_eq in E'. assert (d = 0%nat) by lia. subst d. rewrite Nat.add_0_r. assert (INR h <> 0) by (apply not_0_INR; lia).
    replace (INR h / INR h) with 1 by (field; assumption). lra.
  - apply Nat.eqb_neq in E'. enough (INR h' / INR (h' + d') <= INR h / INR (h + d)) by lra.
    assert (P1 : 0 < INR (h + d)) by (apply lt_0_INR; lia). assert (P2 : 0 < INR (h' + d')) by (apply lt_0_INR; lia).
    apply (Rmult_le_reg_r (INR (h + d) * INR (h' + d'))); [now apply Rmult_lt_0_compat|].
    replace (INR h' / INR (h' + d') * (INR (h + d) * INR (h' + d'))) with (INR (h' * (h + d))) by (rewrite mult_INR; field; lra).
    replace (INR h / INR (h + d) * (INR (h + d) * INR (h' + d'))) with (INR (h * (h' + d'))) by (rewrite mult_INR; field; lra).
    apply le_INR. nia.
Qed.

(** The nodes to draw below a node, with their paths. *)
Fixpoint vis (n : prim) : list (list string * prim) :=
  match n with
  | Node t _ ch => ([], n) :: if ptype_eqb t TLine then [] else flat_map (fun kc => map (fun pn => (fst kc :: fst pn, snd pn)) (vis (snd kc))) ch
  end.

Lemma vis_in n : wf n -> forall p c, In (p, c) (vis n) <->
  walk p n = Some c /\ (forall q r d, p = q ++ r -> r <> [] -> walk q n = Some d -> ntype d <> TLine).
Proof.
  induction n as [t v ch IH] using node_ind'. intros Hw p c. apply wf_children in Hw as [Hnd Hwf]. rewrite Forall_forall in IH, Hwf. cbn [vis].
  split.
  - intros [E|Hin].
    + inversion E; subst. split; [reflexivity|]. intros q r d Hq Hr. destruct q; [|discriminate]. cbn in Hq. congruence.
    + destruct (ptype_eqb t TLine) eqn:Et; [destruct Hin|].
      apply in_flat_map in Hin as ([k c'] & Hk & Hin). apply in_map_iff in Hin as ([p' c''] & E & Hin). cbn [fst snd] in *. inversion E; subst; clear E.
      apply (IH _ Hk (Hwf _ Hk)) in Hin as [W L]. cbn [snd] in W, L. cbn [walk nch]. rewrite (In_dget _ _ _ Hnd Hk). split; [exact W|].
      intros q r d Hq Hr Hd. destruct q as [|k' q].
      * cbn in Hd. inversion Hd; subst. cbn. intros ->. discriminate.
      * cbn in Hq. inversion Hq; subst. cbn [walk nch] in Hd. rewrite (In_dget _ _ _ Hnd Hk) in Hd. exact (L q r d eq_refl Hr Hd).
  - intros [W L]. destruct p as [|k p].
    + cbn in W. inversion W; subst. now left.
    + right. cbn [walk nch] in W. destruct (dget k ch) as [c'|] eqn:Ed; [|discriminate]. pose proof Ed as Hk. apply dget_In in Hk.
      assert (Ht : ptype_eqb t TLine = false).
      { specialize (L [] (k :: p) _ eq_refl ltac:(discriminate) eq_refl). cbn in L. destruct t; try reflexivity. congruence. }
      rewrite Ht. apply in_flat_map. exists (k, c'). split; [exact Hk|]. apply in_map_iff. exists (p, c). split; [reflexivity|].
      apply (IH _ Hk (Hwf _ Hk)). split; [exact W|]. intros q r d Hq Hr Hd. apply (L (k :: q) r d); [now rewrite Hq|exact Hr|].
      cbn [walk nch]. now rewrite Ed.
Qed.
Lemma vis_paths_nodup n : wf n -> NoDup (map fst (vis n)).
Proof.
  induction n as [t v ch IH] using node_ind'. intros Hw. apply wf_children in Hw as [Hnd Hwf]. cbn [vis map fst]. constructor.
  - intros Hin. destruct (ptype_eqb t TLine); [destruct Hin|]. apply in_map_iff in Hin as ([p c] & E & Hin). cbn in E; subst.
    apply in_flat_map in Hin as (kc & _ & Hin). apply in_map_iff in Hin as (pn & E & _). discriminate.
  - destruct (ptype_eqb t TLine); [constructor|]. induction ch as [|[k c] ch IHch]; cbn [flat_map map]; [constructor|].
    inversion IH; inversion Hwf; inversion Hnd; subst. rewrite map_app. apply NoDup_app_intro.
    + rewrite map_map. cbn [fst snd]. rewrite <- (map_map fst (List.cons k)). apply FinFun.Injective_map_NoDup; [intros x y Hxy; now inversion Hxy|]. auto.
    + apply IHch; auto.
    + intros x Hx Hx'. rewrite map_map in Hx. apply in_map_iff in Hx as (pn & <- & _). cbn [fst] in Hx'.
      apply in_map_iff in Hx' as ([p' c'] & E & Hx'). apply in_flat_map in Hx' as ([k' c''] & Hin & Hx'). apply in_map_iff in Hx' as (pn' & E' & _).
      cbn [fst snd] in *. subst p'. inversion E'; subst.
      match goal with H : ~ In _ (map fst ch) |- _ => apply H end. now apply (in_map fst) in Hin.
Qed.

Lemma plot_prim_unfold t v ch key m : plot_prim (F:=R) (Node t v ch) key m =
  (let split_key := split_all key in let depth := (length split_key - 1)%nat in
   let label := if Nat.ltb m depth || String.eqb key EmptyString then None
                else Some (dots depth ++ String slash (last split_key EmptyString))%string in
   alpha <- opacity (node_height (Node t v ch)) depth ;;
   here <- plot_one (Node t v ch) label alpha ;;
   if issubclass t TLine then Ok here
   else rest <- mapM (fun kc => plot_prim (snd kc) (key ++ String slash (fst kc))%string m) ch ;; Ok (here ++ List.concat rest)).
Proof.
  cbn [plot_prim]. cbv zeta. destruct (opacity _ _) as [a|]; [|reflexivity]. cbn [bind]. destruct (plot_one _ _ _) as [here|]; [|reflexivity]. cbn [bind].
  destruct (issubclass t TLine); [reflexivity|].
  match goal with |- (rest <- ?f ch ;; _) = _ => assert (E : f ch = rmap (@List.concat _) (mapM (fun kc => plot_prim (snd kc) (key ++ String slash (fst kc))%string m) ch)) end.
  { induction ch as [|[k c] ch IH]; [reflexivity|]. cbn [mapM fst snd]. destruct (plot_prim c _ m) as [x|]; [|reflexivity]. cbn [bind]. rewrite IH.
    destruct (mapM _ ch); reflexivity. }
  rewrite E. destruct (mapM _ ch); reflexivity.
Qed.
Lemma join_snoc p k : p <> [] -> (join p ++ String slash k)%string = join (p ++ [k]).
Proof.
  induction p as [|x p IH]; [congruence|]. intros _. destruct p as [|y p]; [reflexivity|].
  change (join ((x :: y :: p) ++ [k])) with (x ++ String slash (join ((y :: p) ++ [k])))%string. rewrite <- IH by discriminate.
  change (join (x :: y :: p)) with (x ++ String slash (join (y :: p)))%string. now rewrite append_assoc.
Qed.
(** How one node is drawn. *)
Definition own (m : nat) (pn : list string * prim) (items : list (drawn (F:=R))) : Prop :=
  plot_one (snd pn) (label_of m (fst pn)) (fade (node_height (snd pn)) (length (fst pn) - 1)) = Ok items.
Definition under (p : list string) (pn : list string * prim) : list string * prim := (p ++ fst pn, snd pn).
Definition under_key (k : string) (pn : list string * prim) : list string * prim := (k :: fst pn, snd pn).

Lemma Forall2_app_split {A B} (R : A -> B -> Prop) a b l : Forall2 R (a ++ b) l -> exists x y, l = x ++ y /\ Forall2 R a x /\ Forall2 R b y.
Proof.
  revert l. induction a as [|z a IH]; intros l H; [exists [], l; repeat split; [constructor|exact H]|].
  inversion H as [|? w ? l' Hz Hl]; subst. destruct (IH _ Hl) as (x & y & -> & Hx & Hy). exists (w :: x), y. repeat split; [now constructor|exact Hy].
Qed.
Lemma dots_text n : dots n = string_of_list_ascii (List.repeat "."%char n).
Proof. induction n as [|n IH]; [reflexivity|]. cbn. now rewrite IH. Qed.
Lemma plot_prim_items n : slashfree n -> forall p m ds, p <> [] -> Forall (fun k => noslash k = true) p ->
  plot_prim n (join p) m = Ok ds <-> exists itemss, Forall2 (own m) (map (under p) (vis n)) itemss /\ ds = List.concat itemss.
Proof.
  induction n as [t v ch IH] using node_ind'. intros Hs p m ds Hp Hf. inversion Hs as [t' v' ch' Hk Hc E]; subst.
  rewrite plot_prim_unfold. cbv zeta. rewrite (split_join p Hp Hf), opacity_value. cbn [bind].
  rewrite dots_text. change (if Nat.ltb m (length p - 1) || String.eqb (join p) EmptyString then None
          else Some (string_of_list_ascii (List.repeat "."%char (length p - 1)) ++ String slash (last p EmptyString))%string) with (label_of m p).
  cbn [vis map]. set (n0 := Node t v ch) in *.
  assert (Own : forall items, own m (under p ([], n0)) items <-> plot_one n0 (label_of m p) (fade (node_height n0) (length p - 1)) = Ok items).
  { intros items. unfold own, under. cbn [fst snd]. rewrite app_nil_r. reflexivity. }
  assert (Et : issubclass t TLine = ptype_eqb t TLine) by reflexivity. rewrite Et.
  destruct (plot_one n0 _ _) as [here|e] eqn:Eh; cbn [bind].
  2:{ split; [discriminate|]. intros (itemss & Hi & _). inversion Hi as [|? it ? its Ho _]; subst. apply Own in Ho. discriminate. }
  destruct (ptype_eqb t TLine).
  { split.
    - intros H; injection H as <-. exists [here]. split; [constructor; [now apply Own|constructor]|cbn; now rewrite app_nil_r].
    - intros (itemss & Hi & ->). inversion Hi as [|? it ? its Ho Hn]; subst. inversion Hn; subst. apply Own in Ho. cbn. rewrite app_nil_r. exact Ho. }
  assert (Rest : forall r, mapM (fun kc : string * prim => plot_prim (snd kc) (join p ++ String slash (fst kc))%string m) ch = Ok r ->
     exists itemss, Forall2 (own m) (map (under p) (flat_map (fun kc => map (fun pn => (fst kc :: fst pn, snd pn)) (vis (snd kc))) ch)) itemss /\ List.concat r = List.concat itemss).
  { clear Own Eh. clearbody n0. induction ch as [|[k c] ch IHch]; intros r Hr.
    - cbn in Hr. injection Hr as <-. exists []. split; [constructor|reflexivity].
    - inversion IH as [|? ? IH1 IH2]; inversion Hk as [|? ? Hk1 Hk2]; inversion Hc as [|? ? Hc1 Hc2]; subst. cbn [fst snd] in *.
      cbn [mapM fst snd] in Hr. rewrite join_snoc in Hr by assumption. destruct (plot_prim c (join (p ++ [k])) m) as [x|] eqn:Ex; [|discriminate]. cbn [bind] in Hr.
      destruct (mapM _ ch) as [y|] eqn:Ey; [|discriminate]. cbn [bind] in Hr. injection Hr as <-.
      apply IH1 in Ex as (i1 & I1 & ->); [|exact Hc1|destruct p; discriminate|apply Forall_app; split; [exact Hf|constructor; [exact Hk1|constructor]]].
      destruct (IHch IH2 Hk2 Hc2 y eq_refl) as (i2 & I2 & E2).
      exists (i1 ++ i2). split; [|cbn [List.concat]; rewrite concat_app; now rewrite E2].
      cbn [flat_map fst snd]. rewrite map_app. apply Forall2_app; [|exact I2]. rewrite map_map. unfold under in *. cbn [fst snd].
      erewrite map_ext; [exact I1|]. intros pn. cbn. now rewrite <- app_assoc. }
  assert (Back : forall itemss, Forall2 (own m) (map (under p) (flat_map (fun kc => map (fun pn => (fst kc :: fst pn, snd pn)) (vis (snd kc))) ch)) itemss ->
     exists r, mapM (fun kc : string * prim => plot_prim (snd kc) (join p ++ String slash (fst kc))%string m) ch = Ok r /\ List.concat r = List.concat itemss).
  { clear Own Eh Rest. clearbody n0. induction ch as [|[k c] ch IHch]; intros itemss Hi.
    - inversion Hi. exists []. split; reflexivity.
    - inversion IH as [|? ? IH1 IH2]; inversion Hk as [|? ? Hk1 Hk2]; inversion Hc as [|? ? Hc1 Hc2]; subst. cbn [fst snd] in *.
      cbn [flat_map fst snd] in Hi. rewrite map_app in Hi. apply Forall2_app_split in Hi as (i1 & i2 & -> & I1 & I2).
      destruct (IHch IH2 Hk2 Hc2 i2 I2) as (r & Er & E2).
      assert (Ex : plot_prim c (join (p ++ [k])) m = Ok (List.concat i1)).
      { apply IH1; [exact Hc1|destruct p; discriminate|apply Forall_app; split; [exact Hf|constructor; [exact Hk1|constructor]]|].
        exists i1. split; [|reflexivity]. rewrite map_map in I1. unfold under in *. cbn [fst snd] in I1.
        erewrite map_ext; [exact I1|]. intros pn. cbn. now rewrite <- app_assoc. }
      cbn [mapM fst snd]. rewrite join_snoc by assumption. rewrite Ex. cbn [bind]. rewrite Er. cbn [bind]. eexists. split; [reflexivity|].
      cbn [List.concat]. rewrite E2. now rewrite concat_app. }
  split.
  - intros H. destruct (mapM _ ch) as [r|] eqn:Er; [|discriminate]. cbn [bind] in H. injection H as <-.
    destruct (Rest r eq_refl) as (its & Hi & E). exists (here :: its). split; [constructor; [now apply Own|exact Hi]|]. cbn. now rewrite E.
  - intros (itemss & Hi & ->). inversion Hi as [|? it ? its Ho Hn]; subst. apply Own in Ho. injection Ho as <-.
    destruct (Back its Hn) as (r & -> & E). cbn [bind List.concat]. now rewrite E.
Qed.

Definition visible (root : prim) : list (list string * prim) :=
  flat_map (fun kc => map (under_key (fst kc)) (vis (snd kc))) (nch root).
Lemma visible_in root : wf root -> forall p n, In (p, n) (visible root) <-> to_draw root p n.
Proof.
  destruct root as [t v ch]. intros Hw p n. apply wf_children in Hw as [Hnd Hwf]. rewrite Forall_forall in Hwf.
  unfold visible, to_draw. cbn [nch]. split.
  - intros Hin. apply in_flat_map in Hin as ([k c] & Hk & Hin). apply in_map_iff in Hin as ([p' n'] & E & Hin). unfold under_key in E. cbn [fst snd] in *. inversion E; subst; clear E.
    apply (vis_in c (Hwf _ Hk)) in Hin as [W L]. split; [discriminate|]. cbn [walk nch]. rewrite (In_dget _ _ _ Hnd Hk). split; [exact W|].
    intros q r d Hq Hq0 Hr Hd. destruct q as [|k' q]; [congruence|]. cbn in Hq. inversion Hq; subst. cbn [walk nch] in Hd. rewrite (In_dget _ _ _ Hnd Hk) in Hd.
    exact (L q r d eq_refl Hr Hd).
  - intros (Hp & W & L). destruct p as [|k p]; [congruence|]. cbn [walk nch] in W. destruct (dget k ch) as [c|] eqn:Ed; [|discriminate].
    pose proof Ed as Hk. apply dget_In in Hk. apply in_flat_map. exists (k, c). split; [exact Hk|]. apply in_map_iff. exists (p, n). split; [reflexivity|].
    apply (vis_in c (Hwf _ Hk)). split; [exact W|]. intros q r d Hq Hr Hd. apply (L (k :: q) r d); [now rewrite Hq|discriminate|exact Hr|].
    cbn [walk nch]. now rewrite Ed.
Qed.
Lemma visible_nodup root : wf root -> NoDup (map fst (visible root)).
Proof.
  intros Hw. assert (H : wf (Node TNode (nval root) (nch root))) by (destruct root as [t v ch]; inversion Hw; now constructor).
  apply vis_paths_nodup in H. cbn [vis map ptype_eqb] in H. inversion H. assumption.
Qed.
Lemma plot_prims_items root : slashfree root -> forall ds,
  plot_prims root = Ok ds <-> exists itemss, Forall2 (own 99) (visible root) itemss /\ ds = List.concat itemss.
Proof.
  destruct root as [t v ch]. intros Hs ds. inversion Hs as [t' v' ch' Hk Hc E]; subst. unfold plot_prims, visible. cbn [nch].
  assert (G : forall ds, (exists r, mapM (fun kp : string * prim => plot_prim (snd kp) (fst kp) 99) ch = Ok r /\ ds = List.concat r) <->
     exists itemss, Forall2 (own 99) (flat_map (fun kc => map (under_key (fst kc)) (vis (snd kc))) ch) itemss /\ ds = List.concat itemss).
  { clear Hs ds. induction ch as [|[k c] ch IH]; intros ds.
    - split; [intros (r & H & ->); injection H as <-; exists []; split; [constructor|reflexivity]|intros (i & H & ->); inversion H; exists []; split; reflexivity].
    - inversion Hk as [|? ? Hk1 Hk2]; inversion Hc as [|? ? Hc1 Hc2]; subst. cbn [fst snd] in *.
      pose proof (fun d => plot_prim_items c Hc1 [k] 99 d ltac:(discriminate) ltac:(constructor; [exact Hk1|constructor])) as PI. change (join [k]) with k in PI.
      change (map (under [k]) (vis c)) with (map (under_key k) (vis c)) in PI.
      cbn [mapM flat_map fst snd]. split.
      + intros (r & H & ->). destruct (plot_prim c k 99) as [x|] eqn:Ex; [|discriminate]. cbn [bind] in H. destruct (mapM _ ch) as [y|] eqn:Ey; [|discriminate]. injection H as <-.
        destruct (proj1 (PI x) eq_refl) as (i1 & I1 & ->). destruct (proj1 (IH Hk2 Hc2 (List.concat y)) (ex_intro _ y (conj eq_refl eq_refl))) as (i2 & I2 & E2).
        exists (i1 ++ i2). split; [now apply Forall2_app|]. cbn. rewrite E2. now rewrite concat_app.
      + intros (i & Hi & ->). apply Forall2_app_split in Hi as (i1 & i2 & -> & I1 & I2).
        destruct (proj2 (IH Hk2 Hc2 (List.concat i2)) (ex_intro _ i2 (conj I2 eq_refl))) as (r & Er & E2).
        rewrite (proj2 (PI (List.concat i1)) (ex_intro _ i1 (conj I1 eq_refl))). cbn [bind]. rewrite Er. cbn [bind]. eexists. split; [reflexivity|].
        cbn. rewrite concat_app. now rewrite E2. }
  rewrite <- G. unfold rmap. destruct (mapM _ ch) as [r|]; cbn [bind].
  - split; [intros H; injection H as <-; eauto|intros (r' & H & ->); injection H as <-; reflexivity].
  - split; [discriminate|intros (r' & H & _); discriminate].
Qed.

(** ** C67 *)
Lemma plot_one_opacity n label a items : plot_one (F:=R) n label a = Ok items -> Forall (fun d => opacity_of d = a) items.
Proof.
  unfold plot_one, plot_point, plot_line, plot_polygon. intros H.
  destruct (issubclass (ntype n) TPoint).
  { destruct (vdata (nval n)) as [|x [|y [|]]]; try discriminate. injection H as <-. repeat constructor. }
  destruct (issubclass (ntype n) TLine).
  { destruct (line_length n) as [len|]; [|discriminate]. cbn [bind] in H. destruct (neqb len n0); [injection H as <-; constructor|].
    destruct (mapM _ _) as [pts|]; [|discriminate]. cbn [bind] in H. destruct nhalf as [h|]; [|discriminate]. cbn [bind] in H.
    destruct (rotation_from_line n) as [th|]; [|discriminate]. cbn [bind] in H. injection H as <-. repeat constructor. }
  destruct (issubclass (ntype n) TPolygon); [|injection H as <-; constructor].
  destruct (get_child n "Line0") as [l0|]; [|discriminate]. cbn [bind] in H. destruct (get_child l0 "Point0") as [p0|]; [|discriminate]. cbn [bind] in H.
  destruct (mapM _ _) as [pts|]; [|discriminate]. cbn [bind] in H. destruct (ndiv n1 (nofZ 10)) as [te|]; [|discriminate]. cbn [bind] in H. injection H as <-. repeat constructor.
Qed.
(** Every item drawn belongs to a primitive of the tree to be drawn, and has the
    opacity of its place. *)
Theorem C67_opacity root ds : wf root -> slashfree root -> plot_prims root = Ok ds ->
  forall d, In d ds -> exists path n, to_draw root path n /\ 1 / 5 <= opacity_of d <= 1 /\
    (length path = 1%nat -> opacity_of d = 1) /\ (nch n = [] -> (2 <= length path)%nat -> opacity_of d = 1 / 5) /\
    opacity_of d = fade (node_height n) (length path - 1) /\
    exists items, plot_one n (label_of 99 path) (opacity_of d) = Ok items /\ In d items.
Proof.
  intros Hw Hs H d Hd. apply (plot_prims_items root Hs) in H as (itemss & Hi & ->).
  apply in_concat in Hd as (items & Hit & Hd).
  assert (Hx : exists pn, In pn (visible root) /\ own 99 pn items).
  { clear -Hi Hit. induction Hi as [|x y l l' Hxy _ IH]; [destruct Hit|]. destruct Hit as [<-|Hit]; [exists x; split; [now left|exact Hxy]|].
    destruct (IH Hit) as (pn & H1 & H2). exists pn. split; [now right|exact H2]. }
  destruct Hx as ([path n] & Hin & Ho). unfold own in Ho. cbn [fst snd] in Ho.
  pose proof (plot_one_opacity _ _ _ _ Ho) as Hall. rewrite Forall_forall in Hall. specialize (Hall d Hd).
  exists path, n. split; [now apply visible_in|]. split; [rewrite Hall; apply fade_bounds|]. split; [|split; [|split]].
  - intros Hl. rewrite Hall, Hl. apply fade_top.
  - intros Hc Hl. rewrite Hall. destruct n as [t v ch]. cbn [nch] in Hc. subst ch. cbn [node_height]. unfold fade.
    destruct (Nat.eqb (0 + (length path - 1)) 0) eqn:E; [apply Nat.eqb_eq in E; lia|]. unfold Rdiv. rewrite Rmult_0_l. lra.
  - exact Hall.
  - rewrite Hall. eauto.
Qed.
(** Opacity does not increase from a primitive to its descendants. *)
Theorem C67_fades_inwards root ds : wf root -> slashfree root -> plot_prims root = Ok ds ->
  forall p q n m, to_draw root p n -> to_draw root (p ++ q) m ->
    forall it it', plot_one n (label_of 99 p) (fade (node_height n) (length p - 1)) = Ok it ->
    plot_one m (label_of 99 (p ++ q)) (fade (node_height m) (length (p ++ q) - 1)) = Ok it' ->
    incl it ds /\ incl it' ds /\ forall d d', In d it -> In d' it' -> opacity_of d' <= opacity_of d.
Proof.
  intros Hw Hs H p q n m Hp Hq it it' Hi Hi'. apply (plot_prims_items root Hs) in H as (itemss & Hall & ->).
  assert (Inc : forall p n it, to_draw root p n -> plot_one n (label_of 99 p) (fade (node_height n) (length p - 1)) = Ok it -> incl it (List.concat itemss)).
  { intros p0 n0' it0 Hd Ho. apply (visible_in root Hw) in Hd. clear -Hall Hd Ho. induction Hall as [|x y l l' Hxy _ IH]; [destruct Hd|]. cbn. destruct Hd as [->|Hd].
    - unfold own in Hxy. cbn [fst snd] in Hxy. assert (y = it0) by congruence. subst. apply incl_appl, incl_refl.
    - apply incl_appr. now apply IH. }
  split; [exact (Inc _ _ _ Hp Hi)|]. split; [exact (Inc _ _ _ Hq Hi')|]. intros d d' Hd Hd'.
  pose proof (plot_one_opacity _ _ _ _ Hi) as A. rewrite Forall_forall in A. rewrite (A d Hd).
  pose proof (plot_one_opacity _ _ _ _ Hi') as A'. rewrite Forall_forall in A'. rewrite (A' d' Hd').
  apply fade_mono; [|rewrite app_length; lia].
  destruct Hp as (_ & Wp & _), Hq as (_ & Wq & _). rewrite walk_app, Wp in Wq. clear -Wq.
  assert (forall q n m, walk q n = Some m -> (node_height (m : prim) <= node_height (n : prim))%nat) as G; [|now apply (G q)].
  clear. induction q as [|k q IH]; intros n m W; [cbn in W; inversion W; lia|]. destruct n as [t v ch]. cbn [walk nch] in W. destruct (dget k ch) as [c|] eqn:E; [|discriminate].
  apply IH in W. apply dget_In in E.
  assert (Hm : (node_height c <= fold_right Nat.max 0 (map (fun kc => node_height (snd kc)) ch))%nat).
  { clear -E. induction ch as [|kc ch IH]; [destruct E|]. cbn. destruct E as [->|E]; [cbn; lia|]. specialize (IH E). lia. }
  cbn [node_height]. destruct ch; [destruct E|]. lia.
Qed.

(** ** C73 *)
(** The drawing is made of the items of each primitive to be drawn, each primitive
    exactly once. *)
Theorem C73_each_primitive_once root ds : wf root -> slashfree root -> plot_prims root = Ok ds ->
  exists nodes itemss, NoDup (map fst nodes) /\ (forall path n, In (path, n) nodes <-> to_draw root path n) /\ ds = List.concat itemss /\
    Forall2 (fun pn items => plot_one (snd pn) (label_of 99 (fst pn)) (fade (node_height (snd pn)) (length (fst pn) - 1)) = Ok items) nodes itemss.
Proof.
  intros Hw Hs H. apply (plot_prims_items root Hs) in H as (itemss & Hi & ->). exists (visible root), itemss.
  split; [now apply visible_nodup|]. split; [now apply visible_in|]. split; [reflexivity|exact Hi].
Qed.
(** What each kind of primitive contributes: a point its coordinates; a line of
    positive length its end points, with the label at the middle along the line; a line
    of length zero nothing; a quadrilateral its four vertices. *)
Theorem C73_point n P label a : point_at n P -> plot_one n label a = Ok [DPoint label a (fst P) (snd P)].
Proof. intros (i & ch & ->). reflexivity. Qed.
Theorem C73_line n P Q label a : line_at n P Q -> P <> Q -> exists theta, rotation_from_line n = Ok theta /\
  plot_one n label a = Ok [DLine label a [fst P; fst Q] [snd P; snd Q] (fst (mid P Q)) (snd (mid P Q)) theta].
Proof.
  intros Hl Hne. destruct (C68_rotation n P Q Hl Hne) as (theta & Et & _). exists theta. split; [exact Et|].
  destruct (rotation_value n P Q Hl Hne) as (_ & Hp & _). pose proof (line_length_value n P Q Hl) as EL.
  unfold plot_one, plot_line. rewrite EL, Et. cbn [bind].
  destruct Hl as (v & pa & pb & -> & (i & ch & ->) & (j & ch' & ->)). cbn [ntype issubclass ptype_eqb].
  assert (En : neqb (len (vec P Q)) (n0 (F:=R)) = false).
  { unfold neqb, n0. cbn [nltb nofZ NumR]. unfold Rltb. destruct (Rlt_dec (len (vec P Q)) 0); [reflexivity|]. destruct (Rlt_dec 0 (len (vec P Q))); [reflexivity|lra]. }
  rewrite En. unfold nvalues, dvals. cbn [map nch snd mapM nval vdata bind].
  unfold nhalf. cbn [ndiv NumR]. unfold Rdiv_r, n1. cbn [nofZ NumR]. destruct (Req_EM_T 2 0) as [H|_]; [lra|]. cbn [bind map fst snd nsum fold_right nadd nmul NumR].
  unfold n0. cbn [nofZ NumR]. unfold mid. cbn [fst snd]. do 3 f_equal; field.
Qed.
Theorem C73_zero_line n P label a : line_at n P P -> plot_one n label a = Ok [].
Proof.
  intros Hl. pose proof (line_length_value n P P Hl) as EL. unfold plot_one, plot_line. rewrite EL. cbn [bind].
  destruct Hl as (v & pa & pb & -> & (i & ch & ->) & (j & ch' & ->)). cbn [ntype issubclass ptype_eqb].
  assert (E0 : len (vec P P) = 0) by (apply len_zero; unfold vec; f_equal; lra). rewrite E0.
  assert (En : neqb 0 (n0 (F:=R)) = true). { unfold neqb, n0. cbn [nltb nofZ NumR]. unfold Rltb. destruct (Rlt_dec 0 0); [lra|reflexivity]. }
  now rewrite En.
Qed.
Theorem C73_quadrilateral n P0 P1 P2 P3 label a : quad_at n P0 P1 P2 P3 ->
  plot_one n label a = Ok [DPolygon label a (1 / 10 * a) [fst P0; snd P0] [[fst P0; snd P0]; [fst P1; snd P1]; [fst P2; snd P2]; [fst P3; snd P3]]].
Proof.
  intros (v & l0 & l1 & l2 & l3 & -> & (w0 & a0 & b0 & -> & (? & ? & ->) & _) & (w1 & a1 & b1 & -> & (? & ? & ->) & _) & (w2 & a2 & b2 & -> & (? & ? & ->) & _) & (w3 & a3 & b3 & -> & (? & ? & ->) & _)).
  unfold plot_one, plot_polygon. cbn [ntype issubclass ptype_eqb].
  assert (E : ndiv (F:=R) n1 (nofZ 10) = Ok (1 / 10)) by (cbn [ndiv nofZ NumR]; unfold Rdiv_r, n1; cbn [nofZ NumR]; destruct (Req_EM_T 10 0); [lra|reflexivity]).
  rewrite E. reflexivity.
Qed.

(** A polygon with any number of vertices. *)
Theorem C73_polygon n Ps label a : polygon_at n Ps ->
  plot_one n label a = Ok [DPolygon label a (1 / 10 * a) (match Ps with P :: _ => [fst P; snd P] | [] => [] end) (map (fun P => [fst P; snd P]) Ps)].
Proof.
  intros (Ht & Hne & Hlen & Hv). unfold plot_one.
  assert (T : issubclass (ntype n) TPoint = false /\ issubclass (ntype n) TLine = false /\ issubclass (ntype n) TPolygon = true)
    by (destruct Ht as [->| ->]; repeat split; reflexivity).
  destruct T as (-> & -> & ->). unfold plot_polygon.
  assert (C : forall i P, nth_error Ps i = Some P -> exists l p, get_child n ("Line" ++ dec i)%string = Ok l /\ get_child l "Point0" = Ok p /\ vdata (nval p) = [fst P; snd P]).
  { intros i P Hi. destruct (Hv i P Hi) as (p & W & (j & ch & ->)). cbn [walk] in W.
    destruct (dget ("Line" ++ dec i)%string (nch n)) as [l|] eqn:El; [|discriminate]. destruct (dget "Point0" (nch l)) as [p0|] eqn:Ep; [|discriminate]. injection W as ->.
    exists l, (Node TPoint {| vid := j; vdata := [fst P; snd P] |} ch). split; [|split; [|reflexivity]]; apply dget_get_child; auto.
    now rewrite noslash_app, noslash_dec. }
  destruct Ps as [|P0 Ps]; [congruence|]. destruct (C 0%nat P0 eq_refl) as (l0 & p0 & E0 & E0' & E0''). change (get_child n "Line0" = Ok l0) in E0. rewrite E0. cbn [bind]. rewrite E0'. cbn [bind].
  assert (M : mapM (fun i => l <- get_child n ("Line" ++ dec i)%string ;; p <- get_child l "Point0" ;; Ok (vdata (nval p))) (seq 0 (nlen n)) = Ok (map (fun P => [fst P; snd P]) (P0 :: Ps))).
  { unfold nlen. rewrite Hlen. clear E0 E0' E0'' l0 p0. revert C. generalize (P0 :: Ps) as Qs. clear. intros Qs C.
    assert (G : forall k, (forall i P, nth_error Qs i = Some P -> exists l p, get_child n ("Line" ++ dec (k + i))%string = Ok l /\ get_child l "Point0" = Ok p /\ vdata (nval p) = [fst P; snd P]) ->
      mapM (fun i => l <- get_child n ("Line" ++ dec i)%string ;; p <- get_child l "Point0" ;; Ok (vdata (nval p))) (seq k (length Qs)) = Ok (map (fun P => [fst P; snd P]) Qs)).
    { clear C. induction Qs as [|P Qs IH]; intros k C; [reflexivity|]. cbn [length seq mapM map].
      destruct (C 0%nat P eq_refl) as (l & p & E1 & E2 & E3). rewrite Nat.add_0_r in E1. rewrite E1. cbn [bind]. rewrite E2. cbn [bind]. rewrite E3, (IH (S k)); [reflexivity|].
      intros i Q Hi. destruct (C (S i) Q Hi) as (l' & p' & H). exists l', p'. now replace (S k + i)%nat with (k + S i)%nat by lia. }
    apply (G 0%nat). exact C. }
  rewrite M. cbn [bind]. assert (E : ndiv (F:=R) n1 (nofZ 10) = Ok (1 / 10)) by (cbn [ndiv nofZ NumR]; unfold Rdiv_r, n1; cbn [nofZ NumR]; destruct (Req_EM_T 10 0); [lra|reflexivity]).
  rewrite E. cbn [bind]. rewrite E0''. reflexivity.
Qed.

Lemma drawable_shown n label a : drawable n -> exists items, plot_one n label a = Ok items /\ shown label a n items.
Proof.
  intros [(P & H)|[(P & Q & H)|[(Ps & H)|H]]].
  - exists [DPoint label a (fst P) (snd P)]. split; [now apply C73_point|now constructor].
  - destruct (Req_EM_T (fst P) (fst Q)) as [E1|N1]; [destruct (Req_EM_T (snd P) (snd Q)) as [E2|N2]|].
    + assert (E : P = Q) by (destruct P, Q; cbn in *; congruence). subst Q. exists []. split; [now apply (C73_zero_line n P)|now apply (shown_zero_line _ _ n P)].
    + assert (Ne : P <> Q) by (intros E; subst Q; auto). destruct (C68_rotation n P Q H Ne) as (t & Et & B & D1 & D2). destruct (C73_line n P Q label a H Ne) as (t' & Et' & E).
      assert (t' = t) as -> by congruence. eexists. split; [exact E|]. apply shown_line; auto. repeat split; try apply B; [apply D1; auto|apply D1; auto|apply D2; auto|apply D2; auto].
    + assert (Ne : P <> Q) by (intros E; subst Q; auto). destruct (C68_rotation n P Q H Ne) as (t & Et & B & D1 & D2). destruct (C73_line n P Q label a H Ne) as (t' & Et' & E).
      assert (t' = t) as -> by congruence. eexists. split; [exact E|]. apply shown_line; auto. repeat split; try apply B; [apply D1; auto|apply D1; auto|apply D2; auto|apply D2; auto].
  - eexists. split; [exact (C73_polygon n Ps label a H)|exact (shown_polygon label a n Ps H)].
  - exists []. split; [|now constructor]. unfold plot_one. destruct H as [->|[->| ->]]; reflexivity.
Qed.

Lemma subseq_app {A} (a b c d : list A) : subseq a b -> subseq c d -> subseq (a ++ c) (b ++ d).
Proof. intros H. induction H; intros Hc; cbn; [exact Hc| |]; constructor; auto. Qed.
Lemma subseq_none {A} (l : list A) : subseq [] l.
Proof. induction l; constructor; auto. Qed.
Lemma subseq_map {A B} (f : A -> B) a b : subseq a b -> subseq (map f a) (map f b).
Proof. intros H. induction H; cbn; constructor; auto. Qed.
Lemma vis_order n : subseq (map fst (vis n)) (paths n).
Proof.
  induction n as [t v ch IH] using node_ind'. cbn [vis paths map fst]. constructor. destruct (ptype_eqb t TLine); [apply subseq_none|].
  induction IH as [|[k c] ch Hc _ IHch]; [constructor|]. cbn [flat_map fst snd]. rewrite map_app. apply subseq_app; [|exact IHch].
  rewrite map_map. cbn [fst]. cbn [snd] in Hc. rewrite <- (map_map fst (List.cons k)). now apply subseq_map.
Qed.
Lemma visible_order root : subseq (map fst (visible root)) (paths root).
Proof.
  destruct root as [t v ch]. unfold visible. cbn [nch paths]. constructor. induction ch as [|[k c] ch IH]; [constructor|].
  cbn [flat_map fst snd]. rewrite map_app. apply subseq_app; [|exact IH]. unfold under_key. rewrite map_map. cbn [fst].
  rewrite <- (map_map fst (List.cons k)). apply subseq_map, vis_order.
Qed.
(** Altogether: a tree of such primitives can be drawn; the drawing consists of what is
    shown of each primitive to be drawn, in depth-first order (parents before children,
    children in order), each with the label and opacity of its place. *)
Theorem C73_drawing root : wf root -> slashfree root -> (forall path n, to_draw root path n -> drawable n) ->
  exists nodes itemss, plot_prims root = Ok (List.concat itemss) /\
    (forall path n, In (path, n) nodes <-> to_draw root path n) /\ subseq (map fst nodes) (paths root) /\
    Forall2 (fun pn items => shown (label_of 99 (fst pn)) (fade (node_height (snd pn)) (length (fst pn) - 1)) (snd pn) items) nodes itemss.
Proof.
  intros Hw Hs Hd. exists (visible root).
  assert (G : forall nodes, (forall path n, In (path, n) nodes -> drawable n) -> exists itemss, Forall2 (own 99) nodes itemss /\
    Forall2 (fun pn items => shown (label_of 99 (fst pn)) (fade (node_height (snd pn)) (length (fst pn) - 1)) (snd pn) items) nodes itemss).
  { induction nodes as [|[p n] nodes IH]; intros Hn; [exists []; split; constructor|].
    destruct IH as (its & H1 & H2); [intros q m Hq; apply (Hn q); now right|].
    destruct (drawable_shown n (label_of 99 p) (fade (node_height n) (length p - 1)) (Hn p n (or_introl eq_refl))) as (it & E & S).
    exists (it :: its). split; constructor; auto. }
  destruct (G (visible root)) as (itemss & H1 & H2); [intros p n Hin; apply (Hd p), visible_in; auto|].
  exists itemss. split; [apply (plot_prims_items root Hs); eauto|]. split; [now apply visible_in|]. split; [apply visible_order|exact H2].
Qed.

(** ** Cases *)
Definition drawing : prim := Node TPrimNode {| vid := 0; vdata := [] |} [("Box", gbox 0 0 3 2); ("P", gpt 9 4 5)].
Example C67_case : wf drawing /\ slashfree drawing /\ to_draw drawing ["Box"; "Line0"] (gline 0 0 3 0) /\ to_draw drawing ["P"] (gpt 9 4 5) /\
  (exists ds, plot_prims drawing = Ok ds /\ In (DPoint (Some "/P") 1 4 5) ds).
Proof.
  assert (Hw : wf drawing) by (repeat (constructor; cbn; try tauto; try (intuition discriminate))).
  assert (Hs : slashfree drawing) by (repeat (constructor; cbn; try reflexivity)).
  split; [exact Hw|]. split; [exact Hs|]. split; [|split].
  - split; [discriminate|]. split; [reflexivity|]. intros q r c E Hq Hr W. destruct q as [|a [|b [|]]]; try congruence.
    + cbn in E. inversion E; subst. cbn in W. inversion W. discriminate.
    + cbn in E. inversion E; subst. congruence.
    + discriminate.
  - split; [discriminate|]. split; [reflexivity|]. intros q r c E Hq Hr W. destruct q as [|a [|]]; try congruence; cbn in E; inversion E; subst; congruence.
  - assert (N : forall a b c d : R, (a, b) <> (c, d) -> exists th, rotation_from_line (gline a b c d) = Ok th /\
      forall lb al, plot_one (gline a b c d) lb al = Ok [DLine lb al [a; c] [b; d] (fst (mid (a, b) (c, d))) (snd (mid (a, b) (c, d))) th]).
    { intros a b c d H. destruct (C68_rotation _ _ _ (gline_at a b c d) H) as (th & E & _). exists th. split; [exact E|]. intros lb al.
      destruct (C73_line _ _ _ lb al (gline_at a b c d) H) as (th' & E' & X). assert (th' = th) by congruence. subst. exact X. }
    assert (L : exists itemss, Forall2 (own 99) (visible drawing) itemss /\ In (DPoint (Some "/P") 1 4 5) (List.concat itemss)).
    { destruct (N 0 0 3 0) as (t0 & _ & E0); [intros E; inversion E; lra|]. destruct (N 3 0 3 2) as (t1 & _ & E1); [intros E; inversion E; lra|].
      destruct (N 3 2 0 2) as (t2 & _ & E2); [intros E; inversion E; lra|]. destruct (N 0 2 0 0) as (t3 & _ & E3); [intros E; inversion E; lra|].
      eexists. split.
      - assert (EV : visible drawing = [(["Box"], gbox 0 0 3 2); (["Box"; "Line0"], gline 0 0 3 0); (["Box"; "Line1"], gline 3 0 3 2);
            (["Box"; "Line2"], gline 3 2 0 2); (["Box"; "Line3"], gline 0 2 0 0); (["P"], gpt 9 4 5)]) by reflexivity.
        rewrite EV. clear EV. unfold own.
        constructor; [cbn [fst snd]; apply (C73_quadrilateral (gbox 0 0 3 2) (0, 0) (3, 0) (3, 2) (0, 2)), gquad_at|].
        constructor; [apply E0|]. constructor; [apply E1|]. constructor; [apply E2|]. constructor; [apply E3|].
        constructor; [apply (C73_point _ (4, 5)); eexists _, _; reflexivity|]. constructor.
      - cbn [List.concat app fst snd]. do 5 right. left. reflexivity. }
    destruct L as (itemss & HL & Hin). exists (List.concat itemss). split; [apply (plot_prims_items drawing Hs); eauto|exact Hin].
Qed.
Example C73_case : wf drawing /\ slashfree drawing /\ (forall path n, to_draw drawing path n -> drawable n) /\
  polygon_at (gbox 0 0 3 2) [(0, 0); (3, 0); (3, 2); (0, 2)].
Proof.
  destruct C67_case as (Hw & Hs & _). split; [exact Hw|]. split; [exact Hs|].
  assert (Q : polygon_at (gbox 0 0 3 2) [(0, 0); (3, 0); (3, 2); (0, 2)]).
  { split; [now right|]. split; [discriminate|]. split; [reflexivity|].
    intros [|[|[|[|i]]]] P E; cbn in E; try (destruct i; discriminate); injection E as <-; eexists; (split; [reflexivity|eexists _, _; reflexivity]). }
  split; [|exact Q]. intros path n H. apply (visible_in drawing Hw) in H.
  assert (EV : visible drawing = [(["Box"], gbox 0 0 3 2); (["Box"; "Line0"], gline 0 0 3 0); (["Box"; "Line1"], gline 3 0 3 2);
            (["Box"; "Line2"], gline 3 2 0 2); (["Box"; "Line3"], gline 0 2 0 0); (["P"], gpt 9 4 5)]) by reflexivity.
  rewrite EV in H. unfold drawable.
  destruct H as [H|[H|[H|[H|[H|[H|[]]]]]]]; apply pair_equal_spec in H as [_ <-];
    [right; right; left; eauto| | | | |left; exists (4, 5); eexists _, _; reflexivity]; right; left; eexists _, _; apply gline_at.
Qed.
Example C68_case : exists theta, rotation_from_line (gline 0 1 (-3) 5) = Ok theta /\ direction theta (-3 - 0, 5 - 1).
Proof.
  assert (H : (0, 1) <> (-3, 5)) by (intros E; inversion E; lra).
  destruct (C68_rotation _ _ _ (gline_at 0 1 (-3) 5) H) as (th & E & _ & D & _). exists th. split; [exact E|]. apply D. left. cbn. lra.
Qed.

Print Assumptions C67_opacity.
Print Assumptions C67_fades_inwards.
Print Assumptions C68_rotation_refuted.
Print Assumptions C68_rotation.
Print Assumptions C73_each_primitive_once.
Print Assumptions C73_point.
Print Assumptions C73_line.
Print Assumptions C73_zero_line.
Print Assumptions C73_quadrilateral.
Print Assumptions C73_polygon.
Print Assumptions C73_drawing.
