(** Shipped constraints in another unit of length. *)
From Coq Require Import Reals Lra.
From Verif Require Export UnitSpec ScaleComp.
Local Open Scope R_scope.

Section Unit.
  Notation prim := (prim R).
  Notation pyval := (pyval R).
  Notation cons := (cons R).
  Notation cls := (cls R).
  Variable k : R.
  Hypothesis Hk : 0 < k.
  Notation pos := (fun d : R => 0 < d).
  Notation scaling := (scaling k pos).
  Notation scalings := (scalings k pos).
  Notation node_rel := (node_rel k pos).
  Lemma Hkk : 0 < k * k.
  Proof. now apply Rmult_lt_0_compat. Qed.
  Lemma H1 : 0 < 1.
  Proof. lra. Qed.

  Lemma scalings_zip keys cs : forall cps cps', (length cs <= length cps)%nat -> (length cs <= length cps')%nat ->
    (forall i c p p', nth_error cs i = Some c -> nth_error cps i = Some p -> nth_error cps' i = Some p' -> scaling c p p') -> scalings (zip keys cs) cps cps'.
  Proof.
    revert cs. induction keys as [|s keys IH]; intros [|c cs] cps cps' L L' H; try (cbn; constructor). destruct cps as [|p cps], cps' as [|p' cps']; cbn in L, L'; try lia. cbn [zip]. constructor.
    - apply (H 0%nat); reflexivity.
    - apply IH; [lia|lia|]. intros i. apply (H (S i)).
  Qed.
  Lemma as_target v v' : as_length k v v' -> target k v v'.
  Proof. intros (_ & _ & x & H & H'). left. eauto. Qed.
  Lemma ratio_target v : ratio v -> target 1 v v.
  Proof. intros [x H]. left. exists x. split; [exact H|]. rewrite H. f_equal. lra. Qed.

  Ltac leafk f := first [eapply (leaf_scaling k k); [exact Hk|reflexivity|exact f] | eapply (leaf_scaling k (k * k)); [exact Hkk|reflexivity|exact f]].
  Lemma s_coincident : scaling Coincident [] [].
  Proof. eapply (leaf_scaling k k); [exact Hk|reflexivity|]. exact (hom_coincident k). Qed.
  Lemma s_vertical : scaling Vertical [] [].
  Proof. eapply (leaf_scaling k k); [exact Hk|reflexivity|]. apply (hom_xl k). Qed.
  Lemma s_horizontal : scaling Horizontal [] [].
  Proof. eapply (leaf_scaling k k); [exact Hk|reflexivity|]. apply (hom_xl k). Qed.
  Lemma s_orthogonal : scaling Orthogonal [] [].
  Proof. eapply (leaf_scaling k (k * k)); [exact Hkk|reflexivity|]. exact (hom_orthogonal k). Qed.
  Lemma s_parallel : scaling Parallel [] [].
  Proof. eapply (leaf_scaling k (k * k)); [exact Hkk|reflexivity|]. exact (hom_parallel k). Qed.
  Lemma s_collinear : scaling Collinear [] [].
  Proof. eapply (leaf_scaling k (k * k)); [exact Hkk|reflexivity|]. exact (hom_collinear k). Qed.
  Lemma s_lines ps : scaling CoincidentLines ps ps.
  Proof. eapply (leaf_scaling k k); [exact Hk|reflexivity|]. exact (hom_cl k ps). Qed.

  Ltac node := eapply scaling_node; [reflexivity|reflexivity|reflexivity|apply compound_rel; reflexivity|].
  Ltac kids := repeat first [apply scalings_nil | apply scalings_cons; [first [apply s_vertical | apply s_horizontal | apply s_collinear | apply s_lines]|]].
  Lemma s_box : exists c, Box = Ok c /\ scaling c [] [].
  Proof. eexists. split; [reflexivity|]. node. kids. Qed.
  Lemma s_row : exists c, AlignRow = Ok c /\ csig (nval c) = msig [TQuad; TQuad] 0 0 /\ scaling c [] [].
  Proof. eexists. split; [reflexivity|]. split; [reflexivity|]. node. kids. Qed.
  Lemma s_column : exists c, AlignColumn = Ok c /\ csig (nval c) = msig [TQuad; TQuad] 0 0 /\ scaling c [] [].
  Proof. eexists. split; [reflexivity|]. split; [reflexivity|]. node. kids. Qed.
  Lemma s_faces side : In side ["left"; "right"; "bottom"; "top"]%string -> exists c, CoincidentOutwardFaces side = Ok c /\ scaling c [] [].
  Proof. intros [<-|[<-|[<-|[<-|[]]]]]; (eexists; split; [reflexivity|]; node; kids). Qed.
  Lemma s_position name axis side twin : In side ["left"; "right"; "bottom"; "top"]%string -> exists c, PositionAxis name axis side twin = Ok c /\ scaling c [] [].
  Proof.
    intros Hs. destruct (s_faces side Hs) as (f & Ef & Sf).
    assert (O : exists side', opposite_side side = Ok side' /\ In side' ["left"; "right"; "bottom"; "top"]%string) by (destruct Hs as [<-|[<-|[<-|[<-|[]]]]]; eexists; (split; [reflexivity|cbn; tauto])).
    destruct O as (side' & Eo & Hs'). destruct (s_faces side' Hs') as (g & Eg & Sg). unfold PositionAxis. rewrite Ef. cbn [bind]. destruct twin.
    - rewrite Eo. cbn [bind]. rewrite Eg. cbn [bind]. rewrite construction_ok; [|repeat constructor; cbn; intuition discriminate|cbn; intuition discriminate|cbn; lia|reflexivity].
      eexists. split; [reflexivity|]. node. cbn [zip]. constructor; [exact Sf|]. constructor; [exact Sg|constructor].
    - cbn [bind]. rewrite construction_ok; [|repeat constructor; cbn; intuition discriminate|cbn; intuition discriminate|cbn; lia|reflexivity].
      eexists. split; [reflexivity|]. node. cbn [zip]. constructor; [exact Sf|constructor].
  Qed.
  Lemma unitless_scaling : Forall (fun rc => exists c, rc = Ok c /\ scaling c [] []) unitless.
  Proof.
    assert (G : forall c, scaling c [] [] -> exists c', Ok c = Ok c' /\ scaling c' [] []) by (intros c H; exists c; auto).
    assert (G2 : forall rc : result cons, (exists c, rc = Ok c /\ csig (nval c) = msig [TQuad; TQuad] 0 0 /\ scaling c [] []) -> exists c', rc = Ok c' /\ scaling c' [] []) by (intros rc (c & H & _ & H'); exists c; auto).
    unfold unitless. repeat apply Forall_cons; try apply Forall_nil.
    all: first [apply G; first [exact s_coincident | exact s_vertical | exact s_horizontal | exact s_orthogonal | exact s_parallel | exact s_collinear] | exact s_box | apply G2; first [exact s_row | exact s_column] | apply s_faces; cbn; tauto | unfold PositionXAxis, PositionYAxis; apply s_position; cbn; tauto].
  Qed.

  Lemma s_label name axis twin v : ratio v -> In axis ["x"; "y"]%string -> exists c, PositionAxisLabel name axis twin = Ok c /\ scaling c [v] [v].
  Proof.
    intros Hv Ha. unfold PositionAxisLabel, crRelativePointOnLineDistance, RelativePointOnLineDistance. rewrite cr_leaf_ok. cbn [bind].
    assert (P : exists pks, (if String.eqb axis "x" then Ok [[("arg0/" ++ (if twin then "Twin" else "") ++ "XAxisLabel")%string; "arg0/Frame/Line0"%string]]
            else if String.eqb axis "y" then Ok [[("arg0/" ++ (if twin then "Twin" else "") ++ "YAxisLabel")%string; "arg0/Frame/Line1"%string]] else Err ValueErr) = Ok [pks]) by (destruct Ha as [<-|[<-|[]]]; eexists; reflexivity).
    destruct P as [pks ->]. cbn [bind]. rewrite construction_ok; [|repeat constructor; cbn; intuition discriminate|cbn; intuition discriminate|cbn; lia|reflexivity].
    eexists. split; [reflexivity|]. node. cbn [zip]. constructor; [|constructor].
    apply (cr_leaf_scaling k 1 _ _ _ [PBool false] [PBool false] v v H1); [reflexivity|reflexivity| |now apply ratio_target]. apply (hom_rel k Hk [PBool false]).
  Qed.
  Lemma ratios_scaling v : ratio v -> Forall (fun rc => exists c, rc = Ok c /\ scaling c [v] [v]) ratios.
  Proof.
    intros Hv. unfold ratios. repeat apply Forall_cons; try apply Forall_nil.
    - destruct Hv as [x Hx]. destruct (relative_scaling k Hk v x Hx) as (c & E & _ & S). eauto.
    - eexists. split; [apply cr_leaf_ok|]. apply (cr_leaf_scaling k 1 _ _ _ [] [] v v H1); [reflexivity|reflexivity|exact (hom_angle k Hk)|now apply ratio_target].
    - eexists. split; [apply cr_leaf_ok|]. apply (cr_leaf_scaling k 1 _ _ _ [] [] v v H1); [reflexivity|reflexivity|exact (hom_aspect k Hk)|now apply ratio_target].
    - apply s_label; [exact Hv|cbn; tauto].
    - apply s_label; [exact Hv|cbn; tauto].
    - apply s_label; [exact Hv|cbn; tauto].
    - apply s_label; [exact Hv|cbn; tauto].
  Qed.
  Lemma s_ylength v v' : target k v v' -> exists c, crYLength = Ok c /\ scaling c [v] [v'].
  Proof. intros Hv. eexists. split; [apply cr_leaf_ok|]. apply (cr_leaf_scaling k k _ _ _ [] [] v v' Hk); [reflexivity|reflexivity|apply (hom_xl k)|exact Hv]. Qed.
  Lemma s_xlength v v' : target k v v' -> exists c, crXLength = Ok c /\ scaling c [v] [v'].
  Proof. intros Hv. eexists. split; [apply cr_leaf_ok|]. apply (cr_leaf_scaling k k _ _ _ [] [] v v' Hk); [reflexivity|reflexivity|apply (hom_xl k)|exact Hv]. Qed.
  Lemma s_single (rc : result cons) name ts key nm s f pks v v' : key <> EmptyString -> rc = Ok (single name ts key nm s f pks) -> nparams s = 0%nat -> value_size s = 1%nat -> hom k k f [] [] -> as_length k v v' ->
    exists c, (c <- rc ;; transform_constraint c) = Ok c /\ scaling c [v] [v'].
  Proof.
    intros Hn -> Ns Vs H (N & N' & x & E & E'). cbn [bind]. exists (cr_single name ts key nm s f pks). split; [now apply cr_single_ok|]. now apply (cr_single_scaling k Hk) with x.
  Qed.
  Lemma s_outer side v v' : In side ["left"; "right"; "bottom"; "top"]%string -> as_length k v v' -> exists c, crOuterMargin side = Ok c /\ scaling c [v] [v'].
  Proof.
    intros [<-|[<-|[<-|[<-|[]]]]] Hv; unfold crOuterMargin; (eapply s_single; [| reflexivity | reflexivity | reflexivity | apply (hom_md k) | exact Hv]; discriminate).
  Qed.
  Lemma s_inner side v v' : In side ["left"; "right"; "bottom"; "top"]%string -> as_length k v v' -> exists c, crInnerMargin side = Ok c /\ scaling c [v] [v'].
  Proof.
    intros [<-|[<-|[<-|[<-|[]]]]] Hv; unfold crInnerMargin; (eapply s_single; [| reflexivity | reflexivity | reflexivity | apply (hom_md k) | exact Hv]; discriminate).
  Qed.
  Lemma lengths_scaling v v' : as_length k v v' -> Forall (fun rc => exists c, rc = Ok c /\ scaling c [v] [v']) lengths.
  Proof.
    intros Hv. pose proof (as_target _ _ Hv) as T. unfold lengths. apply Forall_app. split; [|apply Forall_app; split; [|unfold margins; apply Forall_app; split]].
    - repeat apply Forall_cons; try apply Forall_nil.
      all: eexists; split; [apply cr_leaf_ok|]; apply (cr_leaf_scaling k k _ _ _ [] [] v v' Hk); [reflexivity|reflexivity| |exact T].
      + apply (hom_xy k).
      + apply (hom_xy k).
      + apply (hom_length k Hk).
      + apply (hom_xl k).
      + apply (hom_xl k).
      + apply (hom_md k).
      + apply (hom_md k).
    - repeat apply Forall_cons; try apply Forall_nil; [unfold crWidth|unfold crHeight]; (eapply s_single; [| reflexivity | reflexivity | reflexivity | apply (hom_xl k) | exact Hv]; discriminate).
    - apply Forall_map, Forall_forall. intros side Hs. now apply s_outer.
    - apply Forall_map, Forall_forall. intros side Hs. now apply s_inner.
  Qed.
  Lemma thickness_scaling t t' v v' : thickness_params [t] = Ok [[v]] -> thickness_params [t'] = Ok [[v']] -> target k v v' ->
    Forall (fun rc => exists c, rc = Ok c /\ scaling c [t] [t']) [XAxisThickness; YAxisThickness].
  Proof.
    intros E E' T. destruct (s_ylength v v' T) as (y & Ey & Sy). destruct (s_xlength v v' T) as (x & Ex & Sx). repeat apply Forall_cons; try apply Forall_nil.
    - unfold XAxisThickness, AxisThickness. cbn [String.eqb Ascii.eqb Bool.eqb]. rewrite Ey. cbn [bind]. rewrite construction_ok; [|repeat constructor; cbn; intuition discriminate|cbn; intuition discriminate|cbn; lia|reflexivity].
      eexists. split; [reflexivity|]. eapply scaling_node; [reflexivity|exact E|exact E'|apply (compound_rel k "XAxisThickness" 1); reflexivity|]. cbn [zip]. constructor; [exact Sy|constructor].
    - unfold YAxisThickness, AxisThickness. cbn [String.eqb Ascii.eqb Bool.eqb]. rewrite Ex. cbn [bind]. rewrite construction_ok; [|repeat constructor; cbn; intuition discriminate|cbn; intuition discriminate|cbn; lia|reflexivity].
      eexists. split; [reflexivity|]. eapply scaling_node; [reflexivity|exact E|exact E'|apply (compound_rel k "YAxisThickness" 1); reflexivity|]. cbn [zip]. constructor; [exact Sx|constructor].
  Qed.
  Lemma axis_thickness_scale a d : snd (get_axis_thickness a) = Ok d -> exists d', snd (get_axis_thickness (scale_axis k a)) = Ok d' /\ target k d d'.
  Proof.
    unfold get_axis_thickness. cbn [scale_axis tightbbox label_visible fig_size_h fig_size_w axes_bbox ticks_position]. destruct (tightbbox a false) as [bb|].
    - repeat (destruct (String.eqb _ _); [intros H; injection H as <-; eexists; split; [reflexivity|]; left; eexists; split; [reflexivity|]; cbn; f_equal; ring|]). discriminate.
    - intros H. injection H as <-. eexists. split; [reflexivity|]. left. exists 0. split; [reflexivity|]. cbn. f_equal. ring.
  Qed.

  (** ** Arrays and grids *)
  Lemma array_scaling n side : In side ["left"; "right"; "bottom"; "top"]%string ->
    exists c, OuterMarginArray n side = Ok c /\ forall ps ps', length ps = (n - 1)%nat -> Forall2 (as_length k) ps ps' -> scaling c ps ps'.
  Proof.
    intros Hs. assert (M : exists m, crOuterMargin side = Ok m /\ forall v v', as_length k v v' -> scaling m [v] [v']).
    { assert (Z : as_length k (PInt 0) (PInt 0)) by (split; [reflexivity|]; split; [reflexivity|]; exists 0; split; [reflexivity|]; cbn; f_equal; ring).
      destruct (s_outer side _ _ Hs Z) as (m & Em & _). exists m. split; [exact Em|]. intros v v' Hv. destruct (s_outer side v v' Hs Hv) as (m' & Em' & S). rewrite Em in Em'. injection Em' as <-. exact S. }
    destruct M as (m & Em & Hm).
    assert (Ecs : mapM (fun _ : nat => crOuterMargin side) (seq 0 (n - 1)) = Ok (map (fun _ => m) (seq 0 (n - 1)))) by (rewrite <- mapM_Ok_map; apply mapM_ext; intros; assumption).
    unfold OuterMarginArray. rewrite Ecs. cbn [bind]. rewrite construction_ok.
    - eexists. split; [reflexivity|]. intros ps ps' L F. pose proof (Forall2_len _ _ _ F) as L'. eapply scaling_node; [exact L'|reflexivity|reflexivity|apply empty_rel|].
      apply scalings_zip; [rewrite !map_length, seq_length; lia|rewrite !map_length, seq_length; lia|]. intros i c p p' E1 E2 E3. rewrite nth_error_map in E1, E2, E3.
      destruct (nth_error (seq 0 (n - 1)) i); [|discriminate]. cbn in E1. injection E1 as <-. destruct (nth_error ps i) as [v|] eqn:Ev; [|discriminate]. destruct (nth_error ps' i) as [v'|] eqn:Ev'; [|discriminate]. cbn in E2, E3. injection E2 as <-; injection E3 as <-. apply Hm.
      clear - F Ev Ev'. revert i Ev Ev'. induction F as [|x y l l' H F IH]; intros [|i] E E'; cbn in E, E'; try discriminate; [congruence|eauto].
    - apply numbered_NoDup.
    - rewrite in_map_iff. intros (i & E & _). discriminate.
    - rewrite !map_length, !seq_length. lia.
    - rewrite !map_length, !seq_length. lia.
  Qed.
  Lemma mapped_scaling (c : cons) t np n : csig (nval c) = msig [t; t] (value_size (csig (nval c))) np -> (1 <= n)%nat -> forall ps, length ps = ((n - 1) * np)%nat ->
    (forall g, length g = np -> (forall v, In v g -> In v ps) -> scaling c g g) -> scaling (mapped c n) ps ps.
  Proof.
    intros Hs Hn ps Hp Hc. assert (Hnum : map_num c n = (n - 1)%nat) by (unfold map_num; rewrite Hs; cbn; lia).
    unfold mapped. rewrite Hnum. eapply scaling_node; [reflexivity|reflexivity|reflexivity|apply empty_rel|].
    generalize (fun i Hi => proj2 (proj1 (in_seq (n - 1) 0 i) Hi)). cbn [Nat.add]. generalize (seq 0 (n - 1)) as is. intros is Hi. induction is as [|i is IH]; [constructor|]. cbn [map]. constructor; [|apply IH; intros j Hj; apply Hi; now right].
    specialize (Hi i (or_introl eq_refl)). apply Hc.
    - unfold slice. rewrite firstn_length, skipn_length, Hp, Hs. cbn [msig nparams]. assert ((i + 1) * np <= (n - 1) * np)%nat by (apply Nat.mul_le_mono_r; lia). lia.
    - intros v Hv. unfold slice in Hv. assert (F : forall m (l : list pyval), In v (firstn m l) -> In v l) by (intros m l H; rewrite <- (firstn_skipn m l); apply in_or_app; now left). apply F in Hv. rewrite <- (firstn_skipn (i * nparams (csig (nval c))) ps). apply in_or_app. now right.
  Qed.
  Lemma rectilinear_scaling r c : (1 <= r)%nat -> (1 <= c)%nat -> exists g, RectilinearGrid r c = Ok g /\ scaling g [] [].
  Proof.
    intros Hr Hc. destruct s_row as (row & Er & Sr & Rr). destruct s_column as (col & Ec & Sc & Rc). unfold RectilinearGrid. rewrite Er, Ec. cbn [bind].
    rewrite !transform_map_ok, !repeat_length. cbn [bind]. rewrite construction_ok.
    2: apply align_NoDup.
    2: { rewrite in_app_iff, !in_map_iff. intros [(i & E & _)|(i & E & _)]; discriminate. }
    2: { rewrite !app_length, !repeat_length, !map_length, !seq_length. lia. }
    2: { rewrite !app_length, !repeat_length, !map_length, !seq_length. lia. }
    assert (Mr : scaling (mapped row c) [] []) by (apply (mapped_scaling row TQuad 0); [now rewrite Sr|exact Hc|cbn; lia|]; intros [|] Hg _; [exact Rr|discriminate]).
    assert (Mc : scaling (mapped col r) [] []) by (apply (mapped_scaling col TQuad 0); [now rewrite Sc|exact Hr|cbn; lia|]; intros [|] Hg _; [exact Rc|discriminate]).
    eexists. split; [reflexivity|]. eapply scaling_node; [reflexivity|reflexivity|reflexivity|apply compound_rel; reflexivity|].
    apply scalings_zip; [rewrite app_length, !repeat_length; nia|rewrite app_length, !repeat_length; nia|].
    intros i x p p' E1 E2 E3. apply nth_error_In, repeat_spec in E2; subst p. apply nth_error_In, repeat_spec in E3; subst p'. apply nth_error_In, in_app_or in E1 as [E1|E1]; apply repeat_spec in E1; subst x; assumption.
  Qed.
  Lemma grid_scaling r c vcw vrh vcm vrm vcm' vrm' cw rh cm rm : (1 <= r)%nat -> (1 <= c)%nat ->
    floats vcw cw -> floats vrh rh -> floats vcm cm -> floats vrm rm -> floats vcm' (map (Rmult k) cm) -> floats vrm' (map (Rmult k) rm) ->
    length cw = (c - 1)%nat -> length rh = (r - 1)%nat -> length cm = (c - 1)%nat -> length rm = (r - 1)%nat ->
    exists g, Grid r c = Ok g /\ scaling g [vcw; vrh; vcm; vrm] [vcw; vrh; vcm'; vrm'].
  Proof.
    intros Hr Hc F1 F2 F3 F4 F5 F6 L1 L2 L3 L4. destruct (rectilinear_scaling r c Hr Hc) as (rg & Eg & Rg).
    assert (El : exists rl, RelativeLength = Ok rl /\ csig (nval rl) = msig [TLine; TLine] 1 1 /\ forall x, scaling rl [PFlt x] [PFlt x]).
    { destruct (relative_scaling k Hk (PFlt 0) 0 eq_refl) as (rl & El & Sl & _). exists rl. split; [exact El|]. split; [exact Sl|]. intros x. destruct (relative_scaling k Hk (PFlt x) x eq_refl) as (rl' & El' & _ & S). rewrite El in El'. injection El' as <-. exact S. }
    destruct El as (rl & El & Sl & Rl).
    destruct (array_scaling c "right" ltac:(cbn; tauto)) as (mc & Emc & Rmc). destruct (array_scaling r "bottom" ltac:(cbn; tauto)) as (mr & Emr & Rmr).
    unfold Grid. rewrite Eg. cbn [bind]. rewrite El. cbn [bind]. rewrite !transform_map_ok, !repeat_length. cbn [bind]. rewrite Emc. cbn [bind]. rewrite Emr. cbn [bind].
    rewrite construction_ok; [|repeat constructor; cbn; intuition discriminate|cbn; intuition discriminate|cbn; lia|reflexivity].
    eexists. split; [reflexivity|].
    assert (T : forall v l, floats v l -> py_tuple v = Ok (map PFlt l)) by (intros v l [-> | ->]; reflexivity).
    eapply scaling_node; [reflexivity|cbn [cparams grid_params]; rewrite (T _ _ F1), (T _ _ F2), (T _ _ F3), (T _ _ F4); reflexivity|cbn [cparams grid_params]; rewrite (T _ _ F1), (T _ _ F2), (T _ _ F5), (T _ _ F6); reflexivity|apply compound_rel; reflexivity|].
    assert (G : forall g l, length g = 1%nat -> (forall v, In v g -> In v (map PFlt l)) -> scaling rl g g).
    { intros g l Lg Hg; destruct g as [|v [|]]; try discriminate. specialize (Hg v (or_introl eq_refl)). apply in_map_iff in Hg as (x & <- & _). apply Rl. }
    assert (A : forall l, Forall2 (as_length k) (map PFlt l) (map PFlt (map (Rmult k) l))).
    { induction l; constructor; [|assumption]. split; [reflexivity|]. split; [reflexivity|]. eexists. split; reflexivity. }
    cbn [zip]. constructor; [exact Rg|]. constructor; [|constructor; [|constructor; [|constructor; [|constructor]]]].
    - apply (mapped_scaling rl TLine 1); [now rewrite Sl|exact Hc|rewrite map_length; lia|]. intros g Lg Hg. now apply (G g cw).
    - apply (mapped_scaling rl TLine 1); [now rewrite Sl|exact Hr|rewrite map_length; lia|]. intros g Lg Hg. now apply (G g rh).
    - apply Rmc; [rewrite map_length; lia|apply A].
    - apply Rmr; [rewrite map_length; lia|apply A].
  Qed.

  Lemma from_list (l : list (result cons)) c ps ps' : Forall (fun rc => exists c, rc = Ok c /\ scaling c ps ps') l -> In (Ok c) l -> scaling c ps ps'.
  Proof. intros H Hin. rewrite Forall_forall in H. destruct (H _ Hin) as (c' & E & S). injection E as <-. exact S. Qed.
  Lemma from_one (rc : result cons) c ps ps' : rc = Ok c -> (exists c', rc = Ok c' /\ scaling c' ps ps') -> scaling c ps ps'.
  Proof. intros -> (c' & E & S). injection E as <-. exact S. Qed.
  Lemma two_scaling l v v' : as_length k v v' -> Forall (fun rc => exists c, rc = Ok c /\ scaling c [PA1 l; v] [PA1 l; v']) [crDirectedDistance; crDirectedLength].
  Proof.
    intros Hv. apply as_target in Hv. apply Forall_cons; [|apply Forall_cons; [|apply Forall_nil]]; (eexists; split; [apply cr_leaf_ok|]; apply (cr_leaf_scaling k k _ _ _ [PA1 l] [PA1 l] v v' Hk); [reflexivity|reflexivity| |exact Hv]).
    - apply (hom_dd k).
    - apply (hom_dl k).
  Qed.
  Lemma line_scaling r v v' : as_length k v v' -> Forall (fun rc => exists c, rc = Ok c /\ scaling c [r; v] [r; v']) [crPointOnLineDistance; crPointToLineDistance].
  Proof.
    intros Hv. apply as_target in Hv. apply Forall_cons; [|apply Forall_cons; [|apply Forall_nil]]; (eexists; split; [apply cr_leaf_ok|]; apply (cr_leaf_scaling k k _ _ _ [r] [r] v v' Hk); [reflexivity|reflexivity| |exact Hv]).
    - apply (hom_onl k Hk).
    - apply (hom_tol k Hk).
  Qed.
  Lemma rel_scaling r v : ratio v -> exists c, crRelativePointOnLineDistance = Ok c /\ scaling c [r; v] [r; v].
  Proof. intros Hv. eexists. split; [apply cr_leaf_ok|]. apply (cr_leaf_scaling k 1 _ _ _ [r] [r] v v H1); [reflexivity|reflexivity| |now apply ratio_target]. apply (hom_rel k Hk [r]). Qed.
  Lemma fix_scaling l : exists c, crFix = Ok c /\ scaling c [PA1 l] [PA1 (map (Rmult k) l)].
  Proof. eexists. split; [apply cr_leaf_ok|]. apply (cr_leaf_scaling k k _ _ _ [] [] (PA1 l) (PA1 (map (Rmult k) l)) Hk); [reflexivity|reflexivity|apply (hom_coordinate k)|]. right. eauto. Qed.
  Lemma in_unit_scaling c ps ps' : in_unit k c ps ps' -> scaling c ps ps'.
  Proof.
    destruct 1 as [c H|r|c v H Hv|c r v H Hv|c v v' H Hv|c l v v' H Hv|c r v v' H Hv|c l H|c H|c a d H Ha|n side c ps ps' Hs H L F|r c g Hr Hc H|r c g vcw vrh vcm vrm vcm' vrm' cw rh cm rm Hr Hc H].
    - exact (from_list _ _ _ _ unitless_scaling H).
    - apply s_lines.
    - exact (from_list _ _ _ _ (ratios_scaling v Hv) H).
    - exact (from_one _ _ _ _ H (rel_scaling r v Hv)).
    - exact (from_list _ _ _ _ (lengths_scaling v v' Hv) H).
    - exact (from_list _ _ _ _ (two_scaling l v v' Hv) H).
    - exact (from_list _ _ _ _ (line_scaling r v v' Hv) H).
    - exact (from_one _ _ _ _ H (fix_scaling l)).
    - refine (from_list _ _ _ _ (thickness_scaling PNone PNone (PInt 0) (PInt 0) eq_refl eq_refl _) H). left. exists 0. split; [reflexivity|]. cbn. f_equal. ring.
    - destruct (axis_thickness_scale a d Ha) as (d' & Ed & T). refine (from_list _ _ _ _ (thickness_scaling (PAxis a) (PAxis (scale_axis k a)) d d' _ _ T) H); cbn [thickness_params]; [now rewrite Ha|now rewrite Ed].
    - destruct (array_scaling n side Hs) as (x & E & G). rewrite H in E. injection E as <-. now apply G.
    - exact (from_one _ _ _ _ H (rectilinear_scaling r c Hr Hc)).
    - refine (from_one _ _ _ _ H (grid_scaling r c vcw vrh vcm vrm vcm' vrm' cw rh cm rm Hr Hc _ _ _ _ _ _ _ _ _ _)); assumption.
  Qed.
End Unit.
