(** Layouts in another unit of length. *)
From Coq Require Import Reals Lra.
From Verif Require Export UnitProofs GeomSpec SolverSpec.
From Verif Require Import HeapHist GeomProofs ConsProofs TreeLemmas P_Layout NeatProofs LayoutProofs EndProofs.
Local Open Scope R_scope.
Local Notation pyval := (pyval R).

Section Shape.
  Context {T A : Type}.
  Lemma shape_get_f fuel : forall (n m : node T A) key, same_shape n m ->
    match get_child_f fuel n key, get_child_f fuel m key with Ok a, Ok b => same_shape a b | Err e, Err e' => e = e' | _, _ => False end.
  Proof.
    induction fuel as [|f IH]; intros n m key H; [reflexivity|]. cbn [get_child_f]. destruct (split1 key) as [a [r|]]; inversion H as [t v ch t' v' ch' Hk Hf]; subst; cbn [nch];
      pose proof (shape_dget a ch ch' Hk Hf) as Hd; destruct (dget a ch) as [x|], (dget a ch') as [y|]; try contradiction; try reflexivity; [|exact Hd].
    specialize (IH x y r Hd). destruct (get_child_f f x r) as [u|e], (get_child_f f y r) as [u'|e']; try contradiction; [exact IH|]. subst. destruct e'; reflexivity.
  Qed.
  Lemma shape_contains_f fuel : forall (n m : node T A) key, same_shape n m -> contains_f fuel n key = contains_f fuel m key.
  Proof.
    induction fuel as [|f IH]; intros n m key H; [reflexivity|]. cbn [contains_f]. destruct (split1 key) as [a r]. destruct (String.eqb _ _).
    - inversion H as [t v ch t' v' ch' Hk Hf]; subst; cbn [nch]. pose proof (shape_dget a ch ch' Hk Hf) as Hd. unfold dmem. destruct (dget a ch), (dget a ch'); reflexivity || contradiction.
    - pose proof (shape_get_f (S (String.length a)) n m a H) as G. unfold get_child. destruct (get_child_f _ n a), (get_child_f _ m a); try contradiction; [now apply IH|now subst].
  Qed.
  Lemma shape_contains (n m : node T A) key : same_shape n m -> contains n key = contains m key.
  Proof. apply shape_contains_f. Qed.
  Lemma shape_nlen (n m : node T A) : same_shape n m -> nlen n = nlen m.
  Proof. intros H. inversion H as [t v ch t' v' ch' Hk Hf]; subst. unfold nlen. cbn. eapply Forall2_len, Hf. Qed.
End Shape.

Section UnitLayout.
  Variable k : R.
  Hypothesis Hk : 0 < k.
  Notation scale := (scale k).
  Notation pos := (fun d => 0 < d).
  Notation scaling := (scaling k pos).

  Lemma scaling_shape c ps ps' : scaling c ps ps' -> exists pt pt', root_params c ps = Ok pt /\ root_params c ps' = Ok pt' /\ same_shape pt pt'.
  Proof.
    revert c ps ps'. apply (scaling_mut k pos
      (fun c ps ps' => exists pt pt', root_params c ps = Ok pt /\ root_params c ps' = Ok pt' /\ same_shape pt pt')
      (fun ch cps cps' =>
         let go := (fix go (ch : dict cons) (cps : list (list pyval)) : result (dict (pnode R)) :=
             match ch, cps with
             | (key, child) :: ch', cp :: cps' => n <- root_params child cp ;; r <- go ch' cps' ;; Ok ((key, n) :: r)
             | _, _ => Ok []
             end) in
         exists d d', go ch cps = Ok d /\ go ch cps' = Ok d' /\ map fst d = map fst d' /\ Forall2 (fun x y => same_shape (snd x) (snd y)) d d')).
    - intros t v ch ps ps' cps cps' L E E' N _ (d & d' & G & G' & A & B). exists (Node KParams ps d), (Node KParams ps' d'). cbn [root_params]. rewrite E, E'. cbn [bind].
      rewrite G, G'. split; [reflexivity|]. split; [reflexivity|]. now constructor.
    - intros cps cps'. cbv zeta. exists [], []. repeat split; constructor.
    - intros s c ch p p' cps cps' _ (pt & pt' & E & E' & A) _ (d & d' & G & G' & B & C). cbv zeta. exists ((s, pt) :: d), ((s, pt') :: d'). cbn [bind]. rewrite E, E'. cbn [bind]. rewrite G, G'.
      split; [reflexivity|]. split; [reflexivity|]. cbn [map fst]. split; [now f_equal|]. now constructor.
  Qed.

  Record rescaled (l l' : layout) : Prop := {
    r_prim : l_prim l' = scale (l_prim l);
    r_cons : l_cons l' = l_cons l;
    r_keys : l_keys l' = l_keys l;
    r_counter : l_counter l' = l_counter l;
    r_params : same_shape (l_params l) (l_params l') }.

  Lemma scale_add (p c : prim) key : add_child (scale p) key (scale c) = (scale (fst (add_child p key c)), snd (add_child p key c)).
  Proof.
    unfold add_child. generalize (S (String.length key)). intros fuel. revert p key. induction fuel as [|fuel IH]; intros p key; [reflexivity|].
    cbn [add_child_f]. destruct (split1 key) as [k1 [rest|]]; rewrite scale_nch.
    - rewrite dget_scale. destruct (dget k1 (nch p)) as [x|]; [|reflexivity]. cbn [option_map]. rewrite IH. destruct (add_child_f fuel x rest c) as [c' r]. cbn [fst snd]. destruct p as [t v ch]. cbn [ScaleSpec.scale ntype nval nch]. now rewrite dset_scale.
    - assert (M : dmem k1 (map (fun kc => (fst kc, scale (snd kc))) (nch p)) = dmem k1 (nch p)) by (unfold dmem; rewrite dget_scale; now destruct (dget k1 (nch p))).
      rewrite M. destruct (dmem k1 (nch p)); [reflexivity|]. destruct p as [t v ch]. cbn [fst snd ScaleSpec.scale ntype nval nch]. now rewrite dset_scale.
  Qed.
  Lemma rescaled_add_prim l l' p key : rescaled l l' ->
    rescaled (fst (add_prim l p key)) (fst (add_prim l' (scale p) key)) /\ snd (add_prim l' (scale p) key) = snd (add_prim l p key).
  Proof.
    intros [R1 R2 R3 R4 R5]. unfold add_prim. rewrite R1, scale_add. destruct (add_child (l_prim l) key p) as [q r]. cbn [fst snd]. split; [|reflexivity].
    constructor; cbn [l_prim l_cons l_keys l_params l_counter]; congruence || assumption.
  Qed.
  Lemma rescaled_add_prims d : forall l l', rescaled l l' ->
    rescaled (fst (add_prims l d)) (fst (add_prims l' (map (fun kp => (fst kp, scale (snd kp))) d))) /\
    snd (add_prims l' (map (fun kp => (fst kp, scale (snd kp))) d)) = snd (add_prims l d).
  Proof.
    induction d as [|[s p] d IH]; intros l l' H; [split; [exact H|reflexivity]|]. cbn [map add_prims fst snd].
    destruct (rescaled_add_prim l l' p s H) as [H1 H2]. destruct (add_prim l p s) as [l1 r1], (add_prim l' (scale p) s) as [l2 r2]. cbn [fst snd] in *. subst r2.
    destruct r1 as [[]|e]; [apply IH, H1|]. split; [exact H1|reflexivity].
  Qed.
  Lemma rescaled_validate l l' c ks ps ps' : rescaled l l' -> length ps = length ps' -> validate_inputs l' c ks ps' = validate_inputs l c ks ps.
  Proof.
    intros H L. assert (P : cvalidate_params c ps' = cvalidate_params c ps) by (unfold cvalidate_params; now rewrite L). unfold validate_inputs. rewrite P, (r_prim _ _ H), lookups_scale. destruct (mapM (get_child (l_prim l)) ks) as [prims|]; [|reflexivity]. cbn [fwd bind].
    assert (V : cvalidate_prims c (map scale prims) = cvalidate_prims c prims).
    { unfold cvalidate_prims. rewrite map_length. replace (existsb _ (zip (map scale prims) _)) with (existsb (fun pt : prim * ptype => negb (issubclass (ntype (fst pt)) (snd pt))) (zip prims (prim_types (csig (nval c))))); [reflexivity|].
      clear. generalize (prim_types (csig (nval c))). induction prims as [|p prims IH]; intros [|t ts]; try reflexivity. cbn. now rewrite scale_type, IH. }
    now rewrite V.
  Qed.
  Lemma rescaled_insert l l' c ks ps ps' key : rescaled l l' -> scaling c ps ps' ->
    rescaled (fst (insert_constraint l c ks ps key)) (fst (insert_constraint l' c ks ps' key)) /\ snd (insert_constraint l' c ks ps' key) = snd (insert_constraint l c ks ps key).
  Proof.
    intros [R1 R2 R3 R4 R5] Hs. apply scaling_shape in Hs as (pt & pt' & E & E' & Sh). unfold insert_constraint. rewrite R2.
    destruct (add_child (l_cons l) key c) as [t [[]|e]]; cbn [fst snd].
    2: { split; [|reflexivity]. constructor; cbn [set_cons l_prim l_cons l_keys l_params l_counter]; congruence || assumption. }
    destruct (root_prim_keys c ks) as [pk|]; cbn [fst snd].
    2: { split; [|reflexivity]. constructor; cbn [set_cons l_prim l_cons l_keys l_params l_counter]; congruence || assumption. }
    cbn [set_cons l_keys]. rewrite R3.
    destruct (add_child (l_keys l) key pk) as [t' [[]|e]]; cbn [fst snd].
    2: { split; [|reflexivity]. constructor; cbn [set_keys set_cons l_prim l_cons l_keys l_params l_counter]; congruence || assumption. }
    rewrite E, E'. cbn [set_keys set_cons l_params].
    destruct (add_child_shape (l_params l) (l_params l') key pt pt' R5 Sh) as [S1 S2].
    destruct (add_child (l_params l) key pt) as [u r], (add_child (l_params l') key pt') as [u' r']. cbn [fst snd] in *. subst r'.
    destruct r as [[]|e]; (split; [|reflexivity]); (constructor; cbn [set_params set_keys set_cons l_prim l_cons l_keys l_params l_counter]; congruence || assumption).
  Qed.
  Lemma rescaled_act l l' a a' : rescaled l l' -> act_unit k a a' -> rescaled (fst (act l a)) (fst (act l' a')) /\ snd (act l' a') = snd (act l a).
  Proof.
    intros H A. destruct A as [p key|d|c ks ps ps' key U]; cbn [act]; [apply rescaled_add_prim, H|apply rescaled_add_prims, H|].
    apply (in_unit_scaling k Hk) in U. pose proof (proj1 (scaling_aligned k pos c ps ps' U)) as L. unfold add_constraint. destruct (String.eqb key EmptyString).
    - assert (G : gen_key l' c = gen_key l c) .
      { unfold gen_key, counter_fuel. rewrite (r_counter _ _ H), (r_cons _ _ H), (r_keys _ _ H), (shape_nlen _ _ (r_params _ _ H)).
        erewrite until_ext; [reflexivity|]. intros s. unfold notin_all. cbn [map]. now rewrite (shape_contains _ _ s (r_params _ _ H)). }
      rewrite G. destruct (gen_key l c) as [cnt r].
      assert (H' : rescaled (set_counter l cnt) (set_counter l' cnt)) by (destruct H; now constructor).
      destruct r as [s|e]; [|split; [exact H'|reflexivity]]. rewrite (rescaled_validate _ _ c ks ps ps' H' L). destruct (validate_inputs (set_counter l cnt) c ks ps) as [[]|]; [apply rescaled_insert; assumption|split; [exact H'|reflexivity]].
    - rewrite (rescaled_validate _ _ c ks ps ps' H L). destruct (validate_inputs l c ks ps) as [[]|]; [apply rescaled_insert; assumption|split; [exact H|reflexivity]].
  Qed.
  Lemma rescaled_runs acts acts' : Forall2 (act_unit k) acts acts' -> forall l l1 l', rescaled l l' -> runs l acts l1 -> exists l1', runs l' acts' l1' /\ rescaled l1 l1'.
  Proof.
    induction 1 as [|a a' acts acts' A _ IH]; intros l l1 l' H Hr; inversion Hr as [|? ? l2 ? ? Ea Hr']; subst.
    - exists l'. split; [constructor|exact H].
    - destruct (rescaled_act l l' a a' H A) as [H1 H2]. rewrite Ea in H1, H2. cbn [fst snd] in *. destruct (IH _ _ _ H1 Hr') as (l1' & G & G'). exists l1'. split; [|exact G'].
      econstructor; [|exact G]. rewrite <- H2. now destruct (act l' a').
  Qed.
  Lemma rescaled_empty i : rescaled (empty_layout i) (empty_layout i).
  Proof. constructor; try reflexivity. cbn. constructor; [reflexivity|constructor]. Qed.

  (** ** The residual *)
  Lemma walk_scale path : forall p : prim, walk path (scale p) = option_map scale (walk path p).
  Proof. induction path as [|s path IH]; intros p; [reflexivity|]. cbn [walk]. rewrite scale_nch, dget_scale. destruct (dget s (nch p)); [apply IH|reflexivity]. Qed.
  Lemma scale_structure (p q : prim) : same_structure p q -> same_structure (scale p) (scale q).
  Proof.
    assert (I : forall n : prim, vid (nval (scale n)) = vid (nval n)) by now destruct n.
    assert (D : forall n : prim, length (vdata (nval (scale n))) = length (vdata (nval n))) by (destruct n; apply map_length).
    intros [S1 S2]. split.
    - intros s. rewrite !walk_scale. specialize (S1 s). destruct (walk s p) as [n|], (walk s q) as [m|]; try discriminate; [|reflexivity]. cbn [option_map] in *. rewrite !scale_type, !scale_nkeys, !D. exact S1.
    - intros k1 k2 n1 n2 m1 m2. rewrite !walk_scale. intros E1 E2 E3 E4. specialize (S2 k1 k2).
      destruct (walk k1 p); [|discriminate]. destruct (walk k2 p); [|discriminate]. destruct (walk k1 q); [|discriminate]. destruct (walk k2 q); [|discriminate]. cbn [option_map] in *.
      injection E1 as <-. injection E2 as <-. injection E3 as <-. injection E4 as <-. rewrite !I. now apply S2.
  Qed.
  Lemma residual_iff rid tw acts (l : layout) p z : runs (empty_layout rid) acts l -> Forall (shipped_act tw) acts -> Forall top_key acts -> same_structure (l_prim l) p ->
    LayoutSpec.added acts <> [] -> (layout_residual l p = Ok z <-> exists vs, Forall2 (value_at p) (LayoutSpec.added acts) vs /\ z = List.concat vs).
  Proof.
    intros Hr Hs Ht Hp Hne. assert (Hcl : Forall classes acts) by (eapply Forall_impl; [|exact Hs]; apply shipped_classes).
    eapply C53_residual; try eassumption.
    - eapply Forall_impl; [|exact Hs]. apply shipped_complete.
    - eapply Forall_impl; [|exact Hs]. apply shipped_sound.
    - rewrite Forall_forall in *. intros a Ha. eapply shipped_toplevel; eauto.
    - eapply Forall_impl; [|eapply typed_runs; eassumption]. intros x. now apply structure_typed.
  Qed.
  Lemma unit_values acts acts' p vs : Forall2 (act_unit k) acts acts' -> Forall2 (value_at p) (LayoutSpec.added acts) vs ->
    exists vs', Forall2 (value_at (scale p)) (LayoutSpec.added acts') vs' /\ Forall2 (times pos) vs vs'.
  Proof.
    intros H. revert vs. induction H as [|a a' acts acts' A _ IH]; intros vs Hv; [inversion Hv; exists []; split; constructor|].
    destruct A as [q key|d|c ks ps ps' key U]; [apply IH, Hv|apply IH, Hv|]. unfold LayoutSpec.added in *. cbn [flat_map app] in *. inversion Hv as [|? v ? ws Hx Hw]; subst. destruct Hx as (prims & E1 & E2).
    destruct (IH _ Hw) as (ws' & W1 & W2). apply (in_unit_scaling k Hk) in U. pose proof (call_scale k pos c prims ps ps' U) as C. rewrite E2 in C. unfold rrel in C.
    destruct (call c (map scale prims) ps') as [r'|] eqn:Er; [|contradiction]. exists (r' :: ws'). split; [|now constructor]. constructor; [|exact W1]. exists (map scale prims). split; [|exact Er]. rewrite lookups_scale, E1. reflexivity.
  Qed.
  Lemma unit_values_back acts acts' p vs' : Forall2 (act_unit k) acts acts' -> Forall2 (value_at (scale p)) (LayoutSpec.added acts') vs' ->
    exists vs, Forall2 (value_at p) (LayoutSpec.added acts) vs /\ Forall2 (times pos) vs vs'.
  Proof.
    intros H. revert vs'. induction H as [|a a' acts acts' A _ IH]; intros vs Hv; [inversion Hv; exists []; split; constructor|].
    destruct A as [q key|d|c ks ps ps' key U]; [apply IH, Hv|apply IH, Hv|]. unfold LayoutSpec.added in *. cbn [flat_map app] in *. inversion Hv as [|? v ? ws Hx Hw]; subst. destruct Hx as (prims & E1 & E2).
    destruct (IH _ Hw) as (ws' & W1 & W2). rewrite lookups_scale in E1. destruct (mapM (get_child p) ks) as [prims0|] eqn:E0; [|discriminate]. cbn [fwd] in E1. injection E1 as <-.
    apply (in_unit_scaling k Hk) in U. pose proof (call_scale k pos c prims0 ps ps' U) as C. rewrite E2 in C. unfold rrel in C.
    destruct (call c prims0 ps) as [r'|] eqn:Er; [|contradiction]. exists (r' :: ws'). split; [|now constructor]. constructor; [|exact W1]. exists prims0. split; assumption.
  Qed.
  Lemma unit_added acts acts' : Forall2 (act_unit k) acts acts' -> LayoutSpec.added acts = [] <-> LayoutSpec.added acts' = [].
  Proof. induction 1 as [|a a' acts acts' A _ IH]; [tauto|]. destruct A; unfold LayoutSpec.added in *; cbn [flat_map app]; [exact IH|exact IH|]. split; discriminate. Qed.
  Lemma unit_top acts acts' : Forall2 (act_unit k) acts acts' -> Forall top_key acts -> Forall top_key acts'.
  Proof. induction 1 as [|a a' acts acts' A _ IH]; intros H; inversion H; subst; constructor; auto. destruct A; auto. Qed.
End UnitLayout.
