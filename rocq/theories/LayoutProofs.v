(** Lemmas about layout histories. *)
From Verif Require Export NodeProofs CounterProofs ConsProofs Solver LayoutSpec ConsSpec.

Section Shape.
  Context {T A T' A' : Type}.
  Lemma shape_dget k (ch : dict (node T A)) (ch' : dict (node T' A')) :
    map fst ch = map fst ch' -> Forall2 (fun x y => same_shape (snd x) (snd y)) ch ch' ->
    match dget k ch, dget k ch' with
    | Some a, Some b => same_shape a b
    | None, None => True
    | _, _ => False
    end.
  Proof.
    intros Hk Hf. induction Hf as [|[k1 a] [k2 b] ch ch' H Hf IH]; cbn; [exact I|].
    cbn in Hk. inversion Hk; subst. destruct (String.eqb k k2); [exact H|]. now apply IH.
  Qed.
  Lemma shape_dset k (ch : dict (node T A)) (ch' : dict (node T' A')) x y :
    map fst ch = map fst ch' -> Forall2 (fun x y => same_shape (snd x) (snd y)) ch ch' -> same_shape x y ->
    map fst (dset k x ch) = map fst (dset k y ch') /\ Forall2 (fun x y => same_shape (snd x) (snd y)) (dset k x ch) (dset k y ch').
  Proof.
    intros Hk Hf Hxy. induction Hf as [|[k1 a] [k2 b] ch ch' H Hf IH]; cbn.
    - split; [reflexivity|repeat constructor; assumption].
    - cbn in Hk. inversion Hk; subst. destruct (String.eqb k k2); cbn.
      + split; [congruence|]. constructor; assumption.
      + destruct IH as [I1 I2]; [assumption|]. split; [congruence|]. constructor; assumption.
  Qed.
  Lemma shape_walk p : forall (n : node T A) (m : node T' A'), same_shape n m ->
    match walk p n, walk p m with
    | Some a, Some b => same_shape a b
    | None, None => True
    | _, _ => False
    end.
  Proof.
    induction p as [|k p IH]; intros n m H; [exact H|]. cbn [walk].
    inversion H as [t v ch t' v' ch' Hk Hf]; subst. cbn [nch].
    pose proof (shape_dget k ch ch' Hk Hf) as Hd. destruct (dget k ch), (dget k ch'); try contradiction; [now apply IH|exact I].
  Qed.
  Lemma shape_pupd p f g : (forall (a : node T A) (b : node T' A'), same_shape a b -> same_shape (f a) (g b)) ->
    forall (n : node T A) (m : node T' A'), same_shape n m -> same_shape (pupd p f n) (pupd p g m).
  Proof.
    intros Hfg. induction p as [|k p IH]; intros n m H; cbn [pupd]; [auto|].
    inversion H as [t v ch t' v' ch' Hk Hf]; subst. cbn [nch ntype nval].
    pose proof (shape_dget k ch ch' Hk Hf) as Hd. destruct (dget k ch) as [a|], (dget k ch') as [b|]; try contradiction; [|exact H].
    destruct (shape_dset k ch ch' (pupd p f a) (pupd p g b) Hk Hf (IH _ _ Hd)). now constructor.
  Qed.
  Lemma add_child_shape (n : node T A) (m : node T' A') key x y : same_shape n m -> same_shape x y ->
    same_shape (fst (add_child n key x)) (fst (add_child m key y)) /\ snd (add_child n key x) = snd (add_child m key y).
  Proof.
    intros H Hxy. rewrite !(add_child_cases _ key _ _ (components_total key)). cbv zeta.
    set (par := removelast (split_all key)). set (k := last (split_all key) EmptyString).
    pose proof (shape_walk par n m H) as Hp. destruct (walk par n), (walk par m); try contradiction; [|split; [assumption|reflexivity]].
    pose proof (shape_walk (split_all key) n m H) as Hq. destruct (walk (split_all key) n), (walk (split_all key) m); try contradiction; cbn [fst snd]; split; auto.
    apply shape_pupd; [|assumption]. intros a b Hab. inversion Hab as [t v ch t' v' ch' Hk Hf]; subst. unfold set_key. cbn [ntype nval nch].
    destruct (shape_dset k ch ch' x y Hk Hf Hxy). now constructor.
  Qed.
  Lemma shape_keys (n : node T A) : forall (m : node T' A') key, same_shape n m -> map fst (iter_flat key n) = map fst (iter_flat key m).
  Proof.
    induction n as [t v ch IH] using node_ind'. intros m key H. inversion H as [? ? ? t' v' ch' Hk Hf]; subst. cbn [iter_flat map fst]. f_equal.
    clear H. revert ch' Hk Hf. induction IH as [|[k c] ch Hc _ IHch]; intros ch' Hk Hf; inversion Hf as [|? [k' c'] ? ? Hcc Hff]; subst; [reflexivity|].
    cbn in Hk. inversion Hk; subst. cbn [flat_map fst snd]. rewrite !map_app. f_equal; [apply Hc; assumption|]. now apply IHch.
  Qed.
  Lemma shape_preorder_length (n : node T A) (m : node T' A') : same_shape n m -> length (preorder n) = length (preorder m).
  Proof. intros H. pose proof (f_equal (@length _) (shape_keys n m EmptyString H)) as E.
    rewrite !map_length in E. rewrite <- (iter_flat_preorder n EmptyString), <- (iter_flat_preorder m EmptyString), !map_length. exact E. Qed.
End Shape.

Lemma add_child_snd {T A} (n : node T A) k x y : snd (add_child n k x) = snd (add_child n k y).
Proof.
  rewrite !(add_child_cases n k _ _ (components_total k)). cbv zeta.
  destruct (walk (removelast (split_all k)) n); [|reflexivity]. destruct (walk (split_all k) n); reflexivity.
Qed.
Lemma add_child_top {T A} (n : node T A) key child n' : noslash key = true -> add_child n key child = (n', Ok tt) ->
  n' = Node (ntype n) (nval n) (nch n ++ [(key, child)]) /\ ~ In key (map fst (nch n)).
Proof.
  intros Hk H. unfold add_child in H. cbn [add_child_f] in H.
  destruct (split1 key) as [p [r|]] eqn:E.
  - apply split1_Some in E as (-> & _). rewrite noslash_app in Hk. cbn in Hk. rewrite andb_false_r in Hk. discriminate.
  - apply split1_None in E as (<- & _). destruct (dmem key (nch n)) eqn:Ed; [discriminate|]. inversion H; subst.
    assert (Hi : ~ In key (map fst (nch n))) by (intros Hi; apply dmem_true_iff in Hi; congruence).
    rewrite dset_new by now apply dget_None_iff. auto.
Qed.

Section LayoutP.
  Context {F : Type} {N : Num F}.
  Notation prim := (prim F).
  Notation pyval := (pyval F).
  Notation cons := (cons F).
  Notation layout := (layout F).

  Lemma rpk_length ks ks' keys r : length ks = length ks' -> mapM (replace_prim_key_prefix ks) keys = Ok r ->
    exists r', mapM (replace_prim_key_prefix ks') keys = Ok r' /\ length r = length r'.
  Proof.
    intros Hl. revert r. induction keys as [|k keys IH]; intros r H; cbn [mapM] in *; [inversion H; eauto|].
    inv_bind H. inv_bind H. inversion H; subst. destruct (IH _ E0) as (r' & Hr & Hlr).
    assert (Hx : exists x', replace_prim_key_prefix ks' k = Ok x').
    { unfold replace_prim_key_prefix in *. destruct (split1 k) as [a rest]. destruct (argnum_from_key a) as [i|]; cbn [bind] in *; [|discriminate].
      destruct (nth_error ks i) eqn:En; [|discriminate]. assert (i < length ks) by (apply nth_error_Some; congruence).
      destruct (nth_error ks' i) eqn:En'; [eauto|]. apply nth_error_None in En'. lia. }
    destruct Hx as [x' ->]. cbn [bind]. rewrite Hr. cbn [bind]. eexists. split; [reflexivity|]. cbn. lia.
  Qed.
  Lemma rpks_length ks ks' keyss r : length ks = length ks' -> mapM (mapM (replace_prim_key_prefix ks)) keyss = Ok r ->
    exists r', mapM (mapM (replace_prim_key_prefix ks')) keyss = Ok r' /\ Forall2 (fun a b => length a = length b) r r'.
  Proof.
    intros Hl. revert r. induction keyss as [|k keyss IH]; intros r H; cbn [mapM] in *; [inversion H; eauto|].
    inv_bind H. inv_bind H. inversion H; subst. destruct (IH _ E0) as (r' & -> & Hlr).
    destruct (rpk_length ks ks' k x Hl E) as (x' & -> & Hx). cbn [bind]. eexists. split; [reflexivity|]. now constructor.
  Qed.
  (** Whether the key tree can be derived depends only on the number of keys. *)
  Lemma root_prim_keys_length (c : cons) : forall ks ks' kt, length ks = length ks' -> root_prim_keys c ks = Ok kt ->
    exists kt', root_prim_keys c ks' = Ok kt'.
  Proof.
    induction c as [t v ch IH] using node_ind'. intros ks ks' kt Hl H. rewrite root_prim_keys_unfold in *. inv_bind H. inv_bind H. clear H.
    destruct (rpks_length ks ks' _ _ Hl E) as (x' & -> & Hf). cbn [bind]. clear E.
    enough (exists y, rpks ch x' = Ok y) as [y ->] by (cbn [bind]; eauto).
    revert x x' x0 Hf E0. induction IH as [|[k c] ch Hc _ IHch]; intros x x' x0 Hf E; [cbn; eauto|].
    inversion Hf as [|a b ? ? Hab Hff]; subst; [cbn; eauto|]. cbn [rpks] in *. inv_bind E. inv_bind E.
    cbn [snd] in Hc. destruct (Hc a b _ Hab E0) as [y ->]. destruct (IHch _ _ _ Hff E1) as [z ->]. cbn [bind]. eauto.
  Qed.

  Lemma evaluable_trees (c : cons) params ks : evaluable c params -> length ks = length (prim_types (csig (nval c))) ->
    (exists kt, root_prim_keys c ks = Ok kt) /\ (exists pt, root_params c params = Ok pt).
  Proof.
    intros (prims & v & H) Hl. unfold call in H. inv_bind H. destruct x. inv_bind H. destruct x. cbn zeta in H. inv_bind H. inv_bind H. inv_bind H.
    split; [|eauto]. eapply root_prim_keys_length; [|exact E2]. rewrite arg_keys_length, Hl. apply valid_prims_iff in E. apply Forall2_len in E. exact E.
  Qed.

  Lemma evaluable_derivable (c : cons) params : evaluable c params -> derivable c params.
  Proof.
    intros H. split; [intros ks Hk; apply (evaluable_trees c params ks H Hk)|].
    apply (evaluable_trees c params (List.repeat EmptyString (length (prim_types (csig (nval c))))) H). apply repeat_length.
  Qed.

  Lemma validate_inputs_ok (l : layout) (c : cons) ks ps : validate_inputs l c ks ps = Ok tt ->
    exists prims, mapM (get_child (l_prim l)) ks = Ok prims /\ valid_args c prims ps.
  Proof.
    unfold validate_inputs. intros H. inv_bind H. destruct x. unfold type_to_runtime in *.
    destruct (prims <- mapM (get_child (l_prim l)) ks ;; cvalidate_prims c prims) as [u|e] eqn:Ev; [|destruct e; discriminate].
    destruct u. inv_bind Ev. exists x. split; [exact E0|]. split; [now apply valid_prims_iff|].
    destruct (cvalidate_params c ps) as [u|e] eqn:Ep; [|destruct e; discriminate]. destruct u. now apply valid_params_iff.
  Qed.
  Lemma mapM_len_eq {A B} (f : A -> result B) l r : mapM f l = Ok r -> length l = length r.
  Proof. intros H. symmetry. now apply mapM_length in H. Qed.

  (** What [add_constraint] can do, for a derivable constraint on a lockstep layout. *)
  Lemma add_constraint_cases (l : layout) (c : cons) ks ps key l' r : lockstep l -> derivable c ps ->
    add_constraint l c ks ps key = (l', r) ->
    (exists e, r = Err e /\ same_trees l l') \/
    (exists k kt pt, r = Ok tt /\
       (key <> EmptyString -> k = key) /\ k <> EmptyString /\ (noslash key = true -> noslash (cname (ntype c)) = true -> noslash k = true) /\
       validate_inputs l c ks ps = Ok tt /\
       root_prim_keys c ks = Ok kt /\ root_params c ps = Ok pt /\ l_prim l' = l_prim l /\
       add_child (l_cons l) k c = (l_cons l', Ok tt) /\ add_child (l_keys l) k kt = (l_keys l', Ok tt) /\
       add_child (l_params l) k pt = (l_params l', Ok tt)).
  Proof.
    intros [L1 L2] Hev H. unfold add_constraint in H.
    assert (exists l0 rk, (if String.eqb key "" then let (cnt, r) := gen_key l c in (set_counter l cnt, r) else (l, Ok key)) = (l0, rk) /\ same_trees l l0 /\
       (forall k, rk = Ok k -> (key <> EmptyString -> k = key) /\ k <> EmptyString /\ (noslash key = true -> noslash (cname (ntype c)) = true -> noslash k = true))) as (l0 & rk & E0 & S0 & K0).
    { destruct (String.eqb_spec key "").
      - destruct (gen_key l c) as [cnt rk] eqn:Eg. eexists _, _. split; [reflexivity|]. split; [repeat split|]. intros k ->.
        split; [congruence|]. unfold gen_key in Eg.
        destruct (add_item_until_valid (counter_fuel l) (l_counter l) (cname (ntype c)) _) as [[c' r']|] eqn:Ea; [|discriminate]. inversion Eg; subst.
        apply until_key_number in Ea as (n & -> & _). split; [destruct (cname (ntype c)); [now apply dec_nonempty|discriminate]|]. intros _ Hc. now rewrite noslash_app, noslash_dec, Hc.
      - eexists _, _. split; [reflexivity|]. split; [repeat split|]. intros k E. inversion E; subst. auto. }
    rewrite E0 in H. clear E0. destruct S0 as (S1 & S2 & S3 & S4). destruct rk as [k|e]; [|inversion H; subst; left; eexists; split; [reflexivity|repeat split; assumption]].
    destruct (K0 k eq_refl) as (Kk & Ke & Kn). clear K0.
    assert (Hvl : validate_inputs l0 c ks ps = validate_inputs l c ks ps) by (unfold validate_inputs; now rewrite S1).
    rewrite Hvl in H. destruct (validate_inputs l c ks ps) as [[]|e] eqn:Hv; [|inversion H; subst; left; eexists; split; [reflexivity|repeat split; assumption]].
    destruct (validate_inputs_ok _ _ _ _ Hv) as (prims & Hp & Hva).
    assert (Hlen : length ks = length (prim_types (csig (nval c)))).
    { apply mapM_len_eq in Hp. destruct Hva as [Hva _]. apply Forall2_len in Hva. congruence. }
    destruct Hev as [Hev1 [pt Hpt]]. destruct (Hev1 ks Hlen) as [kt Hk].
    unfold insert_constraint in H. rewrite S2 in H. rewrite Hk, Hpt in H.
    destruct (add_child (l_cons l) k c) as [t r1] eqn:E1.
    destruct r1 as [[]|e].
    2: { inversion H; subst. left. eexists. split; [reflexivity|].
         rewrite (add_child_cases _ k _ _ (components_total k)) in E1. cbv zeta in E1.
         assert (t = l_cons l) by (destruct (walk (removelast (split_all k)) (l_cons l)); [destruct (walk (split_all k) (l_cons l))|]; inversion E1; reflexivity). subst t.
         split; [|split; [|split]]; assumption || reflexivity. }
    right. exists k, kt, pt. cbn [set_cons l_keys] in H. rewrite S3 in H.
    assert (Ek : forall (x : knode), snd (add_child (l_keys l) k x) = Ok tt).
    { intros x. destruct (add_child_shape (l_cons l) (l_keys l) k (Node (ntype c) (nval c) []) (Node KPrimKeys [] []) L1 ltac:(constructor; [reflexivity|constructor])) as [_ Hs].
      rewrite (add_child_snd (l_keys l) k x (Node KPrimKeys [] [])), <- Hs, (add_child_snd _ _ _ c), E1. reflexivity. }
    assert (Ep : forall (x : pnode F), snd (add_child (l_params l) k x) = Ok tt).
    { intros x. destruct (add_child_shape (l_cons l) (l_params l) k (Node (ntype c) (nval c) []) (Node KParams [] []) L2 ltac:(constructor; [reflexivity|constructor])) as [_ Hs].
      rewrite (add_child_snd (l_params l) k x (Node KParams [] [])), <- Hs, (add_child_snd _ _ _ c), E1. reflexivity. }
    specialize (Ek kt). specialize (Ep pt). destruct (add_child (l_keys l) k kt) as [kk rr] eqn:E2. cbn in Ek. subst rr.
    cbn [set_keys l_params set_cons] in H. rewrite S4 in H. destruct (add_child (l_params l) k pt) as [pp rr] eqn:E3. cbn in Ep. subst rr.
    inversion H; subst. cbn. repeat split; auto.
  Qed.

  (** ** Lockstep *)
  Lemma add_prim_trees (l : layout) p key l' r : add_prim l p key = (l', r) ->
    l_cons l' = l_cons l /\ l_keys l' = l_keys l /\ l_params l' = l_params l /\ add_child (l_prim l) key p = (l_prim l', r).
  Proof. unfold add_prim. destruct (add_child (l_prim l) key p) as [t u]. intros H. inversion H; subst. auto. Qed.
  Lemma add_prims_trees (d : dict prim) : forall (l l' : layout) r, add_prims l d = (l', r) ->
    l_cons l' = l_cons l /\ l_keys l' = l_keys l /\ l_params l' = l_params l.
  Proof.
    induction d as [|[k p] d IH]; intros l l' r H; cbn [add_prims] in H; [inversion H; auto|].
    destruct (add_prim l p k) as [l1 r1] eqn:E. apply add_prim_trees in E as (E1 & E2 & E3 & _).
    destruct r1; [apply IH in H as (H1 & H2 & H3); repeat split; congruence|]. inversion H; subst. auto.
  Qed.
  Lemma lockstep_trees (l l' : layout) : l_cons l' = l_cons l -> l_keys l' = l_keys l -> l_params l' = l_params l -> lockstep l -> lockstep l'.
  Proof. unfold lockstep. now intros -> -> ->. Qed.
  Lemma lockstep_act (l : layout) a : complete a -> sound a -> lockstep l -> lockstep (fst (act l a)).
  Proof.
    intros Hc Hs Hl. destruct a as [p key|d|c ks ps key]; cbn [act complete sound] in *.
    - destruct (add_prim l p key) as [l' r] eqn:E. apply add_prim_trees in E as (E1 & E2 & E3 & _). now apply (lockstep_trees l).
    - destruct (add_prims l d) as [l' r] eqn:E. apply add_prims_trees in E as (E1 & E2 & E3). now apply (lockstep_trees l).
    - destruct (add_constraint l c ks ps key) as [l' r] eqn:E. cbn [fst].
      destruct (add_constraint_cases _ _ _ _ _ _ _ Hl Hs E) as [(e & -> & _ & E1 & E2 & E3)|(k & kt & pt & -> & _ & _ & _ & _ & Hk & Hp & _ & E1 & E2 & E3)].
      + now apply (lockstep_trees l).
      + destruct (rpk_shape c ks kt ps Hc ltac:(congruence) Hk pt Hp) as [S1 S2]. destruct Hl as [L1 L2]. split.
        * destruct (add_child_shape _ _ k _ _ L1 S1) as [H _]. rewrite E1, E2 in H. exact H.
        * destruct (add_child_shape _ _ k _ _ L2 S2) as [H _]. rewrite E1, E3 in H. exact H.
  Qed.
  Lemma lockstep_empty rid : lockstep (empty_layout (F:=F) rid).
  Proof. split; constructor; constructor. Qed.
  Lemma lockstep_after acts : forall l : layout, Forall complete acts -> Forall sound acts -> lockstep l -> lockstep (after l acts).
  Proof.
    induction acts as [|a acts IH]; intros l Hc Hs Hl; [exact Hl|]. inversion Hc; inversion Hs; subst.
    cbn [after fold_left]. apply IH; auto. now apply lockstep_act.
  Qed.
  Lemma runs_after (l l' : layout) acts : runs l acts l' -> after l acts = l'.
  Proof. induction 1 as [|l a l' acts l'' H _ IH]; [reflexivity|]. cbn [after fold_left]. rewrite H. exact IH. Qed.
  Lemma lockstep_flat (l : layout) : lockstep l -> let '(cs, ks, ps) := flat_constraints l in
    length ks = length cs /\ length ps = length cs.
  Proof.
    intros [L1 L2]. unfold flat_constraints. rewrite !skipn_length, !map_length.
    apply shape_preorder_length in L1, L2.
    rewrite <- (iter_flat_preorder (l_cons l) ""), <- (iter_flat_preorder (l_keys l) ""), !map_length in L1.
    rewrite <- (iter_flat_preorder (l_cons l) ""), <- (iter_flat_preorder (l_params l) ""), !map_length in L2. lia.
  Qed.

  (** ** The residual of a history *)
  (** The children of the three trees after successful additions at top level. *)
  Definition entry (x : cons * list string * list pyval) (k : string) (kt : knode) (pt : pnode F) : Prop :=
    let '(c, ks, ps) := x in root_prim_keys c ks = Ok kt /\ root_params c ps = Ok pt.
  Inductive entries : list (cons * list string * list pyval) -> dict cons -> dict knode -> dict (pnode F) -> Prop :=
  | entries_nil : entries [] [] [] []
  | entries_snoc xs ch kts pts c ks ps k kt pt : entries xs ch kts pts ->
      root_prim_keys c ks = Ok kt -> root_params c ps = Ok pt -> arity_ok c ps ->
      entries (xs ++ [(c, ks, ps)]) (ch ++ [(k, c)]) (kts ++ [(k, kt)]) (pts ++ [(k, pt)]).
  Definition holds (l : layout) xs : Prop := entries xs (nch (l_cons l)) (nch (l_keys l)) (nch (l_params l)).

  Lemma runs_holds acts : forall (l l' : layout) xs, runs l acts l' -> Forall complete acts -> Forall sound acts -> Forall toplevel acts ->
    lockstep l -> holds l xs -> holds l' (xs ++ added acts).
  Proof.
    intros l l' xs Hr. revert xs. induction Hr as [l|l a l' acts l'' Ha Hr IH]; intros xs Hc Hs Ht Hl Hh; [cbn; now rewrite app_nil_r|].
    inversion Hc; inversion Hs; inversion Ht; subst. cbn [added flat_map]. rewrite app_assoc.
    assert (Hl' : lockstep l') by (pose proof (lockstep_act l a) as HL; rewrite Ha in HL; now apply HL).
    apply IH; auto. clear IH Hr. destruct a as [p key|d|c ks ps key]; cbn [act complete sound toplevel] in *.
    - apply add_prim_trees in Ha as (E1 & E2 & E3 & _). unfold holds. now rewrite app_nil_r, E1, E2, E3.
    - apply add_prims_trees in Ha as (E1 & E2 & E3). unfold holds. now rewrite app_nil_r, E1, E2, E3.
    - destruct (add_constraint_cases _ _ _ _ _ _ _ Hl ltac:(eassumption) Ha) as [(e & E & _)|(k & kt & pt & _ & _ & _ & Kn & _ & Hk & Hp & _ & E1 & E2 & E3)]; [discriminate|].
      match goal with H : _ /\ _ |- _ => destruct H as [T1 T2] end. specialize (Kn T1 T2).
      apply add_child_top in E1 as [E1 _], E2 as [E2 _], E3 as [E3 _]; try assumption.
      unfold holds. rewrite E1, E2, E3. cbn [nch]. now apply entries_snoc.
  Qed.

  Definition flat3 (root : prim) (ch : dict cons) (kts : dict knode) (pts : dict (pnode F)) : result (list (list F)) :=
    assem_constraint_residual root (map (@ntype _ _) (dpre ch)) (map (@nval _ _) (dpre kts)) (map (@nval _ _) (dpre pts)).
  Lemma flat_constraints_dpre (l : layout) : flat_constraints l =
    (map (@ntype _ _) (dpre (nch (l_cons l))), map (@nval _ _) (dpre (nch (l_keys l))), map (@nval _ _) (dpre (nch (l_params l)))).
  Proof.
    unfold flat_constraints. destruct (l_cons l) as [tc vc ch], (l_keys l) as [tk vk chk], (l_params l) as [tp vp chp]. cbn [nch].
    rewrite <- (map_map snd (@ntype _ _)), <- (map_map snd (@nval _ _) (iter_flat "" (Node tk vk chk))), <- (map_map snd (@nval _ _) (iter_flat "" (Node tp vp chp))).
    rewrite !iter_flat_preorder. reflexivity.
  Qed.

  Lemma acr_flat root cs graph params outs : length cs = length graph ->
    assem_constraint_residual root cs graph params = Ok outs <->
    exists fps, mapM (mapM (get_child root)) (firstn (length params) graph) = Ok fps /\ mapM eval1 (zip cs (zip fps params)) = Ok outs.
  Proof.
    unfold assem_constraint_residual. revert graph params outs.
    induction cs as [|c cs IH]; intros [|g graph] params outs Hl; try discriminate.
    - cbn. rewrite firstn_nil. split; [intros H; inversion H; subst; exists []; auto|]. intros (fps & H1 & H2). exact H2.
    - destruct params as [|p params].
      + cbn. split; [intros H; exists []; auto|]. intros (fps & H1 & H2). inversion H1; subst. exact H2.
      + cbn [zip mapM length firstn fst snd]. split.
        * intros H. inv_bind H. inv_bind E. inv_bind H. inversion H; subst. apply IH in E1 as (fps & F1 & F2); [|cbn in Hl; lia].
          exists (x0 :: fps). rewrite E0. cbn [bind]. rewrite F1. split; [reflexivity|]. cbn [zip mapM]. unfold eval1 at 1. cbn [fst snd]. rewrite E. cbn [bind]. rewrite F2. reflexivity.
        * intros (fps & F1 & F2). inv_bind F1. inv_bind F1. inversion F1; subst. cbn [zip mapM] in F2. inv_bind F2. inv_bind F2. inversion F2; subst.
          unfold eval1 in E1. cbn [fst snd] in E1. rewrite E. cbn [bind]. rewrite E1. cbn [bind].
          destruct (IH graph params x2 ltac:(cbn in Hl; lia)) as [_ IH2]. rewrite IH2 by eauto. reflexivity.
  Qed.
  Lemma acr_app root cs cs' g g' p p' : length cs = length g -> length cs = length p ->
    assem_constraint_residual root (cs ++ cs') (g ++ g') (p ++ p') =
    (x <- assem_constraint_residual root cs g p ;; y <- assem_constraint_residual root cs' g' p' ;; Ok (x ++ y)).
  Proof. intros H1 H2. unfold assem_constraint_residual. rewrite zip_app by congruence. rewrite zip_app by (rewrite zip_length; lia). apply mapM_app. Qed.

  Lemma dpre_app {T A} (a b : dict (node T A)) : dpre (a ++ b) = dpre a ++ dpre b.
  Proof. apply flat_map_app. Qed.
  Lemma entries_lengths xs ch kts pts : entries xs ch kts pts -> length (dpre ch) = length (dpre kts) /\ length (dpre ch) = length (dpre pts).
  Proof.
    induction 1 as [|xs ch kts pts c ks ps k kt pt _ [I1 I2] Hk Hp Ha]; [auto|]. rewrite !dpre_app, !app_length.
    destruct (rpk_shape c ks kt ps Ha ltac:(congruence) Hk pt Hp) as [S1 S2]. apply shape_preorder_length in S1, S2.
    unfold dpre at 2 4 6 8. cbn [flat_map snd]. rewrite !app_nil_r. lia.
  Qed.

  Lemma constraint_flat root (c : cons) ks ps kt pt : root_prim_keys c ks = Ok kt -> root_params c ps = Ok pt -> arity_ok c ps ->
    forall prims, mapM (get_child root) ks = Ok prims -> forall outs,
    assem_constraint_residual root (map (@ntype _ _) (preorder c)) (map (@nval _ _) (preorder kt)) (map (@nval _ _) (preorder pt)) = Ok outs
    <-> denote c prims ps = Ok outs.
  Proof.
    intros Hk Hp Ha prims Hpr outs. destruct (rpk_shape c ks kt ps Ha ltac:(congruence) Hk pt Hp) as [S1 S2].
    apply shape_preorder_length in S1 as L1, S2 as L2.
    assert (Hf : Forall2 (looks_up root) ks prims) by (apply mapM_Ok_iff in Hpr; exact Hpr).
    rewrite acr_flat by (rewrite !map_length; lia). rewrite firstn_all2 by (rewrite !map_length; lia). split.
    - intros (fps & F1 & F2). destruct (conv_tree root c ks prims ps kt pt fps outs Hf Ha Hk Hp F1 F2) as (_ & _ & D). exact D.
    - intros D. destruct (eval_tree root c ks prims ps outs Hf D) as (kt' & pt' & fps & K & P & _ & _ & F1 & F2).
      assert (kt' = kt) by congruence. assert (pt' = pt) by congruence. subst. exists fps. auto.
  Qed.

  Lemma entries_residual root xs ch kts pts : entries xs ch kts pts -> forall rs,
    Forall2 (fun x outs => let '(c, ks, ps) := x in exists prims, mapM (get_child root) ks = Ok prims /\ denote c prims ps = Ok outs) xs rs ->
    flat3 root ch kts pts = Ok (List.concat rs).
  Proof.
    induction 1 as [|xs ch kts pts c ks ps k kt pt He IH Hk Hp Ha]; intros rs Hf; [inversion Hf; reflexivity|].
    apply Forall2_app_inv_l in Hf as (r1 & r2 & F1 & F2 & ->). inversion F2 as [|? o ? ? Pd F3]; subst. cbn in Pd. destruct Pd as (prims & P1 & P2). inversion F3; subst.
    destruct (entries_lengths _ _ _ _ He) as [L1 L2]. unfold flat3. rewrite !dpre_app, !map_app, acr_app by (rewrite !map_length; lia).
    fold (flat3 root ch kts pts). rewrite (IH _ F1). cbn [bind]. unfold dpre. cbn [flat_map snd]. rewrite !app_nil_r.
    apply (constraint_flat root c ks ps kt pt Hk Hp Ha prims P1) in P2. rewrite P2. cbn [bind]. rewrite concat_app. cbn [List.concat]. now rewrite app_nil_r.
  Qed.
  Lemma entries_residual_inv root xs ch kts pts : entries xs ch kts pts ->
    Forall (fun x => exists prims, mapM (get_child root) (snd (fst x)) = Ok prims) xs -> forall v,
    flat3 root ch kts pts = Ok v ->
    exists rs, Forall2 (fun x outs => let '(c, ks, ps) := x in exists prims, mapM (get_child root) ks = Ok prims /\ denote c prims ps = Ok outs) xs rs /\ v = List.concat rs.
  Proof.
    induction 1 as [|xs ch kts pts c ks ps k kt pt He IH Hk Hp Ha]; intros Hr v H; [inversion H; exists []; split; [constructor|reflexivity]|].
    apply Forall_app in Hr as [R1 R2]. inversion R2 as [|? ? [prims Hpr] _]; subst. cbn [fst snd] in Hpr.
    destruct (entries_lengths _ _ _ _ He) as [L1 L2]. unfold flat3 in H. rewrite !dpre_app, !map_app, acr_app in H by (rewrite !map_length; lia).
    fold (flat3 root ch kts pts) in H. inv_bind H. inv_bind H. inversion H; subst v. destruct (IH R1 _ E) as (rs & Fr & ->).
    unfold dpre in E0. cbn [flat_map snd] in E0. rewrite !app_nil_r in E0. apply (constraint_flat root c ks ps kt pt Hk Hp Ha prims Hpr) in E0.
    exists (rs ++ [x0]). split; [|rewrite concat_app; cbn; now rewrite app_nil_r]. apply Forall2_app; [assumption|]. constructor; [eauto|constructor].
  Qed.

  Lemma flat3_nonempty root ch kts pts : flat3 root ch kts pts = Ok [] -> dpre kts <> [] -> dpre pts <> [] -> dpre ch = [].
  Proof.
    unfold flat3, assem_constraint_residual. intros H Hk Hp. apply mapM_length in H. rewrite !zip_length, !map_length in H.
    destruct (dpre ch), (dpre kts), (dpre pts); cbn in H; congruence || lia.
  Qed.
  Lemma concat_concat {A} (l : list (list (list A))) : List.concat (List.concat l) = List.concat (map (@List.concat A) l).
  Proof. induction l as [|x l IH]; [reflexivity|]. cbn. rewrite concat_app. now rewrite IH. Qed.

  Lemma residual_values (l : layout) xs root rs : holds l xs -> xs <> [] ->
    Forall (typed_at root) xs ->
    layout_residual l root = Ok rs <-> exists vs, Forall2 (value_at root) xs vs /\ rs = List.concat vs.
  Proof.
    intros Hh Hne Ht. unfold layout_residual. rewrite flat_constraints_dpre. fold (flat3 root (nch (l_cons l)) (nch (l_keys l)) (nch (l_params l))).
    destruct (entries_lengths _ _ _ _ Hh) as [L1 L2].
    assert (Hpos : dpre (nch (l_cons l)) <> []).
    { clear -Hh Hne. unfold holds in Hh. inversion Hh; subst; [congruence|]. rewrite dpre_app. unfold dpre at 2. cbn [flat_map snd]. destruct c. cbn. destruct (dpre ch); discriminate. }
    assert (Harity : Forall (fun x : cons * list string * list pyval => arity_ok (fst (fst x)) (snd x)) xs).
    { clear -Hh. unfold holds in Hh. induction Hh; [constructor|]. apply Forall_app. split; [assumption|]. repeat constructor. assumption. }
    split.
    - intros H. inv_bind H. destruct (entries_residual_inv root xs _ _ _ Hh) with (v := x) as (os & Fr & ->); [|exact E|].
      { eapply Forall_impl; [|exact Ht]. intros [[c ks] ps] (prims & P & _). exists prims. exact P. }
      exists (map (@List.concat _) os). split.
      + clear -Fr Ht. revert Ht. induction Fr as [|[[c ks] ps] o xs os Pd Fr IH]; intros Ht; [constructor|]. inversion Ht as [|? ? Ht0 Ht']; subst. destruct Pd as (prims & P & D). destruct Ht0 as (prims' & P' & V & Nn).
        assert (prims' = prims) by congruence. subst. constructor; [|auto]. exists prims. split; [assumption|]. now apply call_denote.
      + destruct (List.concat os) eqn:Ec; [discriminate|]. rewrite <- Ec in H. inversion H. apply concat_concat.
    - intros (vs & Fr & ->).
      assert (exists os, Forall2 (fun x outs => let '(c, ks, ps) := x in exists prims, mapM (get_child root) ks = Ok prims /\ denote c prims ps = Ok outs) xs os /\ vs = map (@List.concat _) os) as (os & Fo & ->).
      { clear -Fr Ht Harity. revert Ht Harity. induction Fr as [|[[c ks] ps] v xs vs Pd Fr IH]; intros Ht Har; [exists []; split; [constructor|reflexivity]|]. destruct Pd as (prims & P & C).
        inversion Ht as [|? ? Ht0 Ht']; destruct Ht0 as (prims' & P' & V & Nn); inversion Har as [|? ? Hac Har']; subst. assert (prims' = prims) by congruence. subst.
        destruct (IH Ht' Har') as (os & Fo & ->). destruct (denote_call c prims ps v Nn Hac C) as (_ & o & D & ->).
        exists (o :: os). split; [constructor; [exists prims; auto|assumption]|reflexivity]. }
      rewrite (entries_residual root xs _ _ _ Hh os Fo). cbn [bind]. rewrite <- concat_concat.
      destruct (List.concat os) eqn:Ec; [|reflexivity].
      exfalso. pose proof (entries_residual root xs _ _ _ Hh os Fo) as Hz. rewrite Ec in Hz. apply flat3_nonempty in Hz; [contradiction| |].
      + intros Hz'. rewrite Hz' in L1. destruct (dpre (nch (l_cons l))); [congruence|discriminate].
      + intros Hz'. rewrite Hz' in L2. destruct (dpre (nch (l_cons l))); [congruence|discriminate].
  Qed.
End LayoutP.
