(** Adding primitives keeps what is there; residuals of layout histories. *)
From Verif Require Export LayoutProofs UpdateProofs ShippedSpec ConsSpec.

Section Grow.
  Context {T A : Type}.
  Notation node := (node T A).
  (** Every path of [a] exists in [b], with the same class and value. *)
  Definition grows (a b : node) : Prop :=
    forall p m, walk p a = Some m -> exists m', walk p b = Some m' /\ ntype m' = ntype m /\ nval m' = nval m.
  Lemma grows_refl n : grows n n.
  Proof. intros p m H. eauto. Qed.
  Lemma grows_trans a b c : grows a b -> grows b c -> grows a c.
  Proof. intros H1 H2 p m H. destruct (H1 p m H) as (m1 & E1 & T1 & V1). destruct (H2 p m1 E1) as (m2 & E2 & T2 & V2). exists m2. repeat split; congruence. Qed.
  Lemma grows_pupd par k new : forall n : node, walk (par ++ [k]) n = None -> grows n (pupd par (set_key k new) n).
  Proof.
    induction par as [|a par IH]; intros n Hn p m H; cbn [pupd app walk] in *.
    - destruct p as [|q p]; cbn [walk] in *; [inversion H; subst; exists (set_key k new m); split; [reflexivity|]; split; reflexivity|].
      destruct (dget q (nch n)) as [c|] eqn:E; [|discriminate]. unfold set_key. cbn [nch].
      destruct (String.eqb_spec q k) as [->|Hne]; [rewrite E in Hn; discriminate|]. rewrite dget_dset_other by assumption. rewrite E. eauto.
    - destruct (dget a (nch n)) as [c|] eqn:E; [|eauto]. destruct p as [|q p]; cbn [walk nch] in *; [inversion H; subst; eexists; split; [reflexivity|]; split; reflexivity|].
      destruct (String.eqb_spec q a) as [->|Hne].
      + rewrite E in H. rewrite dget_dset_same. now apply IH.
      + rewrite dget_dset_other by assumption. destruct (dget q (nch n)); [eauto|discriminate].
  Qed.
  Lemma grows_add (n : node) key child n' r : add_child n key child = (n', r) -> grows n n'.
  Proof.
    intros H. rewrite (add_child_cases n key _ child (components_total key)) in H. cbv zeta in H.
    destruct (walk (removelast (split_all key)) n) as [par|] eqn:E; [|inversion H; subst; apply grows_refl].
    destruct (walk (split_all key) n) eqn:E2; inversion H; subst; [apply grows_refl|]. apply grows_pupd. rewrite <- split_all_parents. exact E2.
  Qed.
End Grow.

Section GrowLayout.
  Context {F : Type} {N : Num F}.
  Notation prim := (prim F).
  Notation pyval := (pyval F).
  Notation cons := (cons F).
  Notation layout := (layout F).

  Lemma grows_prims (d : dict prim) : forall (l l' : layout) r, add_prims l d = (l', r) -> grows (l_prim l) (l_prim l').
  Proof.
    induction d as [|[k p] d IH]; intros l l' r H; cbn [add_prims] in H; [inversion H; apply grows_refl|].
    destruct (add_prim l p k) as [l1 r1] eqn:E. apply add_prim_trees in E as (_ & _ & _ & E). apply grows_add in E.
    destruct r1; [apply IH in H; eapply grows_trans; eassumption|]. inversion H; subst. exact E.
  Qed.
  Lemma add_constraint_prim (l : layout) c ks ps key l' r : add_constraint l c ks ps key = (l', r) -> l_prim l' = l_prim l.
  Proof.
    unfold add_constraint. intros H.
    assert (G : forall l0 k l' r, insert_constraint l0 c ks ps k = (l', r) -> l_prim l' = l_prim l0).
    { clear. intros l0 k l' r H. unfold insert_constraint in H. destruct (add_child (l_cons l0) k c) as [t [|]]; [|inversion H; reflexivity].
      destruct (root_prim_keys c ks) as [kt|]; [|inversion H; reflexivity]. destruct (add_child (l_keys (set_cons l0 t)) k kt) as [t2 [|]]; [|inversion H; reflexivity].
      destruct (root_params c ps) as [pt|]; [|inversion H; reflexivity]. destruct (add_child _ k pt) as [t3 ?]. inversion H; reflexivity. }
    destruct (String.eqb key "").
    - destruct (gen_key l c) as [cnt [k|e]]; [|inversion H; reflexivity]. destruct (validate_inputs (set_counter l cnt) c ks ps); [|inversion H; reflexivity].
      now apply G in H.
    - destruct (validate_inputs l c ks ps); [|inversion H; reflexivity]. now apply G in H.
  Qed.
  Lemma grows_act (l : layout) a l' r : act l a = (l', r) -> grows (l_prim l) (l_prim l').
  Proof.
    destruct a as [p key|d|c ks ps key]; cbn [act]; intros H.
    - apply add_prim_trees in H as (_ & _ & _ & H). eapply grows_add, H.
    - eapply grows_prims, H.
    - rewrite (add_constraint_prim _ _ _ _ _ _ _ H). apply grows_refl.
  Qed.
  Lemma grows_runs (l l' : layout) acts : runs l acts l' -> grows (l_prim l) (l_prim l').
  Proof. induction 1 as [|l a l' acts l'' H _ IH]; [apply grows_refl|]. eapply grows_trans; [eapply grows_act, H|exact IH]. Qed.

  (** The constraint does not accept arbitrary nodes. *)
  Definition classes (a : action F) : Prop :=
    match a with AddConstraint c _ _ _ => Forall (fun t => t <> TNode) (prim_types (csig (nval c))) | _ => True end.

  Lemma issubclass_node t u : issubclass t u = true -> u <> TNode -> t <> TNode.
  Proof. destruct t, u; cbn; congruence. Qed.
  Lemma typed_grows (a b : prim) x : grows a b -> typed_at a x -> typed_at b x.
  Proof.
    intros Hg. destruct x as [[c ks] ps]. intros (prims & Hp & [V1 V2] & Hn).
    assert (Hq : exists qs, mapM (get_child b) ks = Ok qs /\ Forall2 (fun p q => ntype q = ntype p) prims qs).
    { clear V1 V2 Hn. revert prims Hp. induction ks as [|k ks IH]; intros prims Hp; cbn [mapM] in *; [inversion Hp; exists []; split; [reflexivity|constructor]|].
      inv_bind Hp. inv_bind Hp. inversion Hp; subst. destruct (IH _ E0) as (qs & Eq & Fq).
      rewrite (lookup_walks a k _ (components_total k)) in E. destruct (walk (split_all k) a) as [m|] eqn:Ew; [|discriminate]. inversion E; subst.
      destruct (Hg _ _ Ew) as (m' & Em & Tm & _). rewrite (lookup_walks b k _ (components_total k)), Em. cbn [bind]. rewrite Eq. eexists. split; [reflexivity|]. constructor; assumption. }
    destruct Hq as (qs & Eq & Fq). exists qs. split; [exact Eq|]. split; [split; [|exact V2]|].
    - clear -V1 Fq. revert V1. generalize (prim_types (csig (nval c))). induction Fq as [|p q prims qs H _ IH]; intros ts V; inversion V; subst; constructor; [congruence|auto].
    - clear -Hn Fq. induction Fq as [|p q prims qs H _ IH]; inversion Hn; subst; constructor; [congruence|auto].
  Qed.
  Lemma typed_act (l : layout) c ks ps key l' : act l (AddConstraint c ks ps key) = (l', Ok tt) -> classes (AddConstraint c ks ps key) ->
    typed_at (l_prim l) (c, ks, ps).
  Proof.
    cbn [act classes]. unfold add_constraint. intros H Hc.
    assert (G : validate_inputs l c ks ps = Ok tt).
    { destruct (String.eqb key "").
      - destruct (gen_key l c) as [cnt [k|e]]; [|discriminate]. change (validate_inputs (set_counter l cnt) c ks ps) with (validate_inputs l c ks ps) in H.
        destruct (validate_inputs l c ks ps) as [[]|]; [reflexivity|discriminate].
      - destruct (validate_inputs l c ks ps) as [[]|]; [reflexivity|discriminate]. }
    apply validate_inputs_ok in G as (prims & Hp & V). exists prims. split; [exact Hp|]. split; [exact V|]. destruct V as [V _].
    revert V Hc. generalize (prim_types (csig (nval c))). clear. induction prims as [|p prims IH]; intros ts V Hc; inversion V; subst; constructor; inversion Hc; subst.
    - eapply issubclass_node; eassumption.
    - eapply IH; eassumption.
  Qed.
  Lemma typed_runs (l l' : layout) acts : runs l acts l' -> Forall classes acts -> Forall (typed_at (l_prim l')) (added acts).
  Proof.
    induction 1 as [|l a l' acts l'' H Hr IH]; intros Hc; [constructor|]. inversion Hc; subst. cbn [added flat_map]. apply Forall_app. split; [|auto].
    destruct a as [p key|d|c ks ps key]; try constructor; [|constructor].
    eapply typed_grows; [|eapply typed_act; eassumption]. eapply grows_trans; [eapply grows_act, H|eapply grows_runs, Hr].
  Qed.
End GrowLayout.
