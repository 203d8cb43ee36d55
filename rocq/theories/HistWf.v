(** Well-formedness of a layout's trees through any history. *)
From Verif Require Export LayoutProofs.

Definition sane {T A} (n : node T A) : Prop := wf n /\ slashfree n.
Section Trees.
  Context {T A : Type}.
  Implicit Types (n c : node T A).
  Lemma sane_unfold t (v : A) ch : sane (T:=T) (Node t v ch) <->
    NoDup (map fst ch) /\ Forall (fun kc => noslash (fst kc) = true /\ sane (snd kc)) ch.
  Proof.
    unfold sane. split.
    - intros [H1 H2]. inversion H1; inversion H2; subst. split; [assumption|]. rewrite Forall_forall in *. intros x Hx. auto.
    - intros [H1 H2]. split; constructor; auto; eapply Forall_impl; [|exact H2| |exact H2| |exact H2]; cbn; tauto.
  Qed.
  Lemma dset_sane k (x : node T A) ch : NoDup (map fst ch) -> Forall (fun kc => noslash (fst kc) = true /\ sane (snd kc)) ch ->
    noslash k = true -> sane x -> NoDup (map fst (dset k x ch)) /\ Forall (fun kc => noslash (fst kc) = true /\ sane (snd kc)) (dset k x ch).
  Proof.
    intros H1 H2 Hk Hx. induction ch as [|[k' c] ch IH]; cbn [dset].
    - cbn. split; [constructor; [intros []|constructor]|]. constructor; [cbn; auto|constructor].
    - inversion H1; inversion H2; subst. destruct (String.eqb_spec k k') as [->|Hn]; cbn [map fst].
      + split; [assumption|]. constructor; auto.
      + destruct IH as [I1 I2]; auto. split; [|constructor; auto]. cbn. constructor; [|exact I1].
        intros Hin. apply in_map_iff in Hin as ([k2 c2] & E & Hin). cbn in E. subst k2.
        assert (In (k', c2) ch \/ k' = k) as [H|H]; [|apply H3; apply in_map_iff; now exists (k', c2)|congruence].
        clear - Hin. induction ch as [|[a b] ch IH]; cbn [dset] in Hin; [destruct Hin as [E|[]]; injection E as -> ->; now right|].
        destruct (String.eqb k a) eqn:E; cbn in Hin; destruct Hin as [E1|Hin]; auto; try (injection E1 as -> ->).
        * right. symmetry. now apply String.eqb_eq.
        * left. now right.
        * left. now left.
        * destruct (IH Hin); auto. left. now right.
  Qed.
  Lemma pupd_sane p f n : sane n -> (forall c, sane c -> sane (f c)) -> sane (pupd p f n).
  Proof.
    revert n. induction p as [|k p IH]; intros n Hn Hf; [now apply Hf|]. cbn [pupd]. destruct (dget k (nch n)) as [c|] eqn:E; [|assumption].
    destruct n as [t v ch]. cbn [nch ntype nval] in *. rewrite sane_unfold in Hn. destruct Hn as [H1 H2]. apply dget_In in E.
    rewrite Forall_forall in H2. destruct (H2 _ E) as [Hk Hc]. rewrite <- Forall_forall in H2. rewrite sane_unfold. apply dset_sane; auto.
  Qed.
  Lemma set_key_sane k x n : noslash k = true -> sane x -> sane n -> sane (set_key k x n).
  Proof. intros Hk Hx Hn. destruct n as [t v ch]. rewrite sane_unfold in Hn. destruct Hn. unfold set_key. cbn [ntype nval nch]. rewrite sane_unfold. now apply dset_sane. Qed.
  Lemma add_child_sane n key x : sane n -> sane x -> sane (fst (add_child n key x)).
  Proof.
    intros Hn Hx. rewrite (add_child_cases _ _ _ _ (components_total key)). cbv zeta.
    destruct (walk _ n); [|assumption]. destruct (walk _ n); [assumption|]. cbn [fst]. apply pupd_sane; [assumption|]. intros c Hc. apply set_key_sane; auto.
    destruct (components_total key) as (Hne & Hf & _). rewrite Forall_forall in Hf. apply Hf.
    destruct (exists_last Hne) as (l' & a & E). rewrite E, last_last. apply in_or_app. right. now left.
  Qed.
  (** Every value held by the new tree was held before or comes with the child. *)
  Lemma walk_values n : forall p c, walk p n = Some c -> In c (preorder n).
  Proof.
    induction n as [t v ch IH] using node_ind'. intros [|k p] c H; cbn [walk] in H; [injection H as <-; now left|]. cbn [nch] in H.
    destruct (dget k ch) as [d|] eqn:E; [|discriminate]. apply dget_In in E. rewrite Forall_forall in IH. specialize (IH _ E p c H). cbn [snd] in IH.
    cbn [preorder]. right. apply in_flat_map. eexists. split; [exact E|exact IH].
  Qed.
  Definition held n : list A := map (@nval _ _) (preorder n).
  Lemma held_unfold t (v : A) ch : held (Node t v ch) = v :: flat_map (fun kc => held (snd kc)) ch.
  Proof. unfold held. cbn [preorder map nval]. f_equal. induction ch as [|x ch IH]; [reflexivity|]. cbn [flat_map]. now rewrite map_app, IH. Qed.
  Lemma dset_held k (x : node T A) ch w : In w (flat_map (fun kc => held (snd kc)) (dset k x ch)) ->
    In w (held x) \/ In w (flat_map (fun kc => held (snd kc)) ch).
  Proof.
    induction ch as [|[k' c] ch IH]; cbn [dset]; [cbn; rewrite app_nil_r; now left|].
    destruct (String.eqb k k'); cbn [flat_map snd]; rewrite !in_app_iff; intros [H|H]; auto. destruct (IH H); auto.
  Qed.
  Lemma pupd_held p f n P : (forall c w, In w (held (f c)) -> In w (held c) \/ P w) -> forall w, In w (held (pupd p f n)) -> In w (held n) \/ P w.
  Proof.
    intros Hf. revert n. induction p as [|k p IH]; intros n w Hw; [now apply Hf|]. cbn [pupd] in Hw. destruct (dget k (nch n)) as [c|] eqn:E; [|now left].
    destruct n as [t v ch]. cbn [nch ntype nval] in *. rewrite held_unfold in *. destruct Hw as [Hw|Hw]; [left; now left|]. apply dset_held in Hw as [Hw|Hw]; [|left; now right].
    destruct (IH _ _ Hw) as [H|H]; [|now right]. left. right. apply in_flat_map. apply dget_In in E. eexists. split; [exact E|exact H].
  Qed.
  Lemma add_child_held n key x w : In w (held (fst (add_child n key x))) -> In w (held n) \/ In w (held x).
  Proof.
    rewrite (add_child_cases _ _ _ _ (components_total key)). cbv zeta.
    destruct (walk _ n); [|auto]. destruct (walk _ n); [auto|]. cbn [fst]. apply (pupd_held _ _ _ (fun w => In w (held x))).
    intros [t v ch] u. unfold set_key. cbn [ntype nval nch]. rewrite !held_unfold. intros [H|H]; [left; now left|]. apply dset_held in H as [H|H]; [now right|left; now right].
  Qed.
End Trees.

Section Layouts.
  Context {F : Type} {N : Num F}.
  Notation prim := (prim F).
  Notation pyval := (pyval F).
  Notation cons := (cons F).
  Notation layout := (layout F).

  Lemma keys_sane (c : cons) : sane c -> forall ks kt, root_prim_keys c ks = Ok kt -> sane kt.
  Proof.
    induction c as [t v ch IH] using node_ind'. intros Hc ks kt H. rewrite root_prim_keys_unfold in H. inv_bind H. inv_bind H. injection H as <-.
    apply sane_unfold in Hc as [Hn Hf]. apply sane_unfold. clear E. revert x x0 E0.
    assert (G : forall kss kts, rpks ch kss = Ok kts -> (forall k, In k (map fst kts) -> In k (map fst ch)) /\ NoDup (map fst kts) /\ Forall (fun kc => noslash (fst kc) = true /\ sane (snd kc)) kts).
    { induction ch as [|[k c] ch IHch]; intros kss kts H; cbn [rpks] in H; [injection H as <-; repeat split; auto; constructor|].
      destruct kss as [|ck kss]; [injection H as <-; repeat split; try constructor; contradiction|].
      inv_bind H. inv_bind H. injection H as <-. apply Forall_cons_iff in IH as [IH1 IH2]. cbn [map fst] in Hn. apply NoDup_cons_iff in Hn as [Hn1 Hn2]. apply Forall_cons_iff in Hf as [Hf1 Hf2]. destruct (IHch IH2 Hn2 Hf2 _ _ E0) as (G1 & G2 & G3).
      cbn [map fst]. split; [|split].
      - intros y [->|Hy]; [now left|right; now apply G1].
      - constructor; [|exact G2]. intros Hin. apply G1 in Hin. now apply Hn1.
      - constructor; [|exact G3]. cbn [fst snd] in *. split; [tauto|]. eapply IH1; [apply Hf1|exact E]. }
    intros kss kts H. apply G in H. tauto.
  Qed.
  Lemma params_sane (c : cons) : sane c -> forall ps pt, root_params c ps = Ok pt -> sane pt.
  Proof.
    induction c as [t v ch IH] using node_ind'. intros Hc ks kt H. rewrite root_params_unfold in H. inv_bind H. inv_bind H. injection H as <-.
    apply sane_unfold in Hc as [Hn Hf]. apply sane_unfold. clear E. revert x x0 E0.
    assert (G : forall kss kts, rps ch kss = Ok kts -> (forall k, In k (map fst kts) -> In k (map fst ch)) /\ NoDup (map fst kts) /\ Forall (fun kc => noslash (fst kc) = true /\ sane (snd kc)) kts).
    { induction ch as [|[k c] ch IHch]; intros kss kts H; cbn [rps] in H; [injection H as <-; repeat split; auto; constructor|].
      destruct kss as [|ck kss]; [injection H as <-; repeat split; try constructor; contradiction|].
      inv_bind H. inv_bind H. injection H as <-. apply Forall_cons_iff in IH as [IH1 IH2]. cbn [map fst] in Hn. apply NoDup_cons_iff in Hn as [Hn1 Hn2]. apply Forall_cons_iff in Hf as [Hf1 Hf2]. destruct (IHch IH2 Hn2 Hf2 _ _ E0) as (G1 & G2 & G3).
      cbn [map fst]. split; [|split].
      - intros y [->|Hy]; [now left|right; now apply G1].
      - constructor; [|exact G2]. intros Hin. apply G1 in Hin. now apply Hn1.
      - constructor; [|exact G3]. cbn [fst snd] in *. split; [tauto|]. eapply IH1; [apply Hf1|exact E]. }
    intros kss kts H. apply G in H. tauto.
  Qed.

  Definition sane_layout (l : layout) : Prop := sane (l_prim l) /\ sane (l_cons l) /\ sane (l_keys l) /\ sane (l_params l).
  (** The primitives and constraints handed in. *)
  Definition given_prims (a : action F) : list prim :=
    match a with AddPrim p _ => [p] | AddPrims d => map snd d | AddConstraint _ _ _ _ => [] end.
  Definition given_cons (a : action F) : list cons := match a with AddConstraint c _ _ _ => [c] | _ => [] end.

  Lemma empty_sane rid : sane_layout (empty_layout rid).
  Proof. repeat split; repeat constructor. Qed.
  Lemma add_prim_sane (l : layout) p key : sane_layout l -> sane p -> sane_layout (fst (add_prim l p key)).
  Proof.
    intros (H1 & H2) Hp. unfold add_prim. pose proof (add_child_sane (l_prim l) key p H1 Hp). destruct (add_child _ _ _) as [t r]. split; [exact H|exact H2].
  Qed.
  Lemma act_sane (l : layout) a : sane_layout l -> Forall sane (given_prims a) -> Forall sane (given_cons a) -> sane_layout (fst (act l a)).
  Proof.
    intros Hl Hp Hc. destruct a as [p k|d|c ks ps k]; cbn [act given_prims given_cons] in *.
    - inversion Hp; subst. now apply add_prim_sane.
    - clear Hc. revert l Hl. induction d as [|[k p] d IH]; intros l Hl; [exact Hl|]. cbn [map snd] in Hp. inversion Hp; subst. cbn [add_prims].
      pose proof (add_prim_sane l p k Hl ltac:(assumption)) as G. destruct (add_prim l p k) as [l' [u|e]]; [|exact G]. now apply IH.
    - inversion Hc as [|? ? Hs _]; subst. clear Hp Hc. unfold add_constraint.
      assert (Hk : forall cnt, sane_layout (set_counter l cnt)) by (intros; exact Hl).
      assert (Hins : forall l key, sane_layout l -> sane_layout (fst (insert_constraint l c ks ps key))).
      { clear l Hl Hk. intros l key (H1 & H2 & H3 & H4). unfold insert_constraint.
        pose proof (add_child_sane (l_cons l) key c H2 Hs) as G2. destruct (add_child (l_cons l) key c) as [t2 [u|e]]; [|repeat split; (apply H1 || apply G2 || apply H3 || apply H4)].
        cbn [fst] in G2. destruct (root_prim_keys c ks) as [kt|e] eqn:Ek; [|repeat split; (apply H1 || apply G2 || apply H3 || apply H4)].
        pose proof (add_child_sane (l_keys l) key kt H3 (keys_sane c Hs _ _ Ek)) as G3. cbn [set_cons l_keys].
        destruct (add_child (l_keys l) key kt) as [t3 [u'|e]]; [|repeat split; (apply H1 || apply G2 || apply G3 || apply H4)]. cbn [fst] in G3.
        destruct (root_params c ps) as [pt|e] eqn:Ep; [|repeat split; (apply H1 || apply G2 || apply G3 || apply H4)].
        pose proof (add_child_sane (l_params l) key pt H4 (params_sane c Hs _ _ Ep)) as G4. cbn [set_cons set_keys l_params].
        destruct (add_child (l_params l) key pt) as [t4 r]. cbn [fst] in *. repeat split; (apply H1 || apply G2 || apply G3 || apply G4). }
      destruct (String.eqb k EmptyString); [destruct (gen_key l c) as [cnt [key|e]]; [|apply Hk]|].
      + destruct (validate_inputs _ _ _ _); [apply Hins, Hk|apply Hk].
      + destruct (validate_inputs _ _ _ _); [apply Hins, Hl|apply Hl].
  Qed.
  Lemma after_sane acts : forall l : layout, sane_layout l -> Forall (fun a => Forall sane (given_prims a) /\ Forall sane (given_cons a)) acts -> sane_layout (after l acts).
  Proof.
    induction acts as [|a acts IH]; intros l Hl Ha; [exact Hl|]. inversion Ha as [|? ? [H1 H2] H3]; subst. cbn [after fold_left]. apply IH; [|assumption]. now apply act_sane.
  Qed.
  (** Primitive values of the layout all come from primitives handed in. *)
  Lemma act_held (l : layout) a w : In w (held (l_prim (fst (act l a)))) -> In w (held (l_prim l)) \/ exists p, In p (given_prims a) /\ In w (held p).
  Proof.
    assert (P : forall (l : layout) p k, In w (held (l_prim (fst (add_prim l p k)))) -> In w (held (l_prim l)) \/ In w (held p)).
    { clear. intros l p k. unfold add_prim. pose proof (add_child_held (l_prim l) k p w). destruct (add_child _ _ _). exact H. }
    destruct a as [p k|d|c ks ps k]; cbn [act given_prims].
    - intros H. apply P in H as [H|H]; auto. right. exists p. split; [now left|exact H].
    - revert l. induction d as [|[k p] d IH]; intros l H; [now left|]. cbn [add_prims] in H. specialize (P l p k). destruct (add_prim l p k) as [l' [u|e]].
      + apply IH in H as [H|(q & Hq & H)]; [|right; exists q; split; [now right|exact H]]. apply P in H as [H|H]; auto. right. exists p. split; [now left|exact H].
      + apply P in H as [H|H]; auto. right. exists p. split; [now left|exact H].
    - intros H. left. replace (l_prim l) with (l_prim (fst (add_constraint l c ks ps k))); [exact H|]. clear H. unfold add_constraint, insert_constraint.
      destruct (String.eqb k EmptyString); [destruct (gen_key l c) as [cnt [key|e]]; [|reflexivity]|];
      repeat match goal with |- context [match ?x with _ => _ end] => destruct x; try reflexivity end.
  Qed.
  Lemma after_held acts : forall (l : layout) w, In w (held (l_prim (after l acts))) -> In w (held (l_prim l)) \/ exists a p, In a acts /\ In p (given_prims a) /\ In w (held p).
  Proof.
    induction acts as [|a acts IH]; intros l w H; [now left|]. cbn [after fold_left] in H. apply IH in H as [H|(b & p & Hb & Hp)]; [|right; exists b, p; split; [now right|exact Hp]].
    apply act_held in H as [H|(p & Hp & H)]; auto. right. exists a, p. repeat split; auto. now left.
  Qed.
End Layouts.
