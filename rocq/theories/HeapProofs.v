(** Lemmas about trees of objects (proofs only). *)
From Verif Require Export HeapSpec NodeProofs.

Section HP.
  Context {T A : Type}.
  Notation nd := (node T A).
  Implicit Types (h : heap T A) (t : nd).

  Lemma shows_inv h r t : shows h r t -> exists o, nth_error h r = Some o /\
    ntype t = otype o /\ nval t = oval o /\
    Forall2 (fun kr kc => fst kr = fst kc /\ shows h (snd kr) (snd kc)) (och o) (nch t).
  Proof. intros H. inversion H as [r' o ch E F]; subst. exists o. cbn. auto. Qed.
  Lemma shows_intro h r o ch : nth_error h r = Some o ->
    Forall2 (fun kr kc => fst kr = fst kc /\ shows h (snd kr) (snd kc)) (och o) ch ->
    shows h r (Node (otype o) (oval o) ch).
  Proof. apply shows_node. Qed.

  Lemma dget_F2 {V W} (R : V -> W -> Prop) k (d : dict V) (e : dict W) :
    Forall2 (fun kr kc => fst kr = fst kc /\ R (snd kr) (snd kc)) d e ->
    match dget k d, dget k e with
    | Some x, Some y => R x y
    | None, None => True
    | _, _ => False
    end.
  Proof.
    induction 1 as [|[k1 x] [k2 y] d e [E HR] _ IH]; cbn in *; [exact I|]. subst k2.
    destruct (String.eqb k k1); auto.
  Qed.
  Lemma dmem_F2 {V W} (R : V -> W -> Prop) k (d : dict V) (e : dict W) :
    Forall2 (fun kr kc => fst kr = fst kc /\ R (snd kr) (snd kc)) d e -> dmem k d = dmem k e.
  Proof.
    intros H. apply (dget_F2 R k) in H. unfold dmem.
    destruct (dget k d), (dget k e); tauto || reflexivity.
  Qed.
  Lemma dkeys_F2 {V W} (R : V -> W -> Prop) (d : dict V) (e : dict W) :
    Forall2 (fun kr kc => fst kr = fst kc /\ R (snd kr) (snd kc)) d e -> map fst d = map fst e.
  Proof. induction 1 as [|x y d e [E _] _ IH]; cbn; [reflexivity|]. now rewrite E, IH. Qed.
  Lemma dset_F2 {V W} (R : V -> W -> Prop) k x y (d : dict V) (e : dict W) : R x y ->
    Forall2 (fun kr kc => fst kr = fst kc /\ R (snd kr) (snd kc)) d e ->
    Forall2 (fun kr kc => fst kr = fst kc /\ R (snd kr) (snd kc)) (dset k x d) (dset k y e).
  Proof.
    intros Hxy. induction 1 as [|[k1 a] [k2 b] d e [E HR] F IH]; cbn in *.
    - repeat constructor; auto.
    - subst k2. destruct (String.eqb k k1); constructor; cbn; auto.
  Qed.
  Lemma dset_F2_other {V W} (R R' : V -> W -> Prop) k x y (d : dict V) (e : dict W) : R' x y ->
    NoDup (map fst d) ->
    (forall k' a b, k' <> k -> dget k' d = Some a -> R a b -> R' a b) ->
    Forall2 (fun kr kc => fst kr = fst kc /\ R (snd kr) (snd kc)) d e ->
    Forall2 (fun kr kc => fst kr = fst kc /\ R' (snd kr) (snd kc)) (dset k x d) (dset k y e).
  Proof.
    intros Hxy Hnd HR F. revert Hnd HR. induction F as [|[k1 a] [k2 b] d e [E Hab] F IH]; cbn in *; intros Hnd HR.
    - repeat constructor; auto.
    - subst k2. inversion Hnd as [|? ? Hni Hnd']; subst.
      destruct (String.eqb_spec k k1) as [->|Hk].
      + constructor; [now split|]. clear IH.
        assert (Ho : forall k' v, In (k', v) d -> k' <> k1).
        { intros k' v Hin ->. apply Hni. now apply (in_map fst) in Hin. }
        assert (HR' : forall k' a0 b0, In (k', a0) d -> R a0 b0 -> R' a0 b0).
        { intros k' a0 b0 Hin. apply (HR k'); [now apply Ho with a0|].
          destruct (String.eqb_spec k' k1); [exfalso; eapply Ho; eassumption|]. now apply In_dget. }
        clear -F HR'. induction F as [|[k3 a] [k4 b] d e [E Hab] F IH]; constructor; cbn in *.
        * split; [assumption|]. apply (HR' k3); auto.
        * apply IH. intros; eapply HR'; eauto.
      + constructor; cbn.
        * split; [reflexivity|]. apply (HR k1); auto. now rewrite String.eqb_refl.
        * apply IH; [assumption|]. intros k' a0 b0 Hk' Hd. apply (HR k'); [assumption|].
          destruct (String.eqb_spec k' k1) as [->|]; [|assumption].
          exfalso. apply Hni. apply dget_In in Hd. now apply (in_map fst) in Hd.
  Qed.

  Lemma shows_det h r t : shows h r t -> forall t', shows h r t' -> t = t'.
  Proof.
    revert r. induction t as [ty v ch IH] using node_ind'. intros r H t' H'.
    apply shows_inv in H as (o & E & Ht & Hv & F). apply shows_inv in H' as (o' & E' & Ht' & Hv' & F').
    rewrite E in E'. injection E' as <-. destruct t' as [ty' v' ch']. cbn in *. subst. f_equal.
    clear E. revert ch' F'. revert IH. generalize dependent ch. generalize (och o). intros d ch F.
    induction F as [|kr kc d ch [Ek Hs] F IHF]; intros IH ch' F'.
    - now inversion F'.
    - inversion F' as [|? kc' ? ch2 [Ek' Hs'] F2]; subst. inversion IH; subst. f_equal; [|now apply IHF].
      destruct kc, kc'; cbn in *. f_equal; [congruence|]. eauto.
  Qed.

  Lemma hwalk_shows h p : forall r t, shows h r t ->
    match hwalk h p r, walk p t with
    | Some x, Some c => shows h x c
    | None, None => True
    | _, _ => False
    end.
  Proof.
    induction p as [|k p IH]; intros r t H; cbn; [exact H|].
    apply shows_inv in H as (o & E & _ & _ & F). rewrite E. apply (dget_F2 _ k) in F.
    destruct (dget k (och o)) as [x|], (dget k (nch t)) as [c|]; try contradiction; [now apply IH|exact I].
  Qed.
  Lemma hwalk_app h p q r : hwalk h (p ++ q) r = match hwalk h p r with Some x => hwalk h q x | None => None end.
  Proof.
    revert r. induction p as [|k p IH]; intros r; cbn; [reflexivity|].
    destruct (nth_error h r) as [o|]; [|reflexivity]. destruct (dget k (och o)); auto.
  Qed.

  Lemma hget_child_f_walk h fuel r t key : String.length key < fuel -> shows h r t ->
    hget_child_f fuel h r key = match hwalk h (split_all key) r with
                                | Some c => Ok c
                                | None => Err (KeyError key)
                                end.
  Proof.
    revert r t key. induction fuel as [|f IH]; intros r t key Hf Hs; [lia|].
    apply shows_inv in Hs as (o & E & _ & _ & F).
    cbn [hget_child_f]. unfold deref, look. rewrite E. cbn [bind].
    destruct (split1 key) as [p [s|]] eqn:Es.
    - pose proof (split1_Some_length _ _ _ Es) as Hl.
      apply split1_Some in Es as (Hk & _ & Hsp). rewrite Hsp. cbn [hwalk]. rewrite E.
      apply (dget_F2 _ p) in F. destruct (dget p (och o)) as [c|], (dget p (nch t)) as [tc|]; try contradiction; [|reflexivity].
      rewrite (IH c tc) by (assumption || lia). destruct (hwalk h (split_all s) c); reflexivity.
    - apply split1_None in Es as (-> & _ & Hsp). rewrite Hsp. cbn [hwalk]. rewrite E.
      destruct (dget p (och o)); reflexivity.
  Qed.
  Lemma hget_child_walk h r t key : shows h r t ->
    hget_child h r key = match hwalk h (split_all key) r with
                         | Some c => Ok c
                         | None => Err (KeyError key)
                         end.
  Proof. apply hget_child_f_walk. lia. Qed.
  Lemma hget_child_shows h r t key : shows h r t ->
    match get_child t key with
    | Ok c => exists x, hget_child h r key = Ok x /\ shows h x c
    | Err e => hget_child h r key = Err e
    end.
  Proof.
    intros Hs. rewrite get_child_walk, (hget_child_walk _ _ _ _ Hs).
    pose proof (hwalk_shows h (split_all key) r t Hs) as H.
    destruct (walk (split_all key) t), (hwalk h (split_all key) r); try contradiction; eauto.
  Qed.

  Lemma hcontains_f_same h fuel : forall r t key, shows h r t ->
    hcontains_f fuel h r key = contains_f fuel t key.
  Proof.
    induction fuel as [|f IH]; intros r t key Hs; [reflexivity|].
    cbn [hcontains_f contains_f]. pose proof (shows_inv _ _ _ Hs) as (o & E & _ & _ & F).
    unfold deref, look. rewrite E. cbn [bind].
    destruct (split1 key) as [p s]. destruct (String.eqb _ _).
    - f_equal. now apply (dmem_F2 (shows h)).
    - pose proof (hget_child_shows h r t p Hs) as G. destruct (get_child t p) as [c|e].
      + destruct G as (x & -> & Hx). now apply IH.
      + now rewrite G.
  Qed.
  Lemma hcontains_same h r t key : shows h r t -> hcontains h r key = contains t key.
  Proof. apply hcontains_f_same. Qed.

  (** ** Changing one object *)
  Lemma put_length h r o : length (put h r o) = length h.
  Proof. revert r. induction h as [|x h IH]; intros [|r]; cbn; auto. Qed.
  Lemma put_same h r o : r < length h -> nth_error (put h r o) r = Some o.
  Proof. revert r. induction h as [|x h IH]; intros [|r] H; cbn in *; [lia|lia|reflexivity|apply IH; lia]. Qed.
  Lemma put_other h r o x : x <> r -> nth_error (put h r o) x = nth_error h x.
  Proof.
    revert r x. induction h as [|y h IH]; intros [|r] [|x] H; cbn; try reflexivity; [congruence|].
    apply IH. congruence.
  Qed.
  Lemma put_child_only h p k c o : nth_error h p = Some o ->
    only_children_of h (put_child h p k c) p (dset k c (och o)).
  Proof.
    intros E. unfold put_child, look. rewrite E. split; [apply put_length|]. split.
    - intros x Hx. now apply put_other.
    - exists o. split; [exact E|]. apply put_same. apply nth_error_Some. congruence.
  Qed.

  (** [hadd_child] by paths. *)
  Lemma hadd_child_f_spec h fuel r t key child : String.length key < fuel -> shows h r t ->
    let path := split_all key in let parents := removelast path in let k := last path EmptyString in
    hadd_child_f fuel h r key child =
      match hwalk h parents r with
      | None => (h, Err (KeyError key))
      | Some p => match nth_error h p with
                  | None => (h, Err OutOfFuel)
                  | Some o => if dmem k (och o) then (h, Err (KeyError key))
                              else (put_child h p k child, Ok tt)
                  end
      end.
  Proof.
    revert r t key. induction fuel as [|f IH]; intros r t key Hf Hs; [lia|].
    apply shows_inv in Hs as (o & E & _ & _ & F).
    cbn [hadd_child_f]. unfold deref, look. rewrite E.
    destruct (split1 key) as [p [s|]] eqn:Es; cbv zeta.
    - pose proof (split1_Some_length _ _ _ Es) as Hl.
      apply split1_Some in Es as (_ & _ & Hsp). rewrite Hsp.
      assert (Hr : removelast (p :: split_all s) = p :: removelast (split_all s)).
      { cbn. destruct (split_all s) eqn:Er; [now destruct (split_all_nonempty s)|reflexivity]. }
      assert (Hla : last (p :: split_all s) EmptyString = last (split_all s) EmptyString).
      { cbn. destruct (split_all s) eqn:Er; [now destruct (split_all_nonempty s)|reflexivity]. }
      rewrite Hr, Hla. cbn [hwalk]. rewrite E. apply (dget_F2 _ p) in F.
      destruct (dget p (och o)) as [c|], (dget p (nch t)) as [tc|]; try contradiction; [|reflexivity].
      pose proof (IH c tc s ltac:(lia) F) as IH'. cbv zeta in IH'. rewrite IH'.
      pose proof (hwalk_shows h (removelast (split_all s)) c tc F) as W.
      destruct (hwalk h (removelast (split_all s)) c) as [x|]; [|reflexivity].
      destruct (walk (removelast (split_all s)) tc) as [tx|]; [|contradiction].
      apply shows_inv in W as (ox & -> & _). destruct (dmem _ _); reflexivity.
    - apply split1_None in Es as (-> & _ & Hsp). rewrite Hsp. cbn [removelast last hwalk]. rewrite E.
      reflexivity.
  Qed.
  Lemma hadd_child_spec h r t key child : shows h r t ->
    let path := split_all key in let parents := removelast path in let k := last path EmptyString in
    hadd_child h r key child =
      match hwalk h parents r with
      | None => (h, Err (KeyError key))
      | Some p => match nth_error h p with
                  | None => (h, Err OutOfFuel)
                  | Some o => if dmem k (och o) then (h, Err (KeyError key))
                              else (put_child h p k child, Ok tt)
                  end
      end.
  Proof. apply hadd_child_f_spec. lia. Qed.

  (** ** What other holders see *)
  Lemma holds_child h r o k c x : nth_error h r = Some o -> dget k (och o) = Some c ->
    holds h c x -> holds h r x.
  Proof. intros E D [p Hp]. exists (k :: p). cbn. now rewrite E, D. Qed.

  Lemma F2_dget_l {V W} (R R' : V -> W -> Prop) (d : dict V) (e : dict W) : NoDup (map fst d) ->
    (forall k a b, dget k d = Some a -> In (k, b) e -> R a b -> R' a b) ->
    Forall2 (fun kr kc => fst kr = fst kc /\ R (snd kr) (snd kc)) d e ->
    Forall2 (fun kr kc => fst kr = fst kc /\ R' (snd kr) (snd kc)) d e.
  Proof.
    intros Hnd HR F.
    assert (H : forall k a b, In (k, a) d -> In (k, b) e -> R a b -> R' a b).
    { intros k a b Hin. apply HR. now apply In_dget. }
    clear HR Hnd. induction F as [|[k1 a] [k2 b] d e [E Hab] F IH]; constructor; cbn in *.
    - split; [assumption|]. subst k2. eapply H; eauto.
    - apply IH. intros; eapply H; eauto.
  Qed.

  Lemma shows_frame h h' p ch r t : wf t -> only_children_of h h' p ch -> ~ holds h r p ->
    shows h r t -> shows h' r t.
  Proof.
    intros Hw (Hl & Ho & Hp). revert r Hw. induction t as [ty v cht IH] using node_ind'.
    intros r Hw Hn Hs. apply wf_children in Hw as [Hnd Hwf].
    apply shows_inv in Hs as (o & E & Ht & Hv & F). cbn in Ht, Hv, F. subst.
    assert (Hrp : r <> p) by (intros ->; apply Hn; now exists []).
    apply shows_intro; [now rewrite Ho|].
    rewrite Forall_forall in IH, Hwf.
    apply (F2_dget_l (shows h)); [now rewrite (dkeys_F2 _ _ _ F)| |exact F].
    intros k a b D Hin Hs. apply (IH (k, b) Hin); [apply (Hwf _ Hin)| |exact Hs].
    intros Hh. apply Hn. eapply holds_child; eauto.
  Qed.

  Lemma F2_In_r {V W} (R : V -> W -> Prop) (d : dict V) (e : dict W) :
    Forall2 (fun kr kc => fst kr = fst kc /\ R (snd kr) (snd kc)) d e ->
    Forall2 (fun kr kc => fst kr = fst kc /\ R (snd kr) (snd kc) /\ In (snd kc) (map snd e)) d e.
  Proof.
    intros F. assert (H : forall y, In y e -> In (snd y) (map snd e)) by (intros; now apply in_map).
    revert H. generalize (map snd e). intros l H.
    induction F as [|x y d e [E Hxy] F IH]; constructor.
    - repeat split; auto. apply H. now left.
    - apply IH. intros; apply H. now right.
  Qed.

  (** The object [p], reached from [r] along one path only, gets the child [c] at [k]. *)
  Lemma shows_put h h' p o k c tc : nth_error h p = Some o ->
    only_children_of h h' p (dset k c (och o)) ->
    shows h c tc -> wf tc -> ~ holds h c p ->
    forall path r t, wf t -> shows h r t -> hwalk h path r = Some p ->
      (forall q, hwalk h q r = Some p -> q = path) ->
      shows h' r (pupd path (set_key k tc) t).
  Proof.
    intros Ep Ho Hc Hwc Hcp.
    assert (Hc' : shows h' c tc) by (eapply shows_frame; eauto).
    induction path as [|k0 path IH]; intros r t Hw Hs Hp Hu.
    - cbn in Hp. injection Hp as ->. destruct Ho as (Hl & Hother & o2 & E2 & E2').
      rewrite Ep in E2. injection E2 as <-.
      pose proof (shows_inv _ _ _ Hs) as (o2 & E2 & Ht & Hv & F). rewrite Ep in E2. injection E2 as <-.
      destruct t as [ty v ch]. cbn in Ht, Hv, F. subst. cbn [pupd].
      unfold set_key. cbn [ntype nval nch].
      apply (shows_intro h' p {| otype := otype o; oval := oval o; och := dset k c (och o) |}); [exact E2'|]. cbn [och].
      apply wf_children in Hw as [Hnd Hwf]. rewrite Forall_forall in Hwf.
      apply (dset_F2_other (fun x y => shows h x y /\ In y (map snd ch))); [exact Hc'| | |].
      + now rewrite (dkeys_F2 _ _ _ F).
      + intros k' a b Hk D [Hab Hin]. eapply shows_frame; try eassumption.
        * apply in_map_iff in Hin as ([k1 b1] & <- & Hin). apply (Hwf _ Hin).
        * split; [exact Hl|]. split; [exact Hother|]. exists o. split; [exact Ep|exact E2'].
        * intros [q Hq]. assert (Hx : hwalk h (k' :: q) p = Some p) by (cbn; now rewrite Ep, D).
          apply Hu in Hx. discriminate.
      + now apply F2_In_r.
    - cbn [hwalk] in Hp. pose proof (shows_inv _ _ _ Hs) as (o2 & E2 & Ht & Hv & F). rewrite E2 in Hp.
      destruct t as [ty v ch]. cbn in Ht, Hv, F. subst.
      pose proof (dget_F2 _ k0 _ _ F) as G.
      destruct (dget k0 (och o2)) as [c0|] eqn:D0; [|discriminate]. cbn [pupd nch].
      destruct (dget k0 ch) as [tc0|] eqn:D1; [|contradiction].
      assert (Hrp : r <> p).
      { intros ->. assert (Hx : hwalk h [] p = Some p) by reflexivity. apply Hu in Hx. discriminate. }
      apply wf_children in Hw as [Hnd Hwf]. rewrite Forall_forall in Hwf.
      assert (E2' : nth_error h' r = Some o2) by (destruct Ho as (_ & Hother & _); rewrite (Hother _ Hrp); exact E2).
      cbn [ntype nval].
      assert (S0 : shows h' c0 (pupd path (set_key k tc) tc0)).
      { apply IH; [apply (Hwf (k0, tc0)), dget_In, D1|exact G|exact Hp|].
        intros q Hq. assert (Hx : hwalk h (k0 :: q) r = Some p) by (cbn; now rewrite E2, D0).
        apply Hu in Hx. congruence. }
      apply shows_intro; [exact E2'|].
      replace (och o2) with (dset k0 c0 (och o2)) by now apply dset_same.
      apply (dset_F2_other (fun x y => shows h x y /\ In y (map snd ch))); [exact S0| | |].
      + now rewrite (dkeys_F2 _ _ _ F).
      + intros k' a b Hk D [Hab Hin]. eapply shows_frame; try eassumption.
        * apply in_map_iff in Hin as ([k1 b1] & <- & Hin). apply (Hwf _ Hin).
        * intros [q Hq]. assert (Hx : hwalk h (k' :: q) r = Some p) by (cbn; now rewrite E2, D).
          apply Hu in Hx. congruence.
      + now apply F2_In_r.
  Qed.
End HP.
