(** Effect of changes on all holders of an object, cycles, copies (proofs only). *)
From Verif Require Export HeapProofs.

Section HE.
  Context {T A : Type}.
  Notation nd := (node T A).
  Implicit Types (h : heap T A) (t : nd).

  Lemma shows_wf h r t : dicts h -> shows h r t -> wf t.
  Proof.
    intros Hd. revert r. induction t as [ty v ch IH] using node_ind'. intros r Hs.
    apply shows_inv in Hs as (o & E & _ & _ & F). cbn in F. constructor.
    - rewrite <- (dkeys_F2 _ _ _ F). apply nth_error_In in E. unfold dicts in Hd. rewrite Forall_forall in Hd. auto.
    - rewrite Forall_forall in *. intros kc Hin. clear -IH F Hin.
      induction F as [|x y d e [_ H] F IHF]; [destruct Hin|]. destruct Hin as [<-|Hin]; [|apply IHF; auto].
      + apply (IH y (or_introl eq_refl) (snd x)). exact H.
      + intros z Hz. apply IH. now right.
  Qed.
  Lemma only_dicts h h' p ch : dicts h -> only_children_of h h' p ch -> NoDup (map fst ch) -> dicts h'.
  Proof.
    intros Hd (Hl & Ho & o & E & E') Hn. unfold dicts in *. rewrite Forall_forall in *. intros x Hin.
    apply In_nth_error in Hin as [i Hi]. destruct (Nat.eq_dec i p) as [->|Hp].
    - rewrite E' in Hi. injection Hi as <-. exact Hn.
    - rewrite Ho in Hi by exact Hp. apply nth_error_In in Hi. auto.
  Qed.

  Lemma graft_ext m m' k tc t : (forall q, m q = m' q) -> graft m k tc t = graft m' k tc t.
  Proof.
    revert m m'. induction t as [ty v ch IH] using node_ind'. intros m m' H. cbn. rewrite H. f_equal. f_equal.
    rewrite Forall_forall in IH. apply map_ext_in. intros kc Hin. f_equal. apply IH; auto.
  Qed.
  Lemma graft_none m k tc t : (forall q, m q = false) -> graft m k tc t = t.
  Proof.
    revert m. induction t as [ty v ch IH] using node_ind'. intros m H. cbn. rewrite H, app_nil_r. f_equal.
    rewrite Forall_forall in IH. rewrite <- (map_id ch) at 2. apply map_ext_in. intros [k0 c] Hin. cbn. f_equal.
    apply (IH _ Hin). intros; apply H.
  Qed.

  Lemma shows_graft h h' p o k c tc : dicts h -> nth_error h p = Some o -> dget k (och o) = None ->
    only_children_of h h' p (och o ++ [(k, c)]) ->
    shows h c tc -> ~ holds h c p ->
    forall t r, shows h r t -> shows h' r (graft (finds h r p) k tc t).
  Proof.
    intros Hd Ep Hk Ho Hc Hcp.
    assert (Hc' : shows h' c tc) by (eapply shows_frame; eauto; eapply shows_wf; eauto).
    induction t as [ty v ch IH] using node_ind'. intros r Hs.
    pose proof (shows_wf _ _ _ Hd Hs) as Hw. apply wf_children in Hw as [Hnd _].
    pose proof (shows_inv _ _ _ Hs) as (o2 & E2 & Ht & Hv & F). cbn in Ht, Hv, F. subst.
    assert (F' : Forall2 (fun kr kc => fst kr = fst kc /\ shows h' (snd kr) (snd kc)) (och o2)
               (map (fun kc => (fst kc, graft (fun q => finds h r p (fst kc :: q)) k tc (snd kc))) ch)).
    { rewrite Forall_forall in IH.
      assert (Hnd2 : NoDup (map fst (och o2))) by now rewrite (dkeys_F2 _ _ _ F).
      assert (Hg : forall kr, In kr (och o2) -> dget (fst kr) (och o2) = Some (snd kr)).
      { intros [k1 x1] Hin. now apply In_dget. }
      clear -F IH E2 Hg. revert Hg IH F. generalize (och o2) at 1 3 4 as d. intros d Hg IH F.
      induction F as [|kr kc d ch [E H] F IHF]; cbn; constructor.
      - cbn. split; [exact E|]. rewrite (graft_ext _ (finds h (snd kr) p)).
        + apply IH; [now left|exact H].
        + intros q. unfold finds. cbn. rewrite E2. rewrite <- E, Hg by now left. reflexivity.
      - apply IHF; [intros; apply Hg; now right|intros; apply IH; auto; now right]. }
    destruct Ho as (Hl & Hother & o3 & E3 & E3'). rewrite Ep in E3. injection E3 as <-.
    cbn [graft]. unfold finds at 2. cbn [hwalk]. destruct (Nat.eqb_spec r p) as [->|Hr].
    - rewrite Ep in E2. injection E2 as <-.
      apply (shows_intro h' p {| otype := otype o; oval := oval o; och := och o ++ [(k, c)] |}); [exact E3'|].
      apply Forall2_app; [exact F'|]. repeat constructor; auto.
    - rewrite app_nil_r. apply shows_intro; [now rewrite Hother|exact F'].
  Qed.

  (** ** add_child *)
  Lemma hadd_child_outcome h r t key path c tc : shows h r t -> components key path ->
    snd (hadd_child h r key c) = snd (add_child t key tc) /\
    (fst (hadd_child h r key c) = h \/ snd (hadd_child h r key c) = Ok tt) /\
    (snd (hadd_child h r key c) = Ok tt ->
     exists p o, hwalk h (removelast path) r = Some p /\ nth_error h p = Some o /\
       dget (last path EmptyString) (och o) = None /\
       only_children_of h (fst (hadd_child h r key c)) p (och o ++ [(last path EmptyString, c)])).
  Proof.
    intros Hs Hc. apply components_split in Hc. subst path.
    pose proof (hadd_child_spec h r t key c Hs) as H1. pose proof (add_child_spec t key tc) as H2. cbv zeta in *.
    rewrite H1, H2. pose proof (hwalk_shows h (removelast (split_all key)) r t Hs) as W.
    destruct (hwalk h (removelast (split_all key)) r) as [p|], (walk (removelast (split_all key)) t) as [par|]; try contradiction.
    - apply shows_inv in W as (o & E & _ & _ & F). rewrite E. rewrite <- (dmem_F2 _ (last (split_all key) EmptyString) _ _ F).
      destruct (dmem (last (split_all key) EmptyString) (och o)) eqn:D; cbn.
      + repeat split; auto. discriminate.
      + repeat split; auto. intros _. exists p, o. split; [reflexivity|]. split; [exact E|]. split.
        * unfold dmem in D. destruct (dget _ _); [discriminate|reflexivity].
        * apply put_child_only with (k := last (split_all key) EmptyString) (c := c) in E.
          rewrite dset_new in E; [exact E|]. unfold dmem in D. destruct (dget _ _); [discriminate|reflexivity].
    - cbn. repeat split; auto. discriminate.
  Qed.

  Lemma hadd_child_unshared h r t key path c tc p : dicts h -> shows h r t -> components key path ->
    snd (hadd_child h r key c) = Ok tt -> hwalk h (removelast path) r = Some p ->
    (forall q, hwalk h q r = Some p -> q = removelast path) ->
    shows h c tc -> ~ holds h c p ->
    shows (fst (hadd_child h r key c)) r (fst (add_child t key tc)).
  Proof.
    intros Hd Hs Hc Hok Hp Hu Hct Hcp. pose proof (hadd_child_outcome h r t key path c tc Hs Hc) as (H1 & _ & H3).
    destruct (H3 Hok) as (p' & o & Hp' & Eo & Dk & Ho). rewrite Hp in Hp'. injection Hp' as <-.
    rewrite H1 in Hok. rewrite (add_child_cases _ _ _ tc Hc) in Hok |- *. cbv zeta in *.
    destruct (walk (removelast path) t) as [par|]; [|discriminate]. destruct (walk path t); [discriminate|]. cbn [fst].
    eapply (shows_put h _ p o (last path EmptyString) c tc); eauto; try (eapply shows_wf; eauto).
    rewrite dset_new by exact Dk. exact Ho.
  Qed.

  (** ** Cycles *)
  Lemma walk_height t : forall p c, walk p t = Some c -> p <> [] -> node_height c < node_height t.
  Proof.
    intros p. revert t. induction p as [|k p IH]; intros t c H Hn; [congruence|].
    destruct t as [ty v ch]. cbn [walk nch] in H. destruct (dget k ch) as [c0|] eqn:D; [|discriminate].
    assert (H0 : node_height c0 < node_height (Node ty v ch)).
    { apply dget_In in D. clear -D. cbn. destruct ch as [|kc ch]; [destruct D|]. apply le_n_S.
      revert D. generalize (kc :: ch). intros l D.
      induction l as [|x l IHl]; [destruct D|]. cbn. destruct D as [->|D]; [cbn; lia|]. specialize (IHl D). lia. }
    destruct p as [|k2 p]; [cbn in H; injection H as <-; exact H0|].
    apply IH in H; [lia|discriminate].
  Qed.
  Lemma shows_acyclic h r t path : shows h r t -> hwalk h path r = Some r -> path = [].
  Proof.
    intros Hs Hp. destruct path as [|k path]; [reflexivity|]. exfalso.
    pose proof (hwalk_shows h (k :: path) r t Hs) as W. rewrite Hp in W.
    destruct (walk (k :: path) t) as [c|] eqn:E; [|contradiction].
    apply walk_height in E; [|discriminate]. pose proof (shows_det _ _ _ Hs _ W). subst. lia.
  Qed.
  Lemma hwalk_kept h h' p o k c : nth_error h p = Some o -> dget k (och o) = None ->
    only_children_of h h' p (och o ++ [(k, c)]) ->
    forall path r x, hwalk h path r = Some x -> hwalk h' path r = Some x.
  Proof.
    intros Ep Hk (Hl & Ho & o2 & E2 & E2'). rewrite Ep in E2. injection E2 as <-.
    induction path as [|k0 path IH]; intros r x H; cbn in *; [exact H|].
    destruct (Nat.eq_dec r p) as [->|Hr].
    - rewrite E2'. rewrite Ep in H. cbn. rewrite <- dset_new by exact Hk.
      destruct (dget k0 (och o)) as [y|] eqn:D; [|discriminate].
      rewrite dget_dset_other, D; [auto|]. congruence.
    - rewrite Ho by exact Hr. destruct (nth_error h r) as [o3|]; [|discriminate].
      destruct (dget k0 (och o3)); [auto|discriminate].
  Qed.
  Lemma cycle_no_tree h h' p o k c : nth_error h p = Some o -> dget k (och o) = None ->
    only_children_of h h' p (och o ++ [(k, c)]) -> holds h c p -> forall t, ~ shows h' p t.
  Proof.
    intros Ep Hk Ho [path Hp] t Hs.
    assert (H : hwalk h' (k :: path) p = Some p).
    { pose proof (hwalk_kept _ _ _ _ _ _ Ep Hk Ho path c p Hp) as H.
      destruct Ho as (Hl & Hother & o2 & E2 & E2'). rewrite Ep in E2. injection E2 as <-.
      cbn [hwalk]. rewrite E2'. cbn. rewrite <- dset_new by exact Hk. rewrite dget_dset_same. exact H. }
    pose proof (shows_acyclic h' p t (k :: path) Hs H). discriminate.
  Qed.

  (** ** Assignment *)
  Lemma hsetitem_outcome h r t key c tc : shows h r t ->
    snd (hsetitem h r key c) = snd (setitem t key tc) /\
    (fst (hsetitem h r key c) = h \/ snd (hsetitem h r key c) = Ok tt) /\
    (snd (hsetitem h r key c) = Ok tt ->
     let path := split_all key in
     let parents := if String.eqb (join (removelast path)) EmptyString then [] else removelast path in
     exists p o, hwalk h parents r = Some p /\ nth_error h p = Some o /\
       only_children_of h (fst (hsetitem h r key c)) p (dset (last path EmptyString) c (och o))).
  Proof.
    intros Hs. unfold hsetitem, setitem. rewrite (hcontains_same _ _ _ _ Hs).
    destruct (contains t key) as [[|]|e]; cbn [fst snd].
    2,3: repeat split; auto; discriminate.
    destruct (String.eqb_spec (join (removelast (split_all key))) EmptyString) as [E|E]; cbn [fst snd].
    - repeat split; auto. intros _. pose proof (shows_inv _ _ _ Hs) as (o & Eo & _). exists r, o.
      split; [reflexivity|]. split; [exact Eo|]. now apply put_child_only.
    - pose proof (hget_child_shows h r t (join (removelast (split_all key))) Hs) as G.
      destruct (get_child t _) as [par|e].
      + destruct G as (x & Hx & Hsx). pose proof Hx as Hx'. rewrite Hx. cbn [fst snd]. repeat split; auto. intros _.
        rewrite (hget_child_walk _ _ _ _ Hs) in Hx'.
        assert (Hj : split_all (join (removelast (split_all key))) = removelast (split_all key)).
        { apply split_join.
          - intros Hn. apply E. now rewrite Hn.
          - pose proof (split_all_noslash key) as Hf. rewrite (split_all_parents key) in Hf.
            now apply Forall_app in Hf as [Hf _]. }
        rewrite Hj in Hx'. destruct (hwalk h (removelast (split_all key)) r) as [y|]; [|discriminate]. injection Hx' as ->.
        apply shows_inv in Hsx as (o & Eo & _). exists x, o. split; [reflexivity|]. split; [exact Eo|]. now apply put_child_only.
      + rewrite G. cbn. repeat split; auto. discriminate.
  Qed.
End HE.
