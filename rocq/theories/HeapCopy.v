(** Flattening and rebuilding trees of objects; copies (proofs only). *)
From Verif Require Export HeapEffect.

Section HC.
  Context {T A : Type}.
  Notation nd := (node T A).
  Implicit Types (h : heap T A) (t : nd).

  Lemma nth_ext_l {B} (h new : list B) r o : nth_error h r = Some o -> nth_error (h ++ new) r = Some o.
  Proof. intros E. rewrite nth_error_app1; [exact E|]. apply nth_error_Some. congruence. Qed.
  Lemma shows_ext h new r t : shows h r t -> shows (h ++ new) r t.
  Proof.
    revert r. induction t as [ty v ch IH] using node_ind'. intros r Hs.
    apply shows_inv in Hs as (o & E & Ht & Hv & F). cbn in *. subst.
    apply shows_intro; [now apply nth_ext_l|]. rewrite Forall_forall in IH.
    clear E. revert IH. induction F as [|x y d e [Ek H] F IHF]; intros IH; constructor.
    - split; [exact Ek|]. apply (IH y); [now left|exact H].
    - apply IHF. intros; apply IH; auto. now right.
  Qed.
  Lemma hwalk_ext h new p : forall r x, hwalk h p r = Some x -> hwalk (h ++ new) p r = Some x.
  Proof.
    induction p as [|k p IH]; intros r x H; cbn in *; [exact H|].
    destruct (nth_error h r) as [o|] eqn:E; [|discriminate]. rewrite (nth_ext_l _ _ _ _ E).
    destruct (dget k (och o)); [auto|discriminate].
  Qed.
  Lemma hwalk_ext_inv h new p : forall r t x, shows h r t -> hwalk (h ++ new) p r = Some x -> hwalk h p r = Some x.
  Proof.
    induction p as [|k p IH]; intros r t x Hs H; cbn in *; [exact H|].
    apply shows_inv in Hs as (o & E & _ & _ & F). rewrite E. rewrite (nth_ext_l _ _ _ _ E) in H.
    apply (dget_F2 _ k) in F. destruct (dget k (och o)), (dget k (nch t)); try contradiction; [|discriminate].
    eapply IH; eauto.
  Qed.
  Lemma hwalk_bound h p r t x : shows h r t -> hwalk h p r = Some x -> x < length h.
  Proof.
    intros Hs H. pose proof (hwalk_shows h p r t Hs) as W. rewrite H in W.
    destruct (walk p t); [|contradiction]. apply shows_inv in W as (o & E & _).
    apply nth_error_Some. congruence.
  Qed.

  (** ** Flattening *)
  Lemma mapM_F2 {B C D} (f : B -> result C) (R : B -> D -> Prop) (S : C -> D -> Prop) l m :
    Forall2 R l m -> (forall x y, In x l -> In y m -> R x y -> exists z, f x = Ok z /\ S z y) ->
    exists r, mapM f l = Ok r /\ Forall2 S r m.
  Proof.
    intros F. induction F as [|x y l m H F IH]; intros Hf; cbn.
    - exists []. split; constructor.
    - destruct (Hf x y) as (z & -> & Hz); [now left|now left|exact H|]. cbn.
      destruct IH as (r & -> & Hr); [intros; apply Hf; auto; now right|]. cbn.
      exists (z :: r). split; [reflexivity|now constructor].
  Qed.
  Lemma F2_concat {B C} (R : B -> C -> Prop) l m : Forall2 (Forall2 R) l m -> Forall2 R (List.concat l) (List.concat m).
  Proof. induction 1; cbn; [constructor|]. now apply Forall2_app. Qed.
  Lemma hiter_flat_shows h : forall fuel t r key, shows h r t -> node_height t < fuel ->
    exists l, hiter_flat fuel h key r = Ok l /\
      Forall2 (fun kr kn => fst kr = fst kn /\ shows h (snd kr) (snd kn)) l (iter_flat key t).
  Proof.
    induction fuel as [|f IH]; intros t r key Hs Hf; [lia|].
    pose proof (shows_inv _ _ _ Hs) as (o & E & _ & _ & F).
    cbn [hiter_flat]. unfold deref, look. rewrite E. cbn [bind].
    destruct t as [ty v ch]. cbn [nch] in F.
    destruct (mapM_F2 (fun kc => hiter_flat f h (key ++ String slash (fst kc))%string (snd kc)) _
      (fun l (kc : string * nd) => Forall2 (fun kr kn => fst kr = fst kn /\ shows h (snd kr) (snd kn)) l
                    (iter_flat (key ++ String slash (fst kc)) (snd kc))) _ _ F) as (ls & -> & HF).
    { intros kr kc _ Hin [Ek Hk]. rewrite Ek. apply IH; [exact Hk|].
      assert (node_height (snd kc) < node_height (Node ty v ch)); [|lia].
      clear -Hin. cbn. destruct ch as [|kc0 ch]; [destruct Hin|]. apply le_n_S.
      revert Hin. generalize (kc0 :: ch). intros l D.
      induction l as [|x l IHl]; [destruct D|]. cbn. destruct D as [->|D]; [cbn; lia|]. specialize (IHl D). lia. }
    cbn [bind]. eexists. split; [reflexivity|]. cbn [iter_flat]. constructor; [cbn; auto|].
    rewrite flat_map_concat_map. apply F2_concat. clear -HF.
    induction HF; cbn; constructor; auto.
  Qed.
  Lemma hflatten_shows h fuel t r key : shows h r t -> node_height t < fuel ->
    hflatten fuel h key r = Ok (flatten key t).
  Proof.
    intros Hs Hf. unfold hflatten. destruct (hiter_flat_shows h fuel t r key Hs Hf) as (l & -> & F). cbn [bind].
    unfold flatten. induction F as [|kr kn l m [Ek Hk] F IH]; [reflexivity|]. cbn [mapM map].
    apply shows_inv in Hk as (o & E & Ht & Hv & Fo).
    assert (Ed : deref h (snd kr) = Ok o) by (unfold deref, look; now rewrite E). rewrite Ed. cbn [bind].
    rewrite IH. cbn [bind]. rewrite Ek, Ht, Hv. unfold nkeys, dkeys. now rewrite (dkeys_F2 _ _ _ Fo).
  Qed.

  Lemma Forall2_nth_l {B C} (R : B -> C -> Prop) l m i x : Forall2 R l m -> nth_error l i = Some x ->
    exists y, nth_error m i = Some y /\ R x y.
  Proof.
    intros F. revert i. induction F as [|a b l m H F IH]; intros [|i] E; cbn in *; try discriminate; [|auto].
    injection E as <-. eauto.
  Qed.

  Lemma F2_impl {B C} (R S : B -> C -> Prop) l m : (forall x y, R x y -> S x y) -> Forall2 R l m -> Forall2 S l m.
  Proof. intros H. induction 1; constructor; auto. Qed.

  Lemma F2_length {B C} (R : B -> C -> Prop) l m : Forall2 R l m -> length l = length m.
  Proof. induction 1; cbn; auto. Qed.

  (** ** Rebuilding: a new, unshared tree. *)
  Definition fresh_tree h h' r t : Prop :=
    shows h' r t /\ (forall p x, hwalk h' p r = Some x -> length h <= x) /\ unshared h' r.

  Lemma dget_zip {V} k ks (vs : list V) v : dget k (zip ks vs) = Some v ->
    exists i, nth_error ks i = Some k /\ nth_error vs i = Some v.
  Proof.
    revert vs. induction ks as [|k0 ks IH]; intros [|v0 vs] H; cbn in H; try discriminate.
    destruct (String.eqb_spec k k0) as [->|].
    - injection H as <-. exists 0. now split.
    - apply IH in H as (i & H1 & H2). now exists (S i).
  Qed.

  Lemma hunflatten_gen n : wf n -> forall fuel h l rest,
    length (preorder n) <= fuel -> map nokey l = map skel (preorder n) ->
    exists new r, hunflatten_f fuel h (l ++ rest) = Ok (h ++ new, r, rest) /\ fresh_tree h (h ++ new) r n.
  Proof.
    induction n as [t v ch IH] using node_ind'. intros Hw fuel h l rest Hf Hl.
    apply wf_children in Hw as [Hnd Hwf].
    destruct fuel as [|f]; [cbn in Hf; lia|].
    destruct l as [|[[[k0 t0] v0] ks0] l]; [discriminate|].
    cbn [preorder map] in Hl. inversion Hl as [[Ht Hv Hks Hrest]]. clear Hl.
    cbn [app hunflatten_f].
    match goal with |- context [bind (?G (nkeys (Node t v ch)) h (l ++ rest)) _] => set (go := G) end.
    assert (Hgo : forall ch0 h l0, Forall (fun kc => wf (snd kc)) ch0 ->
        Forall (fun kc => forall fuel h l rest, length (preorder (snd kc)) <= fuel ->
           map nokey l = map skel (preorder (snd kc)) ->
           exists new r, hunflatten_f fuel h (l ++ rest) = Ok (h ++ new, r, rest) /\ fresh_tree h (h ++ new) r (snd kc)) ch0 ->
        length (flat_map (fun kc => preorder (snd kc)) ch0) <= f ->
        map nokey l0 = map skel (flat_map (fun kc => preorder (snd kc)) ch0) ->
        exists new cs, go (map fst ch0) h (l0 ++ rest) = Ok (h ++ new, cs, rest) /\
          Forall2 (fun c n => fresh_tree h (h ++ new) c n) cs (map snd ch0) /\
          (forall i j ci cj p q x, nth_error cs i = Some ci -> nth_error cs j = Some cj ->
             hwalk (h ++ new) p ci = Some x -> hwalk (h ++ new) q cj = Some x -> i = j)).
    { clear IH Hwf Hnd Hrest Hf. induction ch0 as [|[k c] ch0 IHc]; intros hh l0 Hwf0 HI Hlen Hm.
      - cbn in Hm. destruct l0; [|discriminate]. exists [], []. rewrite app_nil_r. split; [reflexivity|].
        split; [constructor|]. intros [|i]; discriminate.
      - cbn [flat_map] in Hm, Hlen. rewrite map_app in Hm. cbn [snd] in *.
        apply map_eq_app in Hm as (l1 & l2 & -> & Hm1 & Hm2).
        cbn [map fst snd]. rewrite <- app_assoc. cbn [go]. fold go.
        inversion HI as [|? ? HIc HIr]; subst. inversion Hwf0; subst. cbn [snd] in *.
        rewrite app_length in Hlen.
        destruct (HIc f hh l1 (l2 ++ rest)) as (new1 & r1 & -> & S1 & L1 & U1); [lia|assumption|]. cbn [bind].
        destruct (IHc (hh ++ new1) l2) as (new2 & cs & -> & FS & D); [assumption|assumption|lia|assumption|]. cbn [bind].
        exists (new1 ++ new2), (r1 :: cs). rewrite !app_assoc. split; [reflexivity|].
        assert (Hlow : forall i ci q x, nth_error cs i = Some ci -> hwalk ((hh ++ new1) ++ new2) q ci = Some x ->
                  length (hh ++ new1) <= x).
        { intros i ci q x Hi Hq. destruct (Forall2_nth_l _ _ _ _ _ FS Hi) as (y & _ & _ & Hy & _). eapply Hy; eauto. }
        assert (Hup : forall p x, hwalk ((hh ++ new1) ++ new2) p r1 = Some x ->
                  hwalk (hh ++ new1) p r1 = Some x /\ x < length (hh ++ new1)).
        { intros p x Hp. eapply hwalk_ext_inv in Hp; [|exact S1]. split; [exact Hp|]. eapply hwalk_bound; eauto. }
        split.
        + constructor.
          * split; [now apply shows_ext|]. split.
            -- intros p x Hp. apply Hup in Hp as [Hp _]. eauto.
            -- intros p q x Hp Hq. apply Hup in Hp as [Hp _], Hq as [Hq _]. eauto.
          * clear -FS. eapply F2_impl; [|exact FS]. intros a b (H1 & H2 & H3). split; [exact H1|]. split; [|exact H3].
            intros p x Hp. apply H2 in Hp. rewrite app_length in Hp. lia.
        + intros [|i] [|j] ci cj p q x Hi Hj Hp Hq; cbn in Hi, Hj; auto.
          * injection Hi as <-. apply Hup in Hp as [_ Hp]. specialize (Hlow _ _ _ _ Hj Hq). lia.
          * injection Hj as <-. apply Hup in Hq as [_ Hq]. specialize (Hlow _ _ _ _ Hi Hp). lia.
          * f_equal. eapply D; eauto. }
    change (nkeys (Node t v ch)) with (map fst ch).
    destruct (Hgo ch h l) as (new & cs & -> & FS & D); [assumption| | |assumption|].
    { rewrite Forall_forall in *. intros kc Hin. apply IH; auto. }
    { cbn [preorder length] in Hf. lia. }
    cbn [bind alloc]. eexists (new ++ [_]), _. rewrite app_assoc. split; [reflexivity|].
    assert (Hlen : length cs = length ch).
    { apply F2_length in FS. now rewrite map_length in FS. }
    set (o := {| otype := t; oval := v; och := dict_of (zip (map fst ch) cs) |}).
    assert (Ho : och o = zip (map fst ch) cs).
    { cbn. apply dict_of_nodup. rewrite map_fst_zip; [exact Hnd|]. rewrite map_length. lia. }
    assert (Eo : nth_error ((h ++ new) ++ [o]) (length (h ++ new)) = Some o).
    { rewrite nth_error_app2 by lia. now rewrite Nat.sub_diag. }
    assert (Hsub : forall k c, dget k (och o) = Some c -> exists i tc, nth_error (map fst ch) i = Some k /\
              nth_error cs i = Some c /\ nth_error (map snd ch) i = Some tc /\ fresh_tree h (h ++ new) c tc).
    { intros k c Hk. rewrite Ho in Hk. apply dget_zip in Hk as (i & H1 & H2).
      destruct (Forall2_nth_l _ _ _ _ _ FS H2) as (tc & H3 & H4). eauto 10. }
    split; [|split].
    - apply (shows_intro ((h ++ new) ++ [o]) (length (h ++ new)) o); [exact Eo|]. rewrite Ho. clearbody o. clear -FS Hlen.
      revert cs Hlen FS. induction ch as [|[k c] ch IH]; intros [|r cs] Hl FS; cbn in *; try discriminate; constructor.
      + inversion FS as [|? ? ? ? (H & _) _]; subst. split; [reflexivity|]. now apply shows_ext.
      + inversion FS; subst. apply IH; auto.
    - intros [|k p] x Hx; cbn in Hx; [injection Hx as <-; rewrite app_length; lia|].
      rewrite Eo in Hx. destruct (dget k (och o)) as [c|] eqn:Dk; [|discriminate].
      apply Hsub in Dk as (i & tc & _ & _ & _ & S1 & L1 & _). eapply hwalk_ext_inv in Hx; eauto.
    - intros [|k p] [|k' q] x Hx Hy; [reflexivity| | |].
      + exfalso. cbn in Hx. injection Hx as <-. cbn in Hy. rewrite Eo in Hy.
        destruct (dget k' (och o)) as [c|] eqn:Dk; [|discriminate].
        apply Hsub in Dk as (i & tc & _ & _ & _ & S1 & _). eapply hwalk_ext_inv in Hy; [|exact S1].
        eapply hwalk_bound in Hy; [|exact S1]. lia.
      + exfalso. cbn in Hy. injection Hy as <-. cbn in Hx. rewrite Eo in Hx.
        destruct (dget k (och o)) as [c|] eqn:Dk; [|discriminate].
        apply Hsub in Dk as (i & tc & _ & _ & _ & S1 & _). eapply hwalk_ext_inv in Hx; [|exact S1].
        eapply hwalk_bound in Hx; [|exact S1]. lia.
      + cbn in Hx, Hy. rewrite Eo in Hx, Hy.
        destruct (dget k (och o)) as [c|] eqn:Dk; [|discriminate].
        destruct (dget k' (och o)) as [c'|] eqn:Dk'; [|discriminate].
        apply Hsub in Dk as (i & tc & K1 & C1 & _ & S1 & _ & U1).
        apply Hsub in Dk' as (j & tc' & K2 & C2 & _ & S2 & _).
        eapply hwalk_ext_inv in Hx; [|exact S1]. eapply hwalk_ext_inv in Hy; [|exact S2].
        assert (i = j) by (eapply D; eauto). subst j.
        assert (c' = c) as -> by congruence. assert (k' = k) as -> by congruence. f_equal. eapply U1; eauto.
  Qed.
  Lemma hunflatten_spec n h l rest : wf n -> map nokey l = map skel (preorder n) ->
    exists new r, hunflatten h (l ++ rest) = Ok (h ++ new, r, rest) /\ fresh_tree h (h ++ new) r n.
  Proof.
    intros Hw Hl. unfold hunflatten. apply hunflatten_gen; auto.
    rewrite app_length. apply (f_equal (@length _)) in Hl. rewrite !map_length in Hl. lia.
  Qed.

  Lemma hcopy_spec h depth base r t : dicts h -> shows h r t -> node_height t < depth ->
    exists new r' t', hcopy depth base h r = Ok (h ++ new, r') /\ node_copy base t = Ok t' /\
      fresh_tree h (h ++ new) r' t'.
  Proof.
    intros Hd Hs Hf. pose proof (shows_wf _ _ _ Hd Hs) as Hw.
    unfold hcopy. rewrite (hflatten_shows h depth t r EmptyString Hs Hf). cbn [bind].
    set (t' := tmap (fun m => (base, nval m)) t).
    set (l := map _ (flatten EmptyString t)).
    assert (Hl : map nokey l = map skel (preorder t')).
    { unfold l, t', flatten. rewrite tmap_preorder, <- (iter_flat_preorder t EmptyString), !map_map. reflexivity. }
    destruct (hunflatten_spec t' h l []) as (new & r' & E & F); [now apply tmap_wf|exact Hl|].
    rewrite app_nil_r in E. rewrite E. cbn [bind]. exists new, r', t'. split; [reflexivity|]. split; [|exact F].
    unfold node_copy. rewrite node_map_tmap by exact Hw. reflexivity.
  Qed.
End HC.
