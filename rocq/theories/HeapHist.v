(** Layout calls on objects and on trees agree (proofs only). *)
From Verif Require Export HeapTree.
From Verif Require Export HeapLayoutSpec.
From Verif Require Export HeapSpec.
From Verif Require Export ConsSpec.

Section Generic.
  Context {T A : Type}.
  Implicit Types (h : heap T A).

  Lemma shows_agree h h' t : forall r, wf t -> (forall x, holds h r x -> nth_error h' x = nth_error h x) -> shows h r t -> shows h' r t.
  Proof.
    induction t as [ty v ch IH] using node_ind'. intros r Hw Ha Hs. apply wf_children in Hw as [Hnd Hwf].
    apply shows_inv in Hs as (o & E & Ht & Hv & Fo). cbn [ntype nval nch] in *. subst.
    apply shows_intro; [rewrite Ha; [exact E|now exists []]|].
    pose proof (dkeys_F2 _ _ _ Fo) as Hk.
    eapply F2_dget_l; [|clear Hk|exact Fo].
    - now rewrite Hk.
    - intros k a b D Hin Hb. rewrite Forall_forall in IH, Hwf. apply (IH _ Hin); [apply (Hwf _ Hin)| |exact Hb].
      intros x Hx. apply Ha. eapply holds_child; eauto.
  Qed.
  Lemma given_kept h h' root r t : dicts h -> unchanged_but root h h' -> given h root r t -> given h' root r t.
  Proof.
    intros Hd [Hl Hu] [Hs Hn]. pose proof (shows_wf _ _ _ Hd Hs) as Hw.
    assert (Ha : forall x, holds h r x -> nth_error h' x = nth_error h x).
    { intros x Hx. apply Hu; [destruct Hx as [p Hp]; eapply hwalk_bound; eauto|]. intros ->. contradiction. }
    split; [now apply (shows_agree h)|]. intros [p Hp]. apply Hn. exists p. rewrite <- Hp. clear -Ha.
    revert r Ha. induction p as [|k p IH]; intros r Ha; [reflexivity|]. cbn. rewrite <- (Ha r) by now exists [].
    destruct (nth_error h' r) as [o|] eqn:E; [|reflexivity]. destruct (dget k (och o)) as [c|] eqn:D; [|reflexivity].
    apply IH. intros x Hx. apply Ha. eapply holds_child; eauto. rewrite <- Ha by now exists []. exact E.
  Qed.
  Lemma unchanged_refl r h : unchanged_but r h h.
  Proof. split; auto. Qed.
  Lemma unchanged_trans r h h' h'' : unchanged_but r h h' -> unchanged_but r h' h'' -> unchanged_but r h h''.
  Proof. intros [L1 U1] [L2 U2]. split; [lia|]. intros x Hx Hr. rewrite U2 by (auto; lia). auto. Qed.
  Lemma unchanged_ext r h new : unchanged_but r h (h ++ new).
  Proof. split; [rewrite app_length; lia|]. intros x Hx _. now rewrite nth_error_app1. Qed.

  (** [add_top] for a handed-in object. *)
  Lemma add_given h r t key c tc : dicts h -> shows h r t -> noslash key = true -> given h r c tc ->
    exists h', hadd_child h r key c = (h', snd (add_child t key tc)) /\
      shows h' r (fst (add_child t key tc)) /\ dicts h' /\ unchanged_but r h h'.
  Proof.
    intros Hd Hs Hk [Hc Hn]. destruct (add_top h r t key c tc Hd Hs Hk Hc Hn) as (E & S & D & L & U).
    exists (fst (hadd_child h r key c)). split; [rewrite <- E; now destruct (hadd_child h r key c)|].
    split; [exact S|]. split; [exact D|]. split; [lia|]. auto.
  Qed.
  (** The same for a newly made tree. *)
  Lemma add_planted h r t key tc : dicts h -> shows h r t -> noslash key = true -> wf tc ->
    exists h0 c h', plant h tc = (h0, c) /\ hadd_child h0 r key c = (h', snd (add_child t key tc)) /\
      shows h' r (fst (add_child t key tc)) /\ dicts h' /\ unchanged_but r h h'.
  Proof.
    intros Hd Hs Hk Hw. destruct (plant_spec tc Hw h) as (new & c & E & Sc & Dn & B).
    destruct (add_given (h ++ new) r t key c tc) as (h' & E' & S' & D' & U').
    - now apply dicts_app.
    - now apply shows_ext.
    - exact Hk.
    - split; [exact Sc|]. intros [p Hp]. specialize (B p r Hp).
      pose proof (hwalk_bound h [] r t r Hs eq_refl). lia.
    - exists (h ++ new), c, h'. split; [exact E|]. split; [exact E'|]. split; [exact S'|]. split; [exact D'|].
      eapply unchanged_trans; [apply (unchanged_ext r h new)|exact U'].
  Qed.
End Generic.

Section Hist.
  Context {F : Type} {N : Num F}.
  Notation pyval := (pyval F).
  Notation layout := (layout F).

  Lemma until_ext fuel : forall (c : counter) cat v v', (forall k, v k = v' k) ->
    add_item_until_valid fuel c cat v = add_item_until_valid fuel c cat v'.
  Proof.
    induction fuel as [|f IH]; intros c cat v v' H; [reflexivity|]. cbn [add_item_until_valid]. destruct (add_item c cat) as [c' k].
    rewrite H. destruct (v' k) as [[|]|]; [reflexivity|now apply IH|reflexivity].
  Qed.
  Lemma children_at_shows {T A} (h : heap T A) r t : shows h r t -> children_at h r = nlen t.
  Proof.
    intros Hs. apply shows_inv in Hs as (o & E & _ & _ & Fo). unfold children_at, look, nlen. rewrite E.
    eapply F2_length, Fo.
  Qed.
  Lemma glance_shows {T A} (h : heap T A) r t : shows h r t -> glance h r = Ok (Node (ntype t) (nval t) []).
  Proof. intros Hs. apply shows_inv in Hs as (o & E & Ht & Hv & _). unfold glance, deref, look. now rewrite E, Ht, Hv. Qed.
  Lemma hgen_key_same (w : world F) l (L : layout) (c : cons F) : shows_layout w l L ->
    hgen_key w l (cname (ntype c)) = gen_key L c.
  Proof.
    intros (S1 & S2 & S3 & S4 & S5). unfold hgen_key, gen_key, counter_fuel.
    rewrite (children_at_shows _ _ _ S2), (children_at_shows _ _ _ S3), (children_at_shows _ _ _ S4), S5.
    erewrite until_ext; [reflexivity|]. intros k. cbn [notin_all].
    now rewrite (hcontains_same _ _ _ k S2), (hcontains_same _ _ _ k S3), (hcontains_same _ _ _ k S4).
  Qed.
  Lemma gen_key_noslash (L : layout) (c : cons F) cnt k : noslash (cname (ntype c)) = true -> gen_key L c = (cnt, Ok k) -> noslash k = true.
  Proof.
    intros Hc Eg. unfold gen_key in Eg. destruct (add_item_until_valid (counter_fuel L) (l_counter L) (cname (ntype c)) _) as [[c' r']|] eqn:Ea; [|discriminate].
    inversion Eg; subst. apply until_key_number in Ea as (n & -> & _). now rewrite noslash_app, noslash_dec, Hc.
  Qed.

  Lemma cvalidate_prims_types (c : cons F) ps qs : Forall2 (fun p q => ntype p = ntype q) ps qs ->
    cvalidate_prims (Node (ntype c) (nval c) []) ps = cvalidate_prims c qs.
  Proof.
    intros Fp. unfold cvalidate_prims. cbn [nval]. rewrite (F2_length _ _ _ Fp).
    assert (E : forall types : list ptype, existsb (fun pt : prim F * ptype => negb (issubclass (ntype (fst pt)) (snd pt))) (zip ps types)
      = existsb (fun pt : prim F * ptype => negb (issubclass (ntype (fst pt)) (snd pt))) (zip qs types)).
    { induction Fp as [|p q ps qs E Fp IH]; intros [|t ts]; cbn; auto. now rewrite E, IH. }
    now rewrite E.
  Qed.
  Lemma hvalidate_same (w : world F) l (L : layout) c (ct : cons F) ks ps :
    shows (w_prims w) (r_prim l) (l_prim L) -> shows (w_cons w) c ct ->
    hvalidate_inputs w l c ks ps = validate_inputs L ct ks ps.
  Proof.
    intros S1 Sc. unfold hvalidate_inputs, validate_inputs. rewrite (glance_shows _ _ _ Sc). cbn [bind].
    assert (M : match mapM (fun k => x <- hget_child (w_prims w) (r_prim l) k ;; glance (w_prims w) x) ks, mapM (get_child (l_prim L)) ks with
      | Ok xs, Ok ys => Forall2 (fun p q => ntype p = ntype q) xs ys
      | Err e, Err e' => e = e'
      | _, _ => False
      end).
    { induction ks as [|k ks IH]; cbn [mapM]; [constructor|].
      pose proof (hget_child_shows _ _ _ k S1) as G. destruct (get_child (l_prim L) k) as [p|e].
      - destruct G as (x & -> & Sx). cbn [bind]. rewrite (glance_shows _ _ _ Sx). cbn [bind].
        destruct (mapM _ ks) as [xs|], (mapM (get_child (l_prim L)) ks) as [ys|]; cbn [bind]; try contradiction; auto.
      - rewrite G. cbn [bind]. reflexivity. }
    destruct (mapM _ ks) as [xs|e], (mapM (get_child (l_prim L)) ks) as [ys|e']; try contradiction; cbn [bind].
    - rewrite (cvalidate_prims_types ct xs ys M). reflexivity.
    - subst. reflexivity.
  Qed.

  (** The state of one call: roots and their surroundings. *)
  Definition step_ok (w : world F) (l : hlayout) (w' : world F) (l' : hlayout) (L' : layout) : Prop :=
    all_dicts w' /\ shows_layout w' l' L' /\
    r_prim l' = r_prim l /\ r_cons l' = r_cons l /\ r_keys l' = r_keys l /\ r_params l' = r_params l /\
    unchanged_but (r_prim l) (w_prims w) (w_prims w') /\ unchanged_but (r_cons l) (w_cons w) (w_cons w') /\
    unchanged_but (r_keys l) (w_keys w) (w_keys w') /\ unchanged_but (r_params l) (w_params w) (w_params w').
  Lemma step_refl w l L : all_dicts w -> shows_layout w l L -> step_ok w l w l L.
  Proof. intros. unfold step_ok. repeat (split; [first [assumption|reflexivity|apply unchanged_refl]|]). apply unchanged_refl. Qed.
  Lemma step_trans w l w1 l1 L1 w2 l2 L2 : step_ok w l w1 l1 L1 -> step_ok w1 l1 w2 l2 L2 -> step_ok w l w2 l2 L2.
  Proof.
    intros (_ & _ & R1 & R2 & R3 & R4 & U1 & U2 & U3 & U4) (D & S & R1' & R2' & R3' & R4' & U1' & U2' & U3' & U4').
    rewrite R1 in *; rewrite R2 in *; rewrite R3 in *; rewrite R4 in *. unfold step_ok.
    split; [exact D|]. split; [exact S|]. do 4 (split; [congruence|]).
    split; [eapply unchanged_trans; eauto|]. split; [eapply unchanged_trans; eauto|]. split; eapply unchanged_trans; eauto.
  Qed.
  Lemma stands_for_kept w l w' l' L' a b : all_dicts w -> step_ok w l w' l' L' -> stands_for w l a b -> stands_for w' l' a b.
  Proof.
    intros (D1 & D2 & _) (_ & _ & R1 & R2 & _ & _ & U1 & U2 & _). destruct a, b; cbn; try tauto; rewrite ?R1, ?R2.
    - intros [E G]. split; [exact E|]. eapply given_kept; eauto.
    - intros Fd. eapply F2_impl; [|exact Fd]. intros x y [E G]. split; [exact E|]. eapply given_kept; eauto.
    - intros (E1 & E2 & E3 & G). repeat (split; [assumption|]). eapply given_kept; eauto.
  Qed.

  Lemma hadd_prim_same w l (L : layout) r p key : all_dicts w -> shows_layout w l L -> given (w_prims w) (r_prim l) r p -> noslash key = true ->
    exists w', hadd_prim w l r key = (w', snd (add_prim L p key)) /\ step_ok w l w' l (fst (add_prim L p key)).
  Proof.
    intros (D1 & D2 & D3 & D4) (S1 & S2 & S3 & S4 & S5) G Hk. unfold hadd_prim, add_prim.
    destruct (add_given _ _ _ key r p D1 S1 Hk G) as (h' & -> & Sh & Dh & U).
    destruct (add_child (l_prim L) key p) as [t res]. cbn [fst snd] in *. eexists. split; [reflexivity|].
    split; [split; [exact Dh|auto]|]. split; [split; [exact Sh|auto]|].
    do 4 (split; [reflexivity|]). split; [exact U|]. split; [apply unchanged_refl|]. split; apply unchanged_refl.
  Qed.
  Lemma hadd_prims_same d' : forall w l (L : layout) d, all_dicts w -> shows_layout w l L ->
    Forall2 (fun kr kp => fst kr = fst kp /\ given (w_prims w) (r_prim l) (snd kr) (snd kp)) d d' ->
    Forall (fun kp => noslash (fst kp) = true) d' ->
    exists w', hadd_prims w l d = (w', snd (add_prims L d')) /\ step_ok w l w' l (fst (add_prims L d')).
  Proof.
    induction d' as [|[k p] d' IH]; intros w l L d D S Fd Hk.
    - inversion Fd; subst. exists w. split; [reflexivity|]. now apply step_refl.
    - inversion Fd as [|[k0 r] ? d0 ? [Ek G] Fd0]; subst. cbn [fst snd] in *. subst k0. inversion Hk as [|? ? Hk1 Hk2]; subst.
      cbn [hadd_prims add_prims]. destruct (hadd_prim_same w l L r p k D S G Hk1) as (w1 & -> & St).
      destruct (add_prim L p k) as [L1 [u|e]]; cbn [fst snd] in *.
      + destruct (IH w1 l L1 d0) as (w2 & E2 & St2); [apply St|apply St| |exact Hk2|].
        * eapply F2_impl; [|exact Fd0]. intros x y [E Gx]. split; [exact E|].
          destruct St as (_ & _ & _ & _ & _ & _ & U & _). eapply given_kept; [apply D|exact U|exact Gx].
        * exists w2. split; [exact E2|]. eapply step_trans; eauto.
      + exists w1. split; [reflexivity|exact St].
  Qed.

  Lemma wf_keys (c : cons F) : wf c -> forall ks kt, root_prim_keys c ks = Ok kt -> wf kt.
  Proof.
    induction c as [t v ch IH] using node_ind'. intros Hc ks kt H. rewrite root_prim_keys_unfold in H. inv_bind H. inv_bind H. injection H as <-.
    apply wf_children in Hc as [Hn Hf]. clear E. revert x x0 E0.
    assert (G : forall kss kts, rpks ch kss = Ok kts -> (forall k, In k (map fst kts) -> In k (map fst ch)) /\ NoDup (map fst kts) /\ Forall (fun kc => wf (snd kc)) kts).
    { induction ch as [|[k c] ch IHch]; intros kss kts H; cbn [rpks] in H; [injection H as <-; repeat split; auto; constructor|].
      destruct kss as [|ck kss]; [injection H as <-; repeat split; try constructor; contradiction|].
      inv_bind H. inv_bind H. injection H as <-. apply Forall_cons_iff in IH as [IH1 IH2]. cbn [map fst] in Hn. apply NoDup_cons_iff in Hn as [Hn1 Hn2]. apply Forall_cons_iff in Hf as [Hf1 Hf2]. destruct (IHch IH2 Hn2 Hf2 _ _ E0) as (G1 & G2 & G3).
      cbn [map fst]. split; [|split].
      - intros y [->|Hy]; [now left|right; now apply G1].
      - constructor; [|exact G2]. intros Hin. apply G1 in Hin. now apply Hn1.
      - constructor; [|exact G3]. cbn [snd] in *. eapply IH1; [apply Hf1|exact E]. }
    intros kss kts H. apply G in H as (_ & H1 & H2). constructor; assumption.
  Qed.
  Lemma wf_params (c : cons F) : wf c -> forall ks kt, root_params c ks = Ok kt -> wf kt.
  Proof.
    induction c as [t v ch IH] using node_ind'. intros Hc ks kt H. rewrite root_params_unfold in H. inv_bind H. inv_bind H. injection H as <-.
    apply wf_children in Hc as [Hn Hf]. clear E. revert x x0 E0.
    assert (G : forall kss kts, rps ch kss = Ok kts -> (forall k, In k (map fst kts) -> In k (map fst ch)) /\ NoDup (map fst kts) /\ Forall (fun kc => wf (snd kc)) kts).
    { induction ch as [|[k c] ch IHch]; intros kss kts H; cbn [rps] in H; [injection H as <-; repeat split; auto; constructor|].
      destruct kss as [|ck kss]; [injection H as <-; repeat split; try constructor; contradiction|].
      inv_bind H. inv_bind H. injection H as <-. apply Forall_cons_iff in IH as [IH1 IH2]. cbn [map fst] in Hn. apply NoDup_cons_iff in Hn as [Hn1 Hn2]. apply Forall_cons_iff in Hf as [Hf1 Hf2]. destruct (IHch IH2 Hn2 Hf2 _ _ E0) as (G1 & G2 & G3).
      cbn [map fst]. split; [|split].
      - intros y [->|Hy]; [now left|right; now apply G1].
      - constructor; [|exact G2]. intros Hin. apply G1 in Hin. now apply Hn1.
      - constructor; [|exact G3]. cbn [snd] in *. eapply IH1; [apply Hf1|exact E]. }
    intros kss kts H. apply G in H as (_ & H1 & H2). constructor; assumption.
  Qed.

  Lemma hinsert_same w l (L : layout) c (ct : cons F) ks ps key : all_dicts w -> shows_layout w l L ->
    given (w_cons w) (r_cons l) c ct -> noslash key = true ->
    exists w', hinsert_constraint w l c ks ps key = (w', snd (insert_constraint L ct ks ps key)) /\
      step_ok w l w' l (fst (insert_constraint L ct ks ps key)).
  Proof.
    intros (D1 & D2 & D3 & D4) (S1 & S2 & S3 & S4 & S5) G Hk. unfold hinsert_constraint, insert_constraint.
    pose proof (shows_wf _ _ _ D2 (proj1 G)) as Hw.
    destruct (add_given _ _ _ key c ct D2 S2 Hk G) as (h' & -> & Sh & Dh & U).
    destruct (add_child (l_cons L) key ct) as [t [u|e]]; cbn [fst snd] in *.
    2:{ eexists. split; [reflexivity|]. split; [repeat split; cbn; auto|]. split; [repeat split; cbn; auto|].
        do 4 (split; [reflexivity|]). split; [apply unchanged_refl|]. split; [exact U|]. split; apply unchanged_refl. }
    assert (Gc : given h' (r_cons l) c ct) by exact (given_kept _ _ _ _ _ D2 U G).
    rewrite (tree_at_shows h' c ct Dh (proj1 Gc)). cbn [bind set_w_cons w_keys set_cons l_keys].
    destruct (root_prim_keys ct ks) as [pk|e] eqn:Ek; cbn [fst snd].
    2:{ eexists. split; [reflexivity|]. split; [split; [|split; [|split]]; cbn; auto|]. split; [split; [|split; [|split; [|split]]]; cbn; auto|].
        do 4 (split; [reflexivity|]). split; [apply unchanged_refl|]. split; [exact U|]. split; apply unchanged_refl. }
    destruct (add_planted (w_keys w) (r_keys l) (l_keys L) key pk D3 S3 Hk (wf_keys ct Hw _ _ Ek)) as (hk0 & x & hk & -> & -> & Sk & Dk & Uk).
    destruct (add_child (l_keys L) key pk) as [tk [u2|e]]; cbn [fst snd] in *.
    2:{ eexists. split; [reflexivity|]. split; [split; [|split; [|split]]; cbn; auto|]. split; [split; [|split; [|split; [|split]]]; cbn; auto|].
        do 4 (split; [reflexivity|]). split; [apply unchanged_refl|]. split; [exact U|]. split; [exact Uk|apply unchanged_refl]. }
    cbn [set_w_keys w_params set_keys l_params].
    destruct (root_params ct ps) as [pp|e] eqn:Ep; cbn [fst snd].
    2:{ eexists. split; [reflexivity|]. split; [split; [|split; [|split]]; cbn; auto|]. split; [split; [|split; [|split; [|split]]]; cbn; auto|].
        do 4 (split; [reflexivity|]). split; [apply unchanged_refl|]. split; [exact U|]. split; [exact Uk|apply unchanged_refl]. }
    destruct (add_planted (w_params w) (r_params l) (l_params L) key pp D4 S4 Hk (wf_params ct Hw _ _ Ep)) as (hp0 & y & hp & E0 & E1 & Sp & Dp & Up).
    cbn [set_w_cons w_params set_cons l_params]. rewrite E0, E1.
    destruct (add_child (l_params L) key pp) as [tp res]; cbn [fst snd] in *.
    eexists. split; [reflexivity|]. split; [split; [|split; [|split]]; cbn; auto|]. split; [split; [|split; [|split; [|split]]]; cbn; auto|].
    do 4 (split; [reflexivity|]). split; [apply unchanged_refl|]. split; [exact U|]. split; [exact Uk|exact Up].
  Qed.

  Lemma hadd_constraint_same w l (L : layout) c (ct : cons F) ks ps key : all_dicts w -> shows_layout w l L ->
    given (w_cons w) (r_cons l) c ct -> noslash key = true -> noslash (cname (ntype ct)) = true ->
    exists w' l', hadd_constraint w l c ks ps key = (w', l', snd (add_constraint L ct ks ps key)) /\
      step_ok w l w' l' (fst (add_constraint L ct ks ps key)).
  Proof.
    intros D S G Hk Hn. unfold hadd_constraint, add_constraint. rewrite (glance_shows _ _ _ (proj1 G)). cbn [ntype].
    assert (Hset : forall cnt, shows_layout w (set_r_counter l cnt) (set_counter L cnt)).
    { intros cnt. destruct S as (? & ? & ? & ? & ?). split; [|split; [|split; [|split]]]; cbn; auto. }
    assert (Hs : forall l0 L0, shows_layout w l0 L0 -> r_prim l0 = r_prim l -> r_cons l0 = r_cons l -> r_keys l0 = r_keys l -> r_params l0 = r_params l ->
       step_ok w l w l0 L0).
    { intros l0 L0 S0 E1 E2 E3 E4. split; [exact D|]. split; [exact S0|]. do 4 (split; [assumption|]). split; [apply unchanged_refl|]. split; [apply unchanged_refl|]. split; apply unchanged_refl. }
    assert (Main : forall l0 L0 k, shows_layout w l0 L0 -> r_prim l0 = r_prim l -> r_cons l0 = r_cons l -> r_keys l0 = r_keys l -> r_params l0 = r_params l -> noslash k = true ->
      exists w' l', match hvalidate_inputs w l0 c ks ps with
            | Err e => (w, l0, Err e)
            | Ok _ => let (w, res) := hinsert_constraint w l0 c ks ps k in (w, l0, res)
            end = (w', l', snd match validate_inputs L0 ct ks ps with Err e => (L0, Err e) | Ok _ => insert_constraint L0 ct ks ps k end) /\
        step_ok w l w' l' (fst match validate_inputs L0 ct ks ps with Err e => (L0, Err e) | Ok _ => insert_constraint L0 ct ks ps k end)).
    { intros l0 L0 k S0 E1 E2 E3 E4 Hk0. rewrite (hvalidate_same w l0 L0 c ct ks ps (proj1 S0) (proj1 G)).
      destruct (validate_inputs L0 ct ks ps) as [u|e]; cbn [fst snd]; [|eexists _, _; split; [reflexivity|now apply Hs]].
      destruct (hinsert_same w l0 L0 c ct ks ps k D S0) as (w' & -> & St); [now rewrite E2|exact Hk0|].
      eexists _, _. split; [reflexivity|]. eapply step_trans; [apply (Hs l0 L0); assumption|exact St]. }
    destruct (String.eqb key EmptyString).
    - rewrite (hgen_key_same w l L ct S). destruct (gen_key L ct) as [cnt [k|e]] eqn:Eg.
      + apply Main; auto. now apply (gen_key_noslash L ct cnt k).
      + eexists _, _. split; [reflexivity|]. apply Hs; auto; apply Hset.
    - apply Main; auto.
  Qed.

  Lemma perform_same w l (L : layout) a b : all_dicts w -> shows_layout w l L -> stands_for w l a b -> flat_key b ->
    exists w' l', perform w l a = (w', l', snd (act L b)) /\ step_ok w l w' l' (fst (act L b)).
  Proof.
    intros D S Hst Hk. destruct a, b; cbn [stands_for] in Hst; try contradiction; cbn [perform act flat_key] in *.
    - destruct Hst as [-> G]. destruct (hadd_prim_same w l L p p0 key0 D S G Hk) as (w' & -> & St). eauto.
    - destruct (hadd_prims_same d0 w l L d D S Hst Hk) as (w' & -> & St). eauto.
    - destruct Hst as (-> & -> & -> & G). destruct Hk. now apply hadd_constraint_same.
  Qed.
  Lemma performs_same acts : forall w l (L : layout) rs, all_dicts w -> shows_layout w l L -> Forall2 (stands_for w l) rs acts -> Forall flat_key acts ->
    exists w' l', performs w l rs = (w', l', outcomes L acts) /\ step_ok w l w' l' (after L acts).
  Proof.
    induction acts as [|b acts IH]; intros w l L rs D S Fs Hk; inversion Fs as [|a ? rs' ? Ha Fr]; subst.
    - exists w, l. split; [reflexivity|]. now apply step_refl.
    - inversion Hk as [|? ? Hk1 Hk2]; subst. destruct (perform_same w l L a b D S Ha Hk1) as (w1 & l1 & E1 & St1).
      destruct (IH w1 l1 (fst (act L b)) rs') as (w2 & l2 & E2 & St2).
      + apply St1.
      + apply St1.
      + eapply F2_impl; [|exact Fr]. intros x y Hxy. eapply stands_for_kept; eauto.
      + exact Hk2.
      + exists w2, l2. cbn [performs outcomes]. rewrite E1, E2. split; [reflexivity|]. cbn [after fold_left].
        eapply step_trans; eauto.
  Qed.
End Hist.
