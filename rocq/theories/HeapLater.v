(** Calls after [update_layout_constraints] (proofs only). *)
From Verif Require Export HeapUpdate.

Section Generic.
  Context {T A : Type}.
  Implicit Types (h : heap T A).

  Lemma put_child_dicts h p k c : dicts h -> dicts (put_child h p k c).
  Proof.
    intros Hd. destruct (look h p) as [o|] eqn:E; [|unfold put_child; now rewrite E].
    pose proof (put_child_only h p k c o E) as Ho. eapply only_dicts; eauto. apply dset_NoDup.
    apply nth_error_In in E. unfold dicts in Hd. rewrite Forall_forall in Hd. auto.
  Qed.
  Lemma hadd_child_dicts h r key c : dicts h -> dicts (fst (hadd_child h r key c)).
  Proof.
    intros Hd. unfold hadd_child. destruct (hadd_child_f _ h r key c) as [h' res] eqn:E.
    apply hadd_child_effect in E as [->|(p & k & _ & -> & _)]; [exact Hd|]. now apply put_child_dicts.
  Qed.
  Lemma plant_dicts h t : wf t -> dicts h -> dicts (fst (plant h t)).
  Proof. intros Hw Hd. destruct (plant_spec t Hw h) as (new & r & -> & _ & D & _). now apply dicts_app. Qed.
  Lemma hunflatten_f_dicts : forall fuel h l h' r rest, dicts h -> hunflatten_f fuel h l = Ok (h', r, rest) -> dicts h'.
  Proof.
    induction fuel as [|f IH]; intros h l h' r rest Hd E; cbn [hunflatten_f] in E; [discriminate|].
    destruct l as [|[[[k0 t0] v0] ks0] l]; [discriminate|].
    match goal with E : bind (?G ks0 h l) _ = _ |- _ => set (go := G) in E end.
    assert (Hgo : forall ks h l h1 cs l1, dicts h -> go ks h l = Ok (h1, cs, l1) -> dicts h1).
    { clear E Hd. induction ks as [|k ks IHk]; intros hh ll h1 cs l1 Hd E; cbn [go] in E; [now injection E as <- _ _|]. fold go in E.
      destruct (hunflatten_f f hh ll) as [[[h2 c] l2]|] eqn:E1; [|discriminate]. cbn [bind] in E.
      destruct (go ks h2 l2) as [[[h3 cs2] l3]|] eqn:E2; [|discriminate]. cbn [bind] in E. injection E as <- _ _.
      eapply IHk; [|exact E2]. eapply IH; eauto. }
    destruct (go ks0 h l) as [[[h1 cs] l1]|] eqn:E1; [|discriminate]. cbn [bind alloc] in E. injection E as <- _ _.
    apply dicts_app; [eapply Hgo; eauto|]. constructor; [|constructor]. cbn [och]. apply dict_of_NoDup.
  Qed.
  Lemma hcopy_dicts d b h r h' r' : dicts h -> hcopy d b h r = Ok (h', r') -> dicts h'.
  Proof.
    unfold hcopy. intros Hd E. destruct (hflatten d h EmptyString r) as [s|]; [|discriminate]. cbn [bind] in E. unfold hunflatten in E.
    match type of E with bind ?x _ = _ => destruct x as [[[h1 r1] rest]|] eqn:E1 end; [|discriminate]. cbn [bind] in E. injection E as <- _.
    eapply hunflatten_f_dicts; eauto.
  Qed.
  Lemma hsetitem_dicts h r key c : dicts h -> dicts (fst (hsetitem h r key c)).
  Proof.
    intros Hd. unfold hsetitem. destruct (hcontains h r key) as [[]|]; [|exact Hd|exact Hd].
    destruct (String.eqb _ _); [now apply put_child_dicts|]. destruct (hget_child _ _ _); [now apply put_child_dicts|exact Hd].
  Qed.
  Lemma tree_at_wf h r t : dicts h -> tree_at h r = Ok t -> wf t.
  Proof. intros Hd H. apply read_sound in H. eapply shows_wf; eauto. Qed.

  Lemma dset_absent {V} k (v : V) d : dget k d = None -> dset k v d = d ++ [(k, v)].
  Proof.
    induction d as [|[k0 v0] d IH]; cbn; [reflexivity|]. destruct (String.eqb k k0); [discriminate|]. intros H. now rewrite IH.
  Qed.

  (** Planting a tree and adding it to an unshared tree leaves an unshared tree of new objects. *)
  Lemma plant_add h0 h r t key tc : fresh_root h0 h r t -> wf tc ->
    exists t', fresh_root h0 (fst (hadd_child (fst (plant h tc)) r key (snd (plant h tc)))) r t'.
  Proof.
    intros ([nw Ex] & Sr & Wr & Ur & Br) Wc.
    destruct (plant_spec tc Wc h) as (n1 & x & E1 & Sx & Dx & Bx). pose proof (plant_unshared tc Wc h) as Ux. rewrite E1 in Ux |- *. cbn [fst snd] in *.
    pose proof (shows_ext h n1 r t Sr) as Sr1.
    assert (W1 : forall q y, hwalk (h ++ n1) q r = Some y -> hwalk h q r = Some y) by (intros q y; eapply hwalk_ext_inv; eauto).
    assert (U1 : unshared (h ++ n1) r). { intros q1 q2 y Hq1 Hq2. apply W1 in Hq1, Hq2. eapply Ur; eauto. }
    assert (B1 : new_below h0 (h ++ n1) r). { intros q y Hq. apply W1 in Hq. apply Br in Hq. rewrite app_length. lia. }
    assert (X1 : extends h0 (h ++ n1)). { exists (nw ++ n1). now rewrite Ex, app_assoc. }
    destruct (hadd_child_outcome (h ++ n1) r t key (split_all key) x tc Sr1 (components_total key)) as (_ & O2 & O3).
    destruct O2 as [O2|O2]; [rewrite O2; exists t; split; [exact X1|]; split; [exact Sr1|]; split; [exact Wr|]; split; [exact U1|exact B1]|].
    destruct (O3 O2) as (p & o & Wp & Eo & Dk & On). clear O3.
    set (h' := fst (hadd_child (h ++ n1) r key x)) in *. set (k := last (split_all key) EmptyString) in *. set (parents := removelast (split_all key)) in *.
    rewrite <- (dset_absent k x (och o) Dk) in On.
    pose proof (Br _ _ (W1 _ _ Wp)) as Bp.
    assert (Nx : ~ holds (h ++ n1) x p). { intros [q Hq]. apply Bx in Hq. lia. }
    pose proof (hwalk_put (h ++ n1) h' p o k x Eo On Nx) as HW.
    exists (pupd parents (set_key k tc) t).
    assert (S' : shows h' r (pupd parents (set_key k tc) t)) by (eapply shows_put_h; eauto).
    destruct On as (Hl & Ho & o2 & Eo2 & Eo3).
    split; [|split; [exact S'|split; [|split]]].
    - exists (skipn (length h0) h'). rewrite <- (firstn_skipn (length h0) h') at 1. f_equal.
      assert (Lh : length h0 <= length h) by (rewrite Ex, app_length; lia).
      subst h. apply firstn_prefix; [rewrite Hl, !app_length; lia|].
      intros i Hi. rewrite Ho by lia. rewrite <- app_assoc. now apply nth_error_app1.
    - apply pupd_wf; [exact Wr|]. intros c0 Hc0. now apply set_key_wf.
    - intros q1 q2 y H1 H2. apply HW in H1 as [H1|(a1 & b1 & -> & H1 & G1)], H2 as [H2|(a2 & b2 & -> & H2 & G2)].
      + eapply U1; eauto.
      + apply W1 in H1. apply Br in H1. apply Bx in G2. lia.
      + apply W1 in H2. apply Br in H2. apply Bx in G1. lia.
      + f_equal; [eapply U1; eauto|]. f_equal. eapply Ux; eauto.
    - intros q y Hq. apply HW in Hq as [Hq|(a1 & b1 & -> & Hq & G1)].
      + apply B1 in Hq. lia.
      + apply Bx in G1. rewrite Hl. lia.
  Qed.

  (** Lookup of an object that is there needs nothing else. *)
  Lemma hwalk_get_f h : forall fuel r key c, String.length key < fuel -> hwalk h (split_all key) r = Some c -> hget_child_f fuel h r key = Ok c.
  Proof.
    induction fuel as [|f IH]; intros r key c Hf H; [lia|]. cbn [hget_child_f].
    destruct (split1 key) as [p [rest|]] eqn:E.
    - pose proof (split1_Some_length _ _ _ E) as Hl. apply split1_Some in E as (_ & _ & Hs). rewrite Hs in H. cbn in H.
      unfold deref, look. destruct (nth_error h r) as [o|]; [|discriminate]. cbn [bind].
      destruct (dget p (och o)) as [x|]; [|discriminate]. now rewrite (IH x rest c) by (auto; lia).
    - apply split1_None in E as (-> & _ & Hs). rewrite Hs in H. cbn in H.
      unfold deref, look. destruct (nth_error h r) as [o|]; [|discriminate]. cbn [bind].
      destruct (dget p (och o)) as [x|]; [now injection H as ->|discriminate].
  Qed.
  Lemma hwalk_get h r key c : hwalk h (split_all key) r = Some c -> hget_child h r key = Ok c.
  Proof. apply hwalk_get_f. lia. Qed.
End Generic.

Section Later.
  Context {F : Type} {N : Num F}.
  Notation pyval := (pyval F).
  Notation layout := (layout F).

  (** Kept by all calls on a layout whose parameter nodes are its own. *)
  Definition own_params (h0 : heap ktype (list pyval)) (w : world F) (l : hlayout) : Prop :=
    all_dicts w /\ exists t, fresh_root h0 (w_params w) (r_params l) t.
  Definition same_roots (l l' : hlayout) : Prop :=
    r_prim l' = r_prim l /\ r_cons l' = r_cons l /\ r_keys l' = r_keys l /\ r_params l' = r_params l.
  Lemma same_roots_refl l : same_roots l l.
  Proof. repeat split. Qed.

  Lemma hadd_prim_own h0 (w : world F) l p key : own_params h0 w l -> own_params h0 (fst (hadd_prim w l p key)) l.
  Proof.
    intros ((D1 & D2 & D3 & D4) & Ht). unfold hadd_prim. pose proof (hadd_child_dicts (w_prims w) (r_prim l) key p D1) as D.
    destruct (hadd_child (w_prims w) (r_prim l) key p) as [h' res]. split; [split; [exact D|auto]|exact Ht].
  Qed.
  Lemma hadd_prims_own h0 d : forall (w : world F) l, own_params h0 w l -> own_params h0 (fst (hadd_prims w l d)) l.
  Proof.
    induction d as [|[k p] d IH]; intros w l H; [exact H|]. cbn [hadd_prims].
    pose proof (hadd_prim_own h0 w l p k H) as H1. destruct (hadd_prim w l p k) as [w' [u|e]]; [now apply IH|exact H1].
  Qed.
  Lemma hinsert_own h0 (w : world F) l c ks ps key : own_params h0 w l -> own_params h0 (fst (hinsert_constraint w l c ks ps key)) l.
  Proof.
    intros ((D1 & D2 & D3 & D4) & (t & Ht)). unfold hinsert_constraint.
    pose proof (hadd_child_dicts (w_cons w) (r_cons l) key c D2) as Dc.
    destruct (hadd_child (w_cons w) (r_cons l) key c) as [hc [u|e]]; cbn [fst] in *.
    2:{ split; [split; [|split; [|split]]; assumption|now exists t]. }
    destruct (tree_at hc c) as [ct|e] eqn:Et; cbn [bind].
    2:{ split; [split; [|split; [|split]]; assumption|now exists t]. }
    pose proof (tree_at_wf _ _ _ Dc Et) as Wc.
    destruct (root_prim_keys ct ks) as [pk|e] eqn:Ek; cbn [set_w_cons w_keys].
    2:{ split; [split; [|split; [|split]]; assumption|now exists t]. }
    pose proof (plant_dicts (w_keys w) pk (wf_keys ct Wc _ _ Ek) D3) as Dk0.
    destruct (plant (w_keys w) pk) as [hk0 x]. cbn [fst] in Dk0.
    pose proof (hadd_child_dicts hk0 (r_keys l) key x Dk0) as Dk.
    destruct (hadd_child hk0 (r_keys l) key x) as [hk [u2|e]]; cbn [fst set_w_keys w_params] in *.
    2:{ split; [split; [|split; [|split]]; assumption|now exists t]. }
    destruct (root_params ct ps) as [pp|e] eqn:Ep.
    2:{ split; [split; [|split; [|split]]; assumption|now exists t]. }
    pose proof (wf_params ct Wc _ _ Ep) as Wp.
    pose proof (plant_dicts (w_params w) pp Wp D4) as Dp0. pose proof (plant_add h0 (w_params w) (r_params l) t key pp Ht Wp) as Hf.
    cbn [set_w_cons w_params].
    destruct (plant (w_params w) pp) as [hp0 y]. cbn [fst snd] in *.
    pose proof (hadd_child_dicts hp0 (r_params l) key y Dp0) as Dp.
    destruct (hadd_child hp0 (r_params l) key y) as [hp res]. cbn [fst] in *.
    split; [split; [|split; [|split]]; assumption|exact Hf].
  Qed.
  Lemma perform_own h0 (w : world F) l a w' l' res : own_params h0 w l -> perform w l a = (w', l', res) ->
    own_params h0 w' l' /\ same_roots l l'.
  Proof.
    intros H E. destruct a as [p key|d|c ks ps key]; cbn [perform] in E.
    - pose proof (hadd_prim_own h0 w l p key H) as G. destruct (hadd_prim w l p key) as [w1 r]. injection E as <- <- <-. split; [exact G|apply same_roots_refl].
    - pose proof (hadd_prims_own h0 d w l H) as G. destruct (hadd_prims w l d) as [w1 r]. injection E as <- <- <-. split; [exact G|apply same_roots_refl].
    - unfold hadd_constraint in E. destruct (glance (w_cons w) c) as [ct|e]; [|injection E as <- <- <-; split; [exact H|apply same_roots_refl]].
      assert (Hm : forall l0 k, own_params h0 w l0 -> same_roots l l0 ->
        match hvalidate_inputs w l0 c ks ps with
        | Err e => (w, l0, Err e)
        | Ok _ => let (w, res) := hinsert_constraint w l0 c ks ps k in (w, l0, res)
        end = (w', l', res) -> own_params h0 w' l' /\ same_roots l l').
      { clear E. intros l0 k H0 R0 E. destruct (hvalidate_inputs w l0 c ks ps); [|injection E as <- <- <-; split; assumption].
        pose proof (hinsert_own h0 w l0 c ks ps k H0) as G. destruct (hinsert_constraint w l0 c ks ps k) as [w1 r]. injection E as <- <- <-. split; [exact G|exact R0]. }
      destruct (String.eqb key EmptyString).
      + destruct (hgen_key w l (cname (ntype ct))) as [cnt [k|e]].
        * eapply Hm; [| |exact E]; [exact H|repeat split].
        * injection E as <- <- <-. split; [exact H|repeat split].
      + eapply Hm; [| |exact E]; [exact H|apply same_roots_refl].
  Qed.
  Lemma performs_own h0 rs : forall (w : world F) l w' l' outs, own_params h0 w l -> performs w l rs = (w', l', outs) ->
    own_params h0 w' l' /\ same_roots l l'.
  Proof.
    induction rs as [|a rs IH]; intros w l w' l' outs H E; cbn [performs] in E.
    - injection E as <- <- <-. split; [exact H|apply same_roots_refl].
    - destruct (perform w l a) as [[w1 l1] r] eqn:E1. destruct (performs w1 l1 rs) as [[w2 l2] out] eqn:E2. injection E as <- <- <-.
      destruct (perform_own h0 w l a w1 l1 r H E1) as [H1 R1]. destruct (IH _ _ _ _ _ H1 E2) as [H2 R2]. split; [exact H2|].
      destruct R1 as (? & ? & ? & ?), R2 as (? & ? & ? & ?). repeat split; congruence.
  Qed.

  (** The parameter objects after [update_layout_constraints] are dicts. *)
  Lemma hupdate_dicts (w : world F) l axs w' l' : all_dicts w -> hupdate_layout_constraints w l axs = Ok (w', l') -> all_dicts w'.
  Proof.
    intros (D1 & D2 & D3 & D4) E. unfold hupdate_layout_constraints in E.
    destruct (hiter_flat _ _ _ _) as [fl|]; [|discriminate]. cbn [bind] in E.
    match type of E with bind ?x _ = _ => destruct x as [d|] end; [|discriminate]. cbn [bind] in E.
    destruct (hupdate_root_param w l d) as [[h r]|] eqn:Eu; [|discriminate]. cbn [bind] in E. injection E as <- _.
    split; [exact D1|split; [exact D2|split; [exact D3|]]]. cbn [set_w_params w_params].
    unfold hupdate_root_param in Eu. destruct (hcopy _ _ _ _) as [[h0 r0]|] eqn:Ec; [|discriminate]. cbn [bind] in Eu.
    apply hcopy_dicts in Ec; [|exact D4].
    change (fold_left _ d (Ok h0)) with (fold_left (fun acc kp => h <- acc ;; hustep w l r0 h kp) d (Ok h0)) in Eu.
    revert h0 Ec Eu. induction d as [|kp d IH]; intros h0 Ec Eu.
    - cbn in Eu. now injection Eu as <- _.
    - cbn [fold_left bind] in Eu. destruct (hustep w l r0 h0 kp) as [h1|e] eqn:Es; [|rewrite fold_err in Eu; discriminate].
      refine (IH h1 _ Eu). unfold hustep in Es. destruct (hget_child _ _ _) as [c|]; [|discriminate]. cbn [bind] in Es.
      destruct (tree_at (w_cons w) c) as [ct|] eqn:Et; [|discriminate]. cbn [bind] in Es.
      destruct (root_params ct (snd kp)) as [pp|] eqn:Ep; [|discriminate]. cbn [bind] in Es.
      assert (Wp : wf pp) by (apply (wf_params ct (tree_at_wf _ _ _ D2 Et) _ _ Ep)).
      pose proof (plant_dicts h0 pp Wp Ec) as Dp. destruct (plant h0 pp) as [h2 x]. cbn [fst] in Dp.
      pose proof (hsetitem_dicts h2 r0 (fst kp) x Dp) as Ds. destruct (hsetitem h2 r0 (fst kp) x) as [h3 [u|e]]; [|discriminate].
      injection Es as <-. exact Ds.
  Qed.

  (** A successful call has added the constraint object under some key. *)
  Lemma hadd_constraint_added (w : world F) l c ks ps key w' l' : hadd_constraint w l c ks ps key = (w', l', Ok tt) ->
    exists k, (key <> EmptyString -> k = key) /\ hadd_child (w_cons w) (r_cons l) k c = (w_cons w', Ok tt).
  Proof.
    intros E. unfold hadd_constraint in E. destruct (glance (w_cons w) c) as [ct|e]; [|discriminate].
    assert (Hm : forall l0 k, r_cons l0 = r_cons l -> match hvalidate_inputs w l0 c ks ps with
        | Err e => (w, l0, Err e)
        | Ok _ => let (w, res) := hinsert_constraint w l0 c ks ps k in (w, l0, res)
        end = (w', l', Ok tt) -> hadd_child (w_cons w) (r_cons l) k c = (w_cons w', Ok tt)).
    { clear E. intros l0 k R E. destruct (hvalidate_inputs w l0 c ks ps); [|discriminate]. unfold hinsert_constraint in E. rewrite R in E.
      destruct (hadd_child (w_cons w) (r_cons l) k c) as [hc [[]|e]]; [|discriminate].
      destruct (x <- tree_at hc c;; root_prim_keys x ks) as [pk|]; [|discriminate]. cbn [set_w_cons w_keys] in E.
      destruct (plant (w_keys w) pk) as [hk0 x]. destruct (hadd_child hk0 (r_keys l0) k x) as [hk [u|e]]; [|discriminate].
      destruct (ct0 <- tree_at hc c;; root_params ct0 ps) as [pp|]; [|discriminate]. cbn [set_w_cons set_w_keys w_params] in E.
      destruct (plant (w_params w) pp) as [hp0 y]. destruct (hadd_child hp0 (r_params l0) k y) as [hp r]. injection E as <- _ _. reflexivity. }
    destruct (String.eqb_spec key EmptyString) as [->|Hk].
    - destruct (hgen_key w l (cname (ntype ct))) as [cnt [k|e]]; [|discriminate]. exists k. split; [congruence|]. eapply Hm; [|exact E]. reflexivity.
    - exists key. split; [auto|]. eapply Hm; [|exact E]. reflexivity.
  Qed.

  (** A successful call on trees. *)
  Lemma add_constraint_added (L L' : layout) (c : cons F) ks ps key : add_constraint L c ks ps key = (L', Ok tt) ->
    noslash key = true -> noslash (cname (ntype c)) = true ->
    exists k kt pt, noslash k = true /\ (key <> EmptyString -> k = key) /\ root_prim_keys c ks = Ok kt /\ root_params c ps = Ok pt /\
      l_prim L' = l_prim L /\
      add_child (l_cons L) k c = (l_cons L', Ok tt) /\ add_child (l_keys L) k kt = (l_keys L', Ok tt) /\ add_child (l_params L) k pt = (l_params L', Ok tt).
  Proof.
    intros E Hk Hn. unfold add_constraint in E.
    assert (Hm : forall L0 k, same_trees L L0 -> noslash k = true -> (key <> EmptyString -> k = key) ->
      match validate_inputs L0 c ks ps with Err e => (L0, Err e) | Ok _ => insert_constraint L0 c ks ps k end = (L', Ok tt) ->
      exists k kt pt, noslash k = true /\ (key <> EmptyString -> k = key) /\ root_prim_keys c ks = Ok kt /\ root_params c ps = Ok pt /\
      l_prim L' = l_prim L /\
      add_child (l_cons L) k c = (l_cons L', Ok tt) /\ add_child (l_keys L) k kt = (l_keys L', Ok tt) /\ add_child (l_params L) k pt = (l_params L', Ok tt)).
    { clear E. intros L0 k (S1 & S2 & S3 & S4) Hk0 Hkk E. destruct (validate_inputs L0 c ks ps); [|discriminate]. unfold insert_constraint in E. rewrite S2 in E.
      destruct (add_child (l_cons L) k c) as [t [[]|e]] eqn:E1; [|discriminate]. destruct (root_prim_keys c ks) as [kt|]; [|discriminate].
      cbn [set_cons l_keys] in E. rewrite S3 in E. destruct (add_child (l_keys L) k kt) as [tk [[]|e]] eqn:E2; [|discriminate].
      destruct (root_params c ps) as [pt|]; [|discriminate]. cbn [set_keys set_cons l_params] in E. rewrite S4 in E.
      destruct (add_child (l_params L) k pt) as [tp r] eqn:E3. injection E as <- ->. exists k, kt, pt. cbn [set_params set_keys set_cons l_prim l_cons l_keys l_params]. repeat split; auto. }
    destruct (String.eqb_spec key EmptyString) as [Ek|Hne].
    - destruct (gen_key L c) as [cnt [k|e]] eqn:Eg; [|discriminate]. apply (Hm (set_counter L cnt) k); [repeat split| |intros Hx; now elim Hx|exact E].
      now apply (gen_key_noslash L c cnt k).
    - apply (Hm L key); [repeat split|exact Hk|auto|exact E].
  Qed.
End Later.
