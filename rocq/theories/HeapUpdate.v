(** [update_layout_constraints] on objects (proofs only). *)
From Verif Require Export UpdateProofs.
From Verif Require Export HeapHist.

Section Generic.
  Context {T A : Type}.
  Implicit Types (h : heap T A).

  (** Walks after one entry of one object was set. *)
  Lemma hwalk_put h h' p o k c : nth_error h p = Some o -> only_children_of h h' p (dset k c (och o)) -> ~ holds h c p ->
    forall q r x, hwalk h' q r = Some x ->
    hwalk h q r = Some x \/ exists q1 q2, q = q1 ++ k :: q2 /\ hwalk h q1 r = Some p /\ hwalk h q2 c = Some x.
  Proof.
    intros Ep (Hl & Ho & o2 & E2 & E2') Hc. rewrite Ep in E2. injection E2 as <-.
    assert (Fr : forall q, hwalk h' q c = hwalk h q c) by (intros q; now apply (hwalk_frame h h' p)).
    induction q as [|k0 q IH]; intros r x H; cbn in H; [left; exact H|].
    destruct (Nat.eq_dec r p) as [->|Hr].
    - rewrite E2' in H. cbn [och] in H. destruct (String.eqb_spec k0 k) as [->|Hk].
      + rewrite dget_dset_same in H. right. exists [], q. split; [reflexivity|]. split; [reflexivity|]. now rewrite <- Fr.
      + rewrite dget_dset_other in H by exact Hk. destruct (dget k0 (och o)) as [y|] eqn:D; [|discriminate].
        destruct (IH y x H) as [G|(q1 & q2 & -> & G1 & G2)].
        * left. cbn. now rewrite Ep, D.
        * right. exists (k0 :: q1), q2. split; [reflexivity|]. split; [cbn; now rewrite Ep, D|exact G2].
    - rewrite Ho in H by exact Hr. destruct (nth_error h r) as [o'|] eqn:E; [|discriminate].
      destruct (dget k0 (och o')) as [y|] eqn:D; [|discriminate].
      destruct (IH y x H) as [G|(q1 & q2 & -> & G1 & G2)].
      * left. cbn. now rewrite E, D.
      * right. exists (k0 :: q1), q2. split; [reflexivity|]. split; [cbn; now rewrite E, D|exact G2].
  Qed.

  Lemma dset_wf k (x : node T A) ch : NoDup (map fst ch) -> Forall (fun kc => wf (snd kc)) ch -> wf x ->
    NoDup (map fst (dset k x ch)) /\ Forall (fun kc => wf (snd kc)) (dset k x ch).
  Proof.
    intros H1 H2 Hx. split; [now apply dset_NoDup|]. clear H1. induction ch as [|[k0 y] ch IH]; cbn; [constructor; auto|].
    inversion H2; subst. destruct (String.eqb k k0); constructor; auto.
  Qed.
  Lemma pupd_wf p f (n : node T A) : wf n -> (forall c, wf c -> wf (f c)) -> wf (pupd p f n).
  Proof.
    intros Hn Hf. revert n Hn. induction p as [|k p IH]; intros n Hn; [now apply Hf|]. cbn [pupd]. destruct (dget k (nch n)) as [c|] eqn:E; [|exact Hn].
    destruct n as [t v ch]. cbn [nch ntype nval] in *. apply wf_children in Hn as [H1 H2]. apply dget_In in E.
    assert (wf c) by (rewrite Forall_forall in H2; apply (H2 _ E)).
    destruct (dset_wf k (pupd p f c) ch H1 H2 (IH c H)). now constructor.
  Qed.
  Lemma set_key_wf k (x n : node T A) : wf x -> wf n -> wf (set_key k x n).
  Proof.
    intros Hx Hn. destruct n as [t v ch]. apply wf_children in Hn as [H1 H2]. unfold set_key. cbn [ntype nval nch].
    destruct (dset_wf k x ch H1 H2 Hx). now constructor.
  Qed.
  Lemma firstn_prefix {B} (l m : list B) : length l <= length m -> (forall i, i < length l -> nth_error m i = nth_error l i) -> firstn (length l) m = l.
  Proof.
    revert m. induction l as [|a l IH]; intros m Hl Hn; [reflexivity|]. destruct m as [|b m]; [cbn in Hl; lia|].
    cbn. pose proof (Hn 0 ltac:(cbn; lia)) as H0. cbn in H0. injection H0 as ->. f_equal. apply IH; [cbn in Hl; lia|].
    intros i Hi. apply (Hn (S i)). cbn. lia.
  Qed.

  (** A newly made tree has no sharing. *)
  Definition separate h (cs : dict nat) : Prop := forall k1 c1 k2 c2 p q x,
    dget k1 cs = Some c1 -> dget k2 cs = Some c2 -> hwalk h p c1 = Some x -> hwalk h q c2 = Some x -> k1 = k2.
  Lemma plant_unshared t : wf t -> forall h, unshared (fst (plant h t)) (snd (plant h t)).
  Proof.
    induction t as [ty v ch IH] using node_ind'. intros Hw h. pose proof (wf_children _ _ _ Hw) as [Hnd Hwf].
    rewrite plant_unfold.
    assert (G : forall ch h, Forall (fun kc => wf (snd kc)) ch -> Forall (fun kc => forall h, unshared (fst (plant h (snd kc))) (snd (plant h (snd kc)))) ch ->
      exists new, fst (plants h ch) = h ++ new /\
      Forall (fun kr => unshared (h ++ new) (snd kr) /\ new_below h (h ++ new) (snd kr) /\ exists t, shows (h ++ new) (snd kr) t) (snd (plants h ch)) /\
      separate (h ++ new) (snd (plants h ch))).
    { clear. induction ch as [|[k c] ch IHc]; intros h Hw Hf.
      - exists []. cbn. rewrite app_nil_r. repeat split; [constructor|]. intros k1 c1 k2 c2 p q x D. discriminate.
      - inversion Hw as [|? ? Hw1 Hw2]; inversion Hf as [|? ? Hf1 Hf2]; subst. cbn [snd] in *.
        destruct (plant_spec c Hw1 h) as (n1 & r1 & E1 & S1 & D1 & B1). specialize (Hf1 h). rewrite E1 in Hf1. cbn [fst snd] in Hf1.
        destruct (IHc (h ++ n1) Hw2 Hf2) as (n2 & E2 & A2 & Sp).
        cbn [plants]. rewrite E1. destruct (plants (h ++ n1) ch) as [h2 xs]. cbn [fst snd] in *. subst h2.
        exists (n1 ++ n2). rewrite app_assoc. split; [reflexivity|].
        assert (W1 : forall p x, hwalk ((h ++ n1) ++ n2) p r1 = Some x -> hwalk (h ++ n1) p r1 = Some x) by (intros p x; eapply hwalk_ext_inv; eauto).
        split.
        + constructor.
          * cbn [snd]. split; [|split; [|exists c; now apply shows_ext]].
            -- intros p q x Hp Hq. apply W1 in Hp, Hq. eapply Hf1; eauto.
            -- intros p x Hp. apply W1 in Hp. specialize (B1 p x Hp). rewrite !app_length in *. lia.
          * eapply Forall_impl; [|exact A2]. intros kr (U & B & Sx). split; [exact U|]. split; [|exact Sx].
            intros p x Hp. specialize (B p x Hp). rewrite !app_length in *. lia.
        + assert (Old : forall k1 c1 p x, dget k1 xs = Some c1 -> hwalk ((h ++ n1) ++ n2) p c1 = Some x -> length (h ++ n1) <= x).
          { intros k1 c1 p x D Hp. apply dget_In in D. rewrite Forall_forall in A2. destruct (A2 _ D) as (_ & B & _). apply (B p x Hp). }
          intros k1 c1 k2 c2 p q x H1 H2 Hp Hq. cbn in H1, H2.
          destruct (String.eqb_spec k1 k) as [->|N1], (String.eqb_spec k2 k) as [->|N2].
          * reflexivity.
          * injection H1 as <-. apply W1 in Hp. apply B1 in Hp. pose proof (Old _ _ _ _ H2 Hq). lia.
          * injection H2 as <-. apply W1 in Hq. apply B1 in Hq. pose proof (Old _ _ _ _ H1 Hp). lia.
          * eapply Sp; eauto. }
    destruct (G ch h Hwf) as (new & E & Al & Sp).
    { rewrite Forall_forall in *. intros kc Hin. apply IH; auto. }
    destruct (plants h ch) as [h' cs]. cbn [fst snd] in *. subst h'. unfold alloc. cbn [fst snd].
    assert (E0 : nth_error ((h ++ new) ++ [Obj ty v cs]) (length (h ++ new)) = Some (Obj ty v cs)).
    { rewrite nth_error_app2 by lia. now rewrite Nat.sub_diag. }
    assert (Step : forall k p x, hwalk ((h ++ new) ++ [Obj ty v cs]) (k :: p) (length (h ++ new)) = Some x ->
      exists c, dget k cs = Some c /\ hwalk (h ++ new) p c = Some x /\ x < length (h ++ new) /\ unshared (h ++ new) c).
    { intros k p x H. cbn in H. rewrite E0 in H. cbn [och] in H. destruct (dget k cs) as [c|] eqn:D; [|discriminate].
      exists c. split; [reflexivity|]. pose proof D as D'. apply dget_In in D'. rewrite Forall_forall in Al. destruct (Al _ D') as (U & B & t & Sx). cbn [snd] in *.
      apply (hwalk_ext_inv _ _ _ _ _ _ Sx) in H. split; [exact H|]. split; [apply (B p x H)|exact U]. }
    intros [|k1 p] [|k2 q] x H1 H2.
    - reflexivity.
    - cbn in H1. injection H1 as <-. apply Step in H2 as (c & _ & _ & Hlt & _). lia.
    - cbn in H2. injection H2 as <-. apply Step in H1 as (c & _ & _ & Hlt & _). lia.
    - apply Step in H1 as (c1 & D1 & W1 & _ & U1), H2 as (c2 & D2 & W2 & _ & _).
      assert (k1 = k2) by (eapply Sp; eauto). subst k2. rewrite D1 in D2. injection D2 as <-. f_equal. eapply U1; eauto.
  Qed.

  (** Assignment into an unshared tree. *)
  Lemma setitem_pupd (t : node T A) key tc : snd (setitem t key tc) = Ok tt ->
    let path := split_all key in
    let parents := if String.eqb (join (removelast path)) EmptyString then [] else removelast path in
    fst (setitem t key tc) = pupd parents (set_key (last path EmptyString) tc) t.
  Proof.
    unfold setitem. cbv zeta. destruct (contains t key) as [[|]|e]; try discriminate.
    destruct (String.eqb_spec (join (removelast (split_all key))) EmptyString) as [E|E]; [reflexivity|].
    destruct (get_child t (join (removelast (split_all key)))) as [par|e] eqn:G; [|discriminate]. intros _. cbn [fst].
    unfold update_at. rewrite update_at_pupd by lia. f_equal. apply split_join.
    - intros Hn. apply E. now rewrite Hn.
    - pose proof (split_all_noslash key) as Hf. rewrite (split_all_parents key) in Hf. now apply Forall_app in Hf as [Hf _].
  Qed.
  Lemma shows_put_h h h' p o k c tc path r t : nth_error h p = Some o -> only_children_of h h' p (dset k c (och o)) ->
    shows h c tc -> wf tc -> ~ holds h c p -> wf t -> shows h r t -> hwalk h path r = Some p -> unshared h r ->
    shows h' r (pupd path (set_key k tc) t).
  Proof. intros E O Sc Wc Nc Wt St Wp U. eapply shows_put; eauto. Qed.

  (** One replacement: plant a tree and assign it. *)
  Definition fresh_root h0 h r t : Prop := extends h0 h /\ shows h r t /\ wf t /\ unshared h r /\ new_below h0 h r.
  Lemma replace_one h0 h r t key tc : fresh_root h0 h r t -> wf tc ->
    let (h1, x) := plant h tc in
    match setitem t key tc with
    | (t', Ok _) => exists h', hsetitem h1 r key x = (h', Ok tt) /\ fresh_root h0 h' r t'
    | (_, Err e) => snd (hsetitem h1 r key x) = Err e
    end.
  Proof.
    intros ([nw Ex] & Sr & Wr & Ur & Br) Wc.
    destruct (plant_spec tc Wc h) as (n1 & x & E1 & Sx & Dx & Bx). pose proof (plant_unshared tc Wc h) as Ux. rewrite E1 in Ux. cbn [fst snd] in Ux.
    rewrite E1. pose proof (shows_ext h n1 r t Sr) as Sr1.
    destruct (hsetitem_outcome (h ++ n1) r t key x tc Sr1) as (O1 & O2 & O3). cbv zeta in O3.
    pose proof (setitem_pupd t key tc) as Hp. cbv zeta in Hp.
    destruct (hsetitem (h ++ n1) r key x) as [h' res]. cbn [fst snd] in *. subst res.
    destruct (setitem t key tc) as [t' [[]|e]]; cbn [fst snd] in *; [|reflexivity].
    destruct (O3 eq_refl) as (p & o & Wp & Eo & On). clear O3.
    set (parents := if String.eqb (join (removelast (split_all key))) EmptyString then [] else removelast (split_all key)) in *.
    set (k := last (split_all key) EmptyString) in *.
    exists h'. split; [reflexivity|].
    assert (W1 : forall q y, hwalk (h ++ n1) q r = Some y -> hwalk h q r = Some y) by (intros q y; eapply hwalk_ext_inv; eauto).
    pose proof (W1 _ _ Wp) as Wp0. pose proof (Br _ _ Wp0) as Bp.
    assert (Nx : ~ holds (h ++ n1) x p). { intros [q Hq]. apply Bx in Hq. lia. }
    assert (U1 : unshared (h ++ n1) r). { intros q1 q2 y Hq1 Hq2. apply W1 in Hq1, Hq2. eapply Ur; eauto. }
    assert (S' : shows h' r t'). { rewrite (Hp eq_refl). eapply shows_put_h; eauto. }
    assert (Wt' : wf t').
    { rewrite (Hp eq_refl). apply (pupd_wf parents); [exact Wr|]. intros c0 Hc0. now apply set_key_wf. }
    pose proof (hwalk_put (h ++ n1) h' p o k x Eo On Nx) as HW.
    destruct On as (Hl & Ho & o2 & Eo2 & Eo3).
    assert (Lh : length h0 <= length h) by (rewrite Ex, app_length; lia).
    split; [|split; [exact S'|split; [exact Wt'|split]]].
    - exists (skipn (length h0) h'). rewrite <- (firstn_skipn (length h0) h') at 1. f_equal.
      subst h. apply firstn_prefix; [rewrite Hl, !app_length; lia|].
      intros i Hi. rewrite Ho by lia. rewrite <- app_assoc. now apply nth_error_app1.
    - intros q1 q2 y H1 H2. apply HW in H1 as [H1|(a1 & b1 & -> & H1 & G1)], H2 as [H2|(a2 & b2 & -> & H2 & G2)].
      + eapply U1; eauto.
      + apply W1 in H1. apply Br in H1. apply Bx in G2. lia.
      + apply W1 in H2. apply Br in H2. apply Bx in G1. lia.
      + f_equal; [eapply U1; eauto|]. f_equal. eapply Ux; eauto.
    - intros q y Hq. apply HW in Hq as [Hq|(a1 & b1 & -> & Hq & G1)].
      + apply W1 in Hq. apply Br in Hq. rewrite Hl, app_length. lia.
      + apply Bx in G1. rewrite Hl. lia.
  Qed.
End Generic.

Section Update.
  Context {F : Type} {N : Num F}.
  Notation pyval := (pyval F).
  Notation layout := (layout F).

  Lemma hthickness_same (w : world F) l (L : layout) axs d k r (ct : cons F) : shows_layout w l L -> shows (w_cons w) r ct ->
    hthickness_entry w l axs d (k, r) = thickness_entry L axs d (k, ct).
  Proof.
    intros (S1 & S2 & S3 & S4 & S5) Sc. unfold hthickness_entry, thickness_entry. cbn [fst snd].
    destruct (String.eqb (drop1 k) EmptyString); [reflexivity|].
    pose proof (hget_child_shows _ _ _ (drop1 k) S3) as G3. pose proof (hget_child_shows _ _ _ (drop1 k) S4) as G4.
    destruct (get_child (l_keys L) (drop1 k)) as [pk|e]; [|now rewrite G3].
    destruct G3 as (x & -> & Sx). cbn [bind]. apply shows_inv in Sx as (o & Eo & _ & Hv & _).
    unfold deref at 1. unfold look. rewrite Eo. cbn [bind].
    destruct (get_child (l_params L) (drop1 k)) as [pp|e]; [|now rewrite G4].
    destruct G4 as (y & -> & _). cbn [bind]. rewrite (glance_shows _ _ _ Sc). cbn [bind]. rewrite Hv. reflexivity.
  Qed.
  Lemma fold_err {B C} (f : C -> B -> result C) e l : fold_left (fun acc x => a <- acc ;; f a x) l (Err e) = Err e.
  Proof. induction l; cbn; auto. Qed.
  Lemma hthickness_fold (w : world F) l (L : layout) axs : shows_layout w l L -> forall ls ms d,
    Forall2 (fun kr kn => fst kr = fst kn /\ shows (w_cons w) (snd kr) (snd kn)) ls ms ->
    fold_left (fun acc kc => d <- acc ;; hthickness_entry w l axs d kc) ls (Ok d) =
    fold_left (fun acc kc => d <- acc ;; thickness_entry L axs d kc) ms (Ok d).
  Proof.
    intros S ls ms d Fl. revert d. induction Fl as [|[k r] [k' ct] ls ms [Ek Hs] Fl IH]; intros d; [reflexivity|].
    cbn [fst snd] in *. subst k'. cbn [fold_left bind]. rewrite (hthickness_same w l L axs d k r ct S Hs).
    destruct (thickness_entry L axs d (k, ct)) as [d'|e]; [apply IH|]. now rewrite !fold_err.
  Qed.

  Definition hustep (w : world F) (l : hlayout) (r : nat) (h : heap ktype (list pyval)) (kp : string * list pyval) : result (heap ktype (list pyval)) :=
    c <- hget_child (w_cons w) (r_cons l) (fst kp) ;;
    ct <- tree_at (w_cons w) c ;;
    pp <- root_params ct (snd kp) ;;
    let (h, x) := plant h pp in
    match hsetitem h r (fst kp) x with
    | (h, Ok _) => Ok h
    | (_, Err e) => Err e
    end.
  Lemma hustep_same (w : world F) l (L : layout) h0 r : all_dicts w -> shows_layout w l L -> forall d h t,
    fresh_root h0 h r t ->
    match fold_left (ustep (l_cons L)) d (Ok t) with
    | Ok t' => exists h', fold_left (fun acc kp => h <- acc ;; hustep w l r h kp) d (Ok h) = Ok h' /\ fresh_root h0 h' r t'
    | Err e => fold_left (fun acc kp => h <- acc ;; hustep w l r h kp) d (Ok h) = Err e
    end.
  Proof.
    intros (_ & D2 & _) (_ & S2 & _). induction d as [|[k ps] d IH]; intros h t Fr; [cbn; eauto|].
    assert (X : match ustep (l_cons L) (Ok t) (k, ps) with
      | Ok t' => exists h', hustep w l r h (k, ps) = Ok h' /\ fresh_root h0 h' r t'
      | Err e => hustep w l r h (k, ps) = Err e
      end).
    { unfold ustep, hustep. cbn [bind fst snd].
      pose proof (hget_child_shows _ _ _ k S2) as G. destruct (get_child (l_cons L) k) as [ct|e]; [|now rewrite G].
      destruct G as (c & -> & Sc). cbn [bind]. rewrite (tree_at_shows _ _ _ D2 Sc). cbn [bind].
      destruct (root_params ct ps) as [pp|e] eqn:Ep; cbn [bind]; [|reflexivity].
      assert (Wp : wf pp) by (apply (wf_params ct (shows_wf _ _ _ D2 Sc) ps pp Ep)).
      pose proof (replace_one h0 h r t k pp Fr Wp) as R. destruct (plant h pp) as [h1 x].
      destruct (setitem t k pp) as [t' [u|e]].
      - destruct R as (h' & -> & Fr'). eauto.
      - destruct (hsetitem h1 r k x) as [h2 res]. cbn [snd] in R. now subst res. }
    cbn [fold_left]. cbn [bind]. destruct (ustep (l_cons L) (Ok t) (k, ps)) as [t'|e].
    - destruct X as (h' & -> & Fr'). now apply IH.
    - rewrite X, ustep_err. apply fold_err.
  Qed.

  Lemma hupdate_same (w : world F) l (L : layout) axs : all_dicts w -> shows_layout w l L ->
    match update_layout_constraints L axs with
    | Ok L' => exists h r, hupdate_layout_constraints w l axs =
        Ok (set_w_params w h, {| r_prim := r_prim l; r_cons := r_cons l; r_keys := r_keys l; r_params := r; r_counter := [] |}) /\
        fresh_root (w_params w) h r (l_params L') /\
        l_prim L' = l_prim L /\ l_cons L' = l_cons L /\ l_keys L' = l_keys L /\ l_counter L' = []
    | Err e => hupdate_layout_constraints w l axs = Err e
    end.
  Proof.
    intros D S. pose proof D as (_ & D2 & _ & D4). pose proof S as (_ & S2 & _ & S4 & _).
    unfold hupdate_layout_constraints, update_layout_constraints.
    destruct (hiter_flat_shows (w_cons w) (length (w_cons w)) (l_cons L) (r_cons l) EmptyString S2 (height_bound _ _ _ D2 S2)) as (ls & -> & Fl).
    cbn [bind].
    assert (E : fold_left (fun acc kc => d <- acc ;; hthickness_entry w l axs d kc) ls (Ok []) =
                fold_left (fun acc kc => d <- acc ;; thickness_entry L axs d kc) (iter_flat EmptyString (l_cons L)) (Ok []))
      by exact (hthickness_fold w l L axs S ls _ [] Fl).
    rewrite E. clear E.
    match goal with |- context [bind (fold_left ?f (iter_flat EmptyString (l_cons L)) ?a) _] => destruct (fold_left f (iter_flat EmptyString (l_cons L)) a) as [d|e] end; cbn [bind]; [|reflexivity].
    unfold hupdate_root_param, update_root_param.
    destruct (hcopy_spec (w_params w) (length (w_params w)) KNode (r_params l) (l_params L) D4 S4 (height_bound _ _ _ D4 S4)) as (new & r & t' & -> & Et & (Sr & Lr & Ur)).
    assert (Wt : wf t'). { unfold node_copy in Et. rewrite node_map_tmap in Et by (eapply shows_wf; eauto). injection Et as <-. apply tmap_wf. eapply shows_wf; eauto. }
    rewrite Et. cbn [bind].
    assert (Fr : fresh_root (w_params w) (w_params w ++ new) r t').
    { split; [now exists new|]. split; [exact Sr|]. split; [exact Wt|]. split; [exact Ur|].
      intros p x Hp. split; [now apply (Lr p)|]. eapply hwalk_bound; eauto. }
    change (list (obj ktype (list pyval))) with (heap ktype (list pyval)) in *.
    remember (w_params w ++ new : heap ktype (list pyval)) as h1 eqn:Eh1.
    pose proof (hustep_same w l L (w_params w) r D S d h1 t' Fr) as H.
    change (fold_left _ d (Ok t')) with (fold_left (ustep (l_cons L)) d (Ok t')).
    change (fold_left _ d (Ok h1)) with (fold_left (fun acc kp => h <- acc ;; hustep w l r h kp) d (Ok h1)).
    destruct (fold_left (ustep (l_cons L)) d (Ok t')) as [t2|e]; cbn [bind].
    - destruct H as (h' & -> & Fr'). cbn [bind]. eexists _, _. split; [reflexivity|]. split; [exact Fr'|]. repeat split.
    - rewrite H. reflexivity.
  Qed.
End Update.
