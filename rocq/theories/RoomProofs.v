(** The residual of a layout after [update_layout_constraints] (proofs only). *)
From Verif Require Export RoomSpec UpdateProofs HistProofs P_Layout.

(** Trees with the same keys and values at every path have the same values in order. *)
Lemma same_entries_preorder {T A} (n : node T A) : forall m : node T A, wf n ->
  (forall q, same_entry (walk q n) (walk q m)) -> map (@nval _ _) (preorder n) = map (@nval _ _) (preorder m).
Proof.
  induction n as [t v ch IH] using node_ind'. intros [t' v' ch'] Hw H. apply wf_children in Hw as [Hnd Hw].
  destruct (H []) as [E1 E2]. cbn [nval nch] in E1, E2. subst v'. cbn [preorder map nval]. f_equal.
  assert (Hx : forall k q, same_entry (match dget k ch with Some c => walk q c | None => None end) (match dget k ch' with Some c => walk q c | None => None end)).
  { intros k q. exact (H (k :: q)). }
  clear H. revert ch' E2 Hx. induction ch as [|[k c] ch IHch]; intros [|[k' c'] ch'] E2 Hx; try discriminate; [reflexivity|].
  cbn [map fst] in E2. injection E2 as -> E2. cbn [flat_map snd]. rewrite !map_app. cbn [map fst] in Hnd. inversion Hnd as [|? ? N1 N2]; subst.
  inversion IH as [|? ? I1 I2]; subst. inversion Hw as [|? ? W1 W2]; subst. f_equal.
  - apply I1; [exact W1|]. intros q. specialize (Hx k q). cbn [dget] in Hx. rewrite String.eqb_refl in Hx. exact Hx.
  - apply IHch; try assumption. intros j q. destruct (String.eqb_spec j k) as [->|Hj].
    + assert (D1 : dget k ch = None) by now apply dget_None_iff. assert (D2 : dget k ch' = None) by (apply dget_None_iff; rewrite E2; exact N1).
      rewrite D1, D2. exact I.
    + specialize (Hx j q). cbn [dget] in Hx. destruct (String.eqb_spec j k); [congruence|]. exact Hx.
Qed.

Section Room.
  Context {F : Type} {N : Num F}.
  Notation prim := (prim F).
  Notation pyval := (pyval F).
  Notation cons := (cons F).
  Notation layout := (layout F).
  Notation entry := (cons * list string * list pyval)%type.

  (** ** The thickness constraints among the shipped ones *)
  Lemma lists_thin : forallb (fun rc : result cons => match rc with Ok c => negb (thick c) | Err _ => true end) (plain ++ twins ++ dimensions ++ margins) = true.
  Proof. vm_compute. reflexivity. Qed.
  Lemma thick_cls (c : cons) : thick c = existsb (ckind_eqb KXAxisThickness) (cisa (ntype c)) || existsb (ckind_eqb KYAxisThickness) (cisa (ntype c)).
  Proof. reflexivity. Qed.
  Lemma shipped_thick tw (c : cons) ps : shipped tw c ps -> thick c = true -> In (Ok c) [XAxisThickness; YAxisThickness] /\ exists v, ps = [v].
  Proof.
    intros H Ht. pose proof lists_thin as M. rewrite forallb_forall in M.
    destruct H as [c' ps' H Hl|c' ps' _ H Hl|c' v H Hv|c' v H Hv|n side c' ps' Hs E Hl Hd|r k c' Hr Hk E|r k c' vcw vrh vcm vrm cw rh cm rm Hr Hk E T1 T2 T3 T4 L1 L2 L3 L4].
    - exfalso. specialize (M (Ok c') ltac:(apply in_or_app; now left)). cbn in M. rewrite Ht in M. discriminate.
    - exfalso. specialize (M (Ok c') ltac:(apply in_or_app; right; apply in_or_app; now left)). cbn in M. rewrite Ht in M. discriminate.
    - exfalso. specialize (M (Ok c') ltac:(do 2 (apply in_or_app; right); exact H)). cbn in M. rewrite Ht in M. discriminate.
    - split; [exact H|eauto].
    - exfalso. rewrite thick_cls in Ht. unfold OuterMarginArray in E. inv_bind E. apply construction_name in E. rewrite E in Ht. discriminate.
    - exfalso. rewrite thick_cls in Ht. unfold RectilinearGrid in E. inv_bind E. inv_bind E. inv_bind E. inv_bind E. apply construction_name in E. rewrite E in Ht. discriminate.
    - exfalso. rewrite thick_cls in Ht. unfold Grid in E. do 6 inv_bind E. apply construction_name in E. rewrite E in Ht. discriminate.
  Qed.
  Lemma construction_value (t : cls F) keys cs pks cps s (c : cons) : mk_construction t keys cs pks cps s = Ok c -> nval c = {| cpk := pks; cparams := cps; csig := s |}.
  Proof.
    unfold mk_construction. intros E.
    destruct (mk_cons_cases t {| cpk := pks; cparams := cps; csig := s |} (dict_of (zip keys cs))) as [(_ & _ & H)|[_ H]]; rewrite H in E; [|discriminate].
    injection E as <-. reflexivity.
  Qed.
  Lemma thick_params (c : cons) : In (Ok c) [XAxisThickness; YAxisThickness] -> cparams (nval c) = thickness_params.
  Proof.
    intros H. unfold XAxisThickness, YAxisThickness, AxisThickness in H. cbn [String.eqb Ascii.eqb Bool.eqb In] in H.
    destruct H as [H|[H|[]]]; inv_bind H; apply construction_value in H; rewrite H; reflexivity.
  Qed.
  Lemma thick_root (c : cons) a pt : In (Ok c) [XAxisThickness; YAxisThickness] -> root_params c [PAxis a] = Ok pt -> thickness_value (PAxis a).
  Proof.
    intros H E. pose proof (thick_params c H) as P. destruct c as [t v ch]. cbn [nval] in P. rewrite root_params_unfold in E. inv_bind E. rewrite P in E0. cbn [thickness_params] in E0.
    right. destruct (snd (get_axis_thickness a)) as [d|e] eqn:D; [|discriminate]. exists a, d. auto.
  Qed.
  Lemma thick_arity (tw : bool) (c : cons) v : In (Ok c) [XAxisThickness; YAxisThickness] -> thickness_value v -> arity_ok c [v].
  Proof. intros H Hv. eapply ready_arity, (shipped_ready tw). now apply sh_thickness. Qed.

  (** ** Entries with the measured parameters *)
  Lemma measured_cons axs (x : entry) : fst (measured axs x) = fst x.
  Proof. destruct x as [[c [|k [|]]] ps]; try reflexivity. cbn. destruct (dget _ axs) as [[ax ay]|]; [|reflexivity]. destruct (is_kind _ c); [reflexivity|]. destruct (is_kind _ c); reflexivity. Qed.
  Lemma measured_thin axs (c : cons) ks ps : thick c = false -> measured axs (c, ks, ps) = (c, ks, ps).
  Proof.
    intros H. unfold thick in H. apply orb_false_elim in H as [Hx Hy]. unfold measured. destruct ks as [|k [|]]; try reflexivity.
    destruct (dget _ axs) as [[ax ay]|]; [|reflexivity]. now rewrite Hx, Hy.
  Qed.
  Lemma root_keys_value (c : cons) ks kt : root_prim_keys c ks = Ok kt -> nval kt = ks.
  Proof. destruct c as [t v ch]. rewrite root_prim_keys_unfold. intros H. inv_bind H. inv_bind H. now inversion H. Qed.
  Lemma measured_thick (l : layout) axs p (c : cons) a m ks ps : measures l axs p c a -> walk p (l_keys l) = Some m -> nval m = ks -> thick c = true ->
    measured axs (c, ks, ps) = (c, ks, [PAxis a]).
  Proof.
    intros (m' & ak & ax & ay & W & V & D & ->) W' V' Ht. rewrite W in W'. injection W' as <-. rewrite V in V'. subst ks. unfold measured. rewrite D.
    unfold thick in Ht. destruct (is_kind KYAxisThickness c); [reflexivity|]. rewrite orb_false_r in Ht. now rewrite Ht.
  Qed.

  Definition renewed (axs : dict (mpl_axes F)) (ch : dict cons) (kts : dict knode) (pts pts' : dict (pnode F)) : Prop :=
    map fst pts' = map fst pts /\ forall k pt', dget k pts' = Some pt' ->
      exists c ks ps kt pt, dget k ch = Some c /\ dget k kts = Some kt /\ dget k pts = Some pt /\
        root_prim_keys c ks = Ok kt /\ root_params c ps = Ok pt /\ root_params c (snd (measured axs (c, ks, ps))) = Ok pt' /\ arity_ok c (snd (measured axs (c, ks, ps))).
  Lemma entries_keys xs (ch : dict cons) kts pts : entries xs ch kts pts -> map fst kts = map fst ch /\ map fst pts = map fst ch.
  Proof. intros H. induction H as [|xs ch kts pts c ks ps k kt pt _ [I1 I2]]; [auto|]. rewrite !map_app, I1, I2. auto. Qed.
  Lemma dget_snoc {V} (d : dict V) k v j : dget j (d ++ [(k, v)]) = match dget j d with Some x => Some x | None => if String.eqb j k then Some v else None end.
  Proof. induction d as [|[k' v'] d IH]; cbn; [reflexivity|]. destruct (String.eqb j k'); auto. Qed.
  Lemma entries_renewed axs xs (ch : dict cons) kts pts : entries xs ch kts pts -> NoDup (map fst ch) ->
    (forall k c ks ps kt, dget k ch = Some c -> dget k kts = Some kt -> root_prim_keys c ks = Ok kt -> In (c, ks, ps) xs ->
       arity_ok c (snd (measured axs (c, ks, ps))) /\ exists pt, root_params c (snd (measured axs (c, ks, ps))) = Ok pt) ->
    exists pts', entries (map (measured axs) xs) ch kts pts' /\ renewed axs ch kts pts pts'.
  Proof.
    intros H. induction H as [|xs ch kts pts c ks ps k kt pt Hen IH Hk Hp Ha]; intros Hnd Hx.
    - exists []. split; [constructor|]. split; [reflexivity|]. intros k pt' H. discriminate.
    - destruct (entries_keys _ _ _ _ Hen) as [K1 K2]. rewrite map_app in Hnd. cbn [map fst] in Hnd.
      assert (Nk : ~ In k (map fst ch)) by (apply NoDup_remove_2 in Hnd; now rewrite app_nil_r in Hnd).
      assert (D0 : dget k ch = None) by now apply dget_None_iff. assert (D1 : dget k kts = None) by (apply dget_None_iff; now rewrite K1).
      assert (D2 : dget k pts = None) by (apply dget_None_iff; now rewrite K2).
      destruct IH as (pts' & E' & [R1 R2]).
      { apply NoDup_remove_1 in Hnd. now rewrite app_nil_r in Hnd. }
      { intros j c' ks' ps' kt' G1 G2 G3 G4. apply (Hx j c' ks' ps' kt'); try assumption; [rewrite dget_snoc, G1|rewrite dget_snoc, G2|apply in_or_app; now left]; reflexivity. }
      destruct (Hx k c ks ps kt) as (Ar & pt' & Hp'); [rewrite dget_snoc, D0, String.eqb_refl; reflexivity|rewrite dget_snoc, D1, String.eqb_refl; reflexivity|exact Hk|apply in_or_app; right; now left|].
      exists (pts' ++ [(k, pt')]). rewrite map_app. cbn [map]. split.
      + destruct (measured axs (c, ks, ps)) as [[c0 ks0] ps0] eqn:Em. pose proof (measured_cons axs (c, ks, ps)) as Ec. rewrite Em in Ec. cbn [fst] in Ec. injection Ec as -> ->. cbn [snd] in *. now constructor.
      + split; [rewrite !map_app, R1; reflexivity|]. intros j q Hj. rewrite dget_snoc in Hj. destruct (dget j pts') as [x|] eqn:Dj.
        * injection Hj as ->. destruct (R2 j q Dj) as (c' & ks' & ps' & kt' & pt0 & G1 & G2 & G3 & G4). exists c', ks', ps', kt', pt0. rewrite !dget_snoc, G1, G2, G3. auto.
        * destruct (String.eqb_spec j k) as [->|]; [|discriminate]. injection Hj as <-. exists c, ks, ps, kt, pt. rewrite !dget_snoc, D0, D1, D2, String.eqb_refl. auto 12.
  Qed.

  Lemma entries_In xs (ch : dict cons) kts pts c ks ps : entries xs ch kts pts -> NoDup (map fst ch) -> In (c, ks, ps) xs ->
    exists k kt, dget k ch = Some c /\ dget k kts = Some kt /\ root_prim_keys c ks = Ok kt.
  Proof.
    intros H. induction H as [|xs ch kts pts c0 ks0 ps0 k kt pt Hen IH Hk Hp Ha]; intros Hnd Hin; [destruct Hin|].
    destruct (entries_keys _ _ _ _ Hen) as [K1 K2]. rewrite map_app in Hnd. cbn [map fst] in Hnd. apply in_app_or in Hin as [Hin|[E|[]]].
    - destruct IH as (j & kt' & G1 & G2 & G3); [apply NoDup_remove_1 in Hnd; now rewrite app_nil_r in Hnd|exact Hin|]. exists j, kt'. rewrite !dget_snoc, G1, G2. auto.
    - injection E as -> -> ->. assert (Nk : ~ In k (map fst ch)) by (apply NoDup_remove_2 in Hnd; now rewrite app_nil_r in Hnd).
      assert (D0 : dget k ch = None) by now apply dget_None_iff. assert (D1 : dget k kts = None) by (apply dget_None_iff; now rewrite K1).
      exists k, kt. rewrite !dget_snoc, D0, D1, String.eqb_refl. auto.
  Qed.
  Lemma updated_flat rid tw (acts : list (action F)) axs (l l' : layout) : runs (empty_layout rid) acts l ->
    Forall (shipped_act tw) acts -> Forall top_key acts -> update_layout_constraints l axs = Ok l' ->
    l_prim l' = l_prim l /\
    (forall c ks ps, In (c, ks, ps) (LayoutSpec.added acts) -> thick c = true ->
       exists key ax ay, ks = [key] /\ dget (hd EmptyString (split_all key)) axs = Some (ax, ay)) /\
    exists m, l_prim m = l_prim l /\ holds m (map (measured axs) (LayoutSpec.added acts)) /\ flat_constraints l' = flat_constraints m.
  Proof.
    intros Hr Hs Hk Hu.
    assert (Hc : Forall complete acts) by (eapply Forall_impl; [|exact Hs]; apply shipped_complete).
    assert (Hd : Forall sound acts) by (eapply Forall_impl; [|exact Hs]; apply shipped_sound).
    assert (Ht : Forall toplevel acts) by (rewrite Forall_forall in *; intros a Ha; eapply shipped_toplevel; eauto).
    assert (L0 : lockstep (empty_layout rid : layout)) by apply lockstep_empty.
    assert (Hh : holds l (LayoutSpec.added acts)) by (apply (runs_holds acts _ l [] Hr Hc Hd Ht L0); constructor).
    assert (Ea : l = after (empty_layout rid) acts).
    { clear -Hr. induction Hr as [l|l a l1 acts l2 H _ IH]; [reflexivity|]. cbn [after fold_left]. rewrite H. exact IH. }
    assert (Hn : neat_root (l_cons l)) by (rewrite Ea; eapply neat_after; [exact Hs|exact Hk|exact L0|apply neat_empty]).
    assert (L : lockstep l) by (rewrite Ea; apply lockstep_after; [exact Hc|exact Hd|exact L0]).
    destruct (neat_root_ok _ Hn) as (T & U & Rt).
    destruct (update_layout_result l l' axs L T U Rt Hu) as (E1 & E2 & E3 & E4 & E5).
    split; [exact E1|].
    destruct Hn as (N1 & N2 & N3). split.
    { intros c ks ps Hx Htk. destruct (entries_In _ _ _ _ c ks ps Hh N2 Hx) as (k & kt & D1 & D2 & Hkt).
      destruct (E4 [k] c) as (a & pt & (m & ak & ax & ay & W & V & D & _) & _); [cbn [walk]; rewrite D1; reflexivity|exact Htk|].
      cbn [walk] in W. rewrite D2 in W. injection W as <-. exists ak, ax, ay. split; [|exact D]. rewrite <- V. symmetry. eapply root_keys_value, Hkt. }
    assert (Hin : forall c ks ps, In (c, ks, ps) (LayoutSpec.added acts) -> shipped tw c ps).
    { intros c ks ps H. apply in_flat_map in H as (a & Ha & H). destruct a as [| |c0 ks0 ps0 k0]; [destruct H|destruct H|]. destruct H as [H|[]]. rewrite Forall_forall in Hs. specialize (Hs _ Ha). cbn in Hs. congruence. }
    unfold holds in Hh.
    destruct (entries_renewed axs _ _ _ _ Hh N2) as (pts' & En & R1 & R2).
    { intros k c ks ps kt D1 D2 Hkt Hx. pose proof (Hin _ _ _ Hx) as Sh. destruct (thick c) eqn:Htk.
      - destruct (shipped_thick tw c ps Sh Htk) as [Hc2 _].
        destruct (E4 [k] c) as (a & pt & Ma & Hpt & _); [cbn [walk]; rewrite D1; reflexivity|exact Htk|].
        rewrite (measured_thick l axs [k] c a kt ks ps Ma); [|cbn [walk]; rewrite D2; reflexivity|eapply root_keys_value; eassumption|exact Htk]. cbn [snd].
        split; [|eauto]. apply (thick_arity tw); [exact Hc2|]. eapply thick_root; eassumption.
      - rewrite measured_thin by exact Htk. cbn [snd]. split; [eapply ready_arity, shipped_ready, Sh|eapply ready_params, shipped_ready, Sh]. }
    exists {| l_prim := l_prim l; l_cons := l_cons l; l_keys := l_keys l; l_params := Node (ntype (l_params l)) (nval (l_params l)) pts'; l_counter := [] |}.
    split; [reflexivity|]. split; [exact En|].
    unfold flat_constraints. cbn [l_cons l_keys l_params]. rewrite E2, E3. apply pair_equal_spec. split; [reflexivity|]. f_equal.
    rewrite <- !(map_map snd (@nval _ _)), !iter_flat_preorder. symmetry.
    assert (Wl : wf (l_params l)) by (destruct L as [_ L2]; eapply shape_wf; [exact L2|apply T]).
    assert (Wp : Forall (fun kc => wf (snd kc)) pts').
    { apply Forall_forall. intros [k pt'] Hi. cbn [snd]. assert (Nd : NoDup (map fst pts')) by (rewrite R1; destruct (l_params l); apply wf_children in Wl; apply Wl).
      apply In_dget in Hi; [|exact Nd]. destruct (R2 _ _ Hi) as (c & ks & ps & kt & pt & D1 & D2 & D3 & Hkt & Hpt & Hpt' & Har).
      destruct T as (Tw & _). destruct (l_cons l) as [tc vc cch]. apply wf_children in Tw as [_ Tw]. rewrite Forall_forall in Tw. cbn [nch] in *. pose proof (Tw _ (dget_In _ _ _ D1)) as Wc. cbn [snd] in Wc.
      eapply shape_wf; [|exact Wc]. eapply (rpk_shape c ks kt _ Har); [rewrite Hpt'; discriminate|exact Hkt|exact Hpt']. }
    apply same_entries_preorder.
    - destruct (l_params l) as [tp vp pch]. apply wf_children in Wl as [Wl _]. constructor; [cbn [nch] in *; now rewrite R1|exact Wp].
    - pose proof (E5 []) as Hroot. cbn [walk] in Hroot. destruct Hroot as [V0 K0].
      { intros p c [r Hr0] Wp0. symmetry in Hr0. apply app_eq_nil in Hr0 as [-> _]. cbn in Wp0. injection Wp0 as <-. exact Rt. }
      intros [|k r].
      + cbn [walk same_entry nval nch]. split; [exact V0|]. rewrite K0, R1. reflexivity.
      + cbn [walk nch]. destruct (dget k pts') as [pt'|] eqn:Dk.
        * destruct (R2 _ _ Dk) as (c & ks & ps & kt & pt & D1 & D2 & D3 & Hkt & Hpt & Hpt' & _).
          assert (W1 : walk [k] (l_cons l) = Some c) by (cbn [walk]; now rewrite D1).
          assert (W2 : walk [k] (l_keys l) = Some kt) by (cbn [walk]; now rewrite D2).
          destruct (thick c) eqn:Htk.
          -- destruct (E4 [k] c W1 Htk) as (a & pt0 & Ma & Hpt0 & Hw0).
             rewrite (measured_thick l axs [k] c a kt ks ps Ma W2 (root_keys_value _ _ _ Hkt) Htk) in Hpt'. cbn [snd] in Hpt'. rewrite Hpt0 in Hpt'. injection Hpt' as <-.
             specialize (Hw0 r). cbn [app walk] in Hw0. rewrite Hw0. apply same_entry_refl.
          -- rewrite measured_thin in Hpt' by exact Htk. cbn [snd] in Hpt'. rewrite Hpt in Hpt'. injection Hpt' as <-.
             pose proof (E5 (k :: r)) as H5. cbn [walk] in H5. rewrite D3 in H5. apply H5. clear H5.
             intros [|j p] c0 [s Hs0] Wp0; [cbn in Wp0; injection Wp0 as <-; exact Rt|]. cbn [app] in Hs0. injection Hs0 as <- _. cbn [walk] in Wp0. rewrite D1 in Wp0.
             destruct p as [|j p]; [cbn in Wp0; congruence|]. cbn [walk] in Wp0. destruct (dget j (nch c)) as [b|] eqn:Db; [|discriminate].
             rewrite Forall_forall in N3. destruct (N3 _ (dget_In _ _ _ D1)) as (_ & _ & Hth). cbn [snd] in Hth. rewrite Forall_forall in Hth. exact (Hth _ (dget_In _ _ _ Db) p c0 Wp0).
        * assert (Dk' : dget k (nch (l_params l')) = None).
          { apply dget_None_iff. apply dget_None_iff in Dk. rewrite K0, <- R1. exact Dk. }
          rewrite Dk'. exact I.
  Qed.

  (** The residual of the updated layout: of the constraints with the measured parameters. *)
  Lemma updated_residual rid tw (acts : list (action F)) axs (l l' : layout) root rs : runs (empty_layout rid) acts l ->
    Forall (shipped_act tw) acts -> Forall top_key acts -> update_layout_constraints l axs = Ok l' -> LayoutSpec.added acts <> [] ->
    Forall (typed_at root) (LayoutSpec.added acts) ->
    (layout_residual l' root = Ok rs <-> exists vs, Forall2 (LayoutSpec.value_at root) (map (measured axs) (LayoutSpec.added acts)) vs /\ rs = List.concat vs).
  Proof.
    intros Hr Hs Hk Hu Hne Hty. destruct (updated_flat rid tw acts axs l l' Hr Hs Hk Hu) as (_ & _ & m & _ & Hm & Ef).
    assert (Er : layout_residual l' root = layout_residual m root) by (unfold layout_residual; now rewrite Ef). rewrite Er.
    apply residual_values; [exact Hm|destruct (LayoutSpec.added acts); [congruence|discriminate]|].
    assert (Hin : forall x, In x (LayoutSpec.added acts) -> shipped tw (fst (fst x)) (snd x)).
    { intros x H. apply in_flat_map in H as (a & Ha & H). destruct a as [| |c0 ks0 ps0 k0]; [destruct H|destruct H|]. destruct H as [<-|[]]. rewrite Forall_forall in Hs. exact (Hs _ Ha). }
    apply Forall_forall. intros x Hx. apply in_map_iff in Hx as (y & <- & Hy). rewrite Forall_forall in Hty. specialize (Hty y Hy). specialize (Hin y Hy). destruct y as [[c ks] ps]. cbn [fst snd] in Hin.
    destruct (thick c) eqn:Htk; [|now rewrite measured_thin].
    destruct (shipped_thick tw c ps Hin Htk) as [_ [v ->]]. destruct (measured axs (c, ks, [v])) as [[c0 ks0] ps0] eqn:Em. pose proof (measured_cons axs (c, ks, [v])) as Ec. rewrite Em in Ec. cbn [fst] in Ec. injection Ec as -> ->.
    assert (Hl : exists v', ps0 = [v']).
    { clear -Em. unfold measured in Em. destruct ks as [|k [|]]; [injection Em as <-; eauto| |injection Em as <-; eauto]. destruct (dget _ axs) as [[ax ay]|]; [|injection Em as <-; eauto].
      destruct (is_kind KYAxisThickness c); [injection Em as <-; eauto|]. destruct (is_kind KXAxisThickness c); injection Em as <-; eauto. }
    destruct Hl as [v' ->]. exact Hty.
  Qed.

  (** ** When [update_layout_constraints] succeeds *)
  Lemma entry_ok (l : layout) axs d p (c : cons) : p <> [] -> Forall (fun k => noslash k = true) p ->
    (exists m, walk p (l_keys l) = Some m /\ (thick c = true -> exists ak a, nval m = [ak] /\ dget (hd EmptyString (split_all ak)) axs = Some a)) ->
    walk p (l_params l) <> None -> exists d', thickness_entry l axs d (path_key EmptyString p, c) = Ok d'.
  Proof.
    intros Hp Hs (m & Wm & Hm) Wp. unfold thickness_entry. cbn [fst snd]. rewrite path_key_join by assumption. cbn [append].
    change (drop1 (String slash (join p))) with (join p). destruct (String.eqb (join p) ""); [eauto|].
    rewrite !(lookup_walks _ _ p) by (split; [assumption|split; [assumption|reflexivity]]). rewrite Wm.
    destruct (walk p (l_params l)) as [m'|]; [|congruence]. cbn [bind]. cbn zeta. unfold thick in Hm.
    destruct (is_kind KXAxisThickness c), (is_kind KYAxisThickness c); cbn [orb] in Hm;
      try (destruct (Hm eq_refl) as (ak & a & -> & Ha); rewrite split1_hd, Ha); cbn [bind]; eexists; reflexivity.
  Qed.
  Lemma collect_ok (l : layout) axs ps : forall d,
    Forall (fun pc : list string * cons => fst pc <> [] /\ Forall (fun k => noslash k = true) (fst pc) /\
      (exists m, walk (fst pc) (l_keys l) = Some m /\ (thick (snd pc) = true -> exists ak a, nval m = [ak] /\ dget (hd EmptyString (split_all ak)) axs = Some a)) /\
      walk (fst pc) (l_params l) <> None) ps ->
    exists d', collect l axs (keyed ps) d = Ok d'.
  Proof.
    induction ps as [|[p c] ps IH]; intros d H; [eexists; reflexivity|]. inversion H as [|? ? (H1 & H2 & H3 & H4) H5]; subst. cbn [fst snd] in *.
    unfold collect. cbn [keyed map fold_left fst snd bind]. destruct (entry_ok l axs d p c H1 H2 H3 H4) as [d' ->]. apply (IH d' H5).
  Qed.
  Lemma update_ok (root : cons) (orig : pnode F) (us : list upd) : forall us0 tree,
    updated orig tree us0 -> apart us -> (forall u u', In u us -> In u' us0 -> ~ comparable (upath u) (upath u')) ->
    Forall (fun u => good_path (upath u) /\ walk (upath u) root = Some (ucons u)) us ->
    Forall (fun u => exists pt, root_params (ucons u) [PAxis (uaxis u)] = Ok pt) us ->
    Forall (fun u => walk (upath u) orig <> None) us ->
    exists r, fold_left (ustep root) (udict us) (Ok tree) = Ok r.
  Proof.
    induction us as [|u us IH]; intros us0 tree Hu Ha Hc Hw Hp Ho; [eexists; reflexivity|].
    inversion Hw as [|? ? [Hg Hwu] Hw']; inversion Ha as [|? ? Ha1 Ha2]; inversion Hp as [|? ? [pt Hpt] Hp']; inversion Ho as [|? ? Hou Ho']; subst.
    assert (Hs : exists t', ustep root (Ok tree) (join (upath u), [PAxis (uaxis u)]) = Ok t').
    { unfold ustep. cbn [bind fst snd]. rewrite (lookup_walks _ _ _ (good_components _ Hg)), Hwu. cbn [bind]. rewrite Hpt. cbn [bind].
      assert (Hne : length (upath u) = 1 \/ last (upath u) EmptyString <> EmptyString).
      { right. destruct Hg as [G1 G2]. rewrite Forall_forall in G2. destruct (exists_last G1) as (pp & k & E). rewrite E, last_last. apply (G2 k). rewrite E. apply in_or_app. right. now left. }
      assert (Hne2 : forall k, upath u <> [EmptyString; k]).
      { intros k E. destruct Hg as [_ G2]. rewrite E in G2. inversion G2 as [|? ? [_ G] _]. congruence. }
      pose proof (setitem_effect tree (join (upath u)) (upath u) pt (good_components _ Hg) Hne Hne2) as He. cbv zeta in He.
      destruct Hu as [_ U2]. specialize (U2 (upath u)).
      assert (Hse : same_entry (walk (upath u) orig) (walk (upath u) tree)). { apply U2. intros v Hv Hpre. apply (Hc u v (or_introl eq_refl) Hv). now right. }
      destruct (walk (upath u) orig) as [o|]; [|congruence]. destruct (walk (upath u) tree) as [old|]; [|destruct Hse].
      destruct He as (n' & Hn' & _). rewrite Hn'. eauto. }
    destruct Hs as [t' Hs]. cbn [udict map fold_left]. fold (udict us). rewrite Hs.
    apply (IH (us0 ++ [u]) t'); try assumption.
    - apply (update_result root orig [u] us0 tree t'); try assumption.
      + constructor; [intros ? []|constructor].
      + intros v v' [<-|[]]. apply Hc. now left.
      + constructor; [split; assumption|constructor].
    - intros v v' Hv Hv'. apply in_app_or in Hv' as [Hv'|[<-|[]]]; [apply Hc; [now right|assumption]|].
      intros [C|C]; apply (Ha1 v Hv); [now right|now left].
  Qed.
  Lemma shape_walk {T A T' A'} (n : node T A) : forall (m : node T' A') p, same_shape n m -> walk p n <> None -> walk p m <> None.
  Proof.
    induction n as [t v ch IH] using node_ind'. intros m p H Hp. inversion H as [? ? ? t' v' ch' Hk Hf]; subst. destruct p as [|k p]; [discriminate|]. cbn [walk nch] in *.
    clear H. induction Hf as [|[k1 x] [k2 y] ch ch' Hxy Hf IHf]; [cbn in Hp; congruence|]. inversion IH; subst. cbn [map fst] in Hk. injection Hk as <- Hk. cbn [dget snd] in *.
    destruct (String.eqb k k1); [now apply (H1 y)|]. now apply IHf.
  Qed.
  Lemma updates rid tw (acts : list (action F)) axs (l : layout) : runs (empty_layout rid) acts l ->
    Forall (shipped_act tw) acts -> Forall top_key acts ->
    (forall c ks ps, In (c, ks, ps) (LayoutSpec.added acts) -> thick c = true ->
       exists key ax ay d, ks = [key] /\ dget (hd EmptyString (split_all key)) axs = Some (ax, ay) /\
         snd (get_axis_thickness (if is_kind KYAxisThickness c then ay else ax)) = Ok d) ->
    exists l', update_layout_constraints l axs = Ok l'.
  Proof.
    intros Hr Hs Hk Hm.
    assert (Hc : Forall complete acts) by (eapply Forall_impl; [|exact Hs]; apply shipped_complete).
    assert (Hd : Forall sound acts) by (eapply Forall_impl; [|exact Hs]; apply shipped_sound).
    assert (Ht : Forall toplevel acts) by (rewrite Forall_forall in *; intros a Ha; eapply shipped_toplevel; eauto).
    assert (L0 : lockstep (empty_layout rid : layout)) by apply lockstep_empty.
    assert (Hh : holds l (LayoutSpec.added acts)) by (apply (runs_holds acts _ l [] Hr Hc Hd Ht L0); constructor).
    assert (Ea : l = after (empty_layout rid) acts).
    { clear -Hr. induction Hr as [l|l a l1 acts l2 H _ IH]; [reflexivity|]. cbn [after fold_left]. rewrite H. exact IH. }
    assert (Hn : neat_root (l_cons l)) by (rewrite Ea; eapply neat_after; [exact Hs|exact Hk|exact L0|apply neat_empty]).
    assert (L : lockstep l) by (rewrite Ea; apply lockstep_after; [exact Hc|exact Hd|exact L0]).
    destruct (neat_root_ok _ Hn) as ((Tw & Ts & Tn) & Hun & Hroot). destruct Hn as (N1 & N2 & N3). destruct L as [L1 L2].
    assert (Hin : forall c ks ps, In (c, ks, ps) (LayoutSpec.added acts) -> shipped tw c ps).
    { intros c ks ps H. apply in_flat_map in H as (a & Ha & H). destruct a as [| |c0 ks0 ps0 k0]; [destruct H|destruct H|]. destruct H as [H|[]]. rewrite Forall_forall in Hs. specialize (Hs _ Ha). cbn in Hs. congruence. }
    (* a thickness constraint of the layout *)
    assert (Hthick : forall q c, walk q (l_cons l) = Some c -> thick c = true -> exists kt key ax ay d, walk q (l_keys l) = Some kt /\ nval kt = [key] /\
       dget (hd EmptyString (split_all key)) axs = Some (ax, ay) /\ snd (get_axis_thickness (if is_kind KYAxisThickness c then ay else ax)) = Ok d /\ In (Ok c) [XAxisThickness; YAxisThickness]).
    { intros [|k [|k' q]] c W T; [cbn in W; congruence| |].
      - cbn [walk] in W. destruct (dget k (nch (l_cons l))) as [c0|] eqn:Dk; [|discriminate]. injection W as ->.
        assert (Hx : exists ks ps kt, In (c, ks, ps) (LayoutSpec.added acts) /\ dget k (nch (l_keys l)) = Some kt /\ root_prim_keys c ks = Ok kt).
        { unfold holds in Hh. clear -Hh N2 Dk. induction Hh as [|xs ch kts pts c0 ks0 ps0 k0 kt pt Hen IH Hk Hp Ha]; [discriminate|].
          destruct (entries_keys _ _ _ _ Hen) as [K1 K2]. rewrite map_app in N2. cbn [map fst] in N2.
          assert (Nk : ~ In k0 (map fst ch)) by (apply NoDup_remove_2 in N2; now rewrite app_nil_r in N2).
          rewrite dget_snoc in Dk. destruct (dget k ch) as [x|] eqn:Dx.
          - injection Dk as ->. destruct IH as (ks & ps & kt' & I1 & I2 & I3); [apply NoDup_remove_1 in N2; now rewrite app_nil_r in N2|reflexivity|].
            exists ks, ps, kt'. split; [apply in_or_app; now left|]. split; [rewrite dget_snoc, I2; reflexivity|exact I3].
          - destruct (String.eqb_spec k k0) as [->|]; [|discriminate]. injection Dk as <-. exists ks0, ps0, kt. split; [apply in_or_app; right; now left|].
            split; [|exact Hk]. rewrite dget_snoc. assert (D1 : dget k0 kts = None) by (apply dget_None_iff; now rewrite K1). now rewrite D1, String.eqb_refl. }
        destruct Hx as (ks & ps & kt & Ix & Dkt & Hkt). destruct (Hm _ _ _ Ix T) as (key & ax & ay & d & -> & Da & Hda).
        exists kt, key, ax, ay, d. cbn [walk]. rewrite Dkt. split; [reflexivity|]. split; [eapply root_keys_value, Hkt|]. split; [exact Da|]. split; [exact Hda|].
        now apply (shipped_thick tw c ps (Hin _ _ _ Ix)).
      - exfalso. cbn [walk] in W. destruct (dget k (nch (l_cons l))) as [a|] eqn:Da; [|discriminate]. apply dget_In in Da. rewrite Forall_forall in N3. destruct (N3 _ Da) as (_ & _ & Hnn). cbn [snd] in Hnn.
        destruct (dget k' (nch a)) as [b|] eqn:Eb; [|discriminate]. apply dget_In in Eb. rewrite Forall_forall in Hnn. specialize (Hnn _ Eb q c W). congruence. }
    unfold update_layout_constraints.
    destruct (iter_flat_pairs (l_cons l) Tw) as (ps & Hps & Hpp & Hpw). fold (keyed ps) in Hps.
    assert (Hps1 : exists ps', ps = ([], l_cons l) :: ps' /\ Forall (fun pc => fst pc <> []) ps').
    { pose proof (NoDup_paths (l_cons l) Tw) as Hnd. rewrite <- Hpp in Hnd. destruct (l_cons l) as [t v ch] eqn:Ec. rewrite <- Ec in *. clear -Hpp Hpw Hnd Ec. rewrite Ec in Hpp. cbn [paths] in Hpp.
      destruct ps as [|[p c] ps]; [discriminate|]. cbn in Hpp. inversion Hpp; subst p. inversion Hpw as [|? ? Hw _]; subst. cbn in Hw. inversion Hw; subst. exists ps. split; [reflexivity|].
      cbn in Hnd. inversion Hnd as [|? ? Hni _]; subst. apply Forall_forall. intros pc Hin E. apply Hni. rewrite <- E. now apply in_map. }
    destruct Hps1 as (ps' & -> & Hne). rewrite Hps. cbn [keyed map fst snd path_key fold_left bind].
    assert (E0' : thickness_entry l axs [] (EmptyString, l_cons l) = Ok []) by reflexivity. rewrite E0'. clear E0'. inversion Hpw as [|? ? _ Hpw']; subst ps'. clear Hpw. rename l0 into ps'.
    assert (Hgood : Forall (fun pc : list string * cons => good_path (fst pc)) ps').
    { rewrite Forall_forall in *. intros pc Hi. split; [now apply Hne|]. apply (tidy_path (l_cons l)); try assumption. rewrite (Hpw' _ Hi). discriminate. }
    change (fold_left _ (map _ ps') (Ok [])) with (collect l axs (keyed ps') (udict [])).
    destruct (collect_ok l axs ps' (udict [])) as [d Ed].
    { rewrite Forall_forall in *. intros pc Hi. destruct (Hgood pc Hi) as [G1 G2]. split; [exact G1|]. split; [eapply Forall_impl; [|exact G2]; intros ? []; assumption|].
      assert (Wc : walk (fst pc) (l_cons l) <> None) by (rewrite (Hpw' _ Hi); discriminate). split; [|eapply shape_walk; eassumption].
      pose proof (shape_walk _ _ _ L1 Wc) as Wk. destruct (walk (fst pc) (l_keys l)) as [m|] eqn:Em; [|congruence]. exists m. split; [reflexivity|]. intros T.
      destruct (Hthick _ _ (Hpw' _ Hi) T) as (kt & key & ax & ay & d & W & V & D & _). rewrite Em in W. injection W as <-. exists key, (ax, ay). auto. }
    rewrite Ed. cbn [bind].
    destruct (collect_result l axs ps' [] d) as (us & -> & F1 & F2 & F3).
    { rewrite Forall_forall in *. intros pc Hi. destruct (Hgood pc Hi) as [G1 G2]. split; [assumption|]. split; [eapply Forall_impl; [|exact G2]; intros ? []; assumption|].
      destruct (fst pc) as [|k p]; [congruence|]. inversion G2 as [|? ? [_ Gk] _]; subst. destruct p; cbn; [assumption|]. destruct k; [congruence|discriminate]. }
    { cbn [map app]. pose proof (NoDup_paths (l_cons l) Tw) as Hnd. rewrite <- Hpp in Hnd. cbn in Hnd. now inversion Hnd. }
    { constructor. }
    { exact Ed. }
    cbn [app] in *. unfold update_root_param, node_copy. rewrite node_map_tmap by (apply (shape_wf _ _ L2); assumption). cbn [bind].
    change (fold_left _ (udict us) ?a) with (fold_left (ustep (l_cons l)) (udict us) a).
    assert (Hus : Forall (fun u => walk (upath u) (l_cons l) = Some (ucons u) /\ thick (ucons u) = true) us).
    { rewrite Forall_forall in *. intros u Hi. destruct (F1 u Hi) as (I1 & I2 & _). split; [apply (Hpw' _ I1)|assumption]. }
    destruct (update_ok (l_cons l) (l_params l) us [] (tmap (fun m : pnode F => (KNode, nval m)) (l_params l))) as [r Er].
    + split; [intros ? []|]. intros q _. rewrite walk_tmap. destruct (walk q (l_params l)) as [m|]; cbn; [|exact I].
      destruct m as [tm vm cm]. cbn. split; [reflexivity|]. now rewrite map_map.
    + now apply (apart_of us (l_cons l)).
    + intros ? ? _ [].
    + rewrite Forall_forall in *. intros u Hi. destruct (F1 u Hi) as (I1 & _). split; [apply (Hgood _ I1)|]. now apply Hus.
    + rewrite Forall_forall in *. intros u Hi. destruct (Hus u Hi) as [W T]. destruct (F1 u Hi) as (_ & _ & (m & ak & ax & ay & Wm & Vm & Dm & Eu)).
      destruct (Hthick _ _ W T) as (kt & key & ax' & ay' & d & W' & V & D & Hda & Hin'). rewrite Wm in W'. injection W' as <-. assert (Ek : ak = key) by congruence. assert (Ea2 : Some (ax', ay') = Some (ax, ay)) by (etransitivity; [symmetry; exact D|rewrite <- Ek; exact Dm]). injection Ea2 as -> ->.
      rewrite Eu. eapply ready_params, (shipped_ready tw). apply sh_thickness; [exact Hin'|]. right. eauto.
    + rewrite Forall_forall in *. intros u Hi. destruct (Hus u Hi) as [W T]. eapply shape_walk; [exact L2|]. rewrite W. discriminate.
    + rewrite Er. cbn [bind]. eauto.
  Qed.
End Room.
