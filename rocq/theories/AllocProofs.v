(** Constructors: well-formed trees, and arrays drawn from a consistent store. *)
From Verif Require Export HistWf CtorProofs NeatProofs.

Section Alloc.
  Context {F : Type} {N : Num F}.
  Notation prim := (prim F).

  (** Arrays in use: equal identities mean the same array, and all identities are below
      the next unused one. *)
  Definition pool (L : list (pv F)) (nxt : nat) : Prop :=
    (forall a b, In a L -> In b L -> vid a = vid b -> a = b) /\ (forall a, In a L -> vid a < nxt).
  (** A well-formed tree all of whose arrays are in use. *)
  Definition drawn (L : list (pv F)) (p : prim) : Prop := sane p /\ forall w, In w (held p) -> In w L.
  (** From [L] and [nxt] the arrays [L'], all new, have been allocated. *)
  Definition more (L : list (pv F)) (nxt : nat) (L' : list (pv F)) (n : nat) : Prop :=
    pool (L' ++ L) n /\ nxt <= n /\ forall a, In a L' -> nxt <= vid a.
  (** The constructed primitive is such a tree once the arrays [L'] are allocated. *)
  Definition built (L : list (pv F)) (nxt : nat) (p : prim) (n : nat) : Prop :=
    exists L', more L nxt L' n /\ drawn (L' ++ L) p.
  Definition arg_drawn (L : list (pv F)) (v : valarg F) : Prop := match v with VArr a => In a L | _ => True end.

  Lemma drawn_more L L' p : drawn L p -> drawn (L' ++ L) p.
  Proof. intros [H1 H2]. split; [exact H1|]. intros w Hw. apply in_or_app. right. auto. Qed.
  Lemma pool_fresh L nxt d : pool L nxt -> pool ({| vid := nxt; vdata := d |} :: L) (S nxt).
  Proof.
    intros [H1 H2]. split.
    - intros a b [<-|Ha] [<-|Hb] E; auto; cbn in E; [specialize (H2 _ Hb)|specialize (H2 _ Ha)]; lia.
    - intros a [<-|Ha]; cbn; [lia|]. specialize (H2 _ Ha). lia.
  Qed.
  Lemma more_pool L nxt L' n : more L nxt L' n -> pool (L' ++ L) n.
  Proof. now intros (H & _). Qed.
  Lemma more_none L nxt : pool L nxt -> more L nxt [] nxt.
  Proof. intros H. split; [exact H|]. split; [lia|]. intros a []. Qed.
  Lemma more_one L nxt d : pool L nxt -> more L nxt [{| vid := nxt; vdata := d |}] (S nxt).
  Proof. intros H. split; [now apply pool_fresh|]. split; [lia|]. intros a [<-|[]]. cbn. lia. Qed.
  Lemma more_trans L nxt L1 m L2 n : more L nxt L1 m -> more (L1 ++ L) m L2 n -> more L nxt (L2 ++ L1) n.
  Proof.
    intros (A1 & A2 & A3) (B1 & B2 & B3). split; [now rewrite <- app_assoc|]. split; [lia|]. intros a Ha. apply in_app_or in Ha as [Ha|Ha]; [specialize (B3 _ Ha); lia|auto].
  Qed.
  Lemma take_drawn L nxt v d value n : pool L nxt -> arg_drawn L v -> take_value nxt v d = (value, n) ->
    exists L', more L nxt L' n /\ In value (L' ++ L).
  Proof.
    intros Hp Ha H. destruct v as [|x|a]; cbn [take_value] in H; injection H as <- <-.
    - exists [{| vid := nxt; vdata := d |}]. split; [now apply more_one|now left].
    - exists [{| vid := nxt; vdata := x |}]. split; [now apply more_one|now left].
    - exists []. split; [now apply more_none|exact Ha].
  Qed.
  Lemma dict_fold_sane (z : list (string * prim)) : forall acc, Forall (fun kc => noslash (fst kc) = true /\ sane (snd kc)) z ->
    NoDup (map fst acc) -> Forall (fun kc => noslash (fst kc) = true /\ sane (snd kc)) acc ->
    let d := fold_left (fun d kv => dset (fst kv) (snd kv) d) z acc in
    NoDup (map fst d) /\ Forall (fun kc => noslash (fst kc) = true /\ sane (snd kc)) d.
  Proof.
    induction z as [|[k p] z IH]; intros acc Hz H1 H2; [auto|]. apply Forall_cons_iff in Hz as [[Hk Hp] Hz]. cbn [fold_left fst snd] in *.
    destruct (dset_sane k p acc H1 H2 Hk Hp) as [G1 G2]. now apply IH.
  Qed.
  Lemma dict_fold_held (z : list (string * prim)) w : forall acc, In w (flat_map (fun kc => held (snd kc)) (fold_left (fun d kv => dset (fst kv) (snd kv) d) z acc)) ->
    In w (flat_map (fun kc => held (snd kc)) acc) \/ In w (flat_map (fun kc => held (snd kc)) z).
  Proof.
    induction z as [|[k p] z IH]; intros acc H; [now left|]. cbn [fold_left fst snd flat_map] in *. apply IH in H as [H|H]; [|right; apply in_or_app; now right].
    apply dset_held in H as [H|H]; [right; apply in_or_app; now left|now left].
  Qed.
  Lemma finish_drawn L t value keys ps (p : prim) : t <> TNode -> Forall (fun k => noslash k = true) keys -> Forall (drawn L) ps -> In value L ->
    finish_prim t value keys ps = Ok p -> drawn L p.
  Proof.
    intros Ht Hk Hps Hv H. unfold finish_prim in H. apply mk_primnode_Ok in H as [-> _]; [|exact Ht].
    assert (Hz : forall k q, In (k, q) (zip keys ps) -> In k keys /\ In q ps).
    { revert ps Hps. clear. induction keys as [|k keys IH]; intros [|q ps] Hps k' q'; cbn; try contradiction. apply Forall_cons_iff in Hps as [_ Hps].
      intros [E|H]; [injection E as -> ->; auto|]. destruct (IH ps Hps _ _ H). auto. }
    rewrite Forall_forall in Hk, Hps. split.
    - apply sane_unfold. apply dict_fold_sane; [|constructor|constructor]. apply Forall_forall. intros [k q] Hin. cbn [fst snd]. destruct (Hz _ _ Hin). split; [auto|]. now apply Hps.
    - intros w Hw. rewrite held_unfold in Hw. destruct Hw as [<-|Hw]; [exact Hv|]. apply dict_fold_held in Hw as [Hw|Hw]; [contradiction|].
      apply in_flat_map in Hw as ([k q] & Hin & Hw). destruct (Hz _ _ Hin) as [_ Hq]. now apply (Hps q Hq).
  Qed.
  Lemma point_built L nxt v p n : pool L nxt -> arg_drawn L v -> mk_point nxt v = Ok (p, n) -> built L nxt p n.
  Proof.
    intros Hp Ha H. unfold mk_point in H. destruct (take_value nxt v [n0; n0]) as [value m] eqn:Ev. destruct (take_drawn L _ _ _ _ _ Hp Ha Ev) as (L' & P1 & P3).
    destruct (finish_prim _ _ _ _) as [q|] eqn:E; [|discriminate]. injection H as <- <-. exists L'. split; [exact P1|].
    refine (finish_drawn _ _ _ _ _ _ _ _ _ _ E); [discriminate|constructor|constructor|exact P3].
  Qed.
  Definition args_drawn (L : list (pv F)) (ps : option (list prim)) : Prop := match ps with Some ps => Forall (drawn L) ps | None => True end.
  Lemma line_built L nxt v ps p n : pool L nxt -> arg_drawn L v -> args_drawn L ps -> mk_line nxt v ps = Ok (p, n) -> built L nxt p n.
  Proof.
    intros Hp Ha Hps H. unfold mk_line in H. destruct (take_value nxt v []) as [value m] eqn:Ev. destruct (take_drawn L _ _ _ _ _ Hp Ha Ev) as (L' & P1 & P3).
    destruct (match ps with Some _ => _ | None => _ end) as [[qs m2]|] eqn:Eq; [|discriminate]. cbn [bind] in H.
    destruct (finish_prim _ _ _ _) as [q|] eqn:E; [|discriminate]. injection H as <- <-.
    assert (G : exists L2, more L nxt L2 m2 /\ Forall (drawn (L2 ++ L)) qs /\ In value (L2 ++ L)).
    { destruct ps as [ps|].
      - injection Eq as <- <-. exists L'. split; [exact P1|]. split; [|exact P3]. cbn in Hps. eapply Forall_impl; [|exact Hps]. intros x. apply drawn_more.
      - destruct (mk_point m _) as [[p0 m0]|] eqn:E0; [|discriminate]. cbn [bind] in Eq. destruct ((fun Hx => point_built _ _ _ _ _ (more_pool _ _ _ _ P1) Hx E0) I) as (L0 & Q1 & Q3).
        destruct (mk_point m0 _) as [[p1 m1]|] eqn:E1; [|discriminate]. cbn [bind] in Eq. destruct ((fun Hx => point_built _ _ _ _ _ (more_pool _ _ _ _ Q1) Hx E1) I) as (L1 & R1 & R3).
        injection Eq as <- <-. exists (L1 ++ L0 ++ L'). split; [eapply more_trans; [eapply more_trans; eassumption|now rewrite <- app_assoc]|]. rewrite <- !app_assoc. split.
        + constructor; [now apply drawn_more|]. constructor; [exact R3|constructor].
        + rewrite !in_app_iff in *. tauto. }
    destruct G as (L2 & G1 & G3 & G4). exists L2. split; [exact G1|].
    refine (finish_drawn _ _ _ _ _ _ _ _ _ _ E); [discriminate| |exact G3|exact G4]. repeat constructor.
  Qed.
  Lemma mapM_alloc_built {A} (f : nat -> A -> result (prim * nat)) (Pre : list (pv F) -> A -> Prop) (xs : list A) :
    (forall L L' x, Pre L x -> Pre (L' ++ L) x) ->
    (forall L nxt x p n, pool L nxt -> Pre L x -> f nxt x = Ok (p, n) -> built L nxt p n) ->
    forall L nxt ps n, pool L nxt -> Forall (Pre L) xs -> mapM_alloc f nxt xs = Ok (ps, n) ->
    exists L', more L nxt L' n /\ Forall (drawn (L' ++ L)) ps.
  Proof.
    intros Hmono Hf. induction xs as [|x xs IH]; intros L nxt ps n Hp Hx H; cbn [mapM_alloc] in H.
    - injection H as <- <-. exists []. split; [now apply more_none|constructor].
    - apply Forall_cons_iff in Hx as [Hx Hxs]. destruct (f nxt x) as [[p m]|] eqn:E; [|discriminate]. cbn [bind] in H.
      destruct (mapM_alloc f m xs) as [[qs m2]|] eqn:E2; [|discriminate]. injection H as <- <-.
      destruct (Hf _ _ _ _ _ Hp Hx E) as (L1 & P1 & P3).
      destruct (IH _ _ _ _ (more_pool _ _ _ _ P1) (Forall_impl _ (fun y => Hmono L L1 y) Hxs) E2) as (L2 & Q1 & Q3).
      exists (L2 ++ L1). split; [eapply more_trans; eassumption|]. rewrite <- app_assoc. constructor; [now apply drawn_more|exact Q3].
  Qed.
  Lemma polygon_children_built L nxt (ps : list prim) keys lines n : pool L nxt -> Forall (drawn L) ps -> polygon_children nxt ps = Ok (keys, lines, n) ->
    exists L', more L nxt L' n /\ Forall (drawn (L' ++ L)) lines /\ Forall (fun k => noslash k = true) keys.
  Proof.
    intros Hp Hps H. unfold polygon_children in H. destruct (mapM_alloc _ _ _) as [[ls m]|] eqn:E; [|discriminate]. cbn [bind] in H. injection H as <- <- <-.
    apply (mapM_alloc_built _ (fun L ab => drawn L (fst ab) /\ drawn L (snd ab))) with (L := L) in E; auto.
    - destruct E as (L' & E1 & E3). exists L'. repeat (split; [assumption|]). apply Forall_map, Forall_forall. intros i _. change (noslash ("Line" ++ dec i) = true). rewrite noslash_app, noslash_dec. reflexivity.
    - intros L0 L1 x [H1 H2]. split; now apply drawn_more.
    - clear. intros L nxt [a b] p n Hp [H1 H2] H. cbn [fst snd] in *.
      assert (G : built ({| vid := nxt; vdata := [] |} :: L) (S nxt) p n).
      { refine (line_built _ _ _ _ _ _ (pool_fresh L nxt [] Hp) _ _ H); [now left|].
        constructor; [exact (drawn_more L [_] _ H1)|]. constructor; [exact (drawn_more L [_] _ H2)|constructor]. }
      destruct G as (L' & P1 & P3).
      exists (L' ++ [{| vid := nxt; vdata := [] |}]). split; [eapply more_trans; [now apply more_one|exact P1]|]. rewrite <- app_assoc. exact P3.
    - apply Forall_forall. intros [a b] Hin. rewrite Forall_forall in Hps. apply zip_In in Hin as [H1 H2]. cbn [fst snd]. split; [now apply Hps|].
      apply Hps. apply in_app_or in H2 as [H2|H2]; [destruct ps; [contradiction|now right]|destruct ps; [contradiction|destruct H2 as [<-|[]]; now left]].
  Qed.
  Lemma polygon_default_built L nxt size ps n : pool L nxt -> polygon_default nxt size = Ok (ps, n) -> exists L', more L nxt L' n /\ Forall (drawn (L' ++ L)) ps.
  Proof.
    intros Hp H. unfold polygon_default in H. destruct (Nat.eqb size 0); [discriminate|].
    apply (mapM_alloc_built _ (fun _ _ => True)) with (L := L) in H; auto; [|now apply Forall_forall].
    clear. intros L nxt x p n Hp _ H. destruct (ncircle size x) as [[a b]|]; [|discriminate]. cbn [bind] in H. eapply point_built; [exact Hp| |exact H]. exact I.
  Qed.
  Lemma polygon_built L nxt v ps size p n : pool L nxt -> arg_drawn L v -> args_drawn L ps -> mk_polygon nxt v ps size = Ok (p, n) -> built L nxt p n.
  Proof.
    intros Hp Ha Hps H. unfold mk_polygon in H. destruct (take_value nxt v []) as [value m] eqn:Ev. destruct (take_drawn L _ _ _ _ _ Hp Ha Ev) as (L' & P1 & P3).
    destruct (match ps with Some _ => _ | None => _ end) as [[qs m2]|] eqn:Eq; [|discriminate]. cbn [bind] in H.
    destruct (polygon_children m2 qs) as [[[keys lines] m3]|] eqn:Ec; [|discriminate]. cbn [bind] in H.
    destruct (finish_prim _ _ _ _) as [q|] eqn:E; [|discriminate]. injection H as <- <-.
    assert (G : exists L2, more L nxt L2 m2 /\ Forall (drawn (L2 ++ L)) qs /\ In value (L2 ++ L)).
    { destruct ps as [ps|].
      - injection Eq as <- <-. exists L'. split; [exact P1|]. split; [|exact P3]. cbn in Hps. eapply Forall_impl; [|exact Hps]. intros x. apply drawn_more.
      - destruct (polygon_default_built _ _ _ _ _ (more_pool _ _ _ _ P1) Eq) as (L0 & Q1 & Q3). exists (L0 ++ L'). split; [eapply more_trans; eassumption|]. rewrite <- app_assoc. split; [assumption|]. rewrite !in_app_iff in *. tauto. }
    destruct G as (L2 & G1 & G3 & G4). destruct (polygon_children_built _ _ _ _ _ _ (more_pool _ _ _ _ G1) G3 Ec) as (L3 & R1 & R3 & R4).
    exists (L3 ++ L2). split; [eapply more_trans; eassumption|]. rewrite <- app_assoc.
    refine (finish_drawn _ _ _ _ _ _ _ _ _ _ E); [discriminate|exact R4|exact R3| ]. rewrite !in_app_iff in *. tauto.
  Qed.
  Lemma quad_built L nxt v ps p n : pool L nxt -> arg_drawn L v -> args_drawn L ps -> mk_quad nxt v ps = Ok (p, n) -> built L nxt p n.
  Proof.
    intros Hp Ha Hps H. unfold mk_quad in H. destruct (take_value nxt v []) as [value m] eqn:Ev. destruct (take_drawn L _ _ _ _ _ Hp Ha Ev) as (L' & P1 & P3).
    destruct (match ps with Some _ => _ | None => _ end) as [[qs m2]|] eqn:Eq; [|discriminate]. cbn [bind] in H.
    destruct (polygon_children m2 qs) as [[[keys lines] m3]|] eqn:Ec; [|discriminate]. cbn [bind] in H.
    destruct (finish_prim _ _ _ _) as [q|] eqn:E; [|discriminate]. injection H as <- <-.
    assert (G : exists L2, more L nxt L2 m2 /\ Forall (drawn (L2 ++ L)) qs /\ In value (L2 ++ L)).
    { destruct ps as [ps|].
      - injection Eq as <- <-. exists L'. split; [exact P1|]. split; [|exact P3]. cbn in Hps. eapply Forall_impl; [|exact Hps]. intros x. apply drawn_more.
      - apply (mapM_alloc_built _ (fun _ _ => True)) with (L := L' ++ L) in Eq; auto; [| |exact (more_pool _ _ _ _ P1)].
        + destruct Eq as (L0 & Q1 & Q3). exists (L0 ++ L'). split; [eapply more_trans; eassumption|]. rewrite <- app_assoc. split; [assumption|]. rewrite !in_app_iff in *. tauto.
        + clear. intros L nxt x p n Hp _ H. eapply point_built; [exact Hp| |exact H]. exact I. }
    destruct G as (L2 & G1 & G3 & G4). destruct (polygon_children_built _ _ _ _ _ _ (more_pool _ _ _ _ G1) G3 Ec) as (L3 & R1 & R3 & R4).
    exists (L3 ++ L2). split; [eapply more_trans; eassumption|]. rewrite <- app_assoc.
    refine (finish_drawn _ _ _ _ _ _ _ _ _ _ E); [discriminate|exact R4|exact R3| ]. rewrite !in_app_iff in *. tauto.
  Qed.
  Lemma quad_point_built L nxt b ps n : pool L nxt -> mk_quad_point nxt b = Ok (ps, n) -> exists L', more L nxt L' n /\ Forall (drawn (L' ++ L)) ps.
  Proof.
    intros Hp H. destruct b; cbn [mk_quad_point] in H.
    - destruct (mk_quad nxt _ _) as [[q m]|] eqn:E; [|discriminate]. cbn [bind] in H. destruct (mk_point m _) as [[p m2]|] eqn:E2; [|discriminate]. cbn [bind] in H. injection H as <- <-.
      destruct ((fun Hx Hy => quad_built _ _ _ _ _ _ Hp Hx Hy E) I I) as (L1 & P1 & P3). destruct ((fun Hx => point_built _ _ _ _ _ (more_pool _ _ _ _ P1) Hx E2) I) as (L2 & Q1 & Q3).
      exists (L2 ++ L1). split; [eapply more_trans; eassumption|]. rewrite <- app_assoc. constructor; [now apply drawn_more|]. constructor; [exact Q3|constructor].
    - injection H as <- <-. exists []. split; [now apply more_none|constructor].
  Qed.
  Lemma drawn_all_more L L' ps : Forall (drawn L) ps -> Forall (drawn (L' ++ L)) ps.
  Proof. intros H. eapply Forall_impl; [|exact H]. intros x. apply drawn_more. Qed.
  Lemma axes_keys_noslash x y tx ty : Forall (fun k => noslash k = true) (axes_keys x y tx ty).
  Proof. destruct x, y, tx, ty; repeat constructor. Qed.
  Lemma axes_built L nxt v ps x y tx ty p n : pool L nxt -> arg_drawn L v -> args_drawn L ps -> mk_axes nxt v ps x y tx ty = Ok (p, n) -> built L nxt p n.
  Proof.
    intros Hp Ha Hps H. unfold mk_axes in H. destruct (take_value nxt v []) as [value m] eqn:Ev. destruct (take_drawn L _ _ _ _ _ Hp Ha Ev) as (L' & P1 & P3).
    destruct (match ps with Some _ => _ | None => _ end) as [[qs m2]|] eqn:Eq; [|discriminate]. cbn [bind] in H.
    destruct (finish_prim _ _ _ _) as [q|] eqn:E; [|discriminate]. injection H as <- <-.
    assert (G : exists L2, more L nxt L2 m2 /\ Forall (drawn (L2 ++ L)) qs /\ In value (L2 ++ L)).
    { destruct ps as [ps|].
      - injection Eq as <- <-. exists L'. split; [exact P1|]. split; [|exact P3]. now apply drawn_all_more.
      - unfold axes_default in Eq.
        destruct (mk_quad_point m x) as [[a ma]|] eqn:Ea; [|discriminate]. cbn [bind] in Eq. destruct (quad_point_built _ _ _ _ _ (more_pool _ _ _ _ P1) Ea) as (La & A1 & A3).
        destruct (mk_quad_point ma (x && tx)) as [[b mb]|] eqn:Eb; [|discriminate]. cbn [bind] in Eq. destruct (quad_point_built _ _ _ _ _ (more_pool _ _ _ _ A1) Eb) as (Lb & B1 & B3).
        destruct (mk_quad_point mb y) as [[c mc]|] eqn:Ec; [|discriminate]. cbn [bind] in Eq. destruct (quad_point_built _ _ _ _ _ (more_pool _ _ _ _ B1) Ec) as (Lc & C1 & C3).
        destruct (mk_quad_point mc (y && ty)) as [[d md]|] eqn:Ed; [|discriminate]. cbn [bind] in Eq. destruct (quad_point_built _ _ _ _ _ (more_pool _ _ _ _ C1) Ed) as (Ld & D1 & D3).
        destruct (mk_quad md _ _) as [[f mf]|] eqn:Ef; [|discriminate]. cbn [bind] in Eq. destruct ((fun Hx Hy => quad_built _ _ _ _ _ _ (more_pool _ _ _ _ D1) Hx Hy Ef) I I) as (Lf & F1 & F3).
        injection Eq as <- <-. exists (Lf ++ Ld ++ Lc ++ Lb ++ La ++ L').
        split; [repeat first [eassumption|eapply more_trans; [|rewrite <- ?app_assoc; eassumption]]|]. rewrite <- !app_assoc. split.
        + cbn [app]. constructor; [exact F3|]. rewrite !Forall_app. repeat split; repeat first [assumption|apply drawn_all_more].
        + rewrite !in_app_iff in *. tauto. }
    destruct G as (L2 & G1 & G3 & G4). exists L2. split; [exact G1|].
    refine (finish_drawn _ _ _ _ _ _ _ _ _ _ E); [discriminate|apply axes_keys_noslash|exact G3|exact G4].
  Qed.
End Alloc.
