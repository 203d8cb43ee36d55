(** Lemmas for P_Layout: histories of additions, truncated constructions, whole
    primitives. *)
From Verif Require Export NeatProofs CtorProofs ConsSpec.

Section Hist.
  Context {F : Type} {N : Num F}.
  Notation prim := (prim F).
  Notation pyval := (pyval F).
  Notation cons := (cons F).
  Notation layout := (layout F).

  Fixpoint all_ok (l : layout) (acts : list (action F)) : bool :=
    match acts with [] => true | a :: acts => is_ok (snd (act l a)) && all_ok (fst (act l a)) acts end.
  Lemma all_ok_runs acts : forall l, all_ok l acts = true -> runs l acts (after l acts).
  Proof.
    induction acts as [|a acts IH]; intros l H; [constructor|]. cbn [all_ok] in H. apply andb_prop in H as [H1 H2].
    cbn [after fold_left]. econstructor; [|apply IH, H2]. destruct (act l a) as [l' [[]|e]]; [reflexivity|discriminate].
  Qed.
  (** ** add_prims *)
  Definition adds (d : dict prim) : list (action F) := map (fun kp => AddPrim (snd kp) (fst kp)) d.
  Lemma add_prims_cases (d : dict prim) : forall (l l' : layout) r, add_prims l d = (l', r) ->
    exists done rest, d = done ++ rest /\ runs l (adds done) l' /\
      ((r = Ok tt /\ rest = []) \/
       (exists k p rest', rest = (k, p) :: rest' /\ r = Err (KeyError k) /\
          (walk (split_all k) (l_prim l') <> None \/ walk (removelast (split_all k)) (l_prim l') = None))).
  Proof.
    induction d as [|[k p] d IH]; intros l l' r H; cbn [add_prims] in H.
    - inversion H; subst. exists [], []. split; [reflexivity|]. split; [constructor|]. left. auto.
    - destruct (add_prim l p k) as [l1 [[]|e]] eqn:E.
      + destruct (IH _ _ _ H) as (done & rest & -> & Hr & Hc). exists ((k, p) :: done), rest. split; [reflexivity|]. split; [|exact Hc].
        cbn. econstructor; [exact E|exact Hr].
      + inversion H; subst. exists [], ((k, p) :: d). split; [reflexivity|].
        unfold add_prim in E. destruct (add_child (l_prim l) k p) as [t u] eqn:Ea. inversion E; subst. clear E.
        assert (Hx : t = l_prim l /\ e = KeyError k).
        { rewrite (add_child_cases _ k _ _ (components_total k)) in Ea. cbv zeta in Ea.
          destruct (walk (removelast (split_all k)) (l_prim l)); [destruct (walk (split_all k) (l_prim l))|]; inversion Ea; auto. }
        destruct Hx as [-> ->]. split; [destruct l; cbn; constructor|]. right. exists k, p, d. split; [reflexivity|]. split; [reflexivity|]. cbn [l_prim].
        apply (add_child_refuses _ _ _ p (components_total k)). exact Ea.
  Qed.
  Lemma adds_keep (l l' : layout) d q : runs l (adds d) l' ->
    (forall k p, In (k, p) d -> ~ prefix_of (split_all k) q /\ ~ prefix_of q (split_all k)) -> walk q (l_prim l') = walk q (l_prim l).
  Proof.
    revert l. induction d as [|[k p] d IH]; intros l Hr Hq; inversion Hr; subst; [reflexivity|].
    match goal with H : act _ _ = _ |- _ => cbn in H; apply add_prim_trees in H as (_ & _ & _ & Ha) end.
    erewrite IH; [|eassumption|intros k' p' Hi; apply (Hq k' p'); now right].
    destruct (add_child_effect _ _ _ _ _ (components_total k) Ha) as (_ & _ & _ & G & _).
    destruct (Hq k p (or_introl eq_refl)). now apply G.
  Qed.
  Lemma adds_trees (l l' : layout) d : runs l (adds d) l' -> l_cons l' = l_cons l /\ l_keys l' = l_keys l /\ l_params l' = l_params l.
  Proof.
    revert l. induction d as [|[k p] d IH]; intros l Hr; inversion Hr; subst; [auto|].
    match goal with H : act _ _ = _ |- _ => cbn in H; apply add_prim_trees in H as (E1 & E2 & E3 & _) end.
    match goal with H : runs _ _ _ |- _ => apply IH in H as (F1 & F2 & F3) end. repeat split; congruence.
  Qed.
  Lemma adds_app (l l' : layout) a b : runs l (adds (a ++ b)) l' -> exists m, runs l (adds a) m /\ runs m (adds b) l'.
  Proof.
    revert l. induction a as [|[k p] a IH]; intros l Hr; [exists l; split; [constructor|exact Hr]|].
    inversion Hr; subst. match goal with H : runs _ _ l' |- _ => apply IH in H as (m & M1 & M2) end. exists m. split; [econstructor; eassumption|assumption].
  Qed.
  Lemma runs_root (l l' : layout) d : runs l (adds d) l' -> nval (l_prim l') = nval (l_prim l) /\ ntype (l_prim l') = ntype (l_prim l).
  Proof.
    intros H. apply grows_runs in H. destruct (H [] (l_prim l) eq_refl) as (m & E & E1 & E2). cbn in E. inversion E; subst. auto.
  Qed.
  (** A key just added, and then only keys that do not extend it (or that it extends: impossible). *)
  Lemma adds_last (l l' : layout) k p d : runs l (adds ((k, p) :: d)) l' ->
    (forall k' p', In (k', p') d -> ~ prefix_of (split_all k) (split_all k')) -> get_child (l_prim l') k = Ok p.
  Proof.
    intros Hr Hd. inversion Hr; subst. match goal with H : act _ _ = _ |- _ => cbn in H; apply add_prim_trees in H as (_ & _ & _ & Ha) end.
    destruct (add_child_effect _ _ _ _ _ (components_total k) Ha) as (G & _). clear Ha Hr.
    match goal with H : runs ?m _ _ |- _ => rename H into Hr; revert G Hr; generalize m; clear l end.
    induction d as [|[k1 p1] d IH]; intros m G Hr; inversion Hr; subst; [exact G|].
    match goal with H : runs ?m' _ _ |- _ => apply (IH (fun k' p' Hi => Hd k' p' (or_intror Hi)) m'); [|exact H] end.
    match goal with H : act _ _ = _ |- _ => cbn in H; apply add_prim_trees in H as (_ & _ & _ & Ha) end.
    rewrite get_child_walk in *. destruct (walk (split_all k) (l_prim m)) as [x|] eqn:E; [|discriminate]. injection G as ->.
    specialize (Hd k1 p1 (or_introl eq_refl)).
    assert (E1 : walk (split_all k1) (l_prim m) = None).
    { pose proof Ha as Hb. rewrite (add_child_cases _ k1 _ _ (components_total k1)) in Hb. cbv zeta in Hb.
      destruct (walk (removelast (split_all k1)) (l_prim m)) as [par|] eqn:Ep; [|discriminate].
      destruct (walk (split_all k1) (l_prim m)) eqn:E1; [discriminate|reflexivity]. }
    assert (H1 : ~ prefix_of (split_all k1) (split_all k)).
    { intros [r Hr1]. rewrite Hr1, walk_app, E1 in E. discriminate. }
    destruct (add_child_effect _ _ _ _ _ (components_total k1) Ha) as (_ & _ & _ & G' & _).
    rewrite G' by assumption. now rewrite E.
  Qed.

  (** ** A construction without its last children *)
  Lemma mapM_firstn {A B} (f : A -> result B) n l r : mapM f l = Ok r -> mapM f (firstn n l) = Ok (firstn n r).
  Proof.
    revert l r. induction n as [|n IH]; intros [|x l] r H; cbn [mapM firstn] in *; try (inversion H; reflexivity).
    inv_bind H. inv_bind H. inversion H; subst. rewrite E. cbn [bind]. now rewrite (IH _ _ E0).
  Qed.
  Lemma rpks_app (a b : dict cons) kss kts : rpks (a ++ b) kss = Ok kts -> length a <= length kss ->
    exists k1 k2, rpks a (firstn (length a) kss) = Ok k1 /\ kts = k1 ++ k2.
  Proof.
    revert kss kts. induction a as [|[k c] a IH]; intros kss kts H Hl; cbn [app length firstn] in *; [exists [], kts; auto|].
    destruct kss as [|ks kss]; cbn in Hl; [lia|]. cbn [rpks firstn] in *. inv_bind H. inv_bind H. inversion H; subst.
    destruct (IH _ _ E0 ltac:(lia)) as (k1 & k2 & E1 & ->). rewrite E. cbn [bind]. rewrite E1. cbn [bind]. exists ((k, x) :: k1), k2. auto.
  Qed.
  Lemma rps_app (a b : dict cons) c1 c2 pts : rps (a ++ b) (c1 ++ c2) = Ok pts -> length a = length c1 ->
    exists k1 k2, rps a c1 = Ok k1 /\ pts = k1 ++ k2.
  Proof.
    revert c1 pts. induction a as [|[k c] a IH]; intros [|p c1] pts H Hl; try discriminate; cbn [app rps] in *; [exists [], pts; auto|].
    inv_bind H. inv_bind H. inversion H; subst. injection Hl as Hl. destruct (IH _ _ E0 Hl) as (k1 & k2 & E1 & ->).
    rewrite E. cbn [bind]. rewrite E1. cbn [bind]. exists ((k, x) :: k1), k2. auto.
  Qed.
  Definition cut_node (t : cls F) (v : cval F) (ch : dict cons) (cps : list (list pyval)) : cons :=
    Node t {| cpk := firstn (length ch) (cpk v); cparams := fun _ => Ok cps; csig := csig v |} ch.
  Lemma cut_call t v (ch1 ch2 : dict cons) prims params cps1 cps2 out :
    call (Node t v (ch1 ++ ch2)) prims params = Ok out ->
    length (cpk v) = length (ch1 ++ ch2) -> cparams v params = Ok (cps1 ++ cps2) -> length cps1 = length ch1 ->
    (forall i k c p, nth_error ch1 i = Some (k, c) -> nth_error cps1 i = Some p -> arity_ok c p) ->
    exists out', call (cut_node t v ch1 cps1) prims params = Ok out'.
  Proof.
    intros H Hk Hp Hl Ha. unfold call, cut_node in *. unfold cvalidate_prims, cvalidate_params in *. cbn [nval csig] in *.
    inv_bind H. rewrite E. inv_bind H. rewrite E0. cbn [bind]. cbn zeta in *. inv_bind H. rewrite E1. cbn [bind]. inv_bind H. inv_bind H.
    rewrite root_prim_keys_unfold in *. rewrite root_params_unfold in *. cbn [cpk cparams] in *.
    inv_bind E2. inv_bind E2. injection E2 as <-. rewrite Hp in E3. cbn [bind] in E3. inv_bind E3. injection E3 as <-.
    rewrite (mapM_firstn _ (length ch1) _ _ E4). cbn [bind].
    apply mapM_length in E4 as L4. destruct (rpks_app _ _ _ _ E5 ltac:(rewrite L4, Hk, app_length; lia)) as (k1 & k2 & K1 & ->). rewrite K1. cbn [bind].
    destruct (rps_app _ _ _ _ _ E2 (eq_sym Hl)) as (p1 & p2 & P1 & ->). rewrite P1. cbn [bind].
    assert (Ar : arity_ok (cut_node t v ch1 cps1) params).
    { unfold cut_node. constructor; [cbn; rewrite firstn_length, Hk, app_length; lia|]. intros cps Ec. cbn in Ec. injection Ec as <-. split; [lia|exact Ha]. }
    destruct (rpk_shape _ (arg_keys (length prims)) (Node KPrimKeys (arg_keys (length prims)) k1) params Ar) with (pt := Node KParams params p1) as [S1 S2].
    { unfold cut_node. rewrite root_params_unfold. cbn [cparams bind]. rewrite P1. discriminate. }
    { unfold cut_node. rewrite root_prim_keys_unfold. cbn [cpk]. rewrite (mapM_firstn _ (length ch1) _ _ E4). cbn [bind]. rewrite K1. reflexivity. }
    { unfold cut_node. rewrite root_params_unfold. cbn [cparams bind]. rewrite P1. reflexivity. }
    unfold cut_node in S1, S2. apply shape_preorder_length in S1, S2.
    unfold assem_from_tree in *. rewrite <- !(map_map snd (@nval _ _)) in *. rewrite !iter_flat_preorder in *. cbn [preorder] in *. rewrite !flat_map_app in H.
    cbn [map nval] in *. rewrite !map_app in H. inv_bind H. rewrite !app_comm_cons in E3. apply mapM_app_inv in E3 as (f1 & f2 & F1 & F2 & ->). rewrite F1. cbn [bind].
    inv_bind H. rewrite !app_comm_cons in E3.
    apply mapM_length in F1 as LF. cbn [length] in *. rewrite !map_length in *.
    rewrite zip_app in E3 by (cbn [length] in *; rewrite ?map_length in *; lia).
    rewrite zip_app in E3 by (rewrite zip_length; cbn [length] in *; rewrite ?map_length in *; lia).
    apply mapM_app_inv in E3 as (o1 & o2 & O1 & O2 & ->).
    match goal with |- context [mapM ?f ?l] => assert (O1' : mapM f l = Ok o1) by (destruct f1; exact O1) end. rewrite O1'. cbn [bind].
    destruct o1 as [|o o1]; [|eauto]. exfalso. apply mapM_length in O1. rewrite !zip_length in O1. cbn [length map] in *. rewrite ?map_length in *. lia.
  Qed.

  (** ** Grids with too few widths or heights *)
  Lemma relative_leaf : exists c, RelativeLength (F:=F) = Ok c /\ csig (nval c) = msig [TLine; TLine] 1 1 /\ nch c = [] /\ cpk (nval c) = [] /\
    forall prims v, cassem (ntype c) prims [] <> Ok v.
  Proof.
    match goal with |- exists c, ?e = Ok c /\ _ =>
      let x := eval vm_compute in e in match x with Ok ?c => exists c; split; [vm_compute; reflexivity|] end end.
    do 3 (split; [reflexivity|]). intros prims v H. cbn [ntype cassem] in H.
    repeat match type of H with
    | context [match ?x with _ => _ end] => destruct x
    end; discriminate.
  Qed.
  Lemma mapped_arity (c : cons) n ps : nch c = [] -> cpk (nval c) = [] -> arity_ok (mapped c n) ps.
  Proof.
    intros Hc Hk. unfold mapped. constructor; [cbn; now rewrite !map_length|]. intros cps E. cbn in E. injection E as <-. split; [now rewrite !map_length|].
    intros i k c' p E _. rewrite nth_error_map in E. destruct (nth_error (seq 0 _) i); [|discriminate]. injection E as _ <-.
    destruct c as [t v ch]. cbn in *. subst ch. constructor; [now rewrite Hk|]. intros cps _. split; [cbn; lia|]. intros [|j]; discriminate.
  Qed.
  Lemma mapped_short (c : cons) n prims ps outs : csig (nval c) = msig [TLine; TLine] 1 1 -> (forall prims v, cassem (ntype c) prims [] <> Ok v) ->
    length ps < n - 1 -> denote (mapped c n) prims ps <> Ok outs.
  Proof.
    intros Hs Hf Hl H. unfold mapped in H. rewrite denote_unfold in H. inv_bind H. inv_bind H. inv_bind H. inv_bind H. cbn [cparams] in E1. injection E1 as <-. clear H E.
    assert (Hnum : map_num c n = n - 1) by (unfold map_num; rewrite Hs; cbn; lia). rewrite Hnum, Hs in E2. cbn [msig nparams] in E2.
    assert (G : forall a m sels outs, a + m = n - 1 -> length ps < a + m -> 0 < m ->
      denotes (map (fun i => ((cname (ntype c) ++ dec i)%string, c)) (seq a m)) sels (map (fun i => slice (i * 1) ((i + 1) * 1) ps) (seq a m)) <> Ok outs).
    { clear -Hf Hl. intros a m. revert a. induction m as [|m IH]; intros a sels outs Ha Hlt Hm H; [lia|]. cbn [seq map denotes] in H.
      destruct sels as [|s sels]; [discriminate|]. inv_bind H. inv_bind H.
      destruct m as [|m].
      - destruct c as [t v ch]. rewrite denote_unfold in E. inv_bind E. unfold assem1 in E1. inv_bind E1.
        replace (slice (a * 1) ((a + 1) * 1) ps) with (@nil pyval) in E2; [exact (Hf _ _ E2)|].
        unfold slice. rewrite skipn_all2 by lia. now rewrite firstn_nil.
      - eapply (IH (S a)); [| | |exact E0]; lia. }
    eapply (G 0 (n - 1)); [| | |exact E2]; lia.
  Qed.
  Lemma grid_short r k g prims vcw vrh vcm vrm cw rh cm rm out : 1 <= r -> 1 <= k -> Grid r k = Ok g ->
    py_tuple vcw = Ok cw -> py_tuple vrh = Ok rh -> py_tuple vcm = Ok cm -> py_tuple vrm = Ok rm ->
    Forall (fun p : prim => ntype p <> TNode) prims ->
    length cw < k - 1 \/ length rh < r - 1 ->
    call g prims [vcw; vrh; vcm; vrm] <> Ok out.
  Proof.
    intros Hr Hk E T1 T2 T3 T4 Hp Hlt H.
    destruct (rectilinear_ready true r k Hr Hk) as (rg & Eg & _ & Rg). destruct relative_leaf as (rl & El & Sl & Cl & Pl & Fl).
    destruct (margin_array_ready true k "right" ltac:(cbn; tauto)) as (mc & Emc & _ & _). destruct (margin_array_ready true r "bottom" ltac:(cbn; tauto)) as (mr & Emr & _ & _).
    unfold Grid in E. rewrite Eg in E. cbn [bind] in E. rewrite El in E. cbn [bind] in E. rewrite !transform_map_ok, !repeat_length in E. cbn [bind] in E. rewrite Emc in E. cbn [bind] in E. rewrite Emr in E. cbn [bind] in E.
    rewrite construction_ok in E; [|repeat constructor; cbn; intuition discriminate|cbn; intuition discriminate|cbn; lia|reflexivity].
    injection E as <-. cbn [zip] in H.
    match type of H with call (Node ?t ?v _) _ _ = _ => set (v0 := v) in H; set (t0 := t) in H end.
    destruct (cut_call t0 v0 [("RectilinearGrid", rg); ("ColWidths", mapped rl k); ("RowHeights", mapped rl r)] [("ColMargins", mc); ("RowMargins", mr)]
       prims [vcw; vrh; vcm; vrm] [[]; cw; rh] [cm; rm] out H) as [out' H'].
    - reflexivity.
    - unfold v0. cbn [cparams grid_params]. rewrite T1, T2, T3, T4. reflexivity.
    - reflexivity.
    - intros [|[|[|i]]] kk c p E1 E2; cbn in E1, E2; try (destruct i; discriminate); injection E1 as _ <-; injection E2 as <-;
        [eapply ready_arity, Rg|now apply mapped_arity|now apply mapped_arity].
    - apply denote_call in H' as (_ & outs & Hd & _); [|exact Hp|].
      + unfold cut_node in Hd. rewrite denote_unfold in Hd. inv_bind Hd. inv_bind Hd. cbn [cparams bind] in Hd. inv_bind Hd. cbn [denotes] in E1.
        destruct x0 as [|s0 [|s1 [|s2 x0]]]; try discriminate; [inv_bind E1; discriminate|inv_bind E1; inv_bind E1; inv_bind E3; discriminate|].
        inv_bind E1. inv_bind E1. inv_bind E3. inv_bind E3. inv_bind E5.
        destruct Hlt as [Hlt|Hlt]; [exact (mapped_short rl k _ _ _ Sl Fl Hlt E4)|exact (mapped_short rl r _ _ _ Sl Fl Hlt E6)].
      + unfold cut_node. constructor; [reflexivity|]. intros cps E. cbn in E. injection E as <-. split; [cbn; lia|].
        intros [|[|[|i]]] kk c p E1 E2; cbn in E1, E2; try (destruct i; discriminate); injection E1 as _ <-; injection E2 as <-;
        [eapply ready_arity, Rg|now apply mapped_arity|now apply mapped_arity].
  Qed.

  (** ** Grids with too many entries *)
  Lemma denotes_firstn (ch : dict cons) : forall sels cps, denotes ch sels cps = denotes ch sels (firstn (length ch) cps).
  Proof.
    induction ch as [|[k c] ch IH]; intros [|s sels] [|p cps]; try reflexivity. cbn [denotes length firstn]. now rewrite IH.
  Qed.
  Lemma mapped_surplus (c : cons) n prims ps : csig (nval c) = msig [TLine; TLine] 1 1 ->
    denote (mapped c n) prims ps = denote (mapped c n) prims (firstn (n - 1) ps).
  Proof.
    intros Hs. unfold mapped. rewrite !denote_unfold. cbn [cparams cpk].
    assert (Hnum : map_num c n = n - 1) by (unfold map_num; rewrite Hs; cbn; lia). rewrite Hnum, Hs. cbn [msig nparams].
    replace (map (fun i => slice (i * 1) ((i + 1) * 1) (firstn (n - 1) ps)) (seq 0 (n - 1))) with (map (fun i => slice (i * 1) ((i + 1) * 1) ps) (seq 0 (n - 1))); [reflexivity|].
    apply map_ext_in. intros i Hi. apply in_seq in Hi. unfold slice. rewrite skipn_firstn_comm, firstn_firstn. f_equal. lia.
  Qed.
  Lemma margin_array_surplus n side (c : cons) : In side ["left"; "right"; "bottom"; "top"] -> OuterMarginArray n side = Ok c ->
    (forall prims ps, denote c prims ps = denote c prims (firstn (n - 1) ps)) /\
    (forall ps, n - 1 <= length ps -> Forall dimension ps -> arity_ok c ps).
  Proof.
    intros Hs E. destruct (outer_ready (F:=F) true side Hs) as (m & Em & Sm & Hm).
    assert (Ecs : mapM (fun _ : nat => crOuterMargin (F:=F) side) (seq 0 (n - 1)) = Ok (map (fun _ => m) (seq 0 (n - 1)))).
    { rewrite <- mapM_Ok_map. apply mapM_ext. intros; assumption. }
    unfold OuterMarginArray in E. rewrite Ecs in E. cbn [bind] in E. rewrite construction_ok in E;
      [|apply numbered_NoDup|rewrite in_map_iff; intros (i & X & _); discriminate|rewrite !map_length, !seq_length; lia|rewrite !map_length, !seq_length; lia].
    injection E as <-.
    match goal with |- (forall prims ps, denote (Node ?t ?v ?ch) prims ps = _) /\ _ => set (ch0 := ch) end.
    assert (Hl : length ch0 = n - 1) by (unfold ch0; rewrite zip_length, !map_length, !seq_length; lia).
    split.
    - intros prims ps. rewrite !denote_unfold. cbn [cparams cpk]. unfold assem1. cbn [cassem]. unfold empty_assem. cbn [bind atleast_1d].
      destruct (mapM (mapM (select prims)) (map (fun n0 : nat => [argk n0; argk (n0 + 1)]) (seq 0 (n - 1)))) as [sels|]; [|reflexivity]. cbn [bind].
      rewrite (denotes_firstn _ sels (map (fun p => [p]) ps)). rewrite Hl, firstn_map. reflexivity.
    - intros ps Hn Hd. constructor; [cbn [cpk]; rewrite Hl, map_length, seq_length; reflexivity|]. cbn [cparams]. intros cps E. injection E as <-. rewrite Hl, map_length. split; [exact Hn|].
      intros i k c p E1 E2. unfold ch0 in E1. apply nth_zip in E1 as [_ E1]. rewrite nth_error_map in E1, E2. destruct (nth_error (seq 0 (n - 1)) i); [|discriminate]. injection E1 as <-.
      destruct (nth_error ps i) as [v|] eqn:Ev; [|discriminate]. injection E2 as <-. eapply ready_arity. apply Hm. rewrite Forall_forall in Hd. apply Hd. now apply nth_error_In in Ev.
  Qed.
  Lemma grid_surplus r k g prims cw rh cm rm out : 1 <= r -> 1 <= k -> Grid r k = Ok g ->
    Forall (fun p : prim => ntype p <> TNode) prims ->
    k - 1 <= length cw -> r - 1 <= length rh -> k - 1 <= length cm -> r - 1 <= length rm ->
    call g prims [PA1 cw; PA1 rh; PA1 cm; PA1 rm] = Ok out <->
    call g prims [PA1 (firstn (k - 1) cw); PA1 (firstn (r - 1) rh); PA1 (firstn (k - 1) cm); PA1 (firstn (r - 1) rm)] = Ok out.
  Proof.
    intros Hr Hk E Hp L1 L2 L3 L4.
    destruct (rectilinear_ready true r k Hr Hk) as (rg & Eg & _ & Rg). destruct relative_leaf as (rl & El & Sl & Cl & Pl & Fl).
    destruct (margin_array_ready true k "right" ltac:(cbn; tauto)) as (mc & Emc & _ & _). destruct (margin_array_ready true r "bottom" ltac:(cbn; tauto)) as (mr & Emr & _ & _).
    unfold Grid in E. rewrite Eg in E. cbn [bind] in E. rewrite El in E. cbn [bind] in E. rewrite !transform_map_ok, !repeat_length in E. cbn [bind] in E. rewrite Emc in E. cbn [bind] in E. rewrite Emr in E. cbn [bind] in E.
    rewrite construction_ok in E; [|repeat constructor; cbn; intuition discriminate|cbn; intuition discriminate|cbn; lia|reflexivity].
    injection E as <-. cbn [zip].
    destruct (margin_array_surplus k "right" mc ltac:(cbn; tauto) Emc) as [Sc Ac]. destruct (margin_array_surplus r "bottom" mr ltac:(cbn; tauto) Emr) as [Sr Ar].
    match goal with |- call (Node ?t ?v ?ch) _ _ = _ <-> _ => set (v0 := v); set (t0 := t); set (ch0 := ch) end.
    assert (Har : forall a b c d, k - 1 <= length c -> r - 1 <= length d -> arity_ok (Node t0 v0 ch0) [PA1 a; PA1 b; PA1 c; PA1 d]).
    { intros a b c d Lc Ld. constructor; [reflexivity|]. intros cps Ec. unfold v0 in Ec. cbn [cparams grid_params py_tuple bind] in Ec. injection Ec as <-. split; [cbn; lia|].
      assert (D : forall l : list F, Forall dimension (map PFlt l)) by (intros l; apply Forall_forall; intros y Hy; apply in_map_iff in Hy as (x & <- & _); left; reflexivity).
      intros [|[|[|[|[|i]]]]] kk x q E1 E2; cbn in E1, E2; try (destruct i; discriminate); injection E1 as _ <-; injection E2 as <-;
        [eapply ready_arity, Rg|now apply mapped_arity|now apply mapped_arity|apply Ac; [rewrite map_length; exact Lc|apply D]|apply Ar; [rewrite map_length; exact Ld|apply D]]. }
    assert (Hd : denote (Node t0 v0 ch0) prims [PA1 cw; PA1 rh; PA1 cm; PA1 rm] =
                 denote (Node t0 v0 ch0) prims [PA1 (firstn (k - 1) cw); PA1 (firstn (r - 1) rh); PA1 (firstn (k - 1) cm); PA1 (firstn (r - 1) rm)]).
    { assert (Ho : forall a b c d, assem1 t0 prims [a; b; c; d] = Ok []) by reflexivity.
      assert (Hc : forall a b c d, cparams v0 [PA1 a; PA1 b; PA1 c; PA1 d] = Ok [[]; map PFlt a; map PFlt b; map PFlt c; map PFlt d]) by reflexivity.
      rewrite !denote_unfold, !Ho, !Hc. cbn [bind]. unfold ch0.
      destruct (mapM (mapM (select prims)) (cpk v0)) as [sels|]; [cbn [bind]|reflexivity].
      rewrite <- !firstn_map. destruct sels as [|s0 [|s1 [|s2 [|s3 [|s4 sels]]]]]; cbn [denotes]; try reflexivity;
        rewrite ?(mapped_surplus rl k s1 (map PFlt cw) Sl), ?(mapped_surplus rl r s2 (map PFlt rh) Sl), ?(Sc s3 (map PFlt cm)), ?(Sr s4 (map PFlt rm)); reflexivity. }
    assert (Hv : valid_args (Node t0 v0 ch0) prims [PA1 cw; PA1 rh; PA1 cm; PA1 rm] <->
                 valid_args (Node t0 v0 ch0) prims [PA1 (firstn (k - 1) cw); PA1 (firstn (r - 1) rh); PA1 (firstn (k - 1) cm); PA1 (firstn (r - 1) rm)]) by (unfold valid_args; cbn [length]; tauto).
    split; intros H; (apply denote_call in H as (V & outs & D & ->); [|exact Hp|apply Har; rewrite ?firstn_length; lia]); (apply call_denote; [exact Hp|tauto|congruence]).
  Qed.
End Hist.
