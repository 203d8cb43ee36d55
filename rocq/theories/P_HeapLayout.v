(** Properties C77 and C78: layouts as objects, whose trees may be shared.
    Vocabulary: HeapLayoutSpec.v ([shows_layout], [all_dicts], [perform], [performs],
    [given], [stands_for]), HeapSpec.v ([shows], [holds], [extends]), LayoutSpec.v. *)
From Coq Require Import QArith.
From Verif Require Export HistProofs WholeProofs UpdateProofs Inst P_Layout P_Heap.
From Verif Require Export HeapLater.
From Verif Require Export HeapSpec.
From Verif Require Export ConsSpec.

Local Open Scope nat_scope.

Section Props.
  Context {F : Type} {N : Num F}.
  Notation pyval := (pyval F).
  Notation layout := (layout F).

  (** ** C77 *)
  (** [update_layout_constraints] on objects has the outcome it has on trees.  The new
      layout shares its primitives, constraints and key nodes with the old one; its
      parameter nodes are all new; nothing that existed is changed. *)
  Theorem C77_update (w : world F) l (L : layout) axs : all_dicts w -> shows_layout w l L ->
    match update_layout_constraints L axs with
    | Err e => hupdate_layout_constraints w l axs = Err e
    | Ok L' => exists w' l', hupdate_layout_constraints w l axs = Ok (w', l') /\
        shows_layout w' l' L' /\ shows_layout w' l L /\
        r_prim l' = r_prim l /\ r_cons l' = r_cons l /\ r_keys l' = r_keys l /\
        w_prims w' = w_prims w /\ w_cons w' = w_cons w /\ w_keys w' = w_keys w /\
        extends (w_params w) (w_params w') /\
        (forall x, holds (w_params w') (r_params l') x -> length (w_params w) <= x) /\
        unshared (w_params w') (r_params l')
    end.
  Proof.
    intros D S. pose proof (hupdate_same w l L axs D S) as H. destruct (update_layout_constraints L axs) as [L'|e]; [|exact H].
    destruct H as (h & r & -> & ([nw En] & Sr & _ & Ur & Br) & E1 & E2 & E3 & E4).
    pose proof S as (S1 & S2 & S3 & S4 & S5).
    eexists _, _. split; [reflexivity|]. unfold shows_layout. cbn [set_w_params w_prims w_cons w_keys w_params r_prim r_cons r_keys r_params r_counter].
    split; [rewrite E1, E2, E3, E4; auto|]. split; [subst h; split; [exact S1|split; [exact S2|split; [exact S3|split; [now apply shows_ext|exact S5]]]]|].
    do 6 (split; [reflexivity|]). split; [now exists nw|]. split; [|exact Ur].
    intros x [p Hp]. now apply Br in Hp.
  Qed.

  Lemma update_owned (w : world F) l (L : layout) axs w1 l1 : all_dicts w -> shows_layout w l L ->
    hupdate_layout_constraints w l axs = Ok (w1, l1) -> exists L', update_layout_constraints L axs = Ok L' /\
    own_params (w_params w) w1 l1 /\ shows_layout w1 l1 L' /\ w_prims w1 = w_prims w /\ w_cons w1 = w_cons w /\ w_keys w1 = w_keys w /\
    r_prim l1 = r_prim l /\ r_cons l1 = r_cons l /\ r_keys l1 = r_keys l /\
    l_prim L' = l_prim L /\ l_cons L' = l_cons L /\ l_keys L' = l_keys L.
  Proof.
    intros D S E. pose proof (hupdate_dicts w l axs w1 l1 D E) as D'. pose proof (hupdate_same w l L axs D S) as H. destruct (update_layout_constraints L axs) as [L'|e]; [|congruence].
    destruct H as (h & r & E' & Fr & E1 & E2 & E3 & E4). rewrite E in E'. injection E' as -> ->. exists L'. split; [reflexivity|].
    pose proof S as (S1 & S2 & S3 & S4 & S5).
    split; [split; [exact D'|now exists (l_params L')]|].
    split; [|repeat split; auto].
    unfold shows_layout. cbn [set_w_params w_prims w_cons w_keys w_params r_prim r_cons r_keys r_params r_counter].
    rewrite E1, E2, E3, E4. destruct Fr as (_ & Sr & _). auto.
  Qed.

  (** Whatever is called on the new layout afterwards, no parameter object that existed
      before the update changes; in particular the old layout keeps its parameter tree. *)
  Theorem C77_later_calls (w : world F) l (L : layout) axs w1 l1 rs w2 l2 outs : all_dicts w -> shows_layout w l L ->
    hupdate_layout_constraints w l axs = Ok (w1, l1) -> performs w1 l1 rs = (w2, l2, outs) ->
    extends (w_params w) (w_params w2) /\ shows (w_params w2) (r_params l) (l_params L) /\
    r_prim l2 = r_prim l /\ r_cons l2 = r_cons l /\ r_keys l2 = r_keys l /\ r_params l2 = r_params l1.
  Proof.
    intros D S E Ep. destruct (update_owned w l L axs w1 l1 D S E) as (L' & _ & O & _ & _ & _ & _ & R1 & R2 & R3 & _).
    destruct (performs_own _ rs _ _ _ _ _ O Ep) as [(_ & t & Fr) (Q1 & Q2 & Q3 & Q4)].
    destruct Fr as ([nw En] & _). split; [now exists nw|]. split; [rewrite En; now apply shows_ext, S|].
    repeat split; congruence.
  Qed.

  (** Finding: after a constraint is added to the new layout, the old layout has it too,
      but not its parameters. *)
  Theorem C77_out_of_step (w : world F) l (L : layout) axs w1 l1 c ks ps key w2 l2 : all_dicts w -> shows_layout w l L -> lockstep L ->
    hupdate_layout_constraints w l axs = Ok (w1, l1) ->
    hadd_constraint w1 l1 c ks ps key = (w2, l2, Ok tt) ->
    exists k, (key <> EmptyString -> k = key) /\
      hget_child (w_cons w) (r_cons l) k = Err (KeyError k) /\
      hget_child (w_cons w2) (r_cons l) k = Ok c /\
      hget_child (w_params w2) (r_params l) k = Err (KeyError k).
  Proof.
    intros D S Lk E Ea. pose proof (C77_later_calls w l L axs w1 l1 [RAddConstraint c ks ps key] w2 l2 [Ok tt] D S E) as Hl.
    cbn [performs perform] in Hl. rewrite Ea in Hl. destruct (Hl eq_refl) as (_ & Sp & _). clear Hl.
    destruct (update_owned w l L axs w1 l1 D S E) as (L' & _ & _ & _ & _ & W2 & _ & _ & R2 & _).
    destruct (hadd_constraint_added _ _ _ _ _ _ _ _ Ea) as (k & Hk & Hc). rewrite W2, R2 in Hc.
    pose proof S as (_ & S2 & _). pose proof Lk as (_ & Sh).
    destruct (hadd_child_outcome (w_cons w) (r_cons l) (l_cons L) k (split_all k) c (l_cons L) S2 (components_total k)) as (_ & _ & O).
    rewrite Hc in O. cbn [fst snd] in O. destruct (O eq_refl) as (p & o & Wp & Eo & Dn & On). clear O.
    pose proof (hwalk_kept _ _ _ _ _ _ Eo Dn On _ _ _ Wp) as Wp'.
    assert (Es : split_all k = removelast (split_all k) ++ [last (split_all k) EmptyString]).
    { apply app_removelast_last, split_all_nonempty. }
    assert (Hn : hwalk (w_cons w) (split_all k) (r_cons l) = None).
    { rewrite Es, hwalk_app, Wp. cbn [hwalk]. now rewrite Eo, Dn. }
    exists k. split; [exact Hk|]. split; [rewrite (hget_child_walk _ _ _ k S2), Hn; reflexivity|]. split.
    - apply hwalk_get. rewrite Es, hwalk_app, Wp'. cbn [hwalk]. destruct On as (_ & _ & o2 & _ & ->). cbn [och].
      rewrite <- dset_absent by exact Dn. now rewrite dget_dset_same.
    - rewrite (hget_child_walk _ _ _ k Sp).
      pose proof (hwalk_shows _ (split_all k) _ _ S2) as H1. rewrite Hn in H1.
      pose proof (hwalk_shows _ (split_all k) _ _ Sp) as H2.
      pose proof (shape_walk (split_all k) _ _ Sh) as H3. destruct (walk (split_all k) (l_cons L)); [contradiction|].
      destruct (walk (split_all k) (l_params L)); [contradiction|]. destruct (hwalk (w_params w2) (split_all k) (r_params l)); [contradiction|reflexivity].
  Qed.

  (** Reading the flat lists of an object layout. *)
  Lemma flat_same (w : world F) l (L : layout) : all_dicts w -> shows_layout w l L -> hflat_constraints w l = Ok (flat_constraints L).
  Proof.
    intros (_ & D2 & D3 & D4) (_ & S2 & S3 & S4 & _). unfold hflat_constraints, flat_constraints.
    assert (G : forall T A (h : heap T A) r t B (f : obj T A -> B) (g : node T A -> B), dicts h -> shows h r t ->
      (forall o n, otype o = ntype n -> oval o = nval n -> f o = g n) ->
      bind (hiter_flat (length h) h EmptyString r) (fun cs => mapM (fun kr => o <- deref h (snd kr) ;; Ok (f o)) cs) =
      Ok (map (fun x => g (snd x)) (iter_flat EmptyString t))).
    { intros T A h r t B f g Hd Hs Hfg. destruct (hiter_flat_shows h (length h) t r EmptyString Hs (height_bound _ _ _ Hd Hs)) as (ls & -> & Fl).
      cbn [bind]. induction Fl as [|[k x] [k' n] ls ms [_ Hx] _ IH]; [reflexivity|]. cbn [mapM map fst snd] in *.
      apply shows_inv in Hx as (o & Eo & Et & Ev & _). unfold deref, look. rewrite Eo. cbn [bind].
      rewrite (Hfg o n) by auto. unfold deref, look in IH. rewrite IH. reflexivity. }
    pose proof (G _ _ _ _ _ _ (@otype _ _) (@ntype _ _) D2 S2 ltac:(auto)) as G1.
    pose proof (G _ _ _ _ _ _ (@oval _ _) (@nval _ _) D3 S3 ltac:(auto)) as G2.
    pose proof (G _ _ _ _ _ _ (@oval _ _) (@nval _ _) D4 S4 ltac:(auto)) as G3.
    destruct (hiter_flat _ (w_cons w) _ _) as [x1|]; [|discriminate]. cbn [bind] in *. rewrite G1.
    destruct (hiter_flat _ (w_keys w) _ _) as [x2|]; [|discriminate]. cbn [bind] in *. rewrite G2.
    destruct (hiter_flat _ (w_params w) _ _) as [x3|]; [|discriminate]. cbn [bind] in *. rewrite G3. reflexivity.
  Qed.

  (** Finding: if then a second constraint is added to the old layout, its flat lists pair
      the first constraint's residuals with the parameters of the second. *)
  Theorem C77_wrong_parameters (w : world F) l (L : layout) axs w1 l1
      c1 (ct1 : cons F) ks1 ps1 key1 w2 l2 c2 (ct2 : cons F) ks2 ps2 key2 w3 l3 :
    all_dicts w -> shows_layout w l L ->
    hupdate_layout_constraints w l axs = Ok (w1, l1) ->
    given (w_cons w) (r_cons l) c1 ct1 -> noslash key1 = true -> noslash (cname (ntype ct1)) = true ->
    hadd_constraint w1 l1 c1 ks1 ps1 key1 = (w2, l2, Ok tt) ->
    given (w_cons w2) (r_cons l) c2 ct2 -> noslash key2 = true -> noslash (cname (ntype ct2)) = true ->
    hadd_constraint w2 l c2 ks2 ps2 key2 = (w3, l3, Ok tt) ->
    exists cs ks ps kt1 kt2 pt2, flat_constraints L = (cs, ks, ps) /\
      root_prim_keys ct1 ks1 = Ok kt1 /\ root_prim_keys ct2 ks2 = Ok kt2 /\ root_params ct2 ps2 = Ok pt2 /\
      hflat_constraints w3 l3 =
        Ok (cs ++ map (@ntype _ _) (preorder ct1) ++ map (@ntype _ _) (preorder ct2),
            ks ++ map (@nval _ _) (preorder kt1) ++ map (@nval _ _) (preorder kt2),
            ps ++ map (@nval _ _) (preorder pt2)).
  Proof.
    intros D S E G1 K1 N1 A1 G2 K2 N2 A2.
    pose proof (C77_later_calls w l L axs w1 l1 [RAddConstraint c1 ks1 ps1 key1] w2 l2 [Ok tt] D S E) as Hl.
    cbn [performs perform] in Hl. rewrite A1 in Hl. destruct (Hl eq_refl) as (_ & Sp & _). clear Hl.
    destruct (update_owned w l L axs w1 l1 D S E) as (L' & _ & (D1 & _) & S1 & W1 & W2 & W3 & R1 & R2 & R3 & L1 & L2 & L3).
    destruct (hadd_constraint_same w1 l1 L' c1 ct1 ks1 ps1 key1 D1 S1) as (w2' & l2' & E2 & St); [now rewrite W2, R2|assumption|assumption|].
    rewrite A1 in E2. injection E2 as <- <- Eo1. destruct (add_constraint L' ct1 ks1 ps1 key1) as [L1' r1] eqn:Ea1. cbn [fst snd] in *. subst r1.
    destruct St as (D2 & S2 & Q1 & Q2 & Q3 & Q4 & _).
    destruct (add_constraint_added L' L1' ct1 ks1 ps1 key1 Ea1 K1 N1) as (k1 & kt1 & pt1 & Kk1 & _ & Ek1 & _ & P1 & C1 & Y1 & _).
    set (M := {| l_prim := l_prim L; l_cons := l_cons L1'; l_keys := l_keys L1'; l_params := l_params L; l_counter := l_counter L |}).
    assert (SM : shows_layout w2 l M).
    { destruct S2 as (Z1 & Z2 & Z3 & _). pose proof S as (_ & _ & _ & _ & Z5). unfold shows_layout. cbn [M l_prim l_cons l_keys l_params l_counter].
      rewrite <- R1, <- R2, <- R3, <- Q1, <- Q2, <- Q3, <- L1, <- P1. split; [exact Z1|split; [exact Z2|split; [exact Z3|split; [exact Sp|exact Z5]]]]. }
    destruct (hadd_constraint_same w2 l M c2 ct2 ks2 ps2 key2 D2 SM G2) as (w3' & l3' & E3 & St); [assumption|assumption|].
    rewrite A2 in E3. injection E3 as <- <- Eo2. destruct (add_constraint M ct2 ks2 ps2 key2) as [M' r2] eqn:Ea2. cbn [fst snd] in *. subst r2.
    destruct St as (D3 & S3 & _).
    destruct (add_constraint_added M M' ct2 ks2 ps2 key2 Ea2 K2 N2) as (k2 & kt2 & pt2 & Kk2 & _ & Ek2 & Ep2 & _ & C2 & Y2 & V2).
    cbn [M l_prim l_cons l_keys l_params] in C2, Y2, V2.
    apply add_child_top in C1 as [C1 _]; [|exact Kk1]. apply add_child_top in Y1 as [Y1 _]; [|exact Kk1].
    apply add_child_top in C2 as [C2 _]; [|exact Kk2]. apply add_child_top in Y2 as [Y2 _]; [|exact Kk2]. apply add_child_top in V2 as [V2 _]; [|exact Kk2].
    eexists _, _, _, kt1, kt2, pt2. split; [apply flat_constraints_dpre|]. split; [exact Ek1|]. split; [exact Ek2|]. split; [exact Ep2|].
    rewrite (flat_same w3 l3 M' D3 S3), flat_constraints_dpre. rewrite C2, Y2, V2, C1, Y1, L2, L3. cbn [nch].
    rewrite !dpre_app, !map_app. unfold dpre at 2 3 5 6 8. cbn [flat_map snd]. rewrite !app_nil_r, <- !app_assoc. reflexivity.
  Qed.

  (** ** C78 *)
  Theorem C78_empty rid (w : world F) : all_dicts w ->
    let (w', l') := hempty_layout rid w in all_dicts w' /\ shows_layout w' l' (empty_layout rid).
  Proof.
    intros (D1 & D2 & D3 & D4). unfold hempty_layout, alloc. cbn [set_w_params].
    assert (Da : forall T A (h : heap T A) t v, dicts h -> dicts (h ++ [Obj t v []])) by
      (intros; apply dicts_app; [assumption|constructor; constructor]).
    assert (B : forall T A (h : heap T A) t v, shows (h ++ [Obj t v []]) (length h) (Node t v [])).
    { intros T A h t v. apply (shows_intro _ _ (Obj t v [])); [|constructor]. rewrite nth_error_app2, Nat.sub_diag by lia. reflexivity. }
    split; [split; [|split; [|split]]; now apply Da|]. split; [apply B|split; [apply B|split; [apply B|split; [apply B|reflexivity]]]].
  Qed.
  (** Any sequence of calls with objects (keys without slash; the objects handed in are
      trees not containing the layout's own root) has, call by call, the outcome of the
      same calls on trees; the layout then shows the layout of trees; and of the objects
      that existed, at most the four roots have changed: the primitives and constraints
      handed in are used as they are and never modified. *)
  Theorem C78_refinement (w : world F) l (L : layout) rs acts w' l' outs : all_dicts w -> shows_layout w l L ->
    Forall2 (stands_for w l) rs acts -> Forall flat_key acts -> performs w l rs = (w', l', outs) ->
    outs = outcomes L acts /\ all_dicts w' /\ shows_layout w' l' (after L acts) /\
    r_prim l' = r_prim l /\ r_cons l' = r_cons l /\ r_keys l' = r_keys l /\ r_params l' = r_params l /\
    unchanged_but (r_prim l) (w_prims w) (w_prims w') /\ unchanged_but (r_cons l) (w_cons w) (w_cons w') /\
    unchanged_but (r_keys l) (w_keys w) (w_keys w') /\ unchanged_but (r_params l) (w_params w) (w_params w').
  Proof.
    intros D S Hf Hk E. destruct (performs_same acts w l L rs D S Hf Hk) as (w2 & l2 & E2 & St). rewrite E in E2. injection E2 as -> -> ->.
    split; [reflexivity|exact St].
  Qed.
  Theorem C78_flat (w : world F) l (L : layout) : all_dicts w -> shows_layout w l L ->
    hflat_constraints w l = Ok (flat_constraints L).
  Proof. exact (flat_same w l L). Qed.
  (** So what is proved of histories on trees holds of the objects; e.g. C51: starting
      from [Layout()] with shipped constraints, the three flat lists have one length. *)
  Theorem C78_lockstep rid (w : world F) rs acts w1 l1 w2 l2 outs : all_dicts w -> hempty_layout rid w = (w1, l1) ->
    Forall2 (stands_for w1 l1) rs acts -> Forall flat_key acts -> Forall (shipped_act true) acts -> performs w1 l1 rs = (w2, l2, outs) ->
    exists cs ks ps, hflat_constraints w2 l2 = Ok (cs, ks, ps) /\ length ks = length cs /\ length ps = length cs.
  Proof.
    intros D E Hf Hk Hs Ep. pose proof (C78_empty rid w D) as H. rewrite E in H. destruct H as [D1 S1].
    destruct (C78_refinement w1 l1 _ rs acts w2 l2 outs D1 S1 Hf Hk Ep) as (_ & D2 & S2 & _).
    destruct (C51_lockstep_shipped rid acts Hs) as [_ Hl]. unfold flat_lengths in Hl.
    rewrite (C78_flat w2 l2 _ D2 S2). destruct (flat_constraints _) as [[cs ks] ps]. exists cs, ks, ps. split; [reflexivity|].
    destruct Hl; split; congruence.
  Qed.
  (** A key below an added primitive puts the new primitive into that primitive object
      itself: everyone else holding the object sees it. *)
  Theorem C78_nested_key (w : world F) l (L : layout) p tp k q tq b w1 w2 : all_dicts w -> shows_layout w l L ->
    noslash k = true -> noslash b = true -> given (w_prims w) (r_prim l) p tp -> given (w_prims w) (r_prim l) q tq ->
    hadd_prim w l p k = (w1, Ok tt) -> hadd_prim w1 l q (k ++ String slash b)%string = (w2, Ok tt) -> ~ holds (w_prims w) q p ->
    shows (w_prims w2) p (Node (ntype tp) (nval tp) (nch tp ++ [(b, tq)])).
  Proof.
    intros (D & _) (S & _) Hk Hb Gp Gq E1 E2 Nq. unfold hadd_prim in E1, E2.
    destruct (add_given (w_prims w) (r_prim l) (l_prim L) k p tp D S Hk Gp) as (h1 & A1 & S1 & D1 & U1). rewrite A1 in E1.
    injection E1 as <- Eo. cbn [set_w_prims w_prims] in *.
    pose proof (add_child_top (l_prim L) k tp (fst (add_child (l_prim L) k tp)) Hk) as T1.
    destruct (add_child (l_prim L) k tp) as [t1 r1]. cbn [fst snd] in *. subst r1. destruct (T1 eq_refl) as [Et1 Kn]. clear T1.
    destruct (given_kept _ _ _ _ _ D U1 Gp) as [Sp Np]. destruct (given_kept _ _ _ _ _ D U1 Gq) as [Sq Nq1].
    destruct (hadd_child h1 (r_prim l) (k ++ String slash b)%string q) as [h2 r2] eqn:A2. injection E2 as <- ->. cbn [set_w_prims w_prims].
    assert (Ec : components (k ++ String slash b)%string [k; b]).
    { split; [discriminate|]. split; [repeat constructor; assumption|reflexivity]. }
    assert (Wp : hwalk h1 (removelast [k; b]) (r_prim l) = Some p).
    { cbn [removelast]. pose proof (hadd_child_outcome (w_prims w) (r_prim l) (l_prim L) k [k] p tp S) as O.
      destruct O as (_ & _ & O); [split; [discriminate|]; split; [repeat constructor; assumption|reflexivity]|]. rewrite A1 in O. cbn [fst snd] in O.
      destruct (O eq_refl) as (p0 & o & Hp0 & Eo & Dn & (_ & _ & o2 & Eo2 & Eo3)). cbn in Hp0. injection Hp0 as <-.
      cbn [hwalk]. rewrite Eo3. cbn [och last]. cbn [last] in Dn. rewrite <- dset_absent by exact Dn. now rewrite dget_dset_same. }
    assert (Nqp : ~ holds h1 q p).
    { destruct Gq as [Sq0 Nq0]. intros Hq. apply Nq. destruct Gp as [Sp0 Np0].
      destruct (add_top (w_prims w) (r_prim l) (l_prim L) k p tp D S Hk Sp0 Np0) as (_ & _ & _ & _ & U). rewrite A1 in U. cbn [fst] in U.
      exact (holds_frame (w_prims w) h1 (r_prim l) q p U Nq0 Hq). }
    pose proof (C75_every_holder h1 (r_prim l) t1 _ [k; b] q tq h2 p D1 S1 Ec A2 Wp Sq Nqp p tp Sp) as G.
    assert (Eg : graft (finds h1 p p) (last [k; b] EmptyString) tq tp = Node (ntype tp) (nval tp) (nch tp ++ [(b, tq)])).
    { destruct tp as [ty v ch]. cbn [graft ntype nval nch last]. unfold finds at 2. cbn [hwalk]. rewrite Nat.eqb_refl. f_equal. f_equal.
      rewrite <- (map_id ch) at 2. apply map_ext. intros [k0 c]. cbn [fst snd]. f_equal. apply graft_none.
      intros q0. unfold finds. destruct (hwalk h1 (k0 :: q0) p) as [x|] eqn:Ex; [|reflexivity]. apply Nat.eqb_neq. intros ->.
      pose proof (shows_acyclic _ _ _ _ Sp Ex). discriminate. }
    now rewrite Eg in G.
  Qed.
End Props.

(** ** Cases.  A new layout, and objects made for a primitive and two constraints. *)
Definition start {F} {N : Num F} (t : prim F) (c1 c2 : cons F) : world F * hlayout * nat * nat * nat :=
  let (w, l) := hempty_layout 0 {| w_prims := []; w_cons := []; w_keys := []; w_params := [] |} in
  let (hp, b) := plant (w_prims w) t in
  let (hc, x1) := plant (w_cons w) c1 in
  let (hc, x2) := plant hc c2 in
  (set_w_cons (set_w_prims w hp) hc, l, b, x1, x2).
Lemma start_spec {F} {N : Num F} (t : prim F) (c1 c2 : cons F) w l b x1 x2 : wf t -> wf c1 -> wf c2 -> start t c1 c2 = (w, l, b, x1, x2) ->
  all_dicts w /\ shows_layout w l (empty_layout 0) /\ given (w_prims w) (r_prim l) b t /\
  given (w_cons w) (r_cons l) x1 c1 /\ given (w_cons w) (r_cons l) x2 c2.
Proof.
  intros Wt W1 W2 E. unfold start in E.
  assert (D0 : all_dicts (F:=F) {| w_prims := []; w_cons := []; w_keys := []; w_params := [] |}) by (split; [|split; [|split]]; constructor).
  pose proof (C78_empty 0 _ D0) as H. destruct (hempty_layout 0 _) as [w0 l0] eqn:E0. destruct H as ((D1 & D2 & D3 & D4) & (S1 & S2 & S3 & S4 & S5)).
  assert (Rp : r_prim l0 < length (w_prims w0)) by (eapply (hwalk_bound _ []); [exact S1|reflexivity]).
  assert (Rc : r_cons l0 < length (w_cons w0)) by (eapply (hwalk_bound _ []); [exact S2|reflexivity]).
  destruct (plant_spec t Wt (w_prims w0)) as (np & b' & Ep & Sp & Dp & Bp). rewrite Ep in E.
  destruct (plant_spec c1 W1 (w_cons w0)) as (n1 & x1' & E1 & Sx1 & Dx1 & Bx1). rewrite E1 in E.
  destruct (plant_spec c2 W2 (w_cons w0 ++ n1)) as (n2 & x2' & E2 & Sx2 & Dx2 & Bx2). rewrite E2 in E.
  injection E as <- <- <- <- <-. unfold shows_layout, given. cbn [set_w_cons set_w_prims w_prims w_cons w_keys w_params].
  split; [|split; [|split; [|split]]].
  - split; [now apply dicts_app|split; [apply dicts_app; [now apply dicts_app|assumption]|split; assumption]].
  - split; [now apply shows_ext|split; [now apply shows_ext, shows_ext|auto]].
  - split; [exact Sp|]. intros [p Hp]. apply Bp in Hp. lia.
  - split; [now apply shows_ext|]. intros [p Hp]. eapply hwalk_ext_inv in Hp; [|exact Sx1]. apply Bx1 in Hp. lia.
  - split; [exact Sx2|]. intros [p Hp]. apply Bx2 in Hp. rewrite app_length in Hp. lia.
Qed.
Lemma width_wf : wf width.
Proof.
  destruct good_shipped as [H _]. inversion_clear H as [|? ? _ H1]. inversion_clear H1 as [|? ? _ H2]. inversion_clear H2 as [|? ? _ H3].
  inversion_clear H3 as [|? ? H4 _]. cbn [shipped_act] in H4. apply shipped_neat in H4 as [(Hw & _) _]. exact Hw.
Qed.
Lemma box_wf : wf (qbox 1000 0 6 1 7)%Q.
Proof. vm_compute. repeat (constructor; cbn; try (intuition discriminate)). Qed.

Definition abox := (qbox 1000 0 6 1 7)%Q.
Definition w0 := let '(w, _, _, _, _) := start abox width width in w.
Definition l0 := let '(_, l, _, _, _) := start abox width width in l.
(** The box is object 13; the constraints are objects 2 and 4. *)
Example start_case : start abox width width = (w0, l0, 13, 2, 4).
Proof.
  unfold w0, l0. assert (H : (let '(_, _, b, x, y) := start abox width width in (b, x, y)) = (13, 2, 4)) by (vm_compute; reflexivity).
  destruct (start abox width width) as [[[[w l] b] x] y]. now injection H as -> -> ->.
Qed.
(** Hypotheses of C78_refinement; all three calls succeed. *)
Definition three_requests : list (request (F:=Q)) :=
  [RAddPrim 13 "A"; RAddConstraint 2 ["A"] [PFlt 3%Q] "W"; RAddConstraint 4 ["A/Line0"] [PFlt 5%Q] ""].
Definition three_actions : list (action Q) :=
  [AddPrim abox "A"; AddConstraint width ["A"] [PFlt 3%Q] "W"; AddConstraint width ["A/Line0"] [PFlt 5%Q] ""].
Example C78_case : all_dicts w0 /\ shows_layout w0 l0 (empty_layout 0) /\
  Forall2 (stands_for w0 l0) three_requests three_actions /\ Forall flat_key three_actions /\
  outcomes (empty_layout 0) three_actions = [Ok tt; Ok tt; Err RuntimeErr].
Proof.
  destruct (start_spec _ _ _ _ _ _ _ _ box_wf width_wf width_wf start_case) as (D & S & G & G1 & G2).
  split; [exact D|]. split; [exact S|]. split; [|split].
  - unfold three_requests, three_actions. repeat (apply Forall2_cons; [cbn [stands_for]; auto|]). apply Forall2_nil.
  - unfold three_actions. repeat (apply Forall_cons; [cbn [flat_key]; try reflexivity; split; vm_compute; reflexivity|]). apply Forall_nil.
  - vm_compute. reflexivity.
Qed.
(** C77: the box is added, the layout updated; one width is added to the new layout, the
    other to the old one.  The old layout ends up with two constraints and the parameter
    of the second. *)
Definition ok3 (x : world Q * hlayout * result unit) : bool := is_ok (snd x).
Definition w1 := fst (fst (perform w0 l0 (RAddPrim 13 "A"))).
Definition w2 := match hupdate_layout_constraints w1 l0 [] with Ok (w, _) => w | Err _ => w1 end.
Definition l2 := match hupdate_layout_constraints w1 l0 [] with Ok (_, l) => l | Err _ => l0 end.
Definition step3 := hadd_constraint w2 l2 2 ["A"] [PFlt 3%Q] "W".
Definition step4 := hadd_constraint (fst (fst step3)) l0 4 ["A"] [PFlt 5%Q] "V".
Example C77_case : is_ok (hupdate_layout_constraints w1 l0 []) = true /\ ok3 step3 = true /\ ok3 step4 = true /\
  match hflat_constraints (fst (fst step4)) (snd (fst step4)) with
  | Ok (cs, ks, ps) => length cs = 4 /\ ks = [["A"]; ["A/Line0"]; ["A"]; ["A/Line0"]] /\ ps = [[PFlt 5%Q]; [PA1 [5%Q]]]
  | Err _ => False
  end.
Proof. vm_compute. repeat split. Qed.

Print Assumptions C77_update.
Print Assumptions C77_later_calls.
Print Assumptions C77_out_of_step.
Print Assumptions C77_wrong_parameters.
Print Assumptions C78_empty.
Print Assumptions C78_refinement.
Print Assumptions C78_flat.
Print Assumptions C78_lockstep.
Print Assumptions C78_nested_key.
