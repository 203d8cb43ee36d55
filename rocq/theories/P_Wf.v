(** C71, C72: layout trees stay well-formed, constructors allocate fresh arrays. *)
From Verif Require Export AllocProofs SolverProofs Inst ConsSpec.

Section Wf.
  Context {F : Type} {N : Num F}.
  Notation prim := (prim F).
  Notation cons := (cons F).
  Notation layout := (layout F).

  (** [sane n]: distinct, slash-free child keys at every level. *)
  Lemma sane_meaning {T A} (n : node T A) : sane n <-> wf n /\ slashfree n.
  Proof. reflexivity. Qed.

  (** Any calls, in any order, whether they raise or not. *)
  Theorem C71_trees_well_formed rid (acts : list (action F)) :
    Forall (fun a => Forall sane (given_prims a) /\ Forall sane (given_cons a)) acts ->
    let l := after (empty_layout rid) acts in
    (wf (l_prim l) /\ slashfree (l_prim l)) /\ (wf (l_cons l) /\ slashfree (l_cons l)) /\
    (wf (l_keys l) /\ slashfree (l_keys l)) /\ (wf (l_params l) /\ slashfree (l_params l)).
  Proof. intros H. exact (after_sane acts _ (empty_sane rid) H). Qed.
  (** So every node of each tree is found at exactly the key iteration reports for it. *)
  Theorem C71_iteration_keys_resolve rid (acts : list (action F)) :
    Forall (fun a => Forall sane (given_prims a) /\ Forall sane (given_cons a)) acts ->
    let l := after (empty_layout rid) acts in
    NoDup (map fst (iter_flat EmptyString (l_prim l))) /\
    (forall key c, In (key, c) (iter_flat EmptyString (l_prim l)) ->
       (key = EmptyString /\ c = l_prim l) \/ exists rel, key = String slash rel /\ get_child (l_prim l) rel = Ok c) /\
    (forall rel c, get_child (l_prim l) rel = Ok c -> In (String slash rel, c) (iter_flat EmptyString (l_prim l))).
  Proof.
    intros H. destruct (C71_trees_well_formed rid acts H) as ((Hw & Hs) & _). cbv zeta in *.
    exact (proj2 (iter_flat_resolves _ EmptyString Hw Hs)).
  Qed.
  (** Shipped constraints qualify. *)
  Theorem C71_shipped_constraints tw c ps : shipped (F:=F) tw c ps -> wf c /\ slashfree c.
  Proof. intros H. apply shipped_neat in H as [(H1 & H2 & _) _]. now split. Qed.
  (** Arrays: if the primitives handed in hold arrays of one store then so does the
      layout, whose identities are therefore consistent. *)
  Theorem C71_arrays_consistent rid (acts : list (action F)) L n :
    pool L n -> In {| vid := rid; vdata := [] |} L -> Forall (fun a => Forall (drawn L) (given_prims a)) acts ->
    ids_consistent (l_prim (after (empty_layout rid) acts)).
  Proof.
    intros [Hp _] Hr Ha.
    assert (G : forall w, In w (held (l_prim (after (empty_layout rid) acts))) -> In w L).
    { intros w Hw. apply after_held in Hw as [Hw|(a & p & H1 & H2 & H3)].
      - destruct Hw as [<-|[]]. exact Hr.
      - rewrite Forall_forall in Ha. specialize (Ha a H1). rewrite Forall_forall in Ha. now apply (Ha p H2). }
    intros a b H1 H2. apply Hp; now apply G.
  Qed.

  (** ** C72.  [built L nxt p n]: given the arrays [L] in use (all identities below
      [nxt]), [p] is a well-formed tree whose arrays are in [L] or newly allocated with
      identities from [nxt] up to [n]. *)
  Theorem C72_constructors_allocate L nxt n (p : prim) v ps : pool L nxt -> arg_drawn L v -> args_drawn L ps ->
    (mk_point nxt v = Ok (p, n) \/ mk_line nxt v ps = Ok (p, n) \/ (exists size, mk_polygon nxt v ps size = Ok (p, n)) \/
     mk_quad nxt v ps = Ok (p, n) \/ (exists x y tx ty, mk_axes nxt v ps x y tx ty = Ok (p, n))) ->
    wf p /\ slashfree p /\ nxt <= n /\
    exists new, pool (new ++ L) n /\ (forall a, In a new -> nxt <= vid a) /\
      forall path m, walk path p = Some m -> In (nval m) new \/ In (nval m) L.
  Proof.
    intros Hp Ha Hps H.
    assert (B : built L nxt p n).
    { destruct H as [H|[H|[(size & H)|[H|(x & y & tx & ty & H)]]]].
      - eapply point_built; eassumption.
      - eapply line_built; eassumption.
      - eapply polygon_built; eassumption.
      - eapply quad_built; eassumption.
      - eapply axes_built; eassumption. }
    destruct B as (L' & (M1 & M2 & M3) & [S1 S2] & D). split; [exact S1|]. split; [exact S2|]. split; [exact M2|].
    exists L'. split; [exact M1|]. split; [exact M3|]. intros path m Hm. apply in_app_or, D. apply in_map. now apply walk_values in Hm.
  Qed.
  (** Two primitives built one after the other from default arguments share no array. *)
  Theorem C72_defaults_share_nothing nxt (p q : prim) n m x y tx ty x' y' tx' ty' :
    mk_axes nxt VNone None x y tx ty = Ok (p, n) -> mk_axes n VNone None x' y' tx' ty' = Ok (q, m) ->
    (forall path path' a b, walk path p = Some a -> walk path' q = Some b -> vid (nval a) <> vid (nval b)).
  Proof.
    intros Hp Hq path path' a b Ha Hb.
    assert (P0 : pool (F:=F) [] nxt) by (split; intros; contradiction). assert (Pn : pool (F:=F) [] n) by (split; intros; contradiction).
    destruct (C72_constructors_allocate [] nxt n p VNone None P0 I I) as (_ & _ & _ & L1 & [_ M1] & _ & D1); [right; right; right; right; eauto|].
    destruct (C72_constructors_allocate [] n m q VNone None Pn I I) as (_ & _ & _ & L2 & _ & M2 & D2); [right; right; right; right; eauto|].
    destruct (D1 _ _ Ha) as [H1|[]]. destruct (D2 _ _ Hb) as [H2|[]]. specialize (M2 _ H2). specialize (M1 (nval a) ltac:(rewrite app_nil_r; exact H1)). lia.
  Qed.
End Wf.

(** A history of a point, a line through that same point, and axes; with a refused call. *)
Definition wpt : prim QArith_base.Q := Node TPoint {| vid := 1; vdata := [QArith_base.Qmake 1 1; QArith_base.Qmake 2 1] |} [].
Definition wpt2 : prim QArith_base.Q := Node TPoint {| vid := 2; vdata := [QArith_base.Qmake 1 1; QArith_base.Qmake 2 1] |} [].
Definition wline : prim QArith_base.Q := Node TLine {| vid := 3; vdata := [] |} [("Point0"%string, wpt); ("Point1"%string, wpt2)].
Definition whistory : list (action QArith_base.Q) := [AddPrim wpt "P"; AddPrim wline "L"; AddPrim wpt "L"; AddConstraint Coordinate ["L/Point1"%string] [PA1 []] ""].
Example C71_case : Forall (fun a => Forall sane (given_prims a) /\ Forall sane (given_cons a)) whistory /\
  pool [{| vid := 0; vdata := [] |}; nval wpt; nval wpt2; nval wline] 4 /\
  Forall (fun a => Forall (drawn [{| vid := 0; vdata := [] |}; nval wpt; nval wpt2; nval wline]) (given_prims a)) whistory /\
  map fst (iter_flat EmptyString (l_prim (after (empty_layout 0) whistory))) = [""; "/P"; "/L"; "/L/Point0"; "/L/Point1"]%string.
Proof.
  assert (S1 : sane wpt) by (split; repeat constructor). assert (S2 : sane wpt2) by (split; repeat constructor).
  assert (S3 : sane wline) by (apply sane_unfold; split; [repeat constructor; cbn; intuition discriminate|]; repeat constructor; cbn; try apply S1; try apply S2).
  split; [|split; [|split; [|vm_compute; reflexivity]]].
  - unfold whistory. repeat (apply Forall_cons; [split; cbn [given_prims given_cons]; repeat (apply Forall_cons; [assumption || (split; repeat constructor)|]); apply Forall_nil|]). apply Forall_nil.
  - split; cbn; intuition (subst; cbn in *; try lia; try reflexivity; try discriminate).
  - unfold whistory. repeat (apply Forall_cons; [cbn [given_prims]; repeat (apply Forall_cons; [split; [assumption|cbn; intuition]|]); apply Forall_nil|]). apply Forall_nil.
Qed.
Example C72_case : exists p n, mk_axes (F:=QArith_base.Q) 4 VNone None true true false false = Ok (p, n) /\ n = 34.
Proof. eexists _, _. split; [vm_compute; reflexivity|reflexivity]. Qed.

Print Assumptions C71_trees_well_formed.
Print Assumptions C71_iteration_keys_resolve.
Print Assumptions C71_shipped_constraints.
Print Assumptions C71_arrays_consistent.
Print Assumptions C72_constructors_allocate.
Print Assumptions C72_defaults_share_nothing.
