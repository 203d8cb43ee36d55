(** Proofs about the primitive constructors (primitives.py). *)
From Verif Require Export PrimProofs Solver.

(** Specification: what each primitive class promises about its own vector and its
    children. *)
Definition child_types {F} (p : prim F) : list ptype := map (fun kc => ntype (snd kc)) (nch p).
Definition conforms {F} (p : prim F) : Prop :=
  let size := length (vdata (nval p)) in
  match ntype p with
  | TNode => True
  | TPrimNode => size = 0 /\ Forall (fun t => t <> TNode) (child_types p)
  | TPoint => size = 2 /\ child_types p = []
  | TLine => size = 0 /\ child_types p = [TPoint; TPoint]
  | TPolygon => size = 0 /\ Forall (fun t => t = TLine) (child_types p)
  | TQuad => size = 0 /\ child_types p = [TLine; TLine; TLine; TLine]
  | TAxes => size = 0 /\ exists n, n <= 4 /\ child_types p = TQuad :: List.concat (List.repeat [TQuad; TPoint] n)
  end.

Lemma issub_exact t : t <> TPolygon -> t <> TPrimNode -> t <> TNode ->
  forall a, issubclass a t = true <-> a = t.
Proof. intros H1 H2 H3 a. destruct t; try congruence; destruct a; cbn; split; congruence. Qed.
Lemma issub_prim a : issubclass a TPrimNode = true <-> a <> TNode.
Proof. destruct a; cbn; split; congruence. Qed.

Section Ctor.
  Context {F : Type} {N : Num F}.
  Notation prim := (prim F).

  Definition tys (ps : list prim) : list ptype := map (@ntype _ _) ps.

  Lemma forallb_zip (ps : list prim) ts :
    length ps = length ts ->
    forallb (fun pt => issubclass (ntype (fst pt)) (snd pt)) (zip ps ts) = true <->
    Forall2 (fun p t => issubclass (ntype p) t = true) ps ts.
  Proof.
    revert ts. induction ps as [|p ps IH]; intros [|t ts]; cbn; intros H; try discriminate.
    - split; auto.
    - rewrite andb_true_iff, IH by lia. split.
      + intros [H1 H2]. constructor; auto.
      + intros H1. inversion H1; auto.
  Qed.
  Lemma validate_exact (ps : list prim) ts :
    validate_prims ps (Exact ts) =
      if (if Nat.eqb (length ps) (length ts)
          then forallb (fun pt => issubclass (ntype (fst pt)) (snd pt))
                 (zip ps (map (fun t => match t with None => TPrimNode | Some t => t end) ts))
          else false) then Ok tt else Err ValueErr.
  Proof.
    unfold validate_prims. cbn [bind]. rewrite map_length.
    destruct (Nat.eqb (length ps) (length ts)); reflexivity.
  Qed.
  Definition exact_type (t : ptype) : Prop := t <> TPolygon /\ t <> TPrimNode /\ t <> TNode.
  Lemma validate_exact_ok (ps : list prim) ts : Forall exact_type ts ->
    is_ok (validate_prims ps (Exact (map Some ts))) = true <-> tys ps = ts.
  Proof.
    intros Hex. rewrite validate_exact, map_length, map_map. cbn. rewrite map_id.
    destruct (Nat.eqb_spec (length ps) (length ts)) as [Hl|Hl].
    - match goal with |- context [forallb ?f ?z] => destruct (forallb f z) eqn:E end; cbn; split; intros H; auto; try discriminate.
      + apply forallb_zip in E; [|assumption]. clear Hl H. induction E as [|p t ps ts Hp E IH]; [reflexivity|].
        cbn. inversion Hex as [|? ? (H1 & H2 & H3) H4]; subst. f_equal; [|now apply IH].
        now apply (issub_exact t H1 H2 H3).
      + exfalso. subst ts. enough (He : forallb (fun pt => issubclass (ntype (fst pt)) (snd pt)) (zip ps (tys ps)) = true) by congruence.
        clear. unfold tys. induction ps as [|p ps IH]; [reflexivity|]. cbn [map zip forallb fst snd]. rewrite IH.
        destruct (ntype p); reflexivity.
    - cbn. split; [discriminate|]. intros <-. exfalso. apply Hl. unfold tys. now rewrite map_length.
  Qed.

  Lemma concat_repeat1 {A} (x : A) n : List.concat (List.repeat [x] n) = List.repeat x n.
  Proof. induction n; cbn; congruence. Qed.
  Lemma map_repeat' {A B} (f : A -> B) x n : map f (List.repeat x n) = List.repeat (f x) n.
  Proof. induction n; cbn; congruence. Qed.
  Lemma validate_rep_ok (ps : list prim) t :
    is_ok (validate_prims ps (Repeating [t])) = true <->
    Forall (fun p => issubclass (ntype p) (match t with None => TPrimNode | Some t => t end) = true) ps.
  Proof.
    unfold validate_prims. cbn [length bind]. rewrite Nat.div_1_r, concat_repeat1, map_repeat', repeat_length, Nat.eqb_refl.
    cbn [negb]. set (ty := match t with None => TPrimNode | Some t => t end). clearbody ty.
    induction ps as [|p ps IH]; cbn; [split; auto|].
    destruct (issubclass (ntype p) ty) eqn:E; cbn.
    - rewrite IH. split; [intros H; constructor; auto|intros H; now inversion H].
    - split; [discriminate|]. intros H. inversion H; congruence.
  Qed.

  Lemma is_ok_or {A} (r : result A) : is_ok r = true \/ is_ok r = false.
  Proof. destruct (is_ok r); auto. Qed.

  Lemma child_types_tys (p : prim) : child_types p = tys (dvals (nch p)).
  Proof. unfold child_types, tys, dvals. now rewrite map_map. Qed.

  Lemma axis_types n : map Some (TQuad :: List.concat (List.repeat [TQuad; TPoint] n)) = Some TQuad :: axis_prims n.
  Proof. cbn. f_equal. unfold axis_prims. induction n; cbn; [reflexivity|]. now rewrite IHn. Qed.
  Lemma axis_exact n : Forall exact_type (TQuad :: List.concat (List.repeat [TQuad; TPoint] n)).
  Proof.
    constructor; [repeat split; discriminate|]. induction n; cbn; [constructor|].
    repeat constructor; auto; discriminate.
  Qed.

  (** Acceptance by [PrimitiveNode.__init__] is conformance. *)
  Lemma accepts_alts t (ps : list prim) : t <> TNode ->
    existsb (fun a => is_ok (validate_prims ps a)) (snd (signature_of t)) = true <->
    match t with
    | TNode => True
    | TPrimNode => Forall (fun t => t <> TNode) (tys ps)
    | TPoint => tys ps = []
    | TLine => tys ps = [TPoint; TPoint]
    | TPolygon => Forall (fun t => t = TLine) (tys ps)
    | TQuad => tys ps = [TLine; TLine; TLine; TLine]
    | TAxes => exists n, n <= 4 /\ tys ps = TQuad :: List.concat (List.repeat [TQuad; TPoint] n)
    end.
  Proof.
    intros Ht.
    assert (Hone : forall a, existsb (fun a => is_ok (validate_prims ps a)) [a] = is_ok (validate_prims ps a)).
    { intros a. cbn. now rewrite orb_false_r. }
    destruct t; [congruence| | | | | |]; cbn [signature_of snd].
    - rewrite Hone, validate_rep_ok. unfold tys. rewrite Forall_map. split; apply Forall_impl; intros p; apply issub_prim.
    - rewrite Hone. apply (validate_exact_ok ps []). constructor.
    - rewrite Hone. apply (validate_exact_ok ps [TPoint; TPoint]). repeat constructor; discriminate.
    - rewrite Hone, validate_rep_ok. unfold tys. rewrite Forall_map.
      split; apply Forall_impl; intros p; apply (issub_exact TLine); discriminate.
    - rewrite Hone. apply (validate_exact_ok ps [TLine; TLine; TLine; TLine]). repeat constructor; discriminate.
    - rewrite existsb_exists. split.
      + intros (a & Ha & Hok). apply in_map_iff in Ha as (n & <- & Hn). exists n. split; [cbn in Hn; lia|].
        rewrite <- axis_types in Hok. apply validate_exact_ok in Hok; [assumption|apply axis_exact].
      + intros (n & Hn & Hty). exists (Exact (Some TQuad :: axis_prims n)). split.
        * apply in_map_iff. exists n. split; [reflexivity|]. cbn. lia.
        * rewrite <- axis_types. apply validate_exact_ok; [apply axis_exact|assumption].
  Qed.

  Lemma mk_primnode_spec t v (ch : dict prim) : t <> TNode ->
    (mk_primnode t v ch = Ok (Node t v ch) /\ conforms (Node t v ch)) \/
    ((mk_primnode t v ch = Err ValueErr \/ mk_primnode t v ch = Err AssertErr) /\ ~ conforms (Node t v ch)).
  Proof.
    intros Ht. unfold mk_primnode.
    pose proof (accepts_alts t (dvals ch) Ht) as Hacc.
    assert (Hct : child_types (Node t v ch) = tys (dvals ch)) by apply child_types_tys.
    assert (Hconf : conforms (Node t v ch) <->
              length (vdata v) = fst (signature_of t) /\
              existsb (fun a => is_ok (validate_prims (dvals ch) a)) (snd (signature_of t)) = true).
    { rewrite Hacc. unfold conforms. rewrite Hct. cbn [ntype nval]. destruct t; try congruence; cbn [signature_of fst]; tauto. }
    destruct (forallb (fun kc => issubclass (ntype (snd kc)) TPrimNode) ch) eqn:Ef; cbn [negb].
    - destruct (signature_of t) as [size alts] eqn:Es. cbn [fst snd] in *.
      destruct (Nat.eqb_spec (length (vdata v)) size) as [Hs|Hs]; cbn [negb].
      + destruct (existsb _ alts) eqn:Ee.
        * left. split; [reflexivity|]. apply Hconf. auto.
        * right. split; [auto|]. intros Hc. apply Hconf in Hc as [_ Hc]. congruence.
      + right. split; [auto|]. intros Hc. apply Hconf in Hc as [Hc _]. contradiction.
    - right. split; [auto|]. intros Hc. unfold conforms in Hc. rewrite Hct in Hc. cbn [ntype nval] in Hc.
      assert (Hx : Forall (fun t => t <> TNode) (tys (dvals ch))).
      { destruct t; try congruence; destruct Hc as [_ Hc].
        - assumption.
        - rewrite Hc. constructor.
        - rewrite Hc. repeat constructor; discriminate.
        - eapply Forall_impl; [|exact Hc]. intros a ->. discriminate.
        - rewrite Hc. repeat constructor; discriminate.
        - destruct Hc as (n & _ & ->). eapply Forall_impl; [|apply axis_exact]. intros a (_ & _ & H). exact H. }
      assert (Hfb : forallb (fun kc => issubclass (ntype (snd kc)) TPrimNode) ch = true).
      { apply forallb_forall. intros [k c] Hin. apply issub_prim. unfold tys, dvals in Hx.
        rewrite map_map, Forall_map, Forall_forall in Hx. exact (Hx _ Hin). }
      congruence.
  Qed.
  Lemma mk_primnode_Ok t v (ch : dict prim) p : t <> TNode ->
    mk_primnode t v ch = Ok p -> p = Node t v ch /\ conforms p.
  Proof.
    intros Ht H. destruct (mk_primnode_spec t v ch Ht) as [[H1 H2]|[[H1|H1] _]]; rewrite H1 in H; inversion H; subst; auto.
  Qed.
  Lemma mk_primnode_conf t v (ch : dict prim) : t <> TNode -> conforms (Node t v ch) ->
    mk_primnode t v ch = Ok (Node t v ch).
  Proof. intros Ht Hc. destruct (mk_primnode_spec t v ch Ht) as [[H1 _]|[_ H2]]; [assumption|contradiction]. Qed.

  (** ** Lines and polygons *)
  Lemma mk_line_two_Ok nxt v a b p nxt' : mk_line nxt (VArr v) (Some [a; b]) = Ok (p, nxt') ->
    p = Node TLine v [("Point0", a); ("Point1", b)] /\ nxt' = nxt /\ conforms p.
  Proof.
    unfold mk_line. cbn [take_value bind]. unfold finish_prim.
    change (dict_of (zip ["Point0"; "Point1"] [a; b])) with [("Point0", a); ("Point1", b)].
    destruct (mk_primnode _ _ _) as [q|e] eqn:E; [|discriminate]. cbn. intros H. inversion H; subst.
    apply mk_primnode_Ok in E as [-> Hc]; [auto|discriminate].
  Qed.
  Lemma mk_line_two nxt v a b : vdata v = [] -> ntype a = TPoint -> ntype b = TPoint ->
    mk_line nxt (VArr v) (Some [a; b]) = Ok (Node TLine v [("Point0", a); ("Point1", b)], nxt).
  Proof.
    intros Hv Ha Hb. unfold mk_line. cbn [take_value bind]. unfold finish_prim.
    change (dict_of (zip ["Point0"; "Point1"] [a; b])) with [("Point0", a); ("Point1", b)].
    rewrite mk_primnode_conf; [reflexivity|discriminate|].
    split; [cbn; now rewrite Hv|]. unfold child_types. cbn. now rewrite Ha, Hb.
  Qed.

  (** Line [i] of a polygon through [points]. *)
  Definition poly_line (i : nat) (ab : prim * prim) : prim :=
    Node TLine {| vid := i; vdata := [] |} [("Point0", fst ab); ("Point1", snd ab)].
  Definition poly_lines (nxt : nat) (points : list prim) : list prim :=
    map (fun iab => poly_line (nxt + fst iab) (snd iab))
        (zip (seq 0 (length points)) (zip points (skipn 1 points ++ firstn 1 points))).

  Lemma rot_length {A} (l : list A) : length (skipn 1 l ++ firstn 1 l) = length l.
  Proof. destruct l; cbn; [reflexivity|]. rewrite app_length. cbn. lia. Qed.

  Lemma lines_Ok nxt l ps nxt' :
    mapM_alloc (fun nxt ab => mk_line (S nxt) (VArr {| vid := nxt; vdata := [] |}) (Some [fst ab; snd ab])) nxt l = Ok (ps, nxt') ->
    ps = map (fun iab => poly_line (nxt + fst iab) (snd iab)) (zip (seq 0 (length l)) l) /\ nxt' = nxt + length l /\
    Forall conforms ps.
  Proof.
    revert nxt ps nxt'. induction l as [|ab l IH]; intros nxt ps nxt' H; cbn [mapM_alloc] in H.
    - inversion H; subst. cbn. repeat split; [lia|constructor].
    - destruct (mk_line (S nxt) _ _) as [[p n1]|e] eqn:E; [|discriminate]. cbn [bind] in H.
      apply mk_line_two_Ok in E as (-> & -> & Hc).
      destruct (mapM_alloc _ (S nxt) l) as [[ps' n2]|e] eqn:E2; [|discriminate]. cbn [bind] in H. inversion H; subst.
      apply IH in E2 as (-> & -> & Hcs). cbn [length seq zip map fst snd]. split; [|split; [lia|]].
      + rewrite Nat.add_0_r. f_equal. rewrite <- seq_shift, zip_map_l, map_map. apply map_ext. intros [i x]. cbn. f_equal. lia.
      + constructor; assumption.
  Qed.
  Lemma lines_ok nxt l : Forall (fun ab : prim * prim => ntype (fst ab) = TPoint /\ ntype (snd ab) = TPoint) l ->
    exists ps, mapM_alloc (fun nxt ab => mk_line (S nxt) (VArr {| vid := nxt; vdata := [] |}) (Some [fst ab; snd ab])) nxt l
       = Ok (ps, nxt + length l).
  Proof.
    revert nxt. induction l as [|ab l IH]; intros nxt H; cbn [mapM_alloc].
    - exists []. f_equal. f_equal. cbn. lia.
    - inversion H as [|? ? [Ha Hb] Hl]; subst. rewrite mk_line_two by (reflexivity || assumption). cbn [bind].
      destruct (IH (S nxt) Hl) as [ps Hps]. rewrite Hps. cbn [bind]. eexists. f_equal. f_equal. cbn. lia.
  Qed.

  Lemma polygon_children_Ok nxt points keys lines nxt' :
    polygon_children nxt points = Ok (keys, lines, nxt') ->
    keys = map (fun n => ("Line" ++ dec n)%string) (seq 0 (length points)) /\
    lines = poly_lines nxt points /\ nxt' = nxt + length points /\ Forall conforms lines.
  Proof.
    unfold polygon_children. destruct (mapM_alloc _ _ _) as [[ls n]|e] eqn:E; [|discriminate]. cbn [bind].
    intros H. inversion H; subst. apply lines_Ok in E as (Hl & -> & Hc).
    assert (Hlen : length (zip points (skipn 1 points ++ firstn 1 points)) = length points).
    { rewrite zip_length, rot_length. lia. }
    rewrite Hlen in *. subst lines. repeat split; auto.
    rewrite map_length, zip_length, seq_length, Hlen. now rewrite Nat.min_id.
  Qed.
  Lemma polygon_children_ok nxt points : Forall (fun p : prim => ntype p = TPoint) points ->
    polygon_children nxt points =
      Ok (map (fun n => ("Line" ++ dec n)%string) (seq 0 (length points)), poly_lines nxt points, nxt + length points).
  Proof.
    intros H. destruct (polygon_children nxt points) as [[[k l] n]|e] eqn:E.
    - apply polygon_children_Ok in E as (-> & -> & -> & _). reflexivity.
    - exfalso. unfold polygon_children in E.
      destruct (lines_ok nxt (zip points (skipn 1 points ++ firstn 1 points))) as [ps Hps].
      + assert (Hr : Forall (fun p : prim => ntype p = TPoint) (skipn 1 points ++ firstn 1 points)).
        { destruct points; cbn; [constructor|]. inversion H; subst. apply Forall_app. split; [assumption|]. constructor; auto. }
        revert H Hr. generalize (skipn 1 points ++ firstn 1 points). clear. intros r. revert r.
        induction points as [|p ps IH]; intros [|q qs] H1 H2; cbn; constructor.
        * inversion H1; inversion H2; auto.
        * inversion H1; inversion H2; auto.
      + rewrite Hps in E. discriminate.
  Qed.

  Lemma line_keys_NoDup n : NoDup (map (fun n => ("Line" ++ dec n)%string) (seq 0 n)).
  Proof.
    apply FinFun.Injective_map_NoDup; [|apply seq_NoDup]. intros x y H. now apply append_dec_inj in H.
  Qed.
  Lemma poly_lines_length nxt points : length (poly_lines nxt points) = length points.
  Proof. unfold poly_lines. rewrite map_length, !zip_length, seq_length, rot_length. lia. Qed.
  Definition poly_dict (nxt : nat) (points : list prim) : dict prim :=
    zip (map (fun n => ("Line" ++ dec n)%string) (seq 0 (length points))) (poly_lines nxt points).
  Lemma poly_dict_keys nxt points : map fst (poly_dict nxt points) = map (fun n => ("Line" ++ dec n)%string) (seq 0 (length points)).
  Proof. apply map_fst_zip. rewrite map_length, seq_length, poly_lines_length. lia. Qed.
  Lemma poly_dict_vals nxt points : map snd (poly_dict nxt points) = poly_lines nxt points.
  Proof. apply map_snd_zip. rewrite map_length, seq_length, poly_lines_length. lia. Qed.
  Lemma poly_dict_of nxt points : dict_of (poly_dict nxt points) = poly_dict nxt points.
  Proof. apply dict_of_nodup. rewrite poly_dict_keys. apply line_keys_NoDup. Qed.

  Lemma mk_polygon_Ok nxt v ps size p nxt' : mk_polygon nxt v (Some ps) size = Ok (p, nxt') ->
    exists value m, p = Node TPolygon value (poly_dict m ps) /\ take_value nxt v [] = (value, m) /\ nxt' = m + length ps /\ conforms p.
  Proof.
    unfold mk_polygon. destruct (take_value nxt v []) as [value m]. cbn [bind].
    destruct (polygon_children m ps) as [[[k l] n]|e] eqn:E; [|discriminate]. cbn [bind].
    apply polygon_children_Ok in E as (-> & -> & -> & _). unfold finish_prim.
    fold (poly_dict m ps). rewrite poly_dict_of.
    destruct (mk_primnode TPolygon value (poly_dict m ps)) as [q|e] eqn:E; [|discriminate]. cbn [bind]. intros H. inversion H; subst.
    apply mk_primnode_Ok in E as [-> Hc]; [|discriminate]. eauto 8.
  Qed.
  Lemma mk_quad_Ok nxt v ps p nxt' : mk_quad nxt v (Some ps) = Ok (p, nxt') ->
    exists value m, p = Node TQuad value (poly_dict m ps) /\ take_value nxt v [] = (value, m) /\ nxt' = m + length ps /\ conforms p.
  Proof.
    unfold mk_quad. destruct (take_value nxt v []) as [value m]. cbn [bind].
    destruct (polygon_children m ps) as [[[k l] n]|e] eqn:E; [|discriminate]. cbn [bind].
    apply polygon_children_Ok in E as (-> & -> & -> & _). unfold finish_prim.
    fold (poly_dict m ps). rewrite poly_dict_of.
    destruct (mk_primnode TQuad value (poly_dict m ps)) as [q|e] eqn:E; [|discriminate]. cbn [bind]. intros H. inversion H; subst.
    apply mk_primnode_Ok in E as [-> Hc]; [|discriminate]. eauto 8.
  Qed.

  Lemma nth_error_zip {A B} (a : list A) (b : list B) i x y :
    nth_error a i = Some x -> nth_error b i = Some y -> nth_error (zip a b) i = Some (x, y).
  Proof.
    revert b i. induction a as [|x0 a IH]; intros [|y0 b] [|i]; cbn; intros H1 H2; try discriminate.
    - congruence.
    - now apply IH.
  Qed.
  Lemma nth_error_rot {A} (l : list A) i : i < length l ->
    nth_error (skipn 1 l ++ firstn 1 l) i = nth_error l ((i + 1) mod length l).
  Proof.
    destruct l as [|x l]; intros Hi; [cbn in Hi; lia|]. cbn [skipn firstn].
    destruct (Nat.eq_dec i (length l)) as [->|Hne].
    - rewrite nth_error_app2, Nat.sub_diag by lia. cbn [length].
      replace (length l + 1) with (S (length l)) by lia. now rewrite Nat.mod_same by lia.
    - cbn [length] in Hi. rewrite nth_error_app1 by lia. rewrite Nat.mod_small by (cbn; lia).
      replace (i + 1) with (S i) by lia. reflexivity.
  Qed.
  Lemma nth_error_seq a n i : i < n -> nth_error (seq a n) i = Some (a + i).
  Proof.
    revert a i. induction n as [|n IH]; intros a i H; [lia|]. destruct i as [|i]; cbn; [f_equal; lia|].
    rewrite IH by lia. f_equal. lia.
  Qed.

  Lemma poly_line_at t value m ps i a b : nth_error ps i = Some a ->
    nth_error ps ((i + 1) mod length ps) = Some b ->
    get_child (Node t value (poly_dict m ps)) ("Line" ++ dec i) = Ok (poly_line (m + i) (a, b)).
  Proof.
    intros Ha Hb. assert (Hi : i < length ps) by (apply nth_error_Some; congruence).
    assert (Hc : components ("Line" ++ dec i) ["Line" ++ dec i]%string).
    { split; [discriminate|split; [|reflexivity]]. constructor; [|constructor]. now rewrite noslash_app, noslash_dec. }
    rewrite (lookup_walks _ _ _ Hc). cbn [walk nch].
    rewrite (In_dget ("Line" ++ dec i)%string (poly_line (m + i) (a, b))); [reflexivity| |].
    - rewrite poly_dict_keys. apply line_keys_NoDup.
    - eapply nth_error_In with (n := i). unfold poly_dict. apply nth_error_zip.
      + erewrite map_nth_error; [reflexivity|]. now apply nth_error_seq.
      + unfold poly_lines. erewrite map_nth_error with (d := (i, (a, b))); [reflexivity|].
        apply nth_error_zip; [now apply nth_error_seq|]. apply nth_error_zip; [assumption|].
        rewrite nth_error_rot by assumption. assumption.
  Qed.

  Lemma get_child_point m (a b : prim) :
    get_child (poly_line m (a, b)) "Point0" = Ok a /\ get_child (poly_line m (a, b)) "Point1" = Ok b.
  Proof. split; reflexivity. Qed.

  Lemma polygon_loop t value m ps :
    let poly := Node t value (poly_dict m ps) in
    nkeys poly = map (fun i => ("Line" ++ dec i)%string) (seq 0 (length ps)) /\
    (forall i a b, nth_error ps i = Some a -> nth_error ps ((i + 1) mod length ps) = Some b ->
       exists line, get_child poly ("Line" ++ dec i) = Ok line /\ ntype line = TLine /\
         nch line = [("Point0", a); ("Point1", b)]) /\
    (forall i, i < length ps -> exists l1 l2 e, 
       get_child poly ("Line" ++ dec i) = Ok l1 /\ get_child poly ("Line" ++ dec ((i + 1) mod length ps)) = Ok l2 /\
       get_child l1 "Point1" = Ok e /\ get_child l2 "Point0" = Ok e).
  Proof.
    intros poly. split; [apply poly_dict_keys|]. split.
    - intros i a b Ha Hb. eexists. split; [eapply poly_line_at; eassumption|]. split; reflexivity.
    - intros i Hi. assert (Hn : length ps <> 0) by lia.
      assert (Hi1 : (i + 1) mod length ps < length ps) by (now apply Nat.mod_upper_bound).
      assert (Hi2 : ((i + 1) mod length ps + 1) mod length ps < length ps) by (now apply Nat.mod_upper_bound).
      destruct (nth_error ps i) as [a|] eqn:Ea; [|apply nth_error_None in Ea; lia].
      destruct (nth_error ps ((i + 1) mod length ps)) as [b|] eqn:Eb; [|apply nth_error_None in Eb; lia].
      destruct (nth_error ps (((i + 1) mod length ps + 1) mod length ps)) as [c|] eqn:Ec; [|apply nth_error_None in Ec; lia].
      eexists _, _, b. split; [eapply poly_line_at; eassumption|]. split; [eapply poly_line_at; eassumption|].
      split; reflexivity.
  Qed.

  Lemma mk_polygon_ok nxt ps size : Forall (fun p : prim => ntype p = TPoint) ps ->
    mk_polygon nxt VNone (Some ps) size =
      Ok (Node TPolygon {| vid := nxt; vdata := [] |} (poly_dict (S nxt) ps), S nxt + length ps).
  Proof.
    intros H. unfold mk_polygon. cbn [take_value bind]. rewrite polygon_children_ok by assumption. cbn [bind].
    unfold finish_prim. fold (poly_dict (S nxt) ps). rewrite poly_dict_of.
    rewrite mk_primnode_conf; [reflexivity|discriminate|]. split; [reflexivity|].
    rewrite child_types_tys. unfold dvals. cbn [nch]. rewrite poly_dict_vals. unfold poly_lines, tys.
    rewrite map_map. apply Forall_map, Forall_forall. intros x _. reflexivity.
  Qed.
  Lemma tys_poly_lines m ps : tys (poly_lines m ps) = List.repeat TLine (length ps).
  Proof.
    pose proof (poly_lines_length m ps) as Hl. revert Hl. unfold poly_lines.
    generalize (zip (seq 0 (length ps)) (zip ps (skipn 1 ps ++ firstn 1 ps))). intros l. rewrite map_length.
    intros <-. unfold tys. induction l as [|x l IH]; [reflexivity|]. cbn [map length List.repeat]. f_equal. exact IH.
  Qed.
  Lemma mk_quad_iff nxt ps : Forall (fun p : prim => ntype p = TPoint) ps ->
    if Nat.eqb (length ps) 4
    then mk_quad nxt VNone (Some ps) =
      Ok (Node TQuad {| vid := nxt; vdata := [] |} (poly_dict (S nxt) ps), S nxt + 4)
    else mk_quad nxt VNone (Some ps) = Err ValueErr.
  Proof.
    intros H. unfold mk_quad. cbn [take_value bind]. rewrite polygon_children_ok by assumption. cbn [bind].
    unfold finish_prim. fold (poly_dict (S nxt) ps). rewrite poly_dict_of.
    destruct (Nat.eqb_spec (length ps) 4) as [Hl|Hl].
    - rewrite mk_primnode_conf; [cbn [bind]; now rewrite Hl|discriminate|]. split; [reflexivity|].
      rewrite child_types_tys. unfold dvals. cbn [nch]. rewrite poly_dict_vals, tys_poly_lines, Hl. reflexivity.
    - unfold mk_primnode.
      assert (Hf : forallb (fun kc : string * prim => issubclass (ntype (snd kc)) TPrimNode) (poly_dict (S nxt) ps) = true).
      { apply forallb_forall. intros [k c] Hin. cbn [snd]. apply (in_map snd) in Hin. rewrite poly_dict_vals in Hin.
        unfold poly_lines in Hin. apply in_map_iff in Hin as (x & Hx & _). cbn in Hx. subst c. reflexivity. }
      rewrite Hf. cbn [negb signature_of vdata length Nat.eqb].
      destruct (existsb (fun a => is_ok (validate_prims (dvals (poly_dict (S nxt) ps)) a)) _) eqn:E; [|reflexivity].
      exfalso. apply (accepts_alts TQuad) in E; [|discriminate]. unfold dvals in E. rewrite poly_dict_vals, tys_poly_lines in E.
      apply (f_equal (@length _)) in E. rewrite repeat_length in E. cbn in E. lia.
  Qed.

  (** ** Conformance of everything constructors return *)
  Lemma finish_conf t v ks ps (p : prim) : t <> TNode -> finish_prim t v ks ps = Ok p -> ntype p = t /\ conforms p.
  Proof. intros Ht H. apply mk_primnode_Ok in H as [-> Hc]; auto. Qed.
  Lemma mk_point_conf nxt v (p : prim) n : mk_point nxt v = Ok (p, n) -> ntype p = TPoint /\ conforms p.
  Proof.
    unfold mk_point. destruct (take_value nxt v [n0; n0]) as [value m].
    destruct (finish_prim _ _ _ _) as [q|e] eqn:E; [|discriminate]. intros H. inversion H; subst.
    apply finish_conf in E; [assumption|discriminate].
  Qed.
  Lemma mk_line_conf nxt v ps (p : prim) n : mk_line nxt v ps = Ok (p, n) -> ntype p = TLine /\ conforms p.
  Proof.
    unfold mk_line. destruct (take_value nxt v []) as [value m].
    destruct (match ps with Some _ => _ | None => _ end) as [[qs m2]|e]; [|discriminate]. cbn [bind].
    destruct (finish_prim _ _ _ _) as [q|e] eqn:E; [|discriminate]. intros H. inversion H; subst.
    apply finish_conf in E; [assumption|discriminate].
  Qed.
  Lemma mk_polygon_conf nxt v ps size (p : prim) n : mk_polygon nxt v ps size = Ok (p, n) -> ntype p = TPolygon /\ conforms p.
  Proof.
    unfold mk_polygon. destruct (take_value nxt v []) as [value m].
    destruct (match ps with Some _ => _ | None => _ end) as [[qs m2]|e]; [|discriminate]. cbn [bind].
    destruct (polygon_children _ _) as [[[k l] m3]|e]; [|discriminate]. cbn [bind].
    destruct (finish_prim _ _ _ _) as [q|e] eqn:E; [|discriminate]. intros H. inversion H; subst.
    apply finish_conf in E; [assumption|discriminate].
  Qed.
  Lemma mk_quad_conf nxt v ps (p : prim) n : mk_quad nxt v ps = Ok (p, n) -> ntype p = TQuad /\ conforms p.
  Proof.
    unfold mk_quad. destruct (take_value nxt v []) as [value m].
    destruct (match ps with Some _ => _ | None => _ end) as [[qs m2]|e]; [|discriminate]. cbn [bind].
    destruct (polygon_children _ _) as [[[k l] m3]|e]; [|discriminate]. cbn [bind].
    destruct (finish_prim _ _ _ _) as [q|e] eqn:E; [|discriminate]. intros H. inversion H; subst.
    apply finish_conf in E; [assumption|discriminate].
  Qed.
  Lemma mk_axes_conf nxt v ps x y tx ty (p : prim) n : mk_axes nxt v ps x y tx ty = Ok (p, n) -> ntype p = TAxes /\ conforms p.
  Proof.
    unfold mk_axes. destruct (take_value nxt v []) as [value m].
    destruct (match ps with Some _ => _ | None => _ end) as [[qs m2]|e]; [|discriminate]. cbn [bind].
    destruct (finish_prim _ _ _ _) as [q|e] eqn:E; [|discriminate]. intros H. inversion H; subst.
    apply finish_conf in E; [assumption|discriminate].
  Qed.

  (** ** Default axes *)
  Lemma quad_default nxt : exists q n, mk_quad nxt VNone None = Ok (q, n) /\ ntype q = TQuad.
  Proof. eexists _, _. split; [cbv; reflexivity|reflexivity]. Qed.
  Lemma quad_point nxt b : exists ps n, mk_quad_point nxt b = Ok (ps, n) /\ tys ps = if b then [TQuad; TPoint] else [].
  Proof.
    destruct b; cbn [mk_quad_point].
    - destruct (quad_default nxt) as (q & n & -> & Hq). cbn [bind].
      assert (Hp : exists p m, mk_point n VNone = Ok (p, m) /\ ntype p = TPoint) by (eexists _, _; split; reflexivity).
      destruct Hp as (p & m & -> & Hp). cbn [bind]. eexists _, _. split; [reflexivity|]. cbn. now rewrite Hq, Hp.
    - eexists _, _. split; reflexivity.
  Qed.

  (** Specification of the children of an Axes. *)
  Definition axes_children (xaxis yaxis twinx twiny : bool) : list (string * ptype) :=
    [("Frame", TQuad)] ++
    (if xaxis then [("XAxis", TQuad); ("XAxisLabel", TPoint)] else []) ++
    (if yaxis then [("YAxis", TQuad); ("YAxisLabel", TPoint)] else []) ++
    (if xaxis && twinx then [("TwinXAxis", TQuad); ("TwinXAxisLabel", TPoint)] else []) ++
    (if yaxis && twiny then [("TwinYAxis", TQuad); ("TwinYAxisLabel", TPoint)] else []).

  Lemma axes_keys_spec x y tx ty : axes_keys x y tx ty = map fst (axes_children x y tx ty).
  Proof. destruct x, y, tx, ty; reflexivity. Qed.
  Lemma axes_keys_NoDup x y tx ty : NoDup (axes_keys x y tx ty).
  Proof.
    apply nodupb_NoDup. destruct x, y, tx, ty; reflexivity.
  Qed.
  Lemma axes_types_ok x y tx ty : exists n, n <= 4 /\
    map snd (axes_children x y tx ty) = TQuad :: List.concat (List.repeat [TQuad; TPoint] n).
  Proof.
    exists ((if x then 1 else 0) + (if y then 1 else 0) + (if x && tx then 1 else 0) + (if y && ty then 1 else 0)).
    destruct x, y, tx, ty; cbn; split; (reflexivity || lia).
  Qed.
  Definition children_desc (p : prim) : list (string * ptype) := map (fun kc => (fst kc, ntype (snd kc))) (nch p).

  Lemma desc_zip (ks : list string) (ps : list prim) :
    map (fun kc => (fst kc, ntype (snd kc))) (zip ks ps) = zip ks (tys ps).
  Proof. unfold tys. now rewrite zip_map_r. Qed.

  Lemma axes_given nxt ps x y tx ty : length ps = length (axes_children x y tx ty) ->
    if list_eq_dec (fun a b : ptype => ltac:(decide equality) : {a = b} + {a <> b}) (tys ps) (map snd (axes_children x y tx ty))
    then exists p n, mk_axes nxt VNone (Some ps) x y tx ty = Ok (p, n) /\ children_desc p = axes_children x y tx ty /\
         map snd (nch p) = ps
    else exists e, mk_axes nxt VNone (Some ps) x y tx ty = Err e.
  Proof.
    intros Hl. unfold mk_axes. cbn [take_value bind]. unfold finish_prim.
    assert (Hlk : length (axes_keys x y tx ty) = length ps) by (rewrite axes_keys_spec, map_length; lia).
    assert (Hd : dict_of (zip (axes_keys x y tx ty) ps) = zip (axes_keys x y tx ty) ps).
    { apply dict_of_nodup. rewrite map_fst_zip by lia. apply axes_keys_NoDup. }
    rewrite Hd.
    assert (Hct : forall v, child_types (Node TAxes v (zip (axes_keys x y tx ty) ps)) = tys ps).
    { intros v. rewrite child_types_tys. unfold dvals. cbn [nch]. now rewrite map_snd_zip by lia. }
    destruct (list_eq_dec _ _ _) as [He|Hne].
    - rewrite mk_primnode_conf; [|discriminate|].
      + cbn [bind]. eexists _, _. split; [reflexivity|]. unfold children_desc. cbn [nch].
        rewrite desc_zip, He, axes_keys_spec, zip_map_fst_snd. split; [reflexivity|]. rewrite <- axes_keys_spec. apply map_snd_zip. lia.
      + split; [reflexivity|]. rewrite Hct, He. apply axes_types_ok.
    - match goal with |- context [mk_primnode TAxes ?v ?ch] => 
        destruct (mk_primnode_spec TAxes v ch ltac:(discriminate)) as [[_ Hc]|[[->| ->] _]]; [|cbn; eauto|cbn; eauto] end.
      exfalso. apply Hne. destruct Hc as [_ (n & Hn & Hty)]. rewrite Hct in Hty. rewrite Hty.
      destruct (axes_types_ok x y tx ty) as (m & Hm & Htm).
      assert (Hlen : length (tys ps) = length (map snd (axes_children x y tx ty))) by (unfold tys; now rewrite !map_length).
      assert (Hmm : forall k, length (TQuad :: List.concat (List.repeat [TQuad; TPoint] k)) = 1 + 2 * k).
      { intros k. cbn. f_equal. induction k; cbn; lia. }
      rewrite Hty, Htm, !Hmm in Hlen. rewrite Htm. now replace m with n by lia.
  Qed.

  Lemma zip_firstn {A B} (l : list A) (r : list B) : zip l (firstn (length l) r) = zip l r.
  Proof. revert r. induction l as [|a l IH]; intros [|b r]; cbn; try reflexivity. now rewrite IH. Qed.
  Lemma map_snd_zip_firstn {A B} (l : list A) (r : list B) : map snd (zip l r) = firstn (length l) r.
  Proof. revert r. induction l as [|a l IH]; intros [|b r]; cbn; try reflexivity. now rewrite IH. Qed.
  Lemma map_fst_zip_firstn {A B} (l : list A) (r : list B) : map fst (zip l r) = firstn (length r) l.
  Proof. revert r. induction l as [|a l IH]; intros [|b r]; cbn; try reflexivity. now rewrite IH. Qed.
  (** Any number of supplied primitives. *)
  Lemma axes_given_any nxt ps x y tx ty :
    ((exists p n, mk_axes nxt VNone (Some ps) x y tx ty = Ok (p, n)) <->
     (exists m, tys (firstn (length (axes_children x y tx ty)) ps) = TQuad :: List.concat (List.repeat [TQuad; TPoint] m))) /\
    (forall p n, mk_axes nxt VNone (Some ps) x y tx ty = Ok (p, n) -> nch p = zip (map fst (axes_children x y tx ty)) ps).
  Proof.
    unfold mk_axes. cbn [take_value bind]. unfold finish_prim.
    assert (Hlk : length (axes_keys x y tx ty) = length (axes_children x y tx ty)) by now rewrite axes_keys_spec, map_length.
    assert (Hd : dict_of (zip (axes_keys x y tx ty) ps) = zip (axes_keys x y tx ty) ps).
    { apply dict_of_nodup. rewrite map_fst_zip_firstn.
      pose proof (axes_keys_NoDup x y tx ty) as H. rewrite <- (firstn_skipn (length ps) (axes_keys x y tx ty)) in H.
      revert H. generalize (skipn (length ps) (axes_keys x y tx ty)). induction (firstn (length ps) _) as [|a l IH]; intros r H; [constructor|].
      cbn in H. inversion H as [|? ? H1 H2]; subst. constructor; [intros Hin; apply H1, in_or_app; now left|eapply IH; exact H2]. }
    rewrite Hd.
    assert (Hct : forall v, child_types (Node TAxes v (zip (axes_keys x y tx ty) ps)) = tys (firstn (length (axes_children x y tx ty)) ps)).
    { intros v. rewrite child_types_tys. unfold dvals. cbn [nch]. now rewrite map_snd_zip_firstn, Hlk. }
    split.
    - match goal with |- context [mk_primnode TAxes ?v ?ch] =>
        destruct (mk_primnode_spec TAxes v ch ltac:(discriminate)) as [[-> Hc]|[Hr Hc]] end.
      + split; [|cbn [bind]; eauto]. intros _. destruct Hc as [_ (m & _ & Hm)]. rewrite Hct in Hm. eauto.
      + split; [intros (p & n & H); destruct Hr as [Hr|Hr]; rewrite Hr in H; discriminate|].
        intros (m & Hm). exfalso. apply Hc. split; [reflexivity|]. rewrite Hct. exists m. split; [|exact Hm].
        assert (Hlen : 1 + 2 * m <= 9).
        { apply (f_equal (@length ptype)) in Hm. unfold tys in Hm. rewrite map_length, firstn_length in Hm.
          assert (Hmm : length (TQuad :: List.concat (List.repeat [TQuad; TPoint] m)) = 1 + 2 * m).
          { cbn. f_equal. clear. induction m; cbn; lia. }
          rewrite Hmm in Hm. assert (length (axes_children x y tx ty) <= 9) by (destruct x, y, tx, ty; cbn; lia). lia. }
        lia.
    - intros p n H. destruct (mk_primnode _ _ _) as [r|] eqn:E; [|discriminate]. cbn [bind] in H.
      assert (r = p) as -> by congruence. apply mk_primnode_Ok in E as [-> _]; [|discriminate]. cbn [nch]. now rewrite axes_keys_spec.
  Qed.

  Definition val_data (v : valarg F) (default : list F) : list F :=
    match v with VNone => default | VSeq l => l | VArr a => vdata a end.
  Lemma take_value_data nxt v d : vdata (fst (take_value nxt v d)) = val_data v d.
  Proof. destruct v; reflexivity. Qed.

  (** Acceptance, class by class. *)
  Lemma point_accepts nxt v :
    (exists p n, mk_point nxt v = Ok (p, n)) <-> length (val_data v [n0; n0]) = 2.
  Proof.
    pose proof (take_value_data nxt v [n0; n0]) as Hd. unfold mk_point.
    destruct (take_value nxt v [n0; n0]) as [value m]. cbn [fst] in Hd. rewrite <- Hd. unfold finish_prim.
    change (dict_of (zip [] [])) with (@nil (string * prim)).
    destruct (mk_primnode_spec TPoint value [] ltac:(discriminate)) as [[-> Hc]|[Hr Hc]].
    - split; [intros _; apply Hc|intros _; cbn [bind]; eauto].
    - split; [intros (p & n & H); destruct Hr as [Hr|Hr]; rewrite Hr in H; discriminate|].
      intros H. exfalso. apply Hc. split; [assumption|reflexivity].
  Qed.
  Lemma line_accepts nxt v (ps : list prim) :
    (exists p n, mk_line nxt v (Some ps) = Ok (p, n)) <->
    val_data v [] = [] /\ tys (firstn 2 ps) = [TPoint; TPoint].
  Proof.
    pose proof (take_value_data nxt v []) as Hd. unfold mk_line.
    destruct (take_value nxt v []) as [value m]. cbn [fst bind] in *. rewrite <- Hd. unfold finish_prim.
    assert (Hdict : dict_of (zip ["Point0"; "Point1"] ps) = zip ["Point0"; "Point1"] (firstn 2 ps)).
    { destruct ps as [|a [|b ps]]; reflexivity. }
    rewrite Hdict.
    assert (Hconf : conforms (Node TLine value (zip ["Point0"; "Point1"] (firstn 2 ps))) <-> vdata value = [] /\ tys (firstn 2 ps) = [TPoint; TPoint]).
    { unfold conforms. cbn [ntype nval]. rewrite length_zero_iff_nil.
      assert (Ht : child_types (Node TLine value (zip ["Point0"; "Point1"] (firstn 2 ps))) = tys (firstn 2 ps)).
      { destruct ps as [|a [|b ps]]; reflexivity. }
      rewrite Ht. tauto. }
    destruct (mk_primnode_spec TLine value (zip ["Point0"; "Point1"] (firstn 2 ps)) ltac:(discriminate)) as [[-> Hc]|[Hr Hc]].
    - split; [intros _; now apply Hconf|intros _; cbn [bind]; eauto].
    - split; [intros (p & n & H); destruct Hr as [Hr|Hr]; rewrite Hr in H; discriminate|].
      intros H. exfalso. apply Hc. now apply Hconf.
  Qed.

  Lemma pairs_points (ps : list prim) m : Forall conforms (poly_lines m ps) -> Forall (fun p : prim => ntype p = TPoint) ps.
  Proof.
    unfold poly_lines. intros H. apply Forall_forall. intros x Hx.
    apply In_nth_error in Hx as [i Hi]. assert (Hlt : i < length ps) by (apply nth_error_Some; congruence).
    assert (Hb : exists b, nth_error ps ((i + 1) mod length ps) = Some b).
    { destruct (nth_error ps ((i + 1) mod length ps)) eqn:E; [eauto|]. apply nth_error_None in E.
      pose proof (Nat.mod_upper_bound (i + 1) (length ps)). lia. }
    destruct Hb as [b Hb]. rewrite <- nth_error_rot in Hb by assumption.
    pose proof (nth_error_zip _ _ _ _ _ Hi Hb) as Hz.
    pose proof (nth_error_zip _ _ _ _ _ (nth_error_seq 0 (length ps) i Hlt) Hz) as Hzz.
    apply (map_nth_error (fun iab => poly_line (m + fst iab) (snd iab))) in Hzz.
    apply nth_error_In in Hzz. rewrite Forall_forall in H. apply H in Hzz. destruct Hzz as [_ Hc]. cbn in Hc. congruence.
  Qed.
  Lemma polygon_accepts nxt v (ps : list prim) size :
    (exists p n, mk_polygon nxt v (Some ps) size = Ok (p, n)) <->
    val_data v [] = [] /\ Forall (fun p => ntype p = TPoint) ps.
  Proof.
    pose proof (take_value_data nxt v []) as Hd. unfold mk_polygon.
    destruct (take_value nxt v []) as [value m]. cbn [fst bind] in *. rewrite <- Hd. split.
    - intros (p & n & H). destruct (polygon_children m ps) as [[[k l] q]|e] eqn:E; [|discriminate]. cbn [bind] in H.
      apply polygon_children_Ok in E as (-> & -> & -> & Hc).
      destruct (finish_prim _ _ _ _) as [r|e] eqn:E2; [|discriminate]. apply mk_primnode_Ok in E2 as [-> [Hv _]]; [|discriminate].
      cbn in Hv. split; [now apply length_zero_iff_nil|now apply pairs_points in Hc].
    - intros [Hv Hp]. rewrite polygon_children_ok by assumption. cbn [bind]. unfold finish_prim.
      fold (poly_dict m ps). rewrite poly_dict_of. rewrite mk_primnode_conf; [cbn [bind]; eauto|discriminate|].
      split; [cbn; now rewrite Hv|]. rewrite child_types_tys. unfold dvals. cbn [nch]. rewrite poly_dict_vals, tys_poly_lines.
      apply Forall_forall. intros x Hx. now apply repeat_spec in Hx.
  Qed.

  Lemma axes_default_ok nxt x y tx ty : exists p n, mk_axes nxt VNone None x y tx ty = Ok (p, n) /\
    children_desc p = axes_children x y tx ty.
  Proof.
    assert (H : exists ps n, axes_default (S nxt) x y tx ty = Ok (ps, n) /\ tys ps = map snd (axes_children x y tx ty)).
    { unfold axes_default.
      destruct (quad_point (S nxt) x) as (a & n1 & -> & Ha). cbn [bind].
      destruct (quad_point n1 (x && tx)) as (b & n2 & -> & Hb). cbn [bind].
      destruct (quad_point n2 y) as (c & n3 & -> & Hc). cbn [bind].
      destruct (quad_point n3 (y && ty)) as (d & n4 & -> & Hd'). cbn [bind].
      destruct (quad_default n4) as (q & n5 & -> & Hq). cbn [bind]. eexists _, _. split; [reflexivity|].
      unfold tys in *. cbn [map app]. rewrite !map_app, Ha, Hb, Hc, Hd', Hq. destruct x, y, tx, ty; reflexivity. }
    destruct H as (ps & n & Hps & Ht).
    assert (Hl : length ps = length (axes_children x y tx ty)).
    { rewrite <- (map_length snd (axes_children x y tx ty)), <- Ht. unfold tys. now rewrite map_length. }
    pose proof (axes_given nxt ps x y tx ty Hl) as Hg. destruct (list_eq_dec _ _ _) as [_|Hne]; [|contradiction].
    destruct Hg as (p & m & Hmk & Hdesc & _). unfold mk_axes in *. cbn [take_value bind] in *. rewrite Hps. cbn [bind].
    destruct (finish_prim _ _ _ _) as [r|e]; [|discriminate]. cbn [bind] in *. inversion Hmk; subst. eauto.
  Qed.
End Ctor.
