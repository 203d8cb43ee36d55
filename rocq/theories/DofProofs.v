(** Degrees of freedom of polygons; packing of the global vector. *)
From Verif Require Export CtorProofs.

Section Dof.
  Context {F : Type} {N : Num F}.
  Notation prim := (prim F).

  Definition nonempty (v : pv F) : bool := match vdata v with [] => false | _ => true end.

  Lemma seen_filter i seen : (forall v, In v seen -> vid v = i -> nonempty v = true) ->
    seen_id i seen = seen_id i (filter nonempty seen).
  Proof.
    intros H. destruct (seen_id i seen) eqn:E, (seen_id i (filter nonempty seen)) eqn:E2; auto.
    - apply seen_id_iff in E. apply in_map_iff in E as (v & Hv & Hin).
      assert (In i (map vid (filter nonempty seen))).
      { apply in_map_iff. exists v. split; [assumption|]. apply filter_In. auto. }
      apply seen_id_iff in H0. congruence.
    - apply seen_id_iff in E2. apply in_map_iff in E2 as (v & Hv & Hin). apply filter_In in Hin as [Hin _].
      assert (In i (map vid seen)) by (apply in_map_iff; eauto). apply seen_id_iff in H0. congruence.
  Qed.

  (** Empty vectors do not contribute to the global vector. *)
  Lemma global_firsts_filter l : forall seen,
    (forall a b, In a (seen ++ l) -> In b (seen ++ l) -> vid a = vid b -> nonempty a = nonempty b) ->
    List.concat (map vdata (firsts seen l)) =
    List.concat (map vdata (firsts (filter nonempty seen) (filter nonempty l))).
  Proof.
    induction l as [|v l IH]; intros seen Hc; [reflexivity|]. cbn [firsts filter].
    assert (Hsub : forall a b, In a (seen ++ l) -> In b (seen ++ l) -> vid a = vid b -> nonempty a = nonempty b).
    { intros a b Ha Hb. apply Hc; apply in_app_iff; cbn; apply in_app_iff in Ha, Hb; tauto. }
    assert (Hsub2 : forall a b, In a ((v :: seen) ++ l) -> In b ((v :: seen) ++ l) -> vid a = vid b -> nonempty a = nonempty b).
    { intros a b Ha Hb. apply Hc; apply in_app_iff; cbn in *; rewrite in_app_iff in Ha, Hb; tauto. }
    destruct (nonempty v) eqn:En.
    - cbn [firsts]. rewrite <- (seen_filter (vid v) seen).
      + destruct (seen_id (vid v) seen) eqn:Es; [now apply IH|].
        cbn [map List.concat]. f_equal. rewrite (IH (v :: seen) Hsub2). cbn [filter]. now rewrite En.
      + intros w Hw Hid. rewrite <- En. apply Hc; [apply in_app_iff; now left|apply in_app_iff; right; now left|assumption].
    - destruct (seen_id (vid v) seen) eqn:Es; [now apply IH|].
      cbn [map List.concat]. assert (Hv : vdata v = []) by (unfold nonempty in En; destruct (vdata v); [reflexivity|discriminate]).
      rewrite Hv. cbn [app]. rewrite (IH (v :: seen) Hsub2). cbn [filter]. now rewrite En.
  Qed.

  (** Consecutive pairs of distinct arrays. *)
  Lemma firsts_pairs (r : list (pv F)) : forall seen a z,
    In (vid a) (map vid seen) -> In (vid z) (map vid seen) ->
    NoDup (map vid r) -> (forall x, In x r -> ~ In (vid x) (map vid seen)) ->
    firsts seen (flat_map (fun ab => [fst ab; snd ab]) (zip (a :: r) (r ++ [z]))) = r.
  Proof.
    induction r as [|b r IH]; intros seen a z Ha Hz Hnd Hnew.
    - cbn. assert (E1 : seen_id (vid a) seen = true) by (now apply seen_id_iff).
      assert (E2 : seen_id (vid z) seen = true) by (now apply seen_id_iff). now rewrite E1, E2.
    - cbn [app zip flat_map fst snd firsts].
      assert (E1 : seen_id (vid a) seen = true) by (now apply seen_id_iff). rewrite E1.
      assert (E2 : seen_id (vid b) seen = false).
      { destruct (seen_id (vid b) seen) eqn:E; [|reflexivity]. apply seen_id_iff in E. exfalso. apply (Hnew b); [now left|assumption]. }
      rewrite E2. f_equal. inversion Hnd as [|? ? Hb Hnd']; subst. apply IH.
      + cbn. now left.
      + cbn. now right.
      + assumption.
      + intros x Hx [He|Hi]; [|apply (Hnew x); [now right|assumption]].
        apply Hb. rewrite He. now apply in_map.
  Qed.
  Lemma firsts_loop (ps : list (pv F)) : NoDup (map vid ps) ->
    firsts [] (flat_map (fun ab => [fst ab; snd ab]) (zip ps (skipn 1 ps ++ firstn 1 ps))) = ps.
  Proof.
    destruct ps as [|p r]; intros Hnd; [reflexivity|]. cbn [skipn firstn].
    assert (Hs : forall l, firsts [] (p :: l) = p :: firsts [p] (p :: l)).
    { intros l. cbn. now rewrite Nat.eqb_refl. }
    assert (Hl : exists l, flat_map (fun ab => [fst ab; snd ab]) (zip (p :: r) (r ++ [p])) = p :: l).
    { destruct r; cbn; eauto. }
    destruct Hl as [l Hl]. rewrite Hl, Hs, <- Hl. f_equal. inversion Hnd as [|? ? Hp Hnd']; subst. apply firsts_pairs.
    - now left.
    - now left.
    - assumption.
    - intros x Hx [He|[]]. apply Hp. rewrite He. now apply in_map.
  Qed.

  (** A fresh point: a leaf holding a 2-vector that existed before identity [nxt]. *)
  Definition old_point (nxt : nat) (p : prim) : Prop :=
    ntype p = TPoint /\ nch p = [] /\ length (vdata (nval p)) = 2 /\ vid (nval p) < nxt.

  Lemma preorder_leaf (p : prim) : nch p = [] -> preorder p = [p].
  Proof. destruct p as [t v ch]. cbn. now intros ->. Qed.

  Definition line_values (m : nat) (l : list (nat * (prim * prim))) : list (pv F) :=
    flat_map (fun iab => [{| vid := m + fst iab; vdata := [] |}; nval (fst (snd iab)); nval (snd (snd iab))]) l.

  Lemma node_values_poly t value m ps : Forall (fun p : prim => nch p = []) ps ->
    node_values (Node t value (poly_dict m ps)) =
      value :: line_values m (zip (seq 0 (length ps)) (zip ps (skipn 1 ps ++ firstn 1 ps))).
  Proof.
    intros Hl. unfold node_values. cbn [preorder map nval]. f_equal.
    assert (Hd : flat_map (fun kc : string * prim => preorder (snd kc)) (poly_dict m ps) = flat_map preorder (poly_lines m ps)).
    { rewrite <- (poly_dict_vals m ps). generalize (poly_dict m ps). clear.
      induction d as [|[k c] d IH]; cbn; [reflexivity|]. now rewrite IH. }
    rewrite Hd. unfold poly_lines, line_values.
    assert (Hpairs : Forall (fun iab : nat * (prim * prim) => nch (fst (snd iab)) = [] /\ nch (snd (snd iab)) = [])
                       (zip (seq 0 (length ps)) (zip ps (skipn 1 ps ++ firstn 1 ps)))).
    { assert (Hr : Forall (fun p : prim => nch p = []) (skipn 1 ps ++ firstn 1 ps)).
      { destruct ps; cbn; [constructor|]. inversion Hl; subst. apply Forall_app. split; [assumption|]. constructor; auto. }
      generalize (seq 0 (length ps)). revert Hl Hr. generalize (skipn 1 ps ++ firstn 1 ps). clear. intros r.
      revert r. induction ps as [|p ps IH]; intros [|q qs] H1 H2 [|i is]; cbn; constructor.
      - inversion H1; inversion H2; auto.
      - inversion H1; inversion H2; auto. }
    induction Hpairs as [|[i [a b]] l [Ha Hb] Hpairs IH]; [reflexivity|].
    cbn [map flat_map fst snd]. rewrite map_app, IH. cbn [fst snd] in Ha, Hb.
    unfold poly_line at 1. cbn [preorder flat_map fst snd]. rewrite (preorder_leaf a Ha), (preorder_leaf b Hb). reflexivity.
  Qed.

  Lemma poly_wf t value m ps : Forall (fun p : prim => nch p = []) ps ->
    wf (Node t value (poly_dict m ps)) /\ slashfree (Node t value (poly_dict m ps)).
  Proof.
    intros Hl.
    assert (Hlines : Forall (fun l : prim => wf l /\ slashfree l) (poly_lines m ps)).
    { unfold poly_lines.
      assert (Hr : Forall (fun p : prim => nch p = []) (skipn 1 ps ++ firstn 1 ps)).
      { destruct ps; cbn; [constructor|]. inversion Hl; subst. apply Forall_app. split; [assumption|]. constructor; auto. }
      generalize (seq 0 (length ps)). revert Hl Hr. generalize (skipn 1 ps ++ firstn 1 ps). clear. intros r.
      revert r. induction ps as [|p ps IH]; intros [|q qs] H1 H2 [|i is]; cbn; constructor.
      - inversion H1; inversion H2; subst. destruct p as [tp vp cp], q as [tq vq cq]. cbn in *. subst.
        split; repeat (constructor; cbn; try tauto; try (intuition discriminate)).
      - inversion H1; inversion H2; auto. }
    split; constructor.
    - rewrite poly_dict_keys. apply line_keys_NoDup.
    - rewrite <- (poly_dict_vals m ps) in Hlines. rewrite Forall_map in Hlines.
      eapply Forall_impl; [|exact Hlines]. intros kc [H _]. exact H.
    - rewrite <- (Forall_map fst (fun k => noslash k = true)), poly_dict_keys. apply Forall_map, Forall_forall.
      intros n _. now rewrite noslash_app, noslash_dec.
    - rewrite <- (poly_dict_vals m ps) in Hlines. rewrite Forall_map in Hlines.
      eapply Forall_impl; [|exact Hlines]. intros kc [_ H]. exact H.
  Qed.

  Lemma filter_line_values m (l : list (nat * (prim * prim))) :
    Forall (fun iab => nonempty (nval (fst (snd iab))) = true /\ nonempty (nval (snd (snd iab))) = true) l ->
    filter nonempty (line_values m l) = flat_map (fun ab => [fst ab; snd ab]) (map (fun iab => (nval (fst (snd iab)), nval (snd (snd iab)))) l).
  Proof.
    induction 1 as [|[i [a b]] l [Ha Hb] Hl IH]; [reflexivity|]. cbn [line_values flat_map map fst snd] in *.
    cbn [app filter]. rewrite Ha, Hb. cbn [nonempty vdata]. fold (line_values m l). now rewrite IH.
  Qed.

  Lemma zip_seq_snd {A B} (l : list A) (f : A -> B) : map (fun ia => f (snd ia)) (zip (seq 0 (length l)) l) = map f l.
  Proof. rewrite <- (map_map snd f). now rewrite map_snd_zip by (rewrite seq_length; lia). Qed.

  Lemma Forall_zip {A B} (P : A -> Prop) (Q : B -> Prop) a b : Forall P a -> Forall Q b ->
    Forall (fun ab => P (fst ab) /\ Q (snd ab)) (zip a b).
  Proof.
    intros Ha. revert b. induction Ha as [|x a Hx Ha IH]; intros [|y b] Hb; cbn; constructor; inversion Hb; auto.
  Qed.
  Lemma Forall_rot {A} (P : A -> Prop) ps : Forall P ps -> Forall P (skipn 1 ps ++ firstn 1 ps).
  Proof. intros H. destruct ps; cbn; [constructor|]. inversion H; subst. apply Forall_app. split; auto. Qed.

  Lemma polygon_dof t nxt (ps : list prim) :
    Forall (old_point nxt) ps -> NoDup (map (fun p => vid (nval p)) ps) ->
    let poly := Node t {| vid := nxt; vdata := [] |} (poly_dict (S nxt) ps) in
    initial_global poly = List.concat (map (fun p => vdata (nval p)) ps) /\
    length (initial_global poly) = 2 * length ps.
  Proof.
    intros Hold Hnd poly.
    assert (Hleaf : Forall (fun p : prim => nch p = []) ps).
    { eapply Forall_impl; [|exact Hold]. intros p H. apply H. }
    assert (Hlen2 : Forall (fun p : prim => nonempty (nval p) = true) ps).
    { eapply Forall_impl; [|exact Hold]. intros p (_ & _ & H & _). unfold nonempty. now destruct (vdata (nval p)). }
    destruct (poly_wf t {| vid := nxt; vdata := [] |} (S nxt) ps Hleaf) as [Hw Hs]. fold poly in Hw, Hs.
    assert (Hg : initial_global poly = List.concat (map (fun p => vdata (nval p)) ps)).
    { unfold initial_global, global_of. rewrite (filter_values poly Hw Hs). unfold poly at 1. rewrite node_values_poly by assumption.
      set (l := zip (seq 0 (length ps)) (zip ps (skipn 1 ps ++ firstn 1 ps))).
      assert (Hl : Forall (fun iab => old_point nxt (fst (snd iab)) /\ old_point nxt (snd (snd iab))) l).
      { unfold l. pose proof (Forall_zip (fun _ : nat => True) (fun ab => old_point nxt (fst ab) /\ old_point nxt (snd ab))
            (seq 0 (length ps)) (zip ps (skipn 1 ps ++ firstn 1 ps))) as HF.
        eapply Forall_impl; [|apply HF]; [intros a [_ H]; exact H|apply Forall_forall; auto|].
        apply Forall_zip; [assumption|now apply Forall_rot]. }
      rewrite global_firsts_filter.
      - cbn [filter nonempty vdata]. rewrite filter_line_values.
        2: { eapply Forall_impl; [|exact Hl]. intros [i [a b]] [(_ & _ & Ha & _) (_ & _ & Hb & _)]. cbn in *.
             unfold nonempty. destruct (vdata (nval a)), (vdata (nval b)); try discriminate. auto. }
        assert (Hmap : map (fun iab : nat * (prim * prim) => (nval (fst (snd iab)), nval (snd (snd iab)))) l
                 = zip (map (@nval _ _) ps) (skipn 1 (map (@nval _ _) ps) ++ firstn 1 (map (@nval _ _) ps))).
        { unfold l. rewrite <- (map_map snd (fun ab : prim * prim => (nval (fst ab), nval (snd ab)))).
          rewrite map_snd_zip by (rewrite seq_length, zip_length; lia).
          rewrite <- map_zip. f_equal. rewrite map_app, skipn_map, firstn_map. reflexivity. }
        rewrite Hmap, firsts_loop; [now rewrite map_map|]. now rewrite map_map.
      - (* identities determine emptiness *)
        cbn [app]. intros a b Ha Hb Hid.
        assert (Hcase : forall v, In v ({| vid := nxt; vdata := [] |} :: line_values (S nxt) l) ->
                  (nonempty v = true /\ vid v < nxt) \/ (nonempty v = false /\ nxt <= vid v)).
        { intros v [<-|Hv]; [right; cbn; auto|]. unfold line_values in Hv. apply in_flat_map in Hv as ([i [x y]] & Hin & Hv).
          rewrite Forall_forall in Hl. destruct (Hl _ Hin) as [(_ & _ & Hx & Hx2) (_ & _ & Hy & Hy2)]. cbn in *.
          destruct Hv as [<-|[<-|[<-|[]]]].
          - right. cbn. split; [reflexivity|lia].
          - left. unfold nonempty. destruct (vdata (nval x)); [discriminate|auto].
          - left. unfold nonempty. destruct (vdata (nval y)); [discriminate|auto]. }
        destruct (Hcase a Ha) as [[Ea La]|[Ea La]], (Hcase b Hb) as [[Eb Lb]|[Eb Lb]]; try congruence; lia. }
    split; [exact Hg|]. rewrite Hg. clear -Hold.
    induction Hold as [|p ps (_ & _ & Hp & _) Hold IH]; [reflexivity|]. cbn. rewrite app_length, Hp, IH. lia.
  Qed.

  (** Packing *)
  Lemma pack_unpack (values : list (pv F)) :
    slices values (global_of values) = map vdata values /\
    (forall g, length g = length (global_of values) ->
       List.concat (slices values g) = g /\ map (@length F) (slices values g) = sizes_of values).
  Proof.
    unfold slices. split.
    - rewrite chunk_cut. unfold sizes_of, global_of. rewrite <- (map_map vdata (@length F)). apply cut_concat.
    - intros g Hg. rewrite chunk_cut. apply cut_spec. rewrite Hg. unfold sizes_of, global_of. clear.
      induction values as [|v l IH]; cbn; [reflexivity|]. now rewrite app_length, IH.
  Qed.
End Dof.
