(** Primitives made by the constructors have all the parts constraints name. *)
From Verif Require Export CtorProofs ReadySpec ConsSpec.

Section Whole.
  Context {F : Type} {N : Num F}.
  Notation prim := (prim F).
  Variable tw : bool.

  Lemma mk_point_whole nxt v (p : prim) n : mk_point nxt v = Ok (p, n) -> whole tw p.
  Proof.
    unfold mk_point. destruct (take_value nxt v [n0; n0]) as [value m]. destruct (finish_prim _ _ _ _) as [q|e] eqn:E; [|discriminate]. intros H. inversion H; subst.
    apply mk_primnode_Ok in E as [-> _]; [|discriminate]. constructor; [discriminate|constructor].
  Qed.
  Lemma line_whole v (a b : prim) : ntype a = TPoint -> ntype b = TPoint -> whole tw a -> whole tw b ->
    whole tw (Node TLine v [("Point0", a); ("Point1", b)]).
  Proof.
    intros Ha Hb Wa Wb. constructor; [|repeat constructor; assumption].
    intros k t' E. cbn [part] in E. destruct (existsb _ _) eqn:Ex; [|discriminate]. injection E as <-.
    apply existsb_exists in Ex as (s & Hs & Es). apply String.eqb_eq in Es. subst s.
    destruct Hs as [<-|[<-|[]]]; [exists a|exists b]; split; auto.
  Qed.
  Lemma mk_line_whole nxt v ps (p : prim) n : mk_line nxt v ps = Ok (p, n) ->
    (forall l, ps = Some l -> Forall (whole tw) l) -> whole tw p.
  Proof.
    unfold mk_line. destruct (take_value nxt v []) as [value m]. intros H Hw.
    assert (G : forall qs, finish_prim TLine value ["Point0"; "Point1"] qs = Ok p -> Forall (whole tw) qs -> whole tw p).
    { clear. intros qs H Hw. apply mk_primnode_Ok in H as [-> Hc]; [|discriminate].
      destruct qs as [|a [|b qs]]; [destruct Hc as [_ Hc]; discriminate|destruct Hc as [_ Hc]; discriminate|].
      change (dict_of (zip ["Point0"; "Point1"] (a :: b :: qs))) with [("Point0", a); ("Point1", b)] in *.
      destruct Hc as [_ Hc]. unfold child_types in Hc. cbn in Hc. injection Hc as H1 H2. inversion Hw as [|? ? W1 Hw']; inversion Hw' as [|? ? W2 _]; subst.
      now apply line_whole. }
    destruct ps as [ps|]; cbn [bind] in H.
    - destruct (finish_prim _ _ _ _) as [q|e] eqn:E; [|discriminate]. cbn [bind] in H. inversion H; subst. eapply (G ps); auto.
    - destruct (mk_point m _) as [[p0 n1]|e] eqn:E0; [|discriminate]. cbn [bind] in H. destruct (mk_point n1 _) as [[p1 n2]|e] eqn:E1; [|discriminate]. cbn [bind] in H.
      destruct (finish_prim _ _ _ _) as [q|e] eqn:E; [|discriminate]. cbn [bind] in H. inversion H; subst. eapply (G [p0; p1]); auto.
      apply mk_point_whole in E0, E1. auto.
  Qed.
  Lemma poly_lines_whole m (ps : list prim) : Forall (whole tw) ps -> Forall (fun p => ntype p = TPoint) ps -> Forall (whole tw) (poly_lines m ps).
  Proof.
    intros Hw Ht. unfold poly_lines. apply Forall_forall. intros x Hx. apply in_map_iff in Hx as ([i [a b]] & <- & Hi).
    assert (In a ps /\ In b ps) as [Ia Ib].
    { assert (Z : forall A B (x : A) (y : B) l l', In (x, y) (zip l l') -> In x l /\ In y l').
      { clear. induction l as [|u l IH]; intros [|w l'] H; cbn in *; try tauto. destruct H as [E|H]; [inversion E; auto|]. apply IH in H. tauto. }
      apply Z in Hi as [_ Hi]. apply Z in Hi as [H1 H2]. split; [assumption|]. apply in_app_or in H2 as [H2|H2]; destruct ps as [|p0 ps]; cbn in H2; try tauto; [now right|].
      destruct H2 as [<-|[]]. now left. }
    rewrite Forall_forall in Hw, Ht. apply line_whole; cbn; auto.
  Qed.
  Lemma mapM_alloc_whole {A} (f : nat -> A -> result (prim * nat)) : (forall n x p m, f n x = Ok (p, m) -> whole tw p /\ ntype p = TPoint) ->
    forall l n ps m, mapM_alloc f n l = Ok (ps, m) -> Forall (whole tw) ps /\ Forall (fun p => ntype p = TPoint) ps.
  Proof.
    intros Hf. induction l as [|x l IH]; intros n ps m H; cbn [mapM_alloc] in H; [inversion H; auto|].
    destruct (f n x) as [[p n1]|] eqn:E; [|discriminate]. cbn [bind] in H. destruct (mapM_alloc f n1 l) as [[qs n2]|] eqn:E'; [|discriminate]. cbn [bind] in H. inversion H; subst.
    apply Hf in E as [W T]. apply IH in E' as [W' T']. auto.
  Qed.
  Lemma poly_whole t value m (ps : list prim) : (forall k t', part tw t k = Some t' -> exists i, k = ("Line" ++ dec i)%string /\ i < length ps /\ t' = TLine) ->
    Forall (whole tw) ps -> Forall (fun p => ntype p = TPoint) ps -> whole tw (Node t value (poly_dict m ps)).
  Proof.
    intros Hp Hw Ht. constructor.
    - intros k t' E. apply Hp in E as (i & -> & Hi & ->).
      destruct (nth_error ps i) as [a|] eqn:Ea; [|apply nth_error_None in Ea; lia].
      assert (Hb : exists b, nth_error ps ((i + 1) mod length ps) = Some b).
      { destruct (nth_error ps ((i + 1) mod length ps)) eqn:E; [eauto|]. apply nth_error_None in E. pose proof (Nat.mod_upper_bound (i + 1) (length ps)). lia. }
      destruct Hb as [b Hb]. pose proof (poly_line_at t value m ps i a b Ea Hb) as G.
      rewrite (lookup_walks _ _ ["Line" ++ dec i]%string) in G.
      + cbn [walk nch] in G. destruct (dget _ _) as [c|]; [|discriminate]. injection G as ->. eexists. split; reflexivity.
      + split; [discriminate|split; [|reflexivity]]. constructor; [|constructor]. now rewrite noslash_app, noslash_dec.
    - apply Forall_forall. intros kc Hi. apply (in_map snd) in Hi. rewrite poly_dict_vals in Hi. pose proof (poly_lines_whole m ps Hw Ht) as G. rewrite Forall_forall in G. auto.
  Qed.
  Lemma quad_children_points nxt (ps : list prim) : is_ok (polygon_children nxt ps) = true -> Forall (fun p => ntype p = TPoint) ps.
  Proof. destruct (polygon_children nxt ps) as [[[k l] n]|] eqn:E; [|discriminate]. intros _. apply polygon_children_Ok in E as (_ & -> & _ & Hc). eapply pairs_points, Hc. Qed.
  Lemma mk_quad_whole nxt v ps (p : prim) n : mk_quad nxt v ps = Ok (p, n) ->
    (forall l, ps = Some l -> Forall (whole tw) l) -> whole tw p.
  Proof.
    assert (G : forall nxt v l (p : prim) n, mk_quad nxt v (Some l) = Ok (p, n) -> Forall (whole tw) l -> whole tw p).
    { clear. intros nxt v l p n H Hw. pose proof H as H'. apply mk_quad_Ok in H as (value & m & -> & Ev & _ & Hc).
      unfold mk_quad in H'. rewrite Ev in H'. cbn [bind] in H'.
      assert (Ht : Forall (fun p => ntype p = TPoint) l) by (apply (quad_children_points m); destruct (polygon_children m l); [reflexivity|discriminate]).
      destruct Hc as [_ Hc]. rewrite child_types_tys in Hc. unfold dvals in Hc. cbn [nch] in Hc. rewrite poly_dict_vals, tys_poly_lines in Hc.
      assert (Hl : length l = 4) by (apply (f_equal (@length _)) in Hc; now rewrite repeat_length in Hc).
      apply poly_whole; [|assumption|assumption]. intros k t' E. cbn [part] in E. destruct (existsb _ _) eqn:Ex; [|discriminate]. injection E as <-.
      apply existsb_exists in Ex as (s & Hs & Es). apply String.eqb_eq in Es. subst s. rewrite Hl.
      destruct Hs as [<-|[<-|[<-|[<-|[]]]]]; [exists 0|exists 1|exists 2|exists 3]; (split; [reflexivity|]; split; [lia|reflexivity]). }
    intros H Hw. destruct ps as [l|]; [eapply G; [exact H|auto]|].
    unfold mk_quad in H. destruct (take_value nxt v []) as [value m] eqn:Ev. destruct (mapM_alloc _ _ _) as [[ps n1]|] eqn:Ea; [|discriminate]. cbn [bind] in H.
    assert (Wp : Forall (whole tw) ps).
    { apply mapM_alloc_whole in Ea; [tauto|]. intros k x q k' Hq. split; [eapply mk_point_whole, Hq|now apply mk_point_conf in Hq]. }
    eapply (G n1 (VArr value) ps p n); [|exact Wp]. unfold mk_quad. cbn [take_value bind]. exact H.
  Qed.
  Lemma mk_polygon_whole nxt v (l : list prim) size (p : prim) n : mk_polygon nxt v (Some l) size = Ok (p, n) -> Forall (whole tw) l -> whole tw p.
  Proof.
    intros H Hw. pose proof H as H'. apply mk_polygon_Ok in H as (value & m & -> & Ev & _ & Hc).
    unfold mk_polygon in H'. rewrite Ev in H'. cbn [bind] in H'.
    assert (Ht : Forall (fun p => ntype p = TPoint) l) by (apply (quad_children_points m); destruct (polygon_children m l); [reflexivity|discriminate]).
    apply poly_whole; [discriminate|assumption|assumption].
  Qed.
  Lemma mk_quad_point_whole nxt b (ps : list prim) n : mk_quad_point nxt b = Ok (ps, n) -> Forall (whole tw) ps.
  Proof.
    destruct b; cbn [mk_quad_point]; intros H; [|inversion H; constructor].
    destruct (mk_quad nxt VNone None) as [[q n1]|] eqn:E; [|discriminate]. cbn [bind] in H. destruct (mk_point n1 VNone) as [[p n2]|] eqn:E'; [|discriminate]. cbn [bind] in H. inversion H; subst.
    apply mk_quad_whole in E; [|discriminate]. apply mk_point_whole in E'. auto.
  Qed.
  Lemma axes_default_whole nxt x y tx ty (ps : list prim) n : axes_default nxt x y tx ty = Ok (ps, n) -> Forall (whole tw) ps.
  Proof.
    unfold axes_default. intros H.
    destruct (mk_quad_point nxt x) as [[a n1]|] eqn:E1; [|discriminate]. cbn [bind] in H.
    destruct (mk_quad_point n1 (x && tx)) as [[b n2]|] eqn:E2; [|discriminate]. cbn [bind] in H.
    destruct (mk_quad_point n2 y) as [[c n3]|] eqn:E3; [|discriminate]. cbn [bind] in H.
    destruct (mk_quad_point n3 (y && ty)) as [[d n4]|] eqn:E4; [|discriminate]. cbn [bind] in H.
    destruct (mk_quad n4 VNone None) as [[q n5]|] eqn:E5; [|discriminate]. cbn [bind] in H. inversion H; subst.
    apply mk_quad_point_whole in E1, E2, E3, E4. apply mk_quad_whole in E5; [|discriminate].
    constructor; [assumption|]. repeat (apply Forall_app; split); assumption.
  Qed.
  (** An Axes with both axes, and with twins if [tw]. *)
  Lemma axes_part k t' tx ty : (tw = true -> tx = true /\ ty = true) -> part tw TAxes k = Some t' -> In (k, t') (axes_children true true tx ty).
  Proof.
    intros Htw E. cbn [part] in E. destruct tw.
    - destruct (Htw eq_refl) as [-> ->]. cbn [andb] in E.
      repeat match type of E with (if existsb (String.eqb k) ?l then _ else _) = _ => let Ex := fresh in destruct (existsb (String.eqb k) l) eqn:Ex;
        [injection E as <-; apply existsb_exists in Ex as (s & Hs & Es); apply String.eqb_eq in Es; subst s; cbn in Hs |- *; intuition (subst; auto 12)|] end. discriminate.
    - cbn [andb] in E.
      repeat match type of E with (if existsb (String.eqb k) ?l then _ else _) = _ => let Ex := fresh in destruct (existsb (String.eqb k) l) eqn:Ex;
        [injection E as <-; apply existsb_exists in Ex as (s & Hs & Es); apply String.eqb_eq in Es; subst s; cbn in Hs |- *; intuition (subst; auto 12)|] end. discriminate.
  Qed.
  Lemma finish_axes_whole value tx ty l (p : prim) : (tw = true -> tx = true /\ ty = true) ->
    finish_prim TAxes value (axes_keys true true tx ty) l = Ok p ->
    Forall (whole tw) l -> length l = length (axes_children true true tx ty) -> whole tw p.
  Proof.
    intros Htw H Hw Hl. apply mk_primnode_Ok in H as [-> Hc]; [|discriminate].
    assert (Hn : NoDup (axes_keys true true tx ty)) by apply axes_keys_NoDup.
    assert (Hlk : length (axes_keys true true tx ty) = length l) by (rewrite axes_keys_spec, map_length; lia).
    rewrite dict_of_nodup in * by (rewrite map_fst_zip by lia; exact Hn).
    destruct Hc as [_ Hc]. rewrite child_types_tys in Hc. unfold dvals in Hc. cbn [nch] in Hc. rewrite map_snd_zip in Hc by lia.
    assert (Ht : tys l = map snd (axes_children true true tx ty)).
    { destruct Hc as (n & Hn4 & Hc). destruct (axes_types_ok true true tx ty) as (n' & _ & E). rewrite E.
      assert (n = n'); [|subst; exact Hc].
      apply (f_equal (@length _)) in Hc, E. rewrite map_length in E. unfold tys in Hc. rewrite map_length in Hc. cbn [length] in *.
      assert (L : forall k, length (List.concat (List.repeat [TQuad; TPoint] k)) = 2 * k) by (clear; induction k; cbn in *; lia). rewrite L in *. lia. }
    constructor.
    - intros k t' E. apply (axes_part _ _ tx ty Htw) in E.
      assert (Ed : axes_children true true tx ty = map (fun kc => (fst kc, ntype (snd kc))) (zip (axes_keys true true tx ty) l)).
      { rewrite desc_zip, Ht, axes_keys_spec. clear. induction (axes_children true true tx ty) as [|[a b] d IH]; cbn; congruence. }
      rewrite Ed in E. apply in_map_iff in E as ([k' c] & E' & Hi). injection E' as -> <-. exists c. split; [|reflexivity].
      apply In_dget; [|exact Hi]. rewrite map_fst_zip by lia. exact Hn.
    - apply Forall_forall. intros kc Hi. apply (in_map snd) in Hi. rewrite map_snd_zip in Hi by lia. rewrite Forall_forall in Hw. auto.
  Qed.
  Lemma mk_axes_whole nxt v ps tx ty (p : prim) n : (tw = true -> tx = true /\ ty = true) ->
    mk_axes nxt v ps true true tx ty = Ok (p, n) ->
    (forall l, ps = Some l -> Forall (whole tw) l /\ length l = length (axes_children true true tx ty)) -> whole tw p.
  Proof.
    intros Htw H Hw. unfold mk_axes in H. destruct (take_value nxt v []) as [value m].
    destruct ps as [l|]; cbn [bind] in H.
    - destruct (Hw l eq_refl) as [W L]. destruct (finish_prim _ _ _ _) as [q|] eqn:Ef; [|discriminate]. cbn [bind] in H. injection H as <- <-.
      eapply finish_axes_whole; eassumption.
    - destruct (axes_default _ _ _ _ _) as [[l m']|] eqn:Ea; [|discriminate]. cbn [bind] in H.
      destruct (finish_prim _ _ _ _) as [q|] eqn:Ef; [|discriminate]. cbn [bind] in H. injection H as <- <-.
      apply axes_default_whole in Ea as W. eapply finish_axes_whole; [exact Htw|eassumption|exact W|].
      unfold axes_default in Ea.
      destruct (quad_point m true) as (a1 & n1 & E1 & L1). rewrite E1 in Ea. cbn [bind] in Ea.
      destruct (quad_point n1 (true && tx)) as (a2 & n2 & E2 & L2). rewrite E2 in Ea. cbn [bind] in Ea.
      destruct (quad_point n2 true) as (a3 & n3 & E3 & L3). rewrite E3 in Ea. cbn [bind] in Ea.
      destruct (quad_point n3 (true && ty)) as (a4 & n4 & E4 & L4). rewrite E4 in Ea. cbn [bind] in Ea.
      destruct (mk_quad n4 VNone None) as [[q' n5]|]; [|discriminate]. cbn [bind] in Ea. injection Ea as <- _.
      apply (f_equal (@length _)) in L1, L2, L3, L4. unfold tys in *. rewrite map_length in *. cbn [andb] in *. unfold axes_children. cbn [app length]. rewrite !app_length. destruct tx, ty; cbn in *; lia.
  Qed.
End Whole.
