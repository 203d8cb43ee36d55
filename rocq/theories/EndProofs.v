(** From a solved layout to the figure drawn. *)
From Coq Require Import Reals Lra.
From Verif Require Import GeomProofs P_Geom CompProofs P_Comp ConsProofs TreeLemmas MplProofs P_Mpl.
From Verif Require Export P_Layout NeatProofs P_Solver SolverProofs HistWf AllocProofs EndSpec.
Local Open Scope R_scope.
Notation prim := (prim R).
Notation cons := (cons R).
Notation layout := (layout R).

Lemma Rabs_within a b : Rabs a <= b <-> - b <= a <= b.
Proof. unfold Rabs. destruct (Rcase_abs a); split; intros; lra. Qed.

(** ** Values of the constraints on any quadrilaterals *)
Lemma inner_margin_value side p q P0 P1 P2 P3 Q0 Q1 Q2 Q3 t k : In side sides ->
  quad_at p P0 P1 P2 P3 -> quad_at q Q0 Q1 Q2 Q3 -> num_of t = Some k -> is_number t = true ->
  exists c, crInnerMargin side = Ok c /\
    call c [p; q] [t] = Ok [(if String.eqb side "left" then fst (mid P3 P0) - fst (mid Q3 Q0)
      else if String.eqb side "right" then fst (mid Q1 Q2) - fst (mid P1 P2)
      else if String.eqb side "bottom" then snd (mid P0 P1) - snd (mid Q0 Q1) else snd (mid Q2 Q3) - snd (mid P2 P3)) - k].
Proof.
  intros Hside Hp Hq Ht Hn.
  destruct (quad_line0 _ _ _ _ _ Hp) as (p0 & G0 & L0). destruct (quad_line1 _ _ _ _ _ Hp) as (p1 & G1 & L1).
  destruct (quad_line2 _ _ _ _ _ Hp) as (p2 & G2 & L2). destruct (quad_line3 _ _ _ _ _ Hp) as (p3 & G3 & L3).
  destruct (quad_line0 _ _ _ _ _ Hq) as (q0 & K0 & M0). destruct (quad_line1 _ _ _ _ _ Hq) as (q1 & K1 & M1).
  destruct (quad_line2 _ _ _ _ _ Hq) as (q2 & K2 & M2). destruct (quad_line3 _ _ _ _ _ Hq) as (q3 & K3 & M3).
  pose proof (sel0 p [q] _ _ G0) as S0. pose proof (sel0 p [q] _ _ G1) as S1. pose proof (sel0 p [q] _ _ G2) as S2. pose proof (sel0 p [q] _ _ G3) as S3.
  pose proof (sel1 p q [] _ _ K0) as U0. pose proof (sel1 p q [] _ _ K1) as U1. pose proof (sel1 p q [] _ _ K2) as U2. pose proof (sel1 p q [] _ _ K3) as U3.
  change (argk 0 ++ String slash "Line0")%string with "arg0/Line0" in S0. change (argk 0 ++ String slash "Line1")%string with "arg0/Line1" in S1.
  change (argk 0 ++ String slash "Line2")%string with "arg0/Line2" in S2. change (argk 0 ++ String slash "Line3")%string with "arg0/Line3" in S3.
  change (argk 1 ++ String slash "Line0")%string with "arg1/Line0" in U0. change (argk 1 ++ String slash "Line1")%string with "arg1/Line1" in U1.
  change (argk 1 ++ String slash "Line2")%string with "arg1/Line2" in U2. change (argk 1 ++ String slash "Line3")%string with "arg1/Line3" in U3.
  assert (X : forall name key ks l m A B C D, mapM (select [p; q]) ks = Ok [l; m] -> line_at l A B -> line_at m C D -> key <> EmptyString -> length ks = 2%nat ->
    exists c, transform_constraint (single name [TQuad; TQuad] key "MidpointXDistance" (msig [TLine; TLine] 1 0)
        (no_params (fun prims => midpoint_directed_distance prims (PA1 ex))) ks) = Ok c /\ csig (nval c) = msig [TQuad; TQuad] 0 1 /\
      denote c [p; q] [t] = Ok [[]; [fst (mid C D) - fst (mid A B) - k]]).
  { intros name key ks l m A B C D Hs Hl Hm Hk Hks.
    apply (single_constraint name [TQuad; TQuad] key "MidpointXDistance" (msig [TLine; TLine] 1 0) _ ks [p; q] [l; m]); auto. now apply midpoint_x_leaf. }
  assert (Y : forall name key ks l m A B C D, mapM (select [p; q]) ks = Ok [l; m] -> line_at l A B -> line_at m C D -> key <> EmptyString -> length ks = 2%nat ->
    exists c, transform_constraint (single name [TQuad; TQuad] key "MidpointYDistance" (msig [TLine; TLine] 1 0)
        (no_params (fun prims => midpoint_directed_distance prims (PA1 ey))) ks) = Ok c /\ csig (nval c) = msig [TQuad; TQuad] 0 1 /\
      denote c [p; q] [t] = Ok [[]; [snd (mid C D) - snd (mid A B) - k]]).
  { intros name key ks l m A B C D Hs Hl Hm Hk Hks.
    apply (single_constraint name [TQuad; TQuad] key "MidpointYDistance" (msig [TLine; TLine] 1 0) _ ks [p; q] [l; m]); auto. now apply midpoint_y_leaf. }
  destruct Hside as [<-|[<-|[<-|[<-|[]]]]];
    [ edestruct (X "InnerMargin" "LeftMargin" ["arg1/Line3"; "arg0/Line3"]) as (c & C1 & C2 & C3)
    | edestruct (X "InnerMargin" "RightMargin" ["arg0/Line1"; "arg1/Line1"]) as (c & C1 & C2 & C3)
    | edestruct (Y "InnerMargin" "BottomMargin" ["arg1/Line0"; "arg0/Line0"]) as (c & C1 & C2 & C3)
    | edestruct (Y "InnerMargin" "TopMargin" ["arg0/Line2"; "arg1/Line2"]) as (c & C1 & C2 & C3) ];
    try (cbn [mapM]; rewrite ?S0, ?S1, ?S2, ?S3, ?U0, ?U1, ?U2, ?U3; cbn [bind]; reflexivity); try eassumption; try discriminate; try reflexivity;
    exists c; (split; [exact C1|]);
    (apply call_single; [repeat constructor; eapply quad_prim; eassumption| |rewrite C3; cbn [String.eqb Ascii.eqb Bool.eqb]; reflexivity]);
    unfold valid_args; rewrite C2; (split; [typed|reflexivity]).
Qed.
Lemma box_value q P0 P1 P2 P3 : quad_at q P0 P1 P2 P3 ->
  exists c, Box = Ok c /\ call c [q] [] = Ok [snd P1 - snd P0; snd P3 - snd P2; fst P0 - fst P3; fst P2 - fst P1].
Proof.
  intros Hq.
  destruct (quad_line0 _ _ _ _ _ Hq) as (l0 & G0 & L0). destruct (quad_line1 _ _ _ _ _ Hq) as (l1 & G1 & L1).
  destruct (quad_line2 _ _ _ _ _ Hq) as (l2 & G2 & L2). destruct (quad_line3 _ _ _ _ _ Hq) as (l3 & G3 & L3).
  eexists. split; [reflexivity|].
  match goal with |- _ = Ok ?r => change (Ok r) with (Ok (List.concat [[]; [snd P1 - snd P0]; [snd P3 - snd P2]; [fst P0 - fst P3]; [fst P2 - fst P1]])) end.
  apply call_denote; [constructor; [eapply quad_prim; eassumption|constructor]|split; [typed|reflexivity]|].
  rewrite denote_unfold. cbn [assem1 bind cpk].
  cbn [mapM]. rewrite (sel0 q [] "Line0" l0 G0 : select [q] "arg0/Line0" = Ok l0), (sel0 q [] "Line2" l2 G2 : select [q] "arg0/Line2" = Ok l2),
          (sel0 q [] "Line3" l3 G3 : select [q] "arg0/Line3" = Ok l3), (sel0 q [] "Line1" l1 G1 : select [q] "arg0/Line1" = Ok l1). cbn [bind cparams].
  assert (H0 : denote Horizontal [l0] [] = Ok [[snd P1 - snd P0]]) by (apply denote_leaf, horizontal_value, L0).
  assert (H2 : denote Horizontal [l2] [] = Ok [[snd P3 - snd P2]]) by (apply denote_leaf, horizontal_value, L2).
  assert (H3 : denote Vertical [l3] [] = Ok [[fst P0 - fst P3]]) by (apply denote_leaf, vertical_value, L3).
  assert (H1 : denote Vertical [l1] [] = Ok [[fst P2 - fst P1]]) by (apply denote_leaf, vertical_value, L1).
  change (assem1 (compound_cls "Box" 0) [q] []) with (Ok ([] : list R)). change (empties (F:=R) 4 []) with (Ok (List.repeat ([] : list (pyval R)) 4)). cbn [bind].
  match goal with |- context [denotes ?ch _ _] => change ch with [("HorizontalBottom", Horizontal (F:=R)); ("HorizontalTop", Horizontal); ("VerticalLeft", Vertical); ("VerticalRight", Vertical)] end.
  cbn [List.repeat denotes]. rewrite H0, H1, H2, H3. reflexivity.
Qed.

(** ** The residual is that of every constraint *)
Lemma structure_typed (a b : prim) x : same_structure a b -> typed_at a x -> typed_at b x.
Proof.
  intros [Hs _]. destruct x as [[c ks] ps]. intros (prims & Hp & [V1 V2] & Hn).
  assert (Hq : exists qs, mapM (get_child b) ks = Ok qs /\ Forall2 (fun p q : prim => ntype q = ntype p) prims qs).
  { clear V1 V2 Hn. revert prims Hp. induction ks as [|k ks IH]; intros prims Hp; cbn [mapM] in *; [inversion Hp; exists []; split; [reflexivity|constructor]|].
    inv_bind Hp. inv_bind Hp. inversion Hp; subst. destruct (IH _ E0) as (qs & Eq & Fq). rewrite get_child_walk in *.
    specialize (Hs (split_all k)). destruct (walk (split_all k) a) as [m|]; [|discriminate]. destruct (walk (split_all k) b) as [m'|]; [|discriminate].
    cbn in Hs. injection Hs as Ht _ _. injection E as <-. cbn [bind]. rewrite Eq. eexists. split; [reflexivity|]. constructor; auto. }
  destruct Hq as (qs & Eq & Fq). exists qs. split; [exact Eq|]. split; [split; [|exact V2]|].
  - clear -V1 Fq. revert V1. generalize (prim_types (csig (nval c))). induction Fq as [|p q prims qs H _ IH]; intros ts V; inversion V; subst; constructor; [congruence|auto].
  - clear -Hn Fq. induction Fq as [|p q prims qs H _ IH]; inversion Hn; subst; constructor; [congruence|auto].
Qed.
Lemma residual_every rid tw acts (l : layout) (P : R -> Prop) p z : runs (empty_layout rid) acts l ->
  Forall (shipped_act tw) acts -> Forall top_key acts -> same_structure (l_prim l) p -> layout_residual l p = Ok z ->
  (Forall P z <-> forall c ks ps, In (c, ks, ps) (LayoutSpec.added acts) -> exists prims r, mapM (get_child p) ks = Ok prims /\ call c prims ps = Ok r /\ Forall P r).
Proof.
  intros Hr Hs Hk Hp Hz.
  assert (Hne : LayoutSpec.added acts <> []). { intros E. rewrite (C53_no_constraints rid acts l p Hr E) in Hz. discriminate. }
  assert (Hcl : Forall classes acts) by (eapply Forall_impl; [|exact Hs]; apply shipped_classes).
  assert (Hv : exists vs, Forall2 (value_at p) (LayoutSpec.added acts) vs /\ z = List.concat vs).
  { eapply C53_residual; try eassumption.
    - eapply Forall_impl; [|exact Hs]. apply shipped_complete.
    - eapply Forall_impl; [|exact Hs]. apply shipped_sound.
    - rewrite Forall_forall in *. intros a Ha. eapply shipped_toplevel; eauto.
    - eapply Forall_impl; [|eapply typed_runs; eassumption]. intros x. now apply structure_typed. }
  destruct Hv as (vs & Hv & ->). rewrite Forall_concat. clear -Hv. induction Hv as [|[[c ks] ps] v xs vs H _ IH].
  - split; [intros _ c ks ps []|constructor].
  - split.
    + intros HP c' ks' ps' [E|Hin]; inversion HP; subst.
      * injection E as <- <- <-. destruct H as (prims & E1 & E2). eauto.
      * apply IH; assumption.
    + intros HP. constructor.
      * destruct (HP c ks ps (or_introl eq_refl)) as (prims & r & E1 & E2 & E3). destruct H as (prims' & E1' & E2'). congruence.
      * apply IH. intros c' ks' ps' Hin. apply HP. now right.
Qed.

(** ** Quadrilaterals stay closed *)
Lemma walk_in_preorder (n : prim) path m : walk path n = Some m -> In m (preorder n).
Proof.
  revert n. induction path as [|k path IH]; intros n H; cbn [walk] in H.
  - injection H as <-. destruct n. now left.
  - destruct (dget k (nch n)) as [c|] eqn:E; [|discriminate]. destruct n as [t v ch]. cbn [nch] in E. apply dget_In in E. right. apply in_flat_map. exists (k, c). split; [exact E|]. now apply IH.
Qed.
Lemma walk_value (n : prim) path m : walk path n = Some m -> In (nval m) (node_values n).
Proof. intros H. apply in_map. eapply walk_in_preorder, H. Qed.
Lemma keyed {T A} (n : node T A) ks : nkeys n = ks -> exists t v cs, n = Node t v (zip ks cs) /\ length cs = length ks.
Proof.
  intros <-. destruct n as [t v ch]. exists t, v, (map snd ch). unfold nkeys, dkeys. cbn [nch]. rewrite !map_length. split; [|reflexivity]. f_equal.
  induction ch as [|[k c] ch IH]; cbn; congruence.
Qed.
Section Closed.
  Variables (root p : prim) (path : list string).
  Hypothesis Hs : same_structure root p.
  Hypothesis Hi : ids_consistent p.

  (** A corner below [path]. *)
  Lemma moved_node more m : walk (path ++ more) root = Some m ->
    exists m', walk (path ++ more) p = Some m' /\ ntype m' = ntype m /\ nkeys m' = nkeys m /\ length (vdata (nval m')) = length (vdata (nval m)).
  Proof.
    intros H. destruct Hs as [S _]. specialize (S (path ++ more)%list). rewrite H in S. cbn [option_map] in S.
    destruct (walk (path ++ more) p) as [m'|]; [|discriminate]. cbn in S. injection S as S1 S2 S3. exists m'. auto.
  Qed.
  Lemma moved_same k1 k2 n1 n2 m1 m2 : walk k1 root = Some n1 -> walk k2 root = Some n2 -> walk k1 p = Some m1 -> walk k2 p = Some m2 ->
    vid (nval n1) = vid (nval n2) -> nval m1 = nval m2.
  Proof.
    intros E1 E2 G1 G2 Hv. destruct Hs as [_ S]. apply Hi; [eapply walk_value, G1|eapply walk_value, G2|]. now apply (S k1 k2 n1 n2 m1 m2).
  Qed.
  Lemma moved_line l q k i j : walk path root = Some q -> dget k (nch q) = Some l -> side_of l i j ->
    exists w A B, walk (path ++ [k]) p = Some w /\ line_at w A B /\
      (exists a, walk (path ++ [k; "Point0"]) p = Some a /\ vdata (nval a) = [fst A; snd A]) /\
      (exists b, walk (path ++ [k; "Point1"]) p = Some b /\ vdata (nval b) = [fst B; snd B]) /\
      (exists a, walk (path ++ [k; "Point0"]) root = Some a /\ vid (nval a) = i) /\
      (exists b, walk (path ++ [k; "Point1"]) root = Some b /\ vid (nval b) = j).
  Proof.
    intros Hq Hl (v & a & b & -> & Ca & Cb).
    assert (W : walk (path ++ [k]) root = Some (Node TLine v [("Point0", a); ("Point1", b)])) by (rewrite walk_app, Hq; cbn [walk]; now rewrite Hl).
    assert (Wa : walk (path ++ [k; "Point0"]) root = Some a) by (rewrite walk_app, Hq; cbn [walk]; rewrite Hl; reflexivity).
    assert (Wb : walk (path ++ [k; "Point1"]) root = Some b) by (rewrite walk_app, Hq; cbn [walk]; rewrite Hl; reflexivity).
    destruct (moved_node [k] _ W) as (w & Ew & Tw & Kw & _). destruct (moved_node [k; "Point0"] _ Wa) as (a' & Ea & Ta & _ & La). destruct (moved_node [k; "Point1"] _ Wb) as (b' & Eb & Tb & _ & Lb).
    destruct Ca as (Ca1 & Ca2 & Ca3), Cb as (Cb1 & Cb2 & Cb3). rewrite Ca3 in La. rewrite Cb3 in Lb.
    destruct a' as [ta [ia da] cha], b' as [tb [ib db] chb]. cbn [ntype nval vdata] in *.
    destruct da as [|x0 [|y0 [|? ?]]]; try discriminate. destruct db as [|x1 [|y1 [|? ?]]]; try discriminate.
    apply keyed in Kw as (tw & vw & cs & -> & Hc). destruct cs as [|c0 [|c1 [|? ?]]]; try discriminate. cbn [ntype] in Tw. subst tw.
    change (path ++ [k; "Point0"])%list with (path ++ ([k] ++ ["Point0"]))%list in Ea. change (path ++ [k; "Point1"])%list with (path ++ ([k] ++ ["Point1"]))%list in Eb.
    rewrite app_assoc, walk_app, Ew in Ea, Eb. cbn in Ea, Eb. injection Ea as ->. injection Eb as ->.
    eexists _, (x0, y0), (x1, y1). split; [exact Ew|]. split; [|split; [|split; [|split]]].
    - eexists vw, _, _. split; [reflexivity|]. rewrite Ta, Tb, Ca1, Cb1. split; eexists _, _; reflexivity.
    - eexists. split; [change (path ++ [k; "Point0"])%list with (path ++ ([k] ++ ["Point0"]))%list; rewrite app_assoc, walk_app, Ew; reflexivity|reflexivity].
    - eexists. split; [change (path ++ [k; "Point1"])%list with (path ++ ([k] ++ ["Point1"]))%list; rewrite app_assoc, walk_app, Ew; reflexivity|reflexivity].
    - eauto.
    - eauto.
  Qed.
  Lemma moved_quad q : walk path root = Some q -> closed_quad q -> exists q' P0 P1 P2 P3, walk path p = Some q' /\ quad_at q' P0 P1 P2 P3.
  Proof.
    intros Hq (v & l0 & l1 & l2 & l3 & i0 & i1 & i2 & i3 & -> & H0 & H1 & H2 & H3).
    destruct (moved_line l0 _ "Line0" _ _ Hq eq_refl H0) as (w0 & A0 & B0 & W0 & N0 & (a0 & Wa0 & Da0) & (b0 & Wb0 & Db0) & (ra0 & Ra0 & Ia0) & (rb0 & Rb0 & Ib0)).
    destruct (moved_line l1 _ "Line1" _ _ Hq eq_refl H1) as (w1 & A1 & B1 & W1 & N1 & (a1 & Wa1 & Da1) & (b1 & Wb1 & Db1) & (ra1 & Ra1 & Ia1) & (rb1 & Rb1 & Ib1)).
    destruct (moved_line l2 _ "Line2" _ _ Hq eq_refl H2) as (w2 & A2 & B2 & W2 & N2 & (a2 & Wa2 & Da2) & (b2 & Wb2 & Db2) & (ra2 & Ra2 & Ia2) & (rb2 & Rb2 & Ib2)).
    destruct (moved_line l3 _ "Line3" _ _ Hq eq_refl H3) as (w3 & A3 & B3 & W3 & N3 & (a3 & Wa3 & Da3) & (b3 & Wb3 & Db3) & (ra3 & Ra3 & Ia3) & (rb3 & Rb3 & Ib3)).
    assert (E : forall A B u v : prim, nval u = nval v -> forall P Q : pt, vdata (nval u) = [fst P; snd P] -> vdata (nval v) = [fst Q; snd Q] -> P = Q).
    { intros _ _ u w Hu [x y] [x' y'] D D'. rewrite Hu, D' in D. cbn in D. now injection D as -> ->. }
    assert (E01 : B0 = A1) by (apply (E a0 a0 b0 a1); auto; eapply moved_same; [exact Rb0|exact Ra1| | |congruence]; assumption).
    assert (E12 : B1 = A2) by (apply (E a0 a0 b1 a2); auto; eapply moved_same; [exact Rb1|exact Ra2| | |congruence]; assumption).
    assert (E23 : B2 = A3) by (apply (E a0 a0 b2 a3); auto; eapply moved_same; [exact Rb2|exact Ra3| | |congruence]; assumption).
    assert (E30 : B3 = A0) by (apply (E a0 a0 b3 a0); auto; eapply moved_same; [exact Rb3|exact Ra0| | |congruence]; assumption).
    subst A1 A2 A3 A0.
    assert (Hq' : walk (path ++ []) root = Some (Node TQuad v [("Line0", l0); ("Line1", l1); ("Line2", l2); ("Line3", l3)])) by now rewrite app_nil_r.
    destruct (moved_node [] _ Hq') as (q' & Eq & Tq & Kq & _). rewrite app_nil_r in Eq.
    apply keyed in Kq as (tq & vq & cs & -> & Hc). destruct cs as [|c0 [|c1 [|c2 [|c3 [|? ?]]]]]; try discriminate. cbn [ntype] in Tq. subst tq.
    rewrite walk_app, Eq in W0, W1, W2, W3. cbn in W0, W1, W2, W3. injection W0 as ->. injection W1 as ->. injection W2 as ->. injection W3 as ->.
    eexists _, B3, B0, B1, B2. split; [exact Eq|]. exists vq, w0, w1, w2, w3. split; [reflexivity|]. auto.
  Qed.
End Closed.
Lemma quad_moved (root p : prim) key : same_structure root p -> ids_consistent p -> quad_in root key ->
  exists q P0 P1 P2 P3, get_child p key = Ok q /\ quad_at q P0 P1 P2 P3.
Proof.
  intros Hs Hi (q & E & Hq). rewrite get_child_walk in *. destruct (walk (split_all key) root) as [m|] eqn:Ew; [|discriminate]. injection E as ->.
  destruct (moved_quad root p (split_all key) Hs Hi q Ew Hq) as (q' & P0 & P1 & P2 & P3 & -> & H). eauto 8.
Qed.

(** ** Drawing any quadrilaterals *)
Lemma quad_corners q P0 P1 P2 P3 : quad_at q P0 P1 P2 P3 ->
  exists p0 p2, get_child q "Line0/Point0" = Ok p0 /\ get_child q "Line1/Point1" = Ok p2 /\
    vdata (nval p0) = [fst P0; snd P0] /\ vdata (nval p2) = [fst P2; snd P2].
Proof.
  intros (v & l0 & l1 & l2 & l3 & -> & (w0 & a0 & b0 & -> & A0 & _) & (w1 & a1 & b1 & -> & _ & B1) & _).
  exists a0, b1. destruct A0 as (? & ? & ->), B1 as (? & ? & ->). repeat split; reflexivity.
Qed.
Lemma div2_inv (x y w h : R) r : bcast2 ndiv [x; y] [w; h] = Ok r -> w <> 0 /\ h <> 0 /\ r = [x / w; y / h].
Proof.
  unfold bcast2. cbn [length Nat.eqb zip mapM fst snd]. cbn [ndiv NumR]. unfold Rdiv_r. destruct (Req_EM_T w 0); [discriminate|]. cbn [bind]. destruct (Req_EM_T h 0); [discriminate|].
  cbn [bind]. intros H. injection H as <-. auto.
Qed.
Lemma axis_calls root key quad w h pre t : In pre axis_names -> w <> 0 -> h <> 0 ->
  update_axis root key quad [w; h] pre = (t, Ok tt) -> sizes t = [] /\ positions t = [].
Proof.
  intros Hp Hw Hh H. destruct (axis_done root key quad w h pre t Hp Hw Hh H) as (t1 & t2 & -> & L & K).
  destruct (label_part_calls _ _ _ _ _ _ L) as (A1 & A2 & _), (tick_part_calls _ _ _ _ _ K) as (C1 & C2 & _).
  destruct (projections_app t1 t2) as (-> & -> & _). now rewrite A1, A2, C1, C2.
Qed.
Definition placed (root : prim) (G0 G2 : pt) (w h : R) (kr : string * (R * R * R * R)) : Prop :=
  w <> 0 /\ h <> 0 /\ forall q P0 P1 P2 P3, get_child root (fst kr ++ "/Frame")%string = Ok q -> quad_at q P0 P1 P2 P3 ->
    snd kr = ((fst P0 - fst G0) / w, (snd P0 - snd G0) / h, (fst P2 - fst G0) / w - (fst P0 - fst G0) / w, (snd P2 - snd G0) / h - (snd P0 - snd G0) / h).
Lemma draw_quads (root : prim) fig keys tr fq G0 G1 G2 G3 : get_child root fig = Ok fq -> quad_at fq G0 G1 G2 G3 ->
  Forall (fun k => exists q P0 P1 P2 P3, get_child root (k ++ "/Frame")%string = Ok q /\ quad_at q P0 P1 P2 P3) keys ->
  NoDup keys -> subplots root fig (Some keys) = (tr, Ok tt) ->
  let w := fst G2 - fst G0 in let h := snd G2 - snd G0 in
  sizes tr = [(w, h)] /\ map fst (positions tr) = keys /\ Forall (placed root G0 G2 w h) (positions tr).
Proof.
  intros Gf Hf Hfr Hn H w h. destruct (subplots_done _ _ _ _ H) as (ks & axs & tr' & -> & -> & -> & H'). clear H. rewrite keys_of_dict in H' by assumption.
  change (NewFigure :: map AddAxes keys ++ tr') with ((NewFigure :: map AddAxes keys) ++ tr').
  destruct (projections_app (NewFigure :: map AddAxes keys) tr') as (-> & -> & _). destruct (made_calls keys) as (-> & -> & _). cbn [app].
  unfold update_subplots in H'. apply mbind_ok in H' as (t0 & t1 & owh & E1 & H & ->). apply mlift_ok in E1 as [-> E1].
  destruct (quad_corners _ _ _ _ _ Hf) as (p0 & p2 & K0 & K2 & D0 & D2). unfold width_and_height_from_quad in E1.
  rewrite Gf in E1. cbn [bind] in E1. rewrite K0 in E1. cbn [bind] in E1. rewrite D0 in E1. cbn [bind unpack2] in E1. rewrite K2 in E1. cbn [bind] in E1. rewrite D2 in E1. cbn [bind unpack2 nsub NumR] in E1.
  injection E1 as <-. fold w h in H. cbn [app]. apply mbind_ok in H as (t2 & t3 & u & E2 & H & ->). injection E2 as <- <-.
  apply mseq_ok in H as (ts & -> & Hts). destruct (projections_app [SetSizeInches w h] (List.concat ts)) as (-> & -> & _).
  destruct (concat_calls ts) as (-> & -> & _). clear Hn. change (sizes [SetSizeInches w h]) with [(w, h)]. change (positions [SetSizeInches w h]) with (@nil (string * (R * R * R * R))). cbn [app].
  assert (G : List.concat (map sizes ts) = [] /\ map fst (List.concat (map positions ts)) = keys /\ Forall (placed root G0 G2 w h) (List.concat (map positions ts))).
  { induction Hts as [|k t ks ts Hk _ IH]; [repeat split; constructor|]. inversion Hfr as [|? ? (q & P0 & P1 & P2 & P3 & Eq & Hq) Hfr']; subst.
    destruct (IH Hfr') as (I1 & I2 & I3). clear IH. cbn [map List.concat].
    apply mbind_ok in Hk as (u0 & u1 & qr & E1 & Hk & ->). apply mlift_ok in E1 as [-> E1]. rewrite Eq in E1. cbn [bind] in E1.
    destruct (quad_corners _ _ _ _ _ Hq) as (r0 & r2 & R0 & R2 & F0 & F2). unfold rect_from_box in E1. rewrite R0 in E1. cbn [bind] in E1. rewrite F0, sub2_ok in E1. cbn [bind] in E1.
    destruct (bcast2 ndiv [fst P0 - fst G0; snd P0 - snd G0] [w; h]) as [qq|] eqn:Eb; [|discriminate]. apply div2_inv in Eb as (Hw & Hh & ->).
    cbn [bind unpack2] in E1. rewrite R2 in E1. cbn [bind] in E1. rewrite F2, sub2_ok in E1. cbn [bind] in E1. rewrite div2_ok in E1 by assumption. cbn [bind unpack2 nsub NumR] in E1. injection E1 as <-.
    apply mbind_ok in Hk as (u2 & u3 & v & E2 & Hk & ->). injection E2 as <- <-. apply mseq_ok in Hk as (ss & -> & Hss).
    inversion Hss as [|? tx ? ? HX Hs1]; subst. inversion Hs1 as [|? ty ? ? HY Hs2]; subst. inversion Hs2; subst. cbn [List.concat]. rewrite app_nil_r.
    destruct (axis_calls _ _ _ _ _ "X" _ (or_introl eq_refl) Hw Hh HX) as [X1 X2]. destruct (axis_calls _ _ _ _ _ "Y" _ (or_intror (or_introl eq_refl)) Hw Hh HY) as [Y1 Y2].
    cbn [app]. match goal with |- context [sizes (?c :: tx ++ ty)] => change (c :: tx ++ ty) with ([c] ++ tx ++ ty);
      destruct (projections_app [c] (tx ++ ty)) as (-> & -> & _); destruct (projections_app tx ty) as (-> & -> & _); rewrite X1, X2, Y1, Y2, I1;
      change (sizes [c]) with (@nil (R * R)) end.
    split; [reflexivity|]. split; [reflexivity|]. cbn [positions flat_map app]. constructor; [|exact I3]. split; [exact Hw|]. split; [exact Hh|].
    cbn [fst snd]. intros q' Q0 Q1 Q2 Q3 E' H'. rewrite Eq in E'. injection E' as <-.
    destruct (quad_corners _ _ _ _ _ H') as (r0' & r2' & R0' & R2' & F0' & F2'). rewrite R0 in R0'. injection R0' as <-. rewrite R2 in R2'. injection R2' as <-.
    rewrite F0 in F0'. rewrite F2 in F2'. injection F0' as -> ->. injection F2' as -> ->. reflexivity. }
  destruct G as (-> & Gk & Gp). auto.
Qed.

(** ** Within tolerance *)
Lemma figure_drawn rid tw acts (l : layout) p z e fig w h keys ms tr :
  runs (empty_layout rid) acts l -> Forall (shipped_act tw) acts -> Forall top_key acts ->
  same_structure (l_prim l) p -> ids_consistent p -> layout_residual l p = Ok z -> Forall (fun x => Rabs x <= e) z ->
  quad_in (l_prim l) fig -> sized acts fig w h ->
  NoDup keys -> Forall2 (fun k m => quad_in (l_prim l) (k ++ "/Frame")%string /\ framed acts fig k m) keys ms ->
  subplots p fig (Some keys) = (tr, Ok tt) ->
  exists w' h', sizes tr = [(w', h')] /\ near (2 * e) w' w /\ near (2 * e) h' h /\ map fst (positions tr) = keys /\
    Forall2 (fun kr m => near_margins (2 * e) (inches w' h' (snd kr)) m) (positions tr) ms.
Proof.
  intros Hr Hs Hk Hp Hi Hz He Hfig (SB & (vw & [nw1 nw2] & SW) & (vh & [nh1 nh2] & SH)) Hn Hm Hd.
  assert (Ev : forall c ks ps, asked acts c ks ps -> exists c' prims r, c = Ok c' /\ mapM (get_child p) ks = Ok prims /\ call c' prims ps = Ok r /\ Forall (fun x => Rabs x <= e) r).
  { intros c ks ps (c' & -> & Hin). destruct (proj1 (residual_every rid tw acts l _ p z Hr Hs Hk Hp Hz) He _ _ _ Hin) as (prims & r & E1 & E2 & E3). eauto 8. }
  destruct (quad_moved _ p fig Hp Hi Hfig) as (fq & G0 & G1 & G2 & G3 & Gf & Hf).
  assert (Fig : Rabs (snd G1 - snd G0) <= e /\ Rabs (snd G3 - snd G2) <= e /\ Rabs (fst G0 - fst G3) <= e /\ Rabs (fst G2 - fst G1) <= e /\
     Rabs (fst G1 - fst G0 - w) <= e /\ Rabs (snd G2 - snd G1 - h) <= e).
  { destruct (Ev _ _ _ SB) as (c & prims & r & E1 & E2 & E3 & E4). cbn [mapM] in E2. rewrite Gf in E2. cbn [bind] in E2. injection E2 as <-.
    destruct (box_value _ _ _ _ _ Hf) as (c' & E1' & E3'). rewrite E1 in E1'. injection E1' as <-. rewrite E3 in E3'. injection E3' as ->.
    inversion_clear E4 as [|? ? B1 E5]. inversion_clear E5 as [|? ? B2 E4]. inversion_clear E4 as [|? ? B3 E5]. inversion_clear E5 as [|? ? B4 E4].
    destruct (Ev _ _ _ SW) as (c1 & prims & r & F1 & E2 & F3 & F4). cbn [mapM] in E2. rewrite Gf in E2. cbn [bind] in E2. injection E2 as <-.
    destruct (C42_width _ _ _ _ _ _ _ Hf nw1 nw2) as (c' & F1' & F3' & _). rewrite F1 in F1'. injection F1' as <-. rewrite F3 in F3'. injection F3' as ->. inversion_clear F4 as [|? ? B5 _].
    destruct (Ev _ _ _ SH) as (c2 & prims & r & H1 & E2 & H3 & H4). cbn [mapM] in E2. rewrite Gf in E2. cbn [bind] in E2. injection E2 as <-.
    destruct (C42_height _ _ _ _ _ _ _ Hf nh1 nh2) as (c' & H1' & H3' & _). rewrite H1 in H1'. injection H1' as <-. rewrite H3 in H3'. injection H3' as ->. inversion_clear H4 as [|? ? B6 _].
    auto 10. }
  destruct Fig as (B1 & B2 & B3 & B4 & B5 & B6).
  assert (Hfr : Forall (fun k => exists q P0 P1 P2 P3, get_child p (k ++ "/Frame")%string = Ok q /\ quad_at q P0 P1 P2 P3) keys).
  { clear -Hm Hp Hi. induction Hm as [|k m ks ms [H _] _ IH]; constructor; [|exact IH]. eapply quad_moved; eassumption. }
  destruct (draw_quads p fig keys tr fq G0 G1 G2 G3 Gf Hf Hfr Hn Hd) as (D1 & D2 & D3).
  exists (fst G2 - fst G0), (snd G2 - snd G0). split; [exact D1|]. unfold near.
  split; [apply Rabs_within in B1, B4, B5; apply Rabs_within; lra|]. split; [apply Rabs_within in B1, B6; apply Rabs_within; lra|]. split; [exact D2|].
  clear D1 Hd Hn. revert D2 D3. generalize (positions tr). induction Hm as [|k m ks ms [Hk1 Hk2] _ IH]; intros ps D2 D3.
  - destruct ps; [constructor|discriminate].
  - destruct ps as [|[k' rect] ps]; [discriminate|]. cbn [map fst] in D2. injection D2 as -> D2. inversion D3 as [|? ? Hpl D3']; subst. inversion Hfr as [|? ? (q & P0 & P1 & P2 & P3 & Eq & Hq) Hfr']; subst.
    constructor; [|apply IH; auto]. destruct Hpl as (Hw & Hh & Hpl). cbn [fst snd] in *. rewrite (Hpl q P0 P1 P2 P3 Eq Hq). clear Hpl.
    destruct Hk2 as [FB FM]. destruct (Ev _ _ _ FB) as (c & prims & r & E1 & E2 & E3 & E4). cbn [mapM] in E2. rewrite Eq in E2. cbn [bind] in E2. injection E2 as <-.
    destruct (box_value _ _ _ _ _ Hq) as (c' & E1' & E3'). rewrite E1 in E1'. injection E1' as <-. rewrite E3 in E3'. injection E3' as ->.
    inversion_clear E4 as [|? ? C1 E5]. inversion_clear E5 as [|? ? C2 E4]. inversion_clear E4 as [|? ? C3 E5]. inversion_clear E5 as [|? ? C4 E4].
    assert (M : forall side, In side sides -> Rabs ((if String.eqb side "left" then fst (mid P3 P0) - fst (mid G3 G0)
      else if String.eqb side "right" then fst (mid G1 G2) - fst (mid P1 P2)
      else if String.eqb side "bottom" then snd (mid P0 P1) - snd (mid G0 G1) else snd (mid G2 G3) - snd (mid P2 P3)) - margin m side) <= e).
    { intros side Hsd. destruct (FM side Hsd) as (v & [n1 n2] & Hv). destruct (Ev _ _ _ Hv) as (c1 & prims & r & F1 & E2 & F3 & F4).
      cbn [mapM] in E2. rewrite Eq in E2. cbn [bind] in E2. rewrite Gf in E2. cbn [bind] in E2. injection E2 as <-.
      destruct (inner_margin_value side q fq P0 P1 P2 P3 G0 G1 G2 G3 v (margin m side) Hsd Hq Hf n1 n2) as (c' & F1' & F3'). rewrite F1 in F1'. injection F1' as <-. rewrite F3 in F3'. injection F3' as ->. now inversion_clear F4. }
    pose proof (M "left" (or_introl eq_refl)) as ML. pose proof (M "right" (or_intror (or_introl eq_refl))) as MR.
    pose proof (M "bottom" (or_intror (or_intror (or_introl eq_refl)))) as MB. pose proof (M "top" (or_intror (or_intror (or_intror (or_introl eq_refl))))) as MT. clear M.
    unfold margin in ML, MR, MB, MT. cbn [String.eqb Ascii.eqb Bool.eqb] in ML, MR, MB, MT. unfold mid in ML, MR, MB, MT. cbn [fst snd] in ML, MR, MB, MT.
    apply Rabs_within in B1, B2, B3, B4, B5, B6, C1, C2, C3, C4, ML, MR, MB, MT.
    unfold near_margins, inches, near. cbn [m_left m_right m_bottom m_top].
    assert (X : forall x y : R, y <> 0 -> x / y * y = x) by (intros; field; assumption).
    split; [|split; [|split]].
    + rewrite X by assumption. apply Rabs_within. lra.
    + match goal with |- Rabs (?t - _) <= _ => replace t with (fst G2 - fst P2) by (field; assumption) end. apply Rabs_within. lra.
    + rewrite X by assumption. apply Rabs_within. lra.
    + match goal with |- Rabs (?t - _) <= _ => replace t with (snd G2 - snd P2) by (field; assumption) end. apply Rabs_within. lra.
Qed.

(** ** The tree the solver returns *)
Lemma new_values (root : prim) g : node_values (new_tree root g) = map (renew root g) (node_values root).
Proof.
  unfold new_tree, rebuilt, node_values.
  transitivity (map (fun s : ptype * pv R * list string => snd (fst s)) (map skel (preorder (tmap (fun n : prim => (ntype n, renew root g (nval n))) root)))).
  - rewrite map_map. apply map_ext. intros [t v ch]. reflexivity.
  - rewrite tmap_preorder, !map_map. reflexivity.
Qed.
Lemma new_ids (root : prim) g : wf root -> slashfree root -> ids_consistent (new_tree root g).
Proof.
  intros Hw Hs a b Ha Hb E. rewrite new_values in Ha, Hb. apply in_map_iff in Ha as (v & <- & Hv), Hb as (u & <- & Hu).
  destruct (new_value root g Hw Hs v Hv) as (i & c & Ei & Ec & En). destruct (new_value root g Hw Hs u Hu) as (j & c' & Ej & Ec' & En').
  unfold renew in *. rewrite Ei, Ej, En, En' in *. cbn in E. congruence.
Qed.
Lemma solve_ids step minimizer (l : layout) abs_tol rel_tol max_iter method p info : wf (l_prim l) -> slashfree (l_prim l) ->
  solve step minimizer l abs_tol rel_tol max_iter method = Ok (p, info) -> ids_consistent p.
Proof.
  intros Hw Hs H. unfold solve in H. destruct (String.eqb method "newton"); [|destruct (String.eqb method "minimize"); [|discriminate]].
  - unfold solve_newton in H. destruct (newton_loop _ _ _ _ _ _) as [s|]; [|discriminate]. cbn [bind] in H. rewrite tree_of_global_ok in H by assumption. cbn [bind] in H. injection H as <- _. now apply new_ids.
  - unfold solve_minimize in H. destruct (objective _ _); [|discriminate]. cbn [bind] in H.
    destruct (run_callback _ _ _ _ _ _) as [[[ae re] x]|] eqn:E; [|discriminate]. cbn [bind] in H.
    rewrite tree_of_global_ok in H by assumption. cbn [bind] in H. injection H as <- _. now apply new_ids.
Qed.

(** ** Built quadrilaterals are closed *)
Lemma built_quad_closed nxt v ps q n :
  match ps with Some l => Forall (fun p : prim => ntype p = TPoint /\ length (vdata (nval p)) = 2%nat) l | None => True end ->
  mk_quad nxt v ps = Ok (q, n) -> closed_quad q.
Proof.
  destruct ps as [ps|]; intros Hp H.
  - apply mk_quad_Ok in H as (value & m & -> & _ & _ & [_ Hc]). rewrite child_types_tys in Hc. unfold dvals in Hc. cbn [nch] in Hc. rewrite poly_dict_vals, tys_poly_lines in Hc.
    cbn [ntype] in Hc. apply (f_equal (@length _)) in Hc. rewrite repeat_length in Hc. cbn in Hc.
    destruct ps as [|a [|b [|c [|d [|? ?]]]]]; try discriminate Hc. inversion_clear Hp as [|? ? [A1 A2] Hp1]. inversion_clear Hp1 as [|? ? [B1 B2] Hp2]. inversion_clear Hp2 as [|? ? [C1 C2] Hp3]. inversion_clear Hp3 as [|? ? [D1 D2] _].
    eexists value, _, _, _, _, (vid (nval a)), (vid (nval b)), (vid (nval c)), (vid (nval d)). split; [reflexivity|].
    split; [|split; [|split]]; eexists _, _, _; (split; [reflexivity|]); repeat split; assumption.
  - unfold mk_quad in H. destruct (take_value nxt v []) as [value m]. destruct value as [i [|x d]]; cbn in H; [|discriminate]. injection H as <- _.
    eexists {| vid := i; vdata := [] |}, _, _, _, _, m, (S m), (S (S m)), (S (S (S m))). split; [reflexivity|].
    split; [|split; [|split]]; eexists _, _, _; (split; [reflexivity|]); repeat split.
Qed.
