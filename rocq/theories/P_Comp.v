(** Properties C41-C43, C48-C50: compound constraints on quadrilaterals and axes.
    Vocabulary: GeomSpec.v. *)
From Coq Require Import Reals Lra.
From Verif Require Import GeomProofs P_Geom CompProofs.
Local Open Scope R_scope.

Ltac zlist := cbn [all_cons]; rewrite ?all_cons, ?all_nil.
Lemma zero1 x : Forall zero [x] <-> x = 0.
Proof. split; [intros H; now inversion H|intros H; repeat constructor; assumption]. Qed.
Lemma zero2 x y : Forall zero [x; y] <-> x = 0 /\ y = 0.
Proof. split; [intros H; inversion H as [|? ? ? H']; inversion H'; auto|intros []; repeat constructor; assumption]. Qed.

Lemma horizontal_zeval l P Q : line_at l P Q -> zeval Horizontal [l] [] (snd P = snd Q).
Proof. intros H. eapply zeval_iff; [apply zeval_leaf, horizontal_value, H|]. rewrite zero1. lra. Qed.
Lemma vertical_zeval l P Q : line_at l P Q -> zeval Vertical [l] [] (fst P = fst Q).
Proof. intros H. eapply zeval_iff; [apply zeval_leaf, vertical_value, H|]. rewrite zero1. lra. Qed.

(** Quadrilaterals are primitives of the type asked for. *)
Lemma quad_prim q P0 P1 P2 P3 : quad_at q P0 P1 P2 P3 -> ntype q <> TNode.
Proof. intros (? & ? & ? & ? & ? & -> & _). discriminate. Qed.

(** Open a key table: [select [q] "arg0/Line0"] and the like. *)
Lemma sel0 (q : prim) more r p : get_child q r = Ok p -> select (q :: more) (argk 0 ++ String slash r) = Ok p.
Proof. intros H. now rewrite (select_path (q :: more) 0 q r eq_refl). Qed.
Lemma sel1 (a q : prim) more r p : get_child q r = Ok p -> select (a :: q :: more) (argk 1 ++ String slash r) = Ok p.
Proof. intros H. now rewrite (select_path (a :: q :: more) 1 q r eq_refl). Qed.

(** ** C41 *)
Theorem C41_box q P0 P1 P2 P3 : quad_at q P0 P1 P2 P3 ->
  exists c, Box = Ok c /\
    (vanishes c [q] [] <-> exists l b r t, P0 = (l, b) /\ P1 = (r, b) /\ P2 = (r, t) /\ P3 = (l, t)).
Proof.
  intros Hq.
  destruct (quad_line0 _ _ _ _ _ Hq) as (l0 & G0 & L0). destruct (quad_line1 _ _ _ _ _ Hq) as (l1 & G1 & L1).
  destruct (quad_line2 _ _ _ _ _ Hq) as (l2 & G2 & L2). destruct (quad_line3 _ _ _ _ _ Hq) as (l3 & G3 & L3).
  eexists. split; [reflexivity|].
  rewrite zeval_vanishes; [reflexivity| | |].
  - eapply zeval_iff.
    + eapply zeval_node; [reflexivity| |reflexivity|].
      * cbn [cpk mapM]. rewrite (sel0 q [] "Line0" l0 G0 : select [q] "arg0/Line0" = Ok l0), (sel0 q [] "Line2" l2 G2 : select [q] "arg0/Line2" = Ok l2),
          (sel0 q [] "Line3" l3 G3 : select [q] "arg0/Line3" = Ok l3), (sel0 q [] "Line1" l1 G1 : select [q] "arg0/Line1" = Ok l1). reflexivity.
      * constructor; [apply (horizontal_zeval l0 P0 P1 L0)|]. constructor; [apply (horizontal_zeval l2 P2 P3 L2)|].
        constructor; [apply (vertical_zeval l3 P3 P0 L3)|]. constructor; [apply (vertical_zeval l1 P1 P2 L1)|]. constructor.
    + rewrite !all_cons, all_nil. destruct P0 as [x0 y0], P1 as [x1 y1], P2 as [x2 y2], P3 as [x3 y3]. cbn [fst snd]. split.
      * intros (-> & -> & -> & -> & _). exists x0, y1, x2, y3. auto.
      * intros (l & b & r & t & E0 & E1 & E2 & E3). inversion E0; inversion E1; inversion E2; inversion E3; subst. auto.
  - split; [typed|reflexivity].
  - constructor; [eapply quad_prim; eassumption|constructor].
Qed.

(** ** C42 *)
Theorem C42_width q P0 P1 P2 P3 t k : quad_at q P0 P1 P2 P3 -> num_of t = Some k -> is_number t = true ->
  exists c, crWidth = Ok c /\ call c [q] [t] = Ok [(fst P1 - fst P0) - k] /\ (vanishes c [q] [t] <-> fst P1 - fst P0 = k).
Proof.
  intros Hq Ht Hn. destruct (quad_line0 _ _ _ _ _ Hq) as (l0 & G0 & L0).
  destruct (single_constraint "Width" [TQuad] "Width" "XLength" (msig [TLine] 1 0) (no_params (fun prims => directed_length prims (PA1 ex))) ["arg0/Line0"] [q] [l0] (fst P1 - fst P0) t k)
    as (c & C1 & C2 & C3); try reflexivity; try assumption; try discriminate.
  - cbn [mapM]. rewrite (sel0 q [] "Line0" l0 G0 : select [q] "arg0/Line0" = Ok l0). reflexivity.
  - now apply vertical_value.
  - exists c. split; [exact C1|]. assert (C : call c [q] [t] = Ok [(fst P1 - fst P0) - k]).
    { apply call_single; [constructor; [eapply quad_prim; eassumption|constructor]| |exact C3]. unfold valid_args. rewrite C2. split; [typed|reflexivity]. }
    split; [exact C|]. rewrite (vanishes1 _ _ _ _ C). lra.
Qed.
Theorem C42_height q P0 P1 P2 P3 t k : quad_at q P0 P1 P2 P3 -> num_of t = Some k -> is_number t = true ->
  exists c, crHeight = Ok c /\ call c [q] [t] = Ok [(snd P2 - snd P1) - k] /\ (vanishes c [q] [t] <-> snd P2 - snd P1 = k).
Proof.
  intros Hq Ht Hn. destruct (quad_line1 _ _ _ _ _ Hq) as (l0 & G0 & L0).
  destruct (single_constraint "Height" [TQuad] "Height" "YLength" (msig [TLine] 1 0) (no_params (fun prims => directed_length prims (PA1 ey))) ["arg0/Line1"] [q] [l0] (snd P2 - snd P1) t k)
    as (c & C1 & C2 & C3); try reflexivity; try assumption; try discriminate.
  - cbn [mapM]. rewrite (sel0 q [] "Line1" l0 G0 : select [q] "arg0/Line1" = Ok l0). reflexivity.
  - now apply horizontal_value.
  - exists c. split; [exact C1|]. assert (C : call c [q] [t] = Ok [(snd P2 - snd P1) - k]).
    { apply call_single; [constructor; [eapply quad_prim; eassumption|constructor]| |exact C3]. unfold valid_args. rewrite C2. split; [typed|reflexivity]. }
    split; [exact C|]. rewrite (vanishes1 _ _ _ _ C). lra.
Qed.
(** On a box: right minus left, top minus bottom. *)
Theorem C42_box q l b r t u v h w : box_at q l b r t -> num_of u = Some w -> is_number u = true -> num_of v = Some h -> is_number v = true ->
  exists cw ch, crWidth = Ok cw /\ crHeight = Ok ch /\ (vanishes cw [q] [u] <-> r - l = w) /\ (vanishes ch [q] [v] <-> t - b = h).
Proof.
  intros Hq Hu Hu' Hv Hv'. destruct (C42_width _ _ _ _ _ _ _ Hq Hu Hu') as (cw & W1 & _ & W2). destruct (C42_height _ _ _ _ _ _ _ Hq Hv Hv') as (ch & H1 & _ & H2).
  exists cw, ch. cbn [fst snd] in *. auto.
Qed.
Theorem C42_aspect_ratio q P0 P1 P2 P3 t k : quad_at q P0 P1 P2 P3 -> P1 <> P2 -> num_of t = Some k ->
  exists c, crAspectRatio = Ok c /\ call c [q] [t] = Ok [len (vec P0 P1) / len (vec P1 P2) - k] /\
    (vanishes c [q] [t] <-> len (vec P0 P1) = k * len (vec P1 P2)).
Proof.
  intros Hq Hne Ht.
  assert (Hz : len (vec P1 P2) <> 0). { rewrite len_zero. unfold vec. intros E. inversion E. apply Hne. destruct P1, P2; cbn in *; f_equal; lra. }
  destruct (quad_line0 _ _ _ _ _ Hq) as (l0 & G0 & L0). destruct (quad_line1 _ _ _ _ _ Hq) as (l1 & G1 & L1).
  edestruct (leaf_constraint1 AspectRatio _ _ _ [q] (@nil pyval) (len (vec P0 P1) / len (vec P1 P2)) t k eq_refl) as (c & C1 & C2);
    [typed|nonode|reflexivity| |exact Ht|].
  { exists (PA0 (len (vec P0 P1) / len (vec P1 P2))). split; [|reflexivity]. unfold no_params. rewrite G0. cbn [bind]. rewrite (line_length_value _ _ _ L0). cbn [bind].
    rewrite G1. cbn [bind]. rewrite (line_length_value _ _ _ L1). cbn [bind ndiv NumR]. unfold Rdiv_r. destruct (Req_EM_T (len (vec P1 P2)) 0); [contradiction|reflexivity]. }
  exists c. split; [exact C1|]. cbn [app] in C2. split; [exact C2|]. rewrite (vanishes1 _ _ _ _ C2).
  split; intros H.
  - replace k with (len (vec P0 P1) / len (vec P1 P2)) by lra. field. exact Hz.
  - rewrite H. field. exact Hz.
Qed.

(** ** C43 *)
(** The documented gaps between box 0 (edges l0 b0 r0 t0) and box 1. *)
Definition inner_gap (side : string) (l0 b0 r0 t0 l1 b1 r1 t1 : R) : R :=
  if String.eqb side "left" then l0 - l1 else if String.eqb side "right" then r1 - r0
  else if String.eqb side "bottom" then b0 - b1 else t1 - t0.
Definition outer_gap (side : string) (l0 b0 r0 t0 l1 b1 r1 t1 : R) : R :=
  if String.eqb side "left" then l0 - r1 else if String.eqb side "right" then l1 - r0
  else if String.eqb side "bottom" then b0 - t1 else b1 - t0.
Definition sides : list string := ["left"; "right"; "bottom"; "top"].

Lemma midpoint_x_leaf l m A B C D : line_at l A B -> line_at m C D ->
  leaf_value (no_params (fun prims => midpoint_directed_distance prims (PA1 ex))) [l; m] [] [fst (mid C D) - fst (mid A B)].
Proof.
  intros Hl Hm. eexists. split; [apply (midpoint_distance_value l m A B C D (1, 0) Hl Hm)|].
  replace (inner (vec (mid A B) (mid C D)) (1, 0)) with (fst (mid C D) - fst (mid A B)) by (unfold inner, vec; cbn [fst snd]; ring). reflexivity.
Qed.
Lemma midpoint_y_leaf l m A B C D : line_at l A B -> line_at m C D ->
  leaf_value (no_params (fun prims => midpoint_directed_distance prims (PA1 ey))) [l; m] [] [snd (mid C D) - snd (mid A B)].
Proof.
  intros Hl Hm. eexists. split; [apply (midpoint_distance_value l m A B C D (0, 1) Hl Hm)|].
  replace (inner (vec (mid A B) (mid C D)) (0, 1)) with (snd (mid C D) - snd (mid A B)) by (unfold inner, vec; cbn [fst snd]; ring). reflexivity.
Qed.
Lemma mid_v (x y z : R) : fst (mid (x, y) (x, z)) = x.
Proof. unfold mid. cbn. lra. Qed.
Lemma mid_h (x y z : R) : snd (mid (x, y) (z, y)) = y.
Proof. unfold mid. cbn. lra. Qed.

(** Evaluation of a margin constraint on two boxes (also used for grids). *)
Lemma margin_denote (outer : bool) side p q l0 b0 r0 t0 l1 b1 r1 t1 t k : In side sides ->
  box_at p l0 b0 r0 t0 -> box_at q l1 b1 r1 t1 -> num_of t = Some k -> is_number t = true ->
  exists c, (if outer then crOuterMargin side else crInnerMargin side) = Ok c /\ csig (nval c) = msig [TQuad; TQuad] 0 1 /\
    denote c [p; q] [t] = Ok [[]; [(if outer then outer_gap else inner_gap) side l0 b0 r0 t0 l1 b1 r1 t1 - k]].
Proof.
  intros Hside Hp Hq Ht Hn.
  destruct (quad_line0 _ _ _ _ _ Hp) as (p0 & G0 & L0). destruct (quad_line1 _ _ _ _ _ Hp) as (p1 & G1 & L1).
  destruct (quad_line2 _ _ _ _ _ Hp) as (p2 & G2 & L2). destruct (quad_line3 _ _ _ _ _ Hp) as (p3 & G3 & L3).
  destruct (quad_line0 _ _ _ _ _ Hq) as (q0 & K0 & M0). destruct (quad_line1 _ _ _ _ _ Hq) as (q1 & K1 & M1).
  destruct (quad_line2 _ _ _ _ _ Hq) as (q2 & K2 & M2). destruct (quad_line3 _ _ _ _ _ Hq) as (q3 & K3 & M3).
  pose proof (sel0 p [q] _ _ G0) as S0. pose proof (sel0 p [q] _ _ G1) as S1. pose proof (sel0 p [q] _ _ G2) as S2. pose proof (sel0 p [q] _ _ G3) as S3.
  pose proof (sel1 p q [] _ _ K0) as U0. pose proof (sel1 p q [] _ _ K1) as U1. pose proof (sel1 p q [] _ _ K2) as U2. pose proof (sel1 p q [] _ _ K3) as U3.
  change (argk 0 ++ String slash "Line0")%string with "arg0/Line0" in S0. change (argk 0 ++ String slash "Line1")%string with "arg0/Line1" in S1.
  change (argk 0 ++ String slash "Line2")%string with "arg0/Line2" in S2. change (argk 0 ++ String slash "Line3")%string with "arg0/Line3" in S3.
  change (argk 1 ++ String slash "Line0")%string with "arg1/Line0" in U0. change (argk 1 ++ String slash "Line1")%string with "arg1/Line1" in U1.
  change (argk 1 ++ String slash "Line2")%string with "arg1/Line2" in U2. change (argk 1 ++ String slash "Line3")%string with "arg1/Line3" in U3.
  assert (X : forall name key ks l m A B C D, mapM (select [p; q]) ks = Ok [l; m] -> line_at l A B -> line_at m C D -> key <> EmptyString -> length ks = 2%nat ->
    exists c, transform_constraint (single name [TQuad; TQuad] key "MidpointXDistance" (msig [TLine; TLine] 1 0)
        (no_params (fun prims => midpoint_directed_distance prims (PA1 ex))) ks) = Ok c /\ csig (nval c) = msig [TQuad; TQuad] 0 1 /\
      denote c [p; q] [t] = Ok [[]; [fst (mid C D) - fst (mid A B) - k]]).
  { intros name key ks l m A B C D Hs Hl Hm Hk Hks.
    apply (single_constraint name [TQuad; TQuad] key "MidpointXDistance" (msig [TLine; TLine] 1 0) _ ks [p; q] [l; m]); auto. now apply midpoint_x_leaf. }
  assert (Y : forall name key ks l m A B C D, mapM (select [p; q]) ks = Ok [l; m] -> line_at l A B -> line_at m C D -> key <> EmptyString -> length ks = 2%nat ->
    exists c, transform_constraint (single name [TQuad; TQuad] key "MidpointYDistance" (msig [TLine; TLine] 1 0)
        (no_params (fun prims => midpoint_directed_distance prims (PA1 ey))) ks) = Ok c /\ csig (nval c) = msig [TQuad; TQuad] 0 1 /\
      denote c [p; q] [t] = Ok [[]; [snd (mid C D) - snd (mid A B) - k]]).
  { intros name key ks l m A B C D Hs Hl Hm Hk Hks.
    apply (single_constraint name [TQuad; TQuad] key "MidpointYDistance" (msig [TLine; TLine] 1 0) _ ks [p; q] [l; m]); auto. now apply midpoint_y_leaf. }
  destruct Hside as [<-|[<-|[<-|[<-|[]]]]]; destruct outer;
    [ edestruct (X "OuterMargin" "LeftMargin" ["arg1/Line1"; "arg0/Line3"]) as (c & C1 & C2 & C3)
    | edestruct (X "InnerMargin" "LeftMargin" ["arg1/Line3"; "arg0/Line3"]) as (c & C1 & C2 & C3)
    | edestruct (X "OuterMargin" "RightMargin" ["arg0/Line1"; "arg1/Line3"]) as (c & C1 & C2 & C3)
    | edestruct (X "InnerMargin" "RightMargin" ["arg0/Line1"; "arg1/Line1"]) as (c & C1 & C2 & C3)
    | edestruct (Y "OuterMargin" "BottomMargin" ["arg1/Line2"; "arg0/Line0"]) as (c & C1 & C2 & C3)
    | edestruct (Y "InnerMargin" "BottomMargin" ["arg1/Line0"; "arg0/Line0"]) as (c & C1 & C2 & C3)
    | edestruct (Y "OuterMargin" "TopMargin" ["arg0/Line2"; "arg1/Line0"]) as (c & C1 & C2 & C3)
    | edestruct (Y "InnerMargin" "TopMargin" ["arg0/Line2"; "arg1/Line2"]) as (c & C1 & C2 & C3) ];
    try (cbn [mapM]; rewrite ?S0, ?S1, ?S2, ?S3, ?U0, ?U1, ?U2, ?U3; cbn [bind]; reflexivity); try eassumption; try discriminate; try reflexivity;
    exists c; (split; [exact C1|]); (split; [exact C2|]); rewrite C3; cbn [inner_gap outer_gap String.eqb Ascii.eqb Bool.eqb];
    unfold inner_gap, outer_gap; cbn [String.eqb Ascii.eqb Bool.eqb]; rewrite ?mid_v, ?mid_h; reflexivity.
Qed.
Theorem C43_inner_margin side p q l0 b0 r0 t0 l1 b1 r1 t1 t k : In side sides ->
  box_at p l0 b0 r0 t0 -> box_at q l1 b1 r1 t1 -> num_of t = Some k -> is_number t = true ->
  exists c, crInnerMargin side = Ok c /\ call c [p; q] [t] = Ok [inner_gap side l0 b0 r0 t0 l1 b1 r1 t1 - k] /\
    (vanishes c [p; q] [t] <-> inner_gap side l0 b0 r0 t0 l1 b1 r1 t1 = k).
Proof.
  intros Hside Hp Hq Ht Hn. destruct (margin_denote false side p q _ _ _ _ _ _ _ _ t k Hside Hp Hq Ht Hn) as (c & C1 & C2 & C3).
  exists c. split; [exact C1|]. assert (C : call c [p; q] [t] = Ok [inner_gap side l0 b0 r0 t0 l1 b1 r1 t1 - k]).
  { apply call_single; [repeat constructor; eapply quad_prim; eassumption| |exact C3]. unfold valid_args. rewrite C2. split; [typed|reflexivity]. }
  split; [exact C|]. rewrite (vanishes1 _ _ _ _ C). lra.
Qed.
Theorem C43_outer_margin side p q l0 b0 r0 t0 l1 b1 r1 t1 t k : In side sides ->
  box_at p l0 b0 r0 t0 -> box_at q l1 b1 r1 t1 -> num_of t = Some k -> is_number t = true ->
  exists c, crOuterMargin side = Ok c /\ call c [p; q] [t] = Ok [outer_gap side l0 b0 r0 t0 l1 b1 r1 t1 - k] /\
    (vanishes c [p; q] [t] <-> outer_gap side l0 b0 r0 t0 l1 b1 r1 t1 = k).
Proof.
  intros Hside Hp Hq Ht Hn. destruct (margin_denote true side p q _ _ _ _ _ _ _ _ t k Hside Hp Hq Ht Hn) as (c & C1 & C2 & C3).
  exists c. split; [exact C1|]. assert (C : call c [p; q] [t] = Ok [outer_gap side l0 b0 r0 t0 l1 b1 r1 t1 - k]).
  { apply call_single; [repeat constructor; eapply quad_prim; eassumption| |exact C3]. unfold valid_args. rewrite C2. split; [typed|reflexivity]. }
  split; [exact C|]. rewrite (vanishes1 _ _ _ _ C). lra.
Qed.
Theorem C43_other_sides_raise side : ~ In side sides ->
  crInnerMargin (F:=R) side = Err ValueErr /\ crOuterMargin (F:=R) side = Err ValueErr.
Proof.
  intros H. unfold crInnerMargin, crOuterMargin, InnerMargin, OuterMargin, Margin.
  assert (E : forall s, In s sides -> String.eqb side s = false).
  { intros s Hs. apply String.eqb_neq. intros ->. contradiction. }
  rewrite !E by (unfold sides; cbn; tauto). split; reflexivity.
Qed.

(** ** C48 *)
Lemma coincident_lines_fits rev : fits (CoincidentLines (F:=R)) [rev].
Proof. now apply fits_leaf. Qed.
Definition swap (e : pt * pt) : pt * pt := (snd e, fst e).
Lemma reversed_zeval l m A B C D : line_at l A B -> line_at m C D -> zeval CoincidentLines [l; m] [PBool true] ((A, B) = swap (C, D)).
Proof.
  intros Hl Hm. destruct (C39_coincident_lines l m A B C D (PBool true) true Hl Hm eq_refl) as [(r & Hr) Hv].
  eapply zeval_iff; [eapply zeval_of_call; [|apply fits_arity, coincident_lines_fits|exact Hr]|].
  - repeat constructor; [destruct Hl as (? & ? & ? & -> & _)|destruct Hm as (? & ? & ? & -> & _)]; discriminate.
  - rewrite Hv. unfold swap; cbn. split; [intros [-> ->]; reflexivity|intros E; inversion E; auto].
Qed.
(** The faces constraint on two quadrilaterals. *)
Lemma faces_zeval side p q u v : In side sides -> quad_is p u -> quad_is q v ->
  exists c, CoincidentOutwardFaces side = Ok c /\ csig (nval c) = msig [TQuad; TQuad] 0 0 /\
    zeval c [p; q] [] (edge side u = swap (edge (across side) v)).
Proof.
  intros Hside Hp Hq. destruct u as [[[P0 P1] P2] P3], v as [[[Q0 Q1] Q2] Q3]. unfold quad_is in *.
  destruct (quad_line0 _ _ _ _ _ Hp) as (p0 & G0 & L0). destruct (quad_line1 _ _ _ _ _ Hp) as (p1 & G1 & L1).
  destruct (quad_line2 _ _ _ _ _ Hp) as (p2 & G2 & L2). destruct (quad_line3 _ _ _ _ _ Hp) as (p3 & G3 & L3).
  destruct (quad_line0 _ _ _ _ _ Hq) as (q0 & K0 & M0). destruct (quad_line1 _ _ _ _ _ Hq) as (q1 & K1 & M1).
  destruct (quad_line2 _ _ _ _ _ Hq) as (q2 & K2 & M2). destruct (quad_line3 _ _ _ _ _ Hq) as (q3 & K3 & M3).
  pose proof (sel0 p [q] _ _ G0 : select [p; q] "arg0/Line0" = _) as S0. pose proof (sel0 p [q] _ _ G1 : select [p; q] "arg0/Line1" = _) as S1.
  pose proof (sel0 p [q] _ _ G2 : select [p; q] "arg0/Line2" = _) as S2. pose proof (sel0 p [q] _ _ G3 : select [p; q] "arg0/Line3" = _) as S3.
  pose proof (sel1 p q [] _ _ K0 : select [p; q] "arg1/Line0" = _) as U0. pose proof (sel1 p q [] _ _ K1 : select [p; q] "arg1/Line1" = _) as U1.
  pose proof (sel1 p q [] _ _ K2 : select [p; q] "arg1/Line2" = _) as U2. pose proof (sel1 p q [] _ _ K3 : select [p; q] "arg1/Line3" = _) as U3.
  destruct Hside as [<-|[<-|[<-|[<-|[]]]]]; (eexists; split; [reflexivity|]; split; [reflexivity|]);
    (eapply zeval_iff;
      [eapply zeval_node; [reflexivity|cbn [cpk mapM]; rewrite ?S0, ?S1, ?S2, ?S3, ?U0, ?U1, ?U2, ?U3; cbn [bind]; reflexivity|reflexivity|
        constructor; [eapply reversed_zeval; eassumption|constructor]]
      |rewrite all_cons, all_nil; cbn; tauto]).
Qed.
Lemma axes_sel (a : prim) key q : noslash key = true -> dget key (nch a) = Some q -> select [a] (argk 0 ++ String slash key) = Ok q.
Proof. intros H1 H2. apply sel0. now apply dget_get_child. Qed.

Lemma position_zeval name axis side twin a f v tv : In side sides ->
  noslash (upper axis ++ "Axis") = true -> noslash ("Twin" ++ upper axis ++ "Axis") = true ->
  axes_quad a "Frame" f -> axes_quad a (upper axis ++ "Axis")%string v -> (twin = true -> axes_quad a ("Twin" ++ upper axis ++ "Axis")%string tv) ->
  exists c, PositionAxis name axis side twin = Ok c /\ csig (nval c) = msig [TAxes] 0 0 /\
    zeval c [a] [] (edge side f = swap (edge (across side) v) /\ (twin = true -> edge (across side) f = swap (edge side tv))).
Proof.
  intros Hside N1 N2 (Ha & q & Gf & Hf) (_ & r & Gv & Hv) Ht.
  destruct (faces_zeval side q r f v Hside Hf Hv) as (c0 & E0 & _ & Z0).
  pose proof (axes_sel a "Frame" q eq_refl Gf : select [a] "arg0/Frame" = _) as Sf.
  pose proof (axes_sel a _ r N1 Gv) as Sv.
  unfold PositionAxis. rewrite E0. cbn [bind]. destruct twin.
  - destruct (Ht eq_refl) as (_ & s & Gs & Hs). pose proof (axes_sel a _ s N2 Gs) as Ss.
    assert (Hos : opposite_side side = Ok (across side) /\ In (across side) sides /\ across (across side) = side).
    { destruct Hside as [<-|[<-|[<-|[<-|[]]]]]; cbn; auto 10. }
    destruct Hos as (Eo & Hside' & Eaa). rewrite Eo. cbn [bind].
    destruct (faces_zeval (across side) q s f tv Hside' Hf Hs) as (c1 & E1 & _ & Z1). rewrite E1. cbn [bind].
    rewrite Eaa in Z1. eexists. split; [reflexivity|]. split; [reflexivity|].
    eapply zeval_iff.
    + eapply zeval_node; [reflexivity| |reflexivity|].
      * cbn [cpk mapM]. rewrite Sf. cbn [bind].
        change ("arg0/" ++ upper axis ++ "Axis")%string with (argk 0 ++ String slash (upper axis ++ "Axis"))%string. rewrite Sv. cbn [bind].
        change ("arg0/Twin" ++ upper axis ++ "Axis")%string with (argk 0 ++ String slash ("Twin" ++ upper axis ++ "Axis"))%string. rewrite Ss. cbn [bind]. reflexivity.
      * constructor; [exact Z0|]. constructor; [exact Z1|]. constructor.
    + rewrite !all_cons, all_nil. intuition.
  - eexists. split; [reflexivity|]. split; [reflexivity|].
    eapply zeval_iff.
    + eapply zeval_node; [reflexivity| |reflexivity|].
      * cbn [cpk mapM]. rewrite Sf. cbn [bind].
        change ("arg0/" ++ upper axis ++ "Axis")%string with (argk 0 ++ String slash (upper axis ++ "Axis"))%string. rewrite Sv. cbn [bind]. reflexivity.
      * constructor; [exact Z0|]. constructor.
    + rewrite !all_cons, all_nil. intuition discriminate.
Qed.
Lemma axes_valid (c : cons) a n params : ntype a = TAxes -> csig (nval c) = msig [TAxes] 0 n -> length params = n ->
  valid_args c [a] params /\ Forall (fun p : prim => ntype p <> TNode) [a].
Proof.
  intros Ha Hc Hn. split; [|repeat constructor; rewrite Ha; discriminate]. unfold valid_args. rewrite Hc. split; [repeat constructor; rewrite Ha; reflexivity|exact Hn].
Qed.
Theorem C48_x_axis side twin a f v tv : In side sides ->
  axes_quad a "Frame" f -> axes_quad a "XAxis" v -> (twin = true -> axes_quad a "TwinXAxis" tv) ->
  exists c, PositionXAxis side twin = Ok c /\
    (vanishes c [a] [] <->
       edge side f = swap (edge (across side) v) /\ (twin = true -> edge (across side) f = swap (edge side tv))).
Proof.
  intros Hs Hf Hv Ht. destruct (position_zeval "PositionXAxis" "x" side twin a f v tv Hs eq_refl eq_refl Hf Hv Ht) as (c & C1 & C2 & C3).
  exists c. split; [exact C1|]. destruct (axes_valid c a 0 [] (proj1 Hf) C2 eq_refl) as [V P]. now apply zeval_vanishes.
Qed.
Theorem C48_y_axis side twin a f v tv : In side sides ->
  axes_quad a "Frame" f -> axes_quad a "YAxis" v -> (twin = true -> axes_quad a "TwinYAxis" tv) ->
  exists c, PositionYAxis side twin = Ok c /\
    (vanishes c [a] [] <->
       edge side f = swap (edge (across side) v) /\ (twin = true -> edge (across side) f = swap (edge side tv))).
Proof.
  intros Hs Hf Hv Ht. destruct (position_zeval "PositionYAxis" "y" side twin a f v tv Hs eq_refl eq_refl Hf Hv Ht) as (c & C1 & C2 & C3).
  exists c. split; [exact C1|]. destruct (axes_valid c a 0 [] (proj1 Hf) C2 eq_refl) as [V P]. now apply zeval_vanishes.
Qed.
(** What the edge equation says of boxes: the axis box lies outside the frame, its
    inner edge on the frame's edge. *)
Theorem C48_on_boxes side l b r t l' b' r' t' : In side sides ->
  (edge side (box_vertices l b r t) = swap (edge (across side) (box_vertices l' b' r' t')) <->
   (if String.eqb side "bottom" then l' = l /\ r' = r /\ t' = b
    else if String.eqb side "top" then l' = l /\ r' = r /\ b' = t
    else if String.eqb side "left" then b' = b /\ t' = t /\ r' = l
    else b' = b /\ t' = t /\ l' = r)).
Proof.
  intros [<-|[<-|[<-|[<-|[]]]]]; unfold box_vertices, edge, across, swap; cbn; (split; [intros E; inversion E; auto|intros (-> & -> & ->); reflexivity]).
Qed.
Theorem C48_opposite_side side s : opposite_side side = Ok s -> opposite_side s = Ok side /\ s <> side.
Proof.
  unfold opposite_side. intros H.
  repeat match type of H with context [String.eqb side ?x] => destruct (String.eqb_spec side x); [subst; inversion H; subst; split; [reflexivity|discriminate]|] end.
  discriminate.
Qed.
Theorem C48_opposite_side_domain side : (exists s, opposite_side side = Ok s) <->
  In side ["bottom"; "top"; "left"; "right"; "Line0"; "Line1"; "Line2"; "Line3"].
Proof.
  split.
  - intros (s & H). unfold opposite_side in H.
    repeat match type of H with context [String.eqb side ?x] => destruct (String.eqb_spec side x); [subst; cbn; tauto|] end. discriminate.
  - cbn. intros H. repeat (destruct H as [<-|H]; [eexists; reflexivity|]). destruct H.
Qed.

(** ** C49 *)
Lemma frame_line (a : prim) key f i lk l : noslash key = true -> dget key (nch a) = Some f -> get_child f lk = Ok l ->
  i = 0%nat -> select [a] (argk i ++ String slash (key ++ String slash lk)) = Ok l.
Proof.
  intros H1 H2 H3 ->. apply sel0. apply (proj2 (get_child_app a key lk f (dget_get_child a key f H1 H2))). exact H3.
Qed.
Theorem C49_x_label (twin : bool) a P0 P1 P2 P3 L t k :
  axes_quad a "Frame" (P0, P1, P2, P3) -> axes_point a (if twin then "TwinXAxisLabel" else "XAxisLabel") L -> P0 <> P1 ->
  num_of t = Some k ->
  exists c, PositionXAxisLabel twin = Ok c /\ (vanishes c [a] [t] <-> projection P0 P1 L / len (vec P0 P1) = k).
Proof.
  intros (Ha & q & Gf & Hf) (_ & p & Gp & Hp) Hne Ht. unfold quad_is in Hf. destruct (quad_line0 _ _ _ _ _ Hf) as (l & Gl & Hl).
  pose proof (frame_line a "Frame" q 0 "Line0" l eq_refl Gf Gl eq_refl : select [a] "arg0/Frame/Line0" = _) as Sl.
  edestruct (leaf_constraint_zeval RelativePointOnLineDistance _ _ _ [p; l] [PBool false] (projection P0 P1 L / len (vec P0 P1)) t k eq_refl) as (c0 & C1 & C2 & _ & C3);
    [reflexivity|reflexivity| |exact Ht|].
  { assert (Hz : len (vec P0 P1) <> 0). { rewrite len_zero. unfold vec. intros E. inversion E. apply Hne. destruct P0, P1; cbn in *; f_equal; lra. }
    exists (PA1 [projection P0 P1 L / len (vec P0 P1)]). split; [|reflexivity].
    rewrite (point_on_line_value p l L P0 P1 (PBool false) false Hp Hl Hne eq_refl). cbn [bind]. rewrite (line_length_value l P0 P1 Hl). cbn [bind ndiv NumR].
    unfold Rdiv_r. destruct (Req_EM_T (len (vec P0 P1)) 0); [contradiction|reflexivity]. }
  unfold PositionXAxisLabel, PositionAxisLabel, crRelativePointOnLineDistance. rewrite C1. cbn [bind].
  destruct twin.
  - pose proof (axes_sel a "TwinXAxisLabel" p eq_refl Gp : select [a] "arg0/TwinXAxisLabel" = _) as Sp.
    eexists. split; [reflexivity|]. rewrite zeval_vanishes; [reflexivity| |split; [repeat constructor; rewrite Ha; reflexivity|reflexivity]|repeat constructor; rewrite Ha; discriminate].
    eapply zeval_iff; [eapply zeval_node; [reflexivity|cbn [cpk mapM]; cbn [append]; rewrite Sp, Sl; reflexivity|reflexivity|constructor; [exact C3|constructor]]|].
    rewrite all_cons, all_nil. tauto.
  - pose proof (axes_sel a "XAxisLabel" p eq_refl Gp : select [a] "arg0/XAxisLabel" = _) as Sp.
    eexists. split; [reflexivity|]. rewrite zeval_vanishes; [reflexivity| |split; [repeat constructor; rewrite Ha; reflexivity|reflexivity]|repeat constructor; rewrite Ha; discriminate].
    eapply zeval_iff; [eapply zeval_node; [reflexivity|cbn [cpk mapM]; cbn [append]; rewrite Sp, Sl; reflexivity|reflexivity|constructor; [exact C3|constructor]]|].
    rewrite all_cons, all_nil. tauto.
Qed.
Theorem C49_y_label (twin : bool) a P0 P1 P2 P3 L t k :
  axes_quad a "Frame" (P0, P1, P2, P3) -> axes_point a (if twin then "TwinYAxisLabel" else "YAxisLabel") L -> P1 <> P2 ->
  num_of t = Some k ->
  exists c, PositionYAxisLabel twin = Ok c /\ (vanishes c [a] [t] <-> projection P1 P2 L / len (vec P1 P2) = k).
Proof.
  intros (Ha & q & Gf & Hf) (_ & p & Gp & Hp) Hne Ht. unfold quad_is in Hf. destruct (quad_line1 _ _ _ _ _ Hf) as (l & Gl & Hl).
  pose proof (frame_line a "Frame" q 0 "Line1" l eq_refl Gf Gl eq_refl : select [a] "arg0/Frame/Line1" = _) as Sl.
  edestruct (leaf_constraint_zeval RelativePointOnLineDistance _ _ _ [p; l] [PBool false] (projection P1 P2 L / len (vec P1 P2)) t k eq_refl) as (c0 & C1 & C2 & _ & C3);
    [reflexivity|reflexivity| |exact Ht|].
  { assert (Hz : len (vec P1 P2) <> 0). { rewrite len_zero. unfold vec. intros E. inversion E. apply Hne. destruct P1, P2; cbn in *; f_equal; lra. }
    exists (PA1 [projection P1 P2 L / len (vec P1 P2)]). split; [|reflexivity].
    rewrite (point_on_line_value p l L P1 P2 (PBool false) false Hp Hl Hne eq_refl). cbn [bind]. rewrite (line_length_value l P1 P2 Hl). cbn [bind ndiv NumR].
    unfold Rdiv_r. destruct (Req_EM_T (len (vec P1 P2)) 0); [contradiction|reflexivity]. }
  unfold PositionYAxisLabel, PositionAxisLabel, crRelativePointOnLineDistance. rewrite C1. cbn [bind].
  destruct twin.
  - pose proof (axes_sel a "TwinYAxisLabel" p eq_refl Gp : select [a] "arg0/TwinYAxisLabel" = _) as Sp.
    eexists. split; [reflexivity|]. rewrite zeval_vanishes; [reflexivity| |split; [repeat constructor; rewrite Ha; reflexivity|reflexivity]|repeat constructor; rewrite Ha; discriminate].
    eapply zeval_iff; [eapply zeval_node; [reflexivity|cbn [cpk mapM]; cbn [append]; rewrite Sp, Sl; reflexivity|reflexivity|constructor; [exact C3|constructor]]|].
    rewrite all_cons, all_nil. tauto.
  - pose proof (axes_sel a "YAxisLabel" p eq_refl Gp : select [a] "arg0/YAxisLabel" = _) as Sp.
    eexists. split; [reflexivity|]. rewrite zeval_vanishes; [reflexivity| |split; [repeat constructor; rewrite Ha; reflexivity|reflexivity]|repeat constructor; rewrite Ha; discriminate].
    eapply zeval_iff; [eapply zeval_node; [reflexivity|cbn [cpk mapM]; cbn [append]; rewrite Sp, Sl; reflexivity|reflexivity|constructor; [exact C3|constructor]]|].
    rewrite all_cons, all_nil. tauto.
Qed.

(** ** C50 *)
Definition tick_sides : list string := ["bottom"; "top"; "left"; "right"].
(** Visibility is restored if the axis has no extent or a tick position among the four
    sides. *)
Theorem C50_visibility_restored (a : mpl_axis R) : tightbbox a false = None \/ In (ticks_position a) tick_sides ->
  fst (get_axis_thickness a) = label_visible a /\ exists x, snd (get_axis_thickness a) = Ok x.
Proof.
  unfold get_axis_thickness. destruct (tightbbox a false) as [bb|]; [|intros _; split; [reflexivity|eexists; reflexivity]].
  intros [H|H]; [discriminate|]. destruct H as [<-|[<-|[<-|[<-|[]]]]]; cbn; (split; [reflexivity|eexists; reflexivity]).
Qed.
(** Otherwise (matplotlib also answers 'unknown' and 'default') it raises and the label
    stays hidden. *)
Theorem C50_other_positions (a : mpl_axis R) : tightbbox a false <> None -> ~ In (ticks_position a) tick_sides ->
  fst (get_axis_thickness a) = false /\ snd (get_axis_thickness a) = Err ValueErr.
Proof.
  unfold get_axis_thickness. intros H1 H2. destruct (tightbbox a false) as [bb|]; [|contradiction]. cbn [In tick_sides] in H2.
  repeat match goal with |- context [String.eqb (ticks_position a) ?s] =>
    destruct (String.eqb_spec (ticks_position a) s) as [E|_]; [exfalso; apply H2; rewrite E; tauto|] end.
  split; reflexivity.
Qed.
Theorem C50_visibility_refuted : exists a : mpl_axis R,
  label_visible a = true /\ fst (get_axis_thickness a) = false /\ snd (get_axis_thickness a) = Err ValueErr.
Proof.
  exists {| label_visible := true; tightbbox := fun _ => Some {| bxmin := 0; bymin := 0; bxmax := 1; bymax := 1 |}; ticks_position := "unknown";
            fig_size_w := 6; fig_size_h := 4; axes_bbox := {| bxmin := 0; bymin := 0; bxmax := 1; bymax := 1 |} |}.
  repeat split.
Qed.

(** ** C69 *)
(** How far the axis decorations (measured without the label) reach beyond the axes
    rectangle on the tick side, in inches; 0 if there are none. *)
Definition thickness (a : mpl_axis R) : R :=
  match tightbbox a false with
  | None => 0
  | Some e =>
      if String.eqb (ticks_position a) "bottom" then fig_size_h a * (bymin (axes_bbox a) - bymin e)
      else if String.eqb (ticks_position a) "top" then fig_size_h a * (bymax e - bymax (axes_bbox a))
      else if String.eqb (ticks_position a) "left" then fig_size_w a * (bxmin (axes_bbox a) - bxmin e)
      else fig_size_w a * (bxmax e - bxmax (axes_bbox a))
  end.
Lemma thickness_number a : tightbbox a false = None \/ In (ticks_position a) tick_sides ->
  exists x, snd (get_axis_thickness a) = Ok x /\ num_of x = Some (thickness a) /\ is_number x = true.
Proof.
  unfold get_axis_thickness, thickness. destruct (tightbbox a false) as [bb|]; [|intros _; eexists; repeat split].
  intros [H|H]; [discriminate|]. destruct H as [<-|[<-|[<-|[<-|[]]]]]; cbn; (eexists; repeat split).
Qed.
(** The parameter [None] (no axis yet) asks for thickness 0. *)
Inductive axis_param : pyval -> R -> Prop :=
| param_none : axis_param PNone 0
| param_axis a : tightbbox a false = None \/ In (ticks_position a) tick_sides -> axis_param (PAxis a) (thickness a).
Lemma thickness_params_ok v h : axis_param v h -> exists x, thickness_params [v] = Ok [[x]] /\ num_of x = Some h.
Proof.
  intros [|a Ha]; [exists (PInt 0); split; reflexivity|]. destruct (thickness_number a Ha) as (x & H1 & H2 & _).
  exists x. split; [|exact H2]. cbn [thickness_params]. rewrite H1. reflexivity.
Qed.
Theorem C69_x_axis_thickness q P0 P1 P2 P3 v h : quad_at q P0 P1 P2 P3 -> axis_param v h ->
  exists c, XAxisThickness = Ok c /\ call c [q] [v] = Ok [(snd P2 - snd P1) - h] /\ (vanishes c [q] [v] <-> snd P2 - snd P1 = h).
Proof.
  intros Hq Hv. destruct (thickness_params_ok v h Hv) as (x & T1 & T2). destruct (quad_line1 _ _ _ _ _ Hq) as (l & G & L).
  edestruct (leaf_constraint_zeval YLength _ _ _ [l] (@nil pyval) (snd P2 - snd P1) x h eq_refl) as (c0 & C1 & C2 & C3 & _);
    [reflexivity|reflexivity|now apply horizontal_value|exact T2|].
  unfold XAxisThickness, AxisThickness. cbn [String.eqb Ascii.eqb Bool.eqb]. unfold crYLength. rewrite C1. cbn [bind]. eexists. split; [reflexivity|].
  match goal with |- call ?c _ _ = _ /\ _ => assert (C : call c [q] [v] = Ok [(snd P2 - snd P1) - h]) end.
  { change [(snd P2 - snd P1) - h] with (List.concat [[]; [(snd P2 - snd P1) - h]]). apply call_denote; [constructor; [eapply quad_prim; eassumption|constructor]|split; [typed|reflexivity]|].
    rewrite denote_unfold. cbn [cpk mapM]. rewrite (sel0 q [] "Line1" l G : select [q] "arg0/Line1" = Ok l). unfold assem1. cbn [cassem compound_cls length Nat.eqb bind atleast_1d cparams].
    rewrite T1. cbn [bind]. change (dict_of (zip ["Height"] [c0])) with [("Height", c0)]. cbn [denotes]. cbn [app] in C3. rewrite C3. reflexivity. }
  split; [exact C|]. rewrite (vanishes1 _ _ _ _ C). lra.
Qed.
Theorem C69_y_axis_thickness q P0 P1 P2 P3 v h : quad_at q P0 P1 P2 P3 -> axis_param v h ->
  exists c, YAxisThickness = Ok c /\ call c [q] [v] = Ok [(fst P1 - fst P0) - h] /\ (vanishes c [q] [v] <-> fst P1 - fst P0 = h).
Proof.
  intros Hq Hv. destruct (thickness_params_ok v h Hv) as (x & T1 & T2). destruct (quad_line0 _ _ _ _ _ Hq) as (l & G & L).
  edestruct (leaf_constraint_zeval XLength _ _ _ [l] (@nil pyval) (fst P1 - fst P0) x h eq_refl) as (c0 & C1 & C2 & C3 & _);
    [reflexivity|reflexivity|now apply vertical_value|exact T2|].
  unfold YAxisThickness, AxisThickness. cbn [String.eqb Ascii.eqb Bool.eqb]. unfold crXLength. rewrite C1. cbn [bind]. eexists. split; [reflexivity|].
  match goal with |- call ?c _ _ = _ /\ _ => assert (C : call c [q] [v] = Ok [(fst P1 - fst P0) - h]) end.
  { change [(fst P1 - fst P0) - h] with (List.concat [[]; [(fst P1 - fst P0) - h]]). apply call_denote; [constructor; [eapply quad_prim; eassumption|constructor]|split; [typed|reflexivity]|].
    rewrite denote_unfold. cbn [cpk mapM]. rewrite (sel0 q [] "Line0" l G : select [q] "arg0/Line0" = Ok l). unfold assem1. cbn [cassem compound_cls length Nat.eqb bind atleast_1d cparams].
    rewrite T1. cbn [bind]. change (dict_of (zip ["Height"] [c0])) with [("Height", c0)]. cbn [denotes]. cbn [app] in C3. rewrite C3. reflexivity. }
  split; [exact C|]. rewrite (vanishes1 _ _ _ _ C). lra.
Qed.

(** ** Cases meeting the hypotheses *)
Definition gquad (P0 P1 P2 P3 : pt) : prim :=
  let ln P Q := gline (fst P) (snd P) (fst Q) (snd Q) in
  Node TQuad {| vid := 9; vdata := [] |} [("Line0", ln P0 P1); ("Line1", ln P1 P2); ("Line2", ln P2 P3); ("Line3", ln P3 P0)].
Lemma gquad_at P0 P1 P2 P3 : quad_at (gquad P0 P1 P2 P3) P0 P1 P2 P3.
Proof.
  destruct P0, P1, P2, P3. exists {| vid := 9; vdata := [] |}. do 4 eexists. split; [reflexivity|]. repeat split; apply gline_at.
Qed.
Definition gbox (l b r t : R) : prim := gquad (l, b) (r, b) (r, t) (l, t).
Lemma gbox_at l b r t : box_at (gbox l b r t) l b r t.
Proof. apply gquad_at. Qed.
Definition gaxes : prim := Node TAxes {| vid := 8; vdata := [] |}
  [("Frame", gbox 0 0 3 2); ("XAxis", gbox 0 (-1) 3 0); ("XAxisLabel", gpt 5 1 (-1)); ("TwinXAxis", gbox 0 2 3 4); ("TwinXAxisLabel", gpt 6 1 5)].
Example C48_case : axes_quad gaxes "Frame" (box_vertices 0 0 3 2) /\ axes_quad gaxes "XAxis" (box_vertices 0 (-1) 3 0) /\
  axes_quad gaxes "TwinXAxis" (box_vertices 0 2 3 4) /\ axes_point gaxes "XAxisLabel" (1, -1) /\
  (exists c, PositionXAxis "bottom" true = Ok c /\ vanishes c [gaxes] []) /\
  (exists c, PositionXAxis "top" true = Ok c /\ ~ vanishes c [gaxes] []).
Proof.
  assert (A : axes_quad gaxes "Frame" (box_vertices 0 0 3 2)) by (split; [reflexivity|eexists; split; [reflexivity|apply gquad_at]]).
  assert (B : axes_quad gaxes "XAxis" (box_vertices 0 (-1) 3 0)) by (split; [reflexivity|eexists; split; [reflexivity|apply gquad_at]]).
  assert (C : axes_quad gaxes "TwinXAxis" (box_vertices 0 2 3 4)) by (split; [reflexivity|eexists; split; [reflexivity|apply gquad_at]]).
  split; [exact A|]. split; [exact B|]. split; [exact C|]. split; [split; [reflexivity|eexists; split; [reflexivity|apply gpt_at]]|]. split.
  - destruct (C48_x_axis "bottom" true gaxes _ _ _ ltac:(cbn; tauto) A B (fun _ => C)) as (c & H & V). exists c. split; [exact H|]. apply V. split; intros; reflexivity.
  - destruct (C48_x_axis "top" true gaxes _ _ _ ltac:(cbn; tauto) A B (fun _ => C)) as (c & H & V). exists c. split; [exact H|]. rewrite V. intros [E _]. cbn in E. inversion E. lra.
Qed.
Example C41_case : (exists c, Box = Ok c /\ vanishes c [gbox 0 0 3 2] []) /\ (exists c, Box = Ok c /\ ~ vanishes c [gquad (0,0) (1,0) (1,1) (2,1)] []).
Proof.
  split.
  - destruct (C41_box _ _ _ _ _ (gbox_at 0 0 3 2)) as (c & H & V). exists c. split; [exact H|]. apply V. exists 0, 0, 3, 2. auto.
  - destruct (C41_box _ _ _ _ _ (gquad_at (0,0) (1,0) (1,1) (2,1))) as (c & H & V). exists c. split; [exact H|]. rewrite V.
    intros (l & b & r & t & E0 & E1 & E2 & E3). inversion E0; inversion E3; subst. lra.
Qed.
Example C43_case : exists c, crOuterMargin "left" = Ok c /\ vanishes c [gbox 4 0 6 1; gbox 0 0 3 2] [PInt 1] /\ num_of (PInt 1 : pyval) = Some 1.
Proof.
  destruct (C43_outer_margin "left" _ _ _ _ _ _ _ _ _ _ (PInt 1) 1 ltac:(cbn; tauto) (gbox_at 4 0 6 1) (gbox_at 0 0 3 2) eq_refl eq_refl) as (c & H & _ & V).
  exists c. split; [exact H|]. split; [|reflexivity]. apply V. unfold outer_gap. cbn. lra.
Qed.
Example C69_case : axis_param (PAxis {| label_visible := true; tightbbox := fun _ => Some {| bxmin := 0; bymin := 0; bxmax := 1; bymax := 1 |}; ticks_position := "bottom";
            fig_size_w := 6; fig_size_h := 4; axes_bbox := {| bxmin := 0; bymin := 1/4; bxmax := 1; bymax := 1 |} |}) (4 * (1 / 4 - 0)).
Proof. refine (param_axis _ _). right. cbn. tauto. Qed.

Print Assumptions C41_box.
Print Assumptions C42_width.
Print Assumptions C42_height.
Print Assumptions C42_box.
Print Assumptions C42_aspect_ratio.
Print Assumptions C43_inner_margin.
Print Assumptions C43_outer_margin.
Print Assumptions C43_other_sides_raise.
Print Assumptions C48_x_axis.
Print Assumptions C48_y_axis.
Print Assumptions C48_on_boxes.
Print Assumptions C48_opposite_side.
Print Assumptions C48_opposite_side_domain.
Print Assumptions C49_x_label.
Print Assumptions C49_y_label.
Print Assumptions C50_visibility_restored.
Print Assumptions C50_other_positions.
Print Assumptions C50_visibility_refuted.
Print Assumptions C69_x_axis_thickness.
Print Assumptions C69_y_axis_thickness.
