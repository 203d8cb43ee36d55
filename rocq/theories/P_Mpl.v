(** Properties C63-C66: matplotlib figures built from a tree.  Vocabulary: MplSpec.v. *)
From Coq Require Import Reals Lra.
From Verif Require Import GeomProofs P_Geom CompProofs P_Comp ConsProofs TreeLemmas MplProofs.
Local Open Scope R_scope.

Lemma projections_app t u : sizes (t ++ u) = sizes t ++ sizes u /\ positions (t ++ u) = positions t ++ positions u /\
  labels (t ++ u) = labels t ++ labels u /\ ticks (t ++ u) = ticks t ++ ticks u.
Proof. unfold sizes, positions, labels, ticks. now rewrite !flat_map_app. Qed.
Lemma label_part_calls root key w h pre t : label_part root key w h pre t -> sizes t = [] /\ positions t = [] /\ ticks t = [].
Proof. intros [[_ ->]|(a & p & _ & _ & x & y & -> & _)]; auto. Qed.
Lemma tick_part_calls root key q pre t : tick_part root key q pre t -> sizes t = [] /\ positions t = [] /\ labels t = [].
Proof. intros [[_ ->]|(a & p & s & _ & _ & _ & ->)]; auto. Qed.

(** One axes key of a successful run. *)
Record key_run root fl fb fr ft key (e : R * R * R * R) (t : list (mplcall R)) : Prop := {
  kr_sizes : sizes t = [];
  kr_position : exists rect, positions t = [(key, rect)] /\ covers fl fb fr ft rect e;
  kr_axis : exists a q, get_child root key = Ok a /\ dget "Frame" (nch a) = Some q /\ (let '(l, b, r, t) := e in box_at q l b r t) /\
    exists tx lx ty ly, label_part root key (fr - fl) (ft - fb) "X" lx /\ tick_part root key q "X" tx /\
      label_part root key (fr - fl) (ft - fb) "Y" ly /\ tick_part root key q "Y" ty /\
      labels t = labels lx ++ labels ly /\ ticks t = ticks tx ++ ticks ty }.
Lemma body_key_run root fl fb fr ft key e tr : fr <> fl -> ft <> fb -> part_box root key "Frame" e ->
  body root [fl; fb] (fr - fl) (ft - fb) key = (tr, Ok tt) -> key_run root fl fb fr ft key e tr.
Proof.
  destruct e as [[[l b] r] t]. intros Hw Hh Hb H.
  destruct (body_done root fl fb fr ft key l b r t tr Hw Hh Hb H) as (q & rect & tx & ty & Hq & Hc & -> & HX & HY & a & Ga & Gq).
  destruct (axis_done root key q (fr - fl) (ft - fb) "X" tx) as (lx & kx & -> & LX & KX); [cbn; auto|lra|lra|exact HX|].
  destruct (axis_done root key q (fr - fl) (ft - fb) "Y" ty) as (ly & ky & -> & LY & KY); [cbn; auto|lra|lra|exact HY|].
  destruct (label_part_calls _ _ _ _ _ _ LX) as (A1 & A2 & A3), (label_part_calls _ _ _ _ _ _ LY) as (B1 & B2 & B3).
  destruct (tick_part_calls _ _ _ _ _ KX) as (C1 & C2 & C3), (tick_part_calls _ _ _ _ _ KY) as (D1 & D2 & D3).
  assert (P : forall c u, sizes (c :: u) = sizes [c] ++ sizes u /\ positions (c :: u) = positions [c] ++ positions u /\
     labels (c :: u) = labels [c] ++ labels u /\ ticks (c :: u) = ticks [c] ++ ticks u) by (intros c u; exact (projections_app [c] u)).
  destruct rect as [[[x y] w] h].
  destruct (P (SetPosition key x y w h) ((lx ++ kx) ++ ly ++ ky)) as (P1 & P2 & P3 & P4).
  destruct (projections_app (lx ++ kx) (ly ++ ky)) as (Q1 & Q2 & Q3 & Q4). destruct (projections_app lx kx) as (R1 & R2 & R3 & R4). destruct (projections_app ly ky) as (S1 & S2 & S3 & S4).
  split.
  - rewrite P1, Q1, R1, S1, A1, B1, C1, D1. reflexivity.
  - exists (x, y, w, h). split; [|exact Hc]. rewrite P2, Q2, R2, S2, A2, B2, C2, D2. reflexivity.
  - exists a, q. split; [exact Ga|]. split; [exact Gq|]. split; [exact Hq|]. exists kx, lx, ky, ly. repeat (split; [assumption|]). split.
    + rewrite P3, Q3, R3, S3, C3, D3. cbn. now rewrite !app_nil_r.
    + rewrite P4, Q4, R4, S4, A3, B3. reflexivity.
Qed.
Lemma run_keys root fig fl fb fr ft axs boxes tr : fr <> fl -> ft <> fb -> box_in root fig fl fb fr ft ->
  Forall2 (fun k e => part_box root k "Frame" e) axs boxes -> update_subplots root fig axs = (tr, Ok tt) ->
  exists ts, length ts = length axs /\ Forall2 (fun ke t => key_run root fl fb fr ft (fst ke) (snd ke) t) (zip axs boxes) ts /\
    tr = SetSizeInches (fr - fl) (ft - fb) :: List.concat ts.
Proof.
  intros Hw Hh Hfig Hb H. destruct (run_done root fig fl fb fr ft axs tr Hfig H) as (ts & -> & Hts).
  exists ts. split; [clear -Hts; induction Hts; cbn; congruence|]. split; [|reflexivity]. clear H. revert ts Hts.
  induction Hb as [|k e ks es Hk _ IH]; intros ts Hts; inversion Hts as [|? t ? ts' Ht Hts']; subst; cbn [zip]; constructor; auto.
  cbn [fst snd]. now apply body_key_run.
Qed.
Lemma concat_calls ts : sizes (List.concat ts) = List.concat (map sizes ts) /\ positions (List.concat ts) = List.concat (map positions ts) /\
  labels (List.concat ts) = List.concat (map labels ts) /\ ticks (List.concat ts) = List.concat (map ticks ts).
Proof.
  induction ts as [|t ts (I1 & I2 & I3 & I4)]; [auto|]. cbn [List.concat map]. destruct (projections_app t (List.concat ts)) as (A & B & C & D).
  rewrite A, B, C, D, I1, I2, I3, I4. auto.
Qed.

(** ** C63 *)
(** Every successful run sets the size once, to the figure box's, and places each axes
    once, in the order given, exactly on its frame. *)
Theorem C63_geometry root fig fl fb fr ft axs boxes tr : fr <> fl -> ft <> fb ->
  box_in root fig fl fb fr ft -> Forall2 (fun k e => part_box root k "Frame" e) axs boxes ->
  update_subplots root fig axs = (tr, Ok tt) ->
  sizes tr = [(fr - fl, ft - fb)] /\ map fst (positions tr) = axs /\
  Forall2 (covers fl fb fr ft) (map snd (positions tr)) boxes.
Proof.
  intros Hw Hh Hfig Hb H. destruct (run_keys _ _ _ _ _ _ _ _ _ Hw Hh Hfig Hb H) as (ts & _ & Hts & ->).
  change (SetSizeInches (fr - fl) (ft - fb) :: List.concat ts) with ([SetSizeInches (fr - fl) (ft - fb)] ++ List.concat ts).
  destruct (projections_app [SetSizeInches (fr - fl) (ft - fb)] (List.concat ts)) as (E1 & E2 & _). destruct (concat_calls ts) as (F1 & F2 & _).
  rewrite E1, E2, F1, F2. cbn [sizes positions flat_map app]. clear E1 E2 F1 F2 H.
  assert (G : List.concat (map sizes ts) = [] /\ map fst (List.concat (map positions ts)) = axs /\ Forall2 (covers fl fb fr ft) (map snd (List.concat (map positions ts))) boxes).
  { revert ts Hts. induction Hb as [|k e ks es Hk Hes IH]; intros ts Hts; cbn [zip] in Hts; inversion Hts as [|? t ? ts' Ht Hts']; subst; cbn [map List.concat].
    - repeat split; constructor.
    - destruct (IH _ Hts') as (I1 & I2 & I3). destruct Ht as [K1 (rect & K2 & K3) _]. cbn [fst snd] in *. rewrite K1, K2. cbn [app map fst snd].
      rewrite I1, I2. repeat split. constructor; assumption. }
  destruct G as (G1 & G2 & G3). rewrite G1. auto.
Qed.
(** It succeeds whenever each axes has a frame box, and each label (axis) it has is a
    point (quadrilateral). *)
Theorem C63_succeeds root fig fl fb fr ft axs : fr <> fl -> ft <> fb -> box_in root fig fl fb fr ft ->
  (forall key, In key axs -> (exists e, part_box root key "Frame" e) /\
     forall pre, In pre axis_names ->
       (part_missing root key (pre ++ "AxisLabel") \/ exists P, part_point root key (pre ++ "AxisLabel") P) /\
       (part_missing root key (pre ++ "Axis") \/ part_quad root key (pre ++ "Axis"))) ->
  exists tr, update_subplots root fig axs = (tr, Ok tt).
Proof. apply update_subplots_runs. Qed.
(** The same for a figure newly made by subplots. *)
Lemma subplots_done (root : prim) fig keys tr : subplots root fig keys = (tr, Ok tt) ->
  exists ks axs tr', ks = match keys with Some ks => ks | None => filter (contains_sub "Axes") (nkeys root) end /\
    axs = dkeys (dict_of (map (fun k => (k, tt)) ks)) /\
    tr = NewFigure :: map AddAxes ks ++ tr' /\ update_subplots root fig axs = (tr', Ok tt).
Proof.
  unfold subplots. intros H. apply mbind_ok in H as (t1 & t2 & u & E1 & H & ->). injection E1 as <- <-.
  set (ks := match keys with Some ks => ks | None => _ end) in *.
  apply mbind_ok in H as (t3 & t4 & u' & E2 & H & ->). apply mseq_ok in E2 as (ts & -> & Hts).
  exists ks, (dkeys (dict_of (map (fun k => (k, tt)) ks))), t4. split; [reflexivity|]. split; [reflexivity|]. split; [|exact H].
  cbn [app]. do 2 f_equal. clear -Hts. induction Hts as [|k t ks ts Hk _ IH]; [reflexivity|]. cbn. rewrite IH. unfold mcall in Hk. now inversion Hk.
Qed.

Lemma made_calls ks : sizes (NewFigure :: map AddAxes ks) = [] /\ positions (NewFigure :: map AddAxes ks) = [] /\
  labels (NewFigure :: map AddAxes ks) = [] /\ ticks (NewFigure :: map AddAxes ks) = [].
Proof. induction ks as [|k ks IH]; [auto|]. exact IH. Qed.
Lemma keys_of_dict ks : NoDup ks -> dkeys (dict_of (map (fun k => (k, tt)) ks)) = ks.
Proof.
  intros H. rewrite dict_of_nodup; unfold dkeys; rewrite map_map; cbn; [|rewrite map_id; assumption]. apply map_id.
Qed.
Theorem C63_subplots root fig fl fb fr ft keys boxes tr : fr <> fl -> ft <> fb ->
  box_in root fig fl fb fr ft -> NoDup keys -> Forall2 (fun k e => part_box root k "Frame" e) keys boxes ->
  subplots root fig (Some keys) = (tr, Ok tt) ->
  sizes tr = [(fr - fl, ft - fb)] /\ map fst (positions tr) = keys /\
  Forall2 (covers fl fb fr ft) (map snd (positions tr)) boxes.
Proof.
  intros Hw Hh Hfig Hn Hb H. destruct (subplots_done _ _ _ _ H) as (ks & axs & tr' & -> & -> & -> & H').
  rewrite keys_of_dict in H' by assumption.
  change (NewFigure :: map AddAxes keys ++ tr') with ((NewFigure :: map AddAxes keys) ++ tr').
  destruct (projections_app (NewFigure :: map AddAxes keys) tr') as (-> & -> & _). destruct (made_calls keys) as (-> & -> & _).
  now apply (C63_geometry root fig fl fb fr ft keys boxes).
Qed.

(** ** C64 *)
(** Refuted: the label of an axes in a figure box away from the origin is put elsewhere. *)
Definition away : prim := Node TNode {| vid := 0; vdata := [] |}
  [("Figure", gbox 1 1 3 3); ("Axes", Node TAxes {| vid := 1; vdata := [] |} [("Frame", gbox 1 1 3 3); ("XAxisLabel", gpt 2 2 2)])].
Theorem C64_label_position_refuted :
  ~ (forall root fig fl fb fr ft axs tr key pre x y P, fr <> fl -> ft <> fb -> box_in root fig fl fb fr ft ->
       (forall k, In k axs -> exists e, part_box root k "Frame" e) ->
       update_subplots root fig axs = (tr, Ok tt) -> In (key, pre, (x, y)) (labels tr) ->
       part_point root key (pre ++ "AxisLabel") P -> shown fl fb fr ft x y = P).
Proof.
  intros H.
  assert (Hfig : box_in away "Figure" 1 1 3 3) by (eexists; split; [reflexivity|apply gquad_at]).
  assert (Hfr : part_box away "Axes" "Frame" (1, 1, 3, 3)) by (eexists _, _; split; [reflexivity|]; split; [reflexivity|apply gquad_at]).
  assert (Hp : part_point away "Axes" "XAxisLabel" (2, 2)) by (eexists _, _; split; [reflexivity|]; split; [reflexivity|eexists _, _; reflexivity]).
  assert (D : 3 <> 1) by lra.
  destruct (C63_succeeds away "Figure" 1 1 3 3 ["Axes"] D D Hfig) as [tr E].
  { intros k [<-|[]]. split; [eauto|]. intros pre [<-|[<-|[]]]; (split; [|left; eexists; split; reflexivity]).
    - right. eauto.
    - left. eexists; split; reflexivity. }
  destruct (run_keys away "Figure" 1 1 3 3 ["Axes"] [(1, 1, 3, 3)] tr D D Hfig) as (ts & _ & Hts & Etr); [repeat (constructor; [assumption|]); constructor|exact E|].
  cbn [zip] in Hts. inversion Hts as [|? t ? ts' Ht Hn]; subst. inversion Hn; subst. destruct Ht as [_ _ (a & q & Ga & _ & _ & tx & lx & ty & ly & LX & _ & _ & _ & EL & _)].
  cbn [fst snd] in *. destruct LX as [[(a' & Ga' & Gm) _]|(a' & p & Ga' & Gp & x & y & -> & Hxy)].
  { inversion Ga'; subst a'. discriminate. }
  inversion Ga'; subst a'. cbn in Gp. injection Gp as <-. destruct (Hxy (2, 2)) as [Hx Hy]; [eexists _, _; reflexivity|]. cbn [fst snd] in *.
  assert (S : shown 1 1 3 3 x y = (2, 2)).
  { refine (H away "Figure" 1 1 3 3 ["Axes"] _ "Axes" "X" x y (2, 2) D D Hfig _ E _ Hp); [intros k [<-|[]]; eauto|].
    cbn [List.concat labels flat_map app]. rewrite app_nil_r. fold (labels t). rewrite EL. now left. }
  unfold shown in S. inversion S. lra.
Qed.
(** What holds: there is one call for each label present and none for others, and the
    coordinates, scaled by the figure size, are the label point measured from the
    origin of the layout - so the label is where it should be if the figure's lower
    left corner is at the origin. *)
Theorem C64_label_position root fig fl fb fr ft axs boxes tr : fr <> fl -> ft <> fb ->
  box_in root fig fl fb fr ft -> Forall2 (fun k e => part_box root k "Frame" e) axs boxes ->
  update_subplots root fig axs = (tr, Ok tt) ->
  (forall key pre x y, In (key, pre, (x, y)) (labels tr) -> In key axs /\ In pre axis_names /\ ~ part_missing root key (pre ++ "AxisLabel") /\
     forall P, part_point root key (pre ++ "AxisLabel") P ->
       shown 0 0 (fr - fl) (ft - fb) x y = P /\ (fl = 0 -> fb = 0 -> shown fl fb fr ft x y = P)) /\
  (forall key pre, In key axs -> In pre axis_names -> ~ part_missing root key (pre ++ "AxisLabel") ->
     exists x y, In (key, pre, (x, y)) (labels tr)).
Proof.
  intros Hw Hh Hfig Hb H. destruct (run_keys _ _ _ _ _ _ _ _ _ Hw Hh Hfig Hb H) as (ts & _ & Hts & ->).
  change (SetSizeInches (fr - fl) (ft - fb) :: List.concat ts) with ([SetSizeInches (fr - fl) (ft - fb)] ++ List.concat ts).
  destruct (projections_app [SetSizeInches (fr - fl) (ft - fb)] (List.concat ts)) as (_ & _ & -> & _). destruct (concat_calls ts) as (_ & _ & -> & _).
  cbn [labels flat_map app]. clear H Hfig.
  assert (Value : forall key pre t, label_part root key (fr - fl) (ft - fb) pre t -> In pre axis_names -> forall k p x y, In (k, p, (x, y)) (labels t) ->
     k = key /\ p = pre /\ ~ part_missing root key (pre ++ "AxisLabel") /\
     forall P, part_point root key (pre ++ "AxisLabel") P -> shown 0 0 (fr - fl) (ft - fb) x y = P /\ (fl = 0 -> fb = 0 -> shown fl fb fr ft x y = P)).
  { intros key pre t [[_ ->]|(a & p & Ga & Gp & x & y & -> & Hxy)] Hpre k p' x' y' Hin; [destruct Hin|].
    destruct Hin as [E|[]]. inversion E; subst. split; [reflexivity|]. split; [reflexivity|]. split.
    - intros (a' & Ga' & Gm). congruence.
    - intros P (a' & p'' & Ga' & Gp' & Hp). assert (a' = a) by congruence. subst a'. assert (p'' = p) by congruence. subst p''.
      destruct (Hxy P Hp) as [Hx Hy]. destruct P as [px py]; cbn [fst snd] in *. unfold shown. split; [f_equal; lra|intros -> ->; f_equal; lra]. }
  assert (There : forall key pre t, label_part root key (fr - fl) (ft - fb) pre t -> ~ part_missing root key (pre ++ "AxisLabel") ->
     exists x y, In (key, pre, (x, y)) (labels t)).
  { intros key pre t [[Hm _]|(a & p & Ga & Gp & x & y & -> & Hxy)] Hn; [contradiction|]. exists x, y. now left. }
  revert ts Hts. induction Hb as [|k e ks es Hk Hes IH]; intros ts Hts; cbn [zip] in Hts; inversion Hts as [|? t ? ts' Ht Hts']; subst; cbn [map List.concat].
  - split; [intros ? ? ? ? []|intros ? ? []].
  - destruct (IH _ Hts') as (I1 & I2). destruct Ht as [_ _ (a & q & _ & _ & _ & tx & lx & ty & ly & LX & _ & LY & _ & EL & _)]. cbn [fst snd] in *. rewrite EL. split.
    + intros key pre x y Hin. rewrite !in_app_iff in Hin. destruct Hin as [[Hin|Hin]|Hin].
      * destruct (Value k "X" lx LX ltac:(cbn; auto) _ _ _ _ Hin) as (-> & -> & V1 & V2). split; [now left|]. split; [cbn; auto|]. auto.
      * destruct (Value k "Y" ly LY ltac:(cbn; auto) _ _ _ _ Hin) as (-> & -> & V1 & V2). split; [now left|]. split; [cbn; auto|]. auto.
      * destruct (I1 _ _ _ _ Hin) as (J1 & J2 & J3 & J4). split; [now right|]. auto.
    + intros key pre [<-|Hin] Hpre Hn.
      * destruct Hpre as [<-|[<-|[]]].
        -- destruct (There _ _ _ LX Hn) as (x & y & Hi). exists x, y. rewrite !in_app_iff. auto.
        -- destruct (There _ _ _ LY Hn) as (x & y & Hi). exists x, y. rewrite !in_app_iff. auto.
      * destruct (I2 key pre Hin Hpre Hn) as (x & y & Hi). exists x, y. rewrite !in_app_iff. auto.
Qed.

(** ** C65 *)
(** For any two quadrilaterals: the side chosen is one whose frame edge is nearest to
    being the facing edge of the axis, the first such in the order bottom, top, left,
    right. *)
Theorem C65_nearest_side frame axis u v : quad_is frame u -> quad_is axis v ->
  exists s, find_axis_position frame axis = Ok s /\ In s side_order /\
    forall s', In s' side_order -> mismatch (edge s u) (edge (across s) v) <= mismatch (edge s' u) (edge (across s') v).
Proof.
  intros Hu Hv. destruct (find_axis_position_value frame axis u v Hu Hv) as (i & Hi & E & Hmin & _).
  eexists. split; [exact E|]. split; [apply nth_In; exact Hi|]. intros s' Hs'.
  destruct (In_nth _ _ EmptyString Hs') as (j & Hj & <-). apply Hmin. exact Hj.
Qed.
(** On boxes of positive size the side the axis is placed on is found. *)
Theorem C65_tick_side side frame axis l b r t l' b' r' t' : In side sides ->
  box_at frame l b r t -> box_at axis l' b' r' t' -> l < r -> b < t -> l' <= r' -> b' <= t' ->
  edge side (box_vertices l b r t) = swap (edge (across side) (box_vertices l' b' r' t')) ->
  find_axis_position frame axis = Ok side.
Proof.
  intros Hside Hf Ha Hlr Hbt Hlr' Hbt' He.
  destruct (find_axis_position_value frame axis (box_vertices l b r t) (box_vertices l' b' r' t') Hf Ha) as (i & Hi & E & Hmin & _).
  cbv zeta in Hmin. rewrite E. f_equal.
  assert (Hs : exists j, (j < 4)%nat /\ nth j side_order EmptyString = side).
  { destruct Hside as [<-|[<-|[<-|[<-|[]]]]]; [exists 2%nat|exists 3%nat|exists 0%nat|exists 1%nat]; (split; [lia|reflexivity]). }
  destruct Hs as (j & Hj & Ej). specialize (Hmin j Hj). rewrite Ej in Hmin.
  rewrite (proj2 (mismatch_zero _ _) He) in Hmin.
  assert (Z : mismatch (edge (nth i side_order EmptyString) (box_vertices l b r t)) (edge (across (nth i side_order EmptyString)) (box_vertices l' b' r' t')) = 0).
  { apply Rle_antisym; [exact Hmin|apply mismatch_pos]. }
  apply mismatch_zero in Z.
  apply (C48_on_boxes side l b r t l' b' r' t' Hside) in He.
  assert (Hi' : In (nth i side_order EmptyString) sides).
  { do 4 (destruct i as [|i]; [cbn; tauto|]). lia. }
  apply (C48_on_boxes (nth i side_order EmptyString) l b r t l' b' r' t' Hi') in Z.
  clear E Hmin Hj Ej Hi' Hf Ha. destruct Hside as [<-|[<-|[<-|[<-|[]]]]]; do 4 (destruct i as [|i]; [cbn in Z, He |- *; first [reflexivity|exfalso; lra]|]); lia.
Qed.
(** In a run of update_subplots: an x or y axis that its position constraint puts on a
    side gets its ticks on that side, and only there. *)
Theorem C65_ticks_follow_axis root fig fl fb fr ft axs boxes tr : fr <> fl -> ft <> fb ->
  box_in root fig fl fb fr ft -> Forall2 (fun k e => part_box root k "Frame" e) axs boxes ->
  update_subplots root fig axs = (tr, Ok tt) ->
  forall key pre side l b r t l' b' r' t', In key axs -> In pre axis_names -> In side sides ->
    part_box root key "Frame" (l, b, r, t) -> part_box root key (pre ++ "Axis") (l', b', r', t') ->
    l < r -> b < t -> l' <= r' -> b' <= t' ->
    edge side (box_vertices l b r t) = swap (edge (across side) (box_vertices l' b' r' t')) ->
    In (key, pre, side) (ticks tr) /\ forall s, In (key, pre, s) (ticks tr) -> s = side.
Proof.
  intros Hw Hh Hfig Hb H key pre side l b r t l' b' r' t' Hkey Hpre Hside (a & q & Ga & Gq & Hq) (a' & x & Ga' & Gx & Hx) Hlr Hbt Hlr' Hbt' He.
  assert (a' = a) by congruence. subst a'. pose proof (C65_tick_side side q x l b r t l' b' r' t' Hside Hq Hx Hlr Hbt Hlr' Hbt' He) as Hfind.
  destruct (run_keys _ _ _ _ _ _ _ _ _ Hw Hh Hfig Hb H) as (ts & _ & Hts & ->).
  change (SetSizeInches (fr - fl) (ft - fb) :: List.concat ts) with ([SetSizeInches (fr - fl) (ft - fb)] ++ List.concat ts).
  destruct (projections_app [SetSizeInches (fr - fl) (ft - fb)] (List.concat ts)) as (_ & _ & _ & ->). destruct (concat_calls ts) as (_ & _ & _ & ->).
  cbn [ticks flat_map app]. clear H Hfig.
  assert (Own : forall t0, tick_part root key q pre t0 -> ticks t0 = [(key, pre, side)]).
  { intros t0 [[(a' & Ga'' & Gm) _]|(a' & x' & s & Ga'' & Gx' & Hs & ->)]; assert (a' = a) by congruence; subst a'; [congruence|].
    assert (x' = x) by congruence. subst x'. assert (s = side) by congruence. subst s. reflexivity. }
  assert (Other : forall k p q0 t0 s, tick_part root k q0 p t0 -> In (key, pre, s) (ticks t0) -> k = key /\ p = pre).
  { intros k p q0 t0 s [[_ ->]|(a' & x' & s' & _ & _ & _ & ->)] Hin; [destruct Hin|]. destruct Hin as [Ein|[]]. inversion Ein. auto. }
  assert (Only : forall ks es ts, Forall2 (fun ke t => key_run root fl fb fr ft (fst ke) (snd ke) t) (zip ks es) ts ->
    forall s, In (key, pre, s) (List.concat (map ticks ts)) -> s = side).
  { intros ks es ts0. generalize (zip ks es). intros kes. revert ts0. induction kes as [|[k e] kes IH]; intros ts0 Hts0 s Hin; inversion Hts0 as [|? t0 ? ts' Ht Hts']; subst; [destruct Hin|].
    cbn [map List.concat] in Hin. apply in_app_or in Hin as [Hin|Hin]; [|eapply IH; eassumption].
    destruct Ht as [_ _ (a' & q' & Ga'' & Gq' & _ & tx & lx & ty & ly & _ & TX & _ & TY & _ & ET)]. cbn [fst snd] in *. rewrite ET in Hin.
    apply in_app_or in Hin as [Hin|Hin]; [destruct (Other _ _ _ _ _ TX Hin) as [-> Ep]|destruct (Other _ _ _ _ _ TY Hin) as [-> Ep]];
      assert (a' = a) by congruence; subst a'; assert (q' = q) by congruence; subst q'; subst pre.
    - rewrite (Own _ TX) in Hin. destruct Hin as [Ein|[]]. now inversion Ein.
    - rewrite (Own _ TY) in Hin. destruct Hin as [Ein|[]]. now inversion Ein. }
  split; [|intros s Hs; eapply Only; eassumption].
  clear Only. revert ts Hts. induction Hb as [|k e ks es Hk Hes IH]; intros ts Hts; [destruct Hkey|].
  cbn [zip] in Hts; inversion Hts as [|? t0 ? ts' Ht Hts']; subst; cbn [map List.concat]. apply in_or_app. destruct Hkey as [->|Hkey]; [left|right; apply IH; assumption].
  destruct Ht as [_ _ (a' & q' & Ga'' & Gq' & _ & tx & lx & ty & ly & _ & TX & _ & TY & _ & ET)]. cbn [fst snd] in *.
  assert (a' = a) by congruence; subst a'; assert (q' = q) by congruence; subst q'. rewrite ET. apply in_or_app.
  destruct Hpre as [<-|[<-|[]]]; [left; rewrite (Own _ TX)|right; rewrite (Own _ TY)]; now left.
Qed.

(** In terms of the position constraints of C48: once PositionXAxis (PositionYAxis) is
    satisfied, the ticks are on the side it names. *)
Theorem C65_position_constraint root fig fl fb fr ft axs boxes tr : fr <> fl -> ft <> fb ->
  box_in root fig fl fb fr ft -> Forall2 (fun k e => part_box root k "Frame" e) axs boxes ->
  update_subplots root fig axs = (tr, Ok tt) ->
  forall key a pre side l b r t l' b' r' t' c, In key axs -> get_child root key = Ok a -> In side sides ->
    axes_quad a "Frame" (box_vertices l b r t) -> axes_quad a (pre ++ "Axis") (box_vertices l' b' r' t') ->
    l < r -> b < t -> l' <= r' -> b' <= t' ->
    (pre = "X" /\ PositionXAxis side false = Ok c \/ pre = "Y" /\ PositionYAxis side false = Ok c) -> vanishes c [a] [] ->
    In (key, pre, side) (ticks tr) /\ forall s, In (key, pre, s) (ticks tr) -> s = side.
Proof.
  intros Hw Hh Hfig Hb H key a pre side l b r t l' b' r' t' c Hkey Ga Hside Hf Hx Hlr Hbt Hlr' Hbt' Hc Hv.
  assert (He : edge side (box_vertices l b r t) = swap (edge (across side) (box_vertices l' b' r' t')) /\ In pre axis_names).
  { destruct Hc as [[-> Hc]|[-> Hc]].
    - destruct (C48_x_axis side false a _ _ (box_vertices 0 0 0 0) Hside Hf Hx ltac:(discriminate)) as (c' & E & V). assert (c' = c) by congruence. subst c'.
      split; [exact (proj1 (proj1 V Hv))|cbn; auto].
    - destruct (C48_y_axis side false a _ _ (box_vertices 0 0 0 0) Hside Hf Hx ltac:(discriminate)) as (c' & E & V). assert (c' = c) by congruence. subst c'.
      split; [exact (proj1 (proj1 V Hv))|cbn; auto]. }
  destruct He as [He Hpre]. destruct Hf as (_ & q & Gq & Hq), Hx as (_ & x & Gx & Hx).
  apply (C65_ticks_follow_axis root fig fl fb fr ft axs boxes tr Hw Hh Hfig Hb H key pre side l b r t l' b' r' t'); auto.
  - exists a, q. auto.
  - exists a, x. auto.
Qed.

(** ** C66 *)
Lemma is_prefix_spec p s : is_prefix p s = true <-> exists r, s = (p ++ r)%string.
Proof.
  revert s. induction p as [|c p IH]; intros s; cbn [is_prefix].
  - split; [intros _; now exists s|reflexivity].
  - destruct s as [|d s]; [split; [discriminate|intros [r E]; discriminate]|].
    destruct (Ascii.eqb c d) eqn:E; cbn [andb].
    + apply Ascii.eqb_eq in E as ->. rewrite IH. split; intros [r Hr]; exists r; [now rewrite Hr|cbn in Hr; now inversion Hr].
    + split; [discriminate|]. intros [r Hr]. cbn in Hr. inversion Hr; subst. now rewrite Ascii.eqb_refl in E.
Qed.
Lemma contains_sub_spec p s : contains_sub p s = true <-> exists pre post, s = (pre ++ p ++ post)%string.
Proof.
  induction s as [|c s IH]; cbn [contains_sub]; rewrite Bool.orb_true_iff, is_prefix_spec.
  - split; [intros [[r Hr]|]; [exists EmptyString, r; exact Hr|discriminate]|]. intros (pre & post & E). left. destruct pre; [exists post; exact E|discriminate].
  - rewrite IH. split.
    + intros [[r Hr]|(pre & post & Hr)]; [exists EmptyString, r; exact Hr|exists (String c pre), post; now rewrite Hr].
    + intros (pre & post & E). destruct pre as [|d pre]; [left; exists post; exact E|right]. cbn in E. inversion E; subst. eauto.
Qed.
(** A computation that creates nothing. *)
Definition quiet {A} (m : M (F:=R) A) : Prop := added (fst m) = [] /\ figures (fst m) = 0%nat.
Lemma quiet_bind {A B} (m : M (F:=R) A) (f : A -> M B) : quiet m -> (forall a, quiet (f a)) -> quiet (mbind m f).
Proof.
  intros [H1 H2] Hf. destruct m as [t [a|e]]; [|exact (conj H1 H2)]. destruct (Hf a) as [F1 F2]. cbn. destruct (f a) as [t' r]. cbn [fst] in *.
  unfold quiet. cbn [fst]. unfold added, figures in *. rewrite !flat_map_app, app_length, H1, F1. split; [reflexivity|lia].
Qed.
Lemma quiet_lift {A} (r : result A) : quiet (mlift (F:=R) r).
Proof. split; reflexivity. Qed.
Lemma quiet_ret : quiet (mret (F:=R) tt).
Proof. split; reflexivity. Qed.
Lemma quiet_seq {A} (f : A -> M (F:=R) unit) l : (forall x, quiet (f x)) -> quiet (mseq f l).
Proof. intros H. induction l as [|x l IH]; cbn [mseq]; [apply quiet_ret|]. now apply quiet_bind. Qed.
Lemma quiet_axis root key q s pre : quiet (update_axis (F:=R) root key q s pre).
Proof.
  unfold update_axis. apply quiet_bind; [apply quiet_lift|]. intros b1. apply quiet_bind.
  { destruct b1; [|apply quiet_ret]. apply quiet_bind; [apply quiet_lift|]. intros xy. split; reflexivity. }
  intros _. apply quiet_bind; [apply quiet_lift|]. intros b2. destruct b2; [|apply quiet_ret].
  apply quiet_bind; [apply quiet_lift|]. intros s'. split; reflexivity.
Qed.
Lemma quiet_update root fig axs : quiet (update_subplots (F:=R) root fig axs).
Proof.
  unfold update_subplots. apply quiet_bind; [apply quiet_lift|]. intros [[o w] h]. apply quiet_bind; [split; reflexivity|]. intros _.
  apply quiet_seq. intros key. apply quiet_bind; [apply quiet_lift|]. intros [quad [[[x y] w'] h']].
  apply quiet_bind; [split; reflexivity|]. intros _. apply quiet_seq. intros pre. apply quiet_axis.
Qed.
Lemma mseq_calls {A} (f : A -> mplcall R) l : mseq (fun x => mcall (f x)) l = (map f l, Ok tt).
Proof. induction l as [|x l IH]; [reflexivity|]. cbn [mseq map]. rewrite IH. reflexivity. Qed.
Lemma subplots_creates root fig keys : let tr := fst (subplots (F:=R) root fig keys) in
  figures tr = 1%nat /\ added tr = match keys with Some ks => ks | None => filter (contains_sub "Axes") (nkeys root) end.
Proof.
  unfold subplots. set (ks := match keys with Some ks => ks | None => _ end).
  rewrite (mseq_calls (fun k => AddAxes k) ks).
  destruct (quiet_update root fig (dkeys (dict_of (map (fun k => (k, tt)) ks)))) as [Q1 Q2].
  cbn [mbind mcall]. destruct (update_subplots root fig _) as [t r]. cbn [fst] in *.
  assert (A1 : added (map (fun k => AddAxes k) ks) = ks) by (clear; unfold added; induction ks as [|k ks IH]; [reflexivity|cbn; now f_equal]).
  assert (A2 : figures (map (fun k => AddAxes k) ks) = 0%nat) by (clear; unfold figures; induction ks as [|k ks IH]; [reflexivity|exact IH]).
  unfold added, figures in *. cbn [app flat_map]. rewrite !flat_map_app. cbn [length]. rewrite app_length, A1, A2, Q1, Q2, app_nil_r. auto.
Qed.
(** Whether or not the call succeeds in the end: one figure; an axes for exactly the
    top-level keys containing "Axes", in their order, resp. for exactly the given keys. *)
Theorem C66_axes_by_name root fig : let tr := fst (subplots (F:=R) root fig None) in figures tr = 1%nat /\
  exists f, (forall k, f k = true <-> exists pre post, k = (pre ++ "Axes" ++ post)%string) /\ added tr = filter f (map fst (nch root)).
Proof.
  destruct (subplots_creates root fig None) as [H1 H2]. split; [exact H1|]. exists (contains_sub "Axes"). split; [apply contains_sub_spec|].
  exact H2.
Qed.
Theorem C66_axes_given root fig keys : let tr := fst (subplots (F:=R) root fig (Some keys)) in figures tr = 1%nat /\ added tr = keys.
Proof. apply subplots_creates. Qed.

(** ** Cases *)
Definition demo : prim := Node TPrimNode {| vid := 0; vdata := [] |} [("Figure", gbox (-1) (-2) 5 6); ("Axes1", gaxes); ("Note", gpt 9 0 0)].
Example C63_case : box_in demo "Figure" (-1) (-2) 5 6 /\ Forall2 (fun k e => part_box demo k "Frame" e) ["Axes1"] [(0, 0, 3, 2)] /\
  exists tr, update_subplots demo "Figure" ["Axes1"] = (tr, Ok tt) /\ sizes tr = [(5 - -1, 6 - -2)] /\
    In ("Axes1", "X", "bottom") (ticks tr) /\ (exists x y, In ("Axes1", "X", (x, y)) (labels tr)) /\
    added (fst (subplots demo "Figure" None)) = ["Axes1"].
Proof.
  assert (Hfig : box_in demo "Figure" (-1) (-2) 5 6) by (eexists; split; [reflexivity|apply gquad_at]).
  assert (Hfr : part_box demo "Axes1" "Frame" (0, 0, 3, 2)) by (eexists _, _; split; [reflexivity|]; split; [reflexivity|apply gquad_at]).
  assert (Hx : part_box demo "Axes1" "XAxis" (0, -1, 3, 0)) by (eexists _, _; split; [reflexivity|]; split; [reflexivity|apply gquad_at]).
  assert (Hall : Forall2 (fun k e => part_box demo k "Frame" e) ["Axes1"] [(0, 0, 3, 2)]) by (constructor; [exact Hfr|constructor]).
  split; [exact Hfig|]. split; [exact Hall|].
  assert (D1 : 5 <> -1) by lra. assert (D2 : 6 <> -2) by lra.
  destruct (C63_succeeds demo "Figure" _ _ _ _ ["Axes1"] D1 D2 Hfig) as [tr E].
  { intros k [<-|[]]. split; [eauto|]. intros pre [<-|[<-|[]]]; split.
    - right. exists (1, -1). eexists _, _. split; [reflexivity|]. split; [reflexivity|]. eexists _, _; reflexivity.
    - right. eexists _, _, (box_vertices 0 (-1) 3 0). split; [reflexivity|]. split; [reflexivity|]. apply gquad_at.
    - left. eexists; split; reflexivity.
    - left. eexists; split; reflexivity. }
  exists tr. split; [exact E|]. split; [|split; [|split]].
  - exact (proj1 (C63_geometry demo "Figure" _ _ _ _ _ _ tr D1 D2 Hfig Hall E)).
  - refine (proj1 (C65_ticks_follow_axis demo "Figure" _ _ _ _ _ _ tr D1 D2 Hfig Hall E "Axes1" "X" "bottom" 0 0 3 2 0 (-1) 3 0 _ _ _ Hfr Hx _ _ _ _ _)); try lra; try (cbn; tauto).
  - refine (proj2 (C64_label_position demo "Figure" _ _ _ _ _ _ tr D1 D2 Hfig Hall E) "Axes1" "X" _ _ _); try (cbn; tauto).
    intros (a & Ga & Gm). inversion Ga; subst a. discriminate.
  - destruct (subplots_creates demo "Figure" None) as [_ H]. rewrite H. reflexivity.
Qed.

Print Assumptions C63_geometry.
Print Assumptions C63_succeeds.
Print Assumptions C63_subplots.
Print Assumptions C64_label_position_refuted.
Print Assumptions C64_label_position.
Print Assumptions C65_nearest_side.
Print Assumptions C65_tick_side.
Print Assumptions C65_ticks_follow_axis.
Print Assumptions C65_position_constraint.
Print Assumptions C66_axes_by_name.
Print Assumptions C66_axes_given.
