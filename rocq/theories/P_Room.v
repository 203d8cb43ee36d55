(** C95: layouts whose margins make room for tick labels. *)
From Coq Require Import Reals Lra.
From Verif Require Import GeomProofs P_Geom CompProofs P_Comp ConsProofs TreeLemmas MplProofs P_Mpl GridProofs P_Grid.
From Verif Require Export RoomProofs P_End P_GridEnd.
From Verif Require Import P_Affine.
Local Open Scope R_scope.

(** ** The residual of an updated layout *)
(** After [update_layout_constraints(layout, axs)] the residual at a tree is made of the
    values of the added constraints, in order, each axis thickness constraint now having
    the drawn axis as its parameter. *)
Theorem C95_residual rid tw acts axs (l l' : layout) p rs : runs (empty_layout rid) acts l ->
  Forall (shipped_act tw) acts -> Forall top_key acts -> LayoutSpec.added acts <> [] ->
  update_layout_constraints l axs = Ok l' -> same_structure (l_prim l') p ->
  (layout_residual l' p = Ok rs <->
   exists vs, Forall2 (LayoutSpec.value_at p) (map (measured axs) (LayoutSpec.added acts)) vs /\ rs = List.concat vs).
Proof.
  intros Hr Hs Hk Hne Hu Hp. destruct (updated_flat rid tw acts axs l l' Hr Hs Hk Hu) as (El & _). rewrite El in Hp.
  assert (Hcl : Forall classes acts) by (eapply Forall_impl; [|exact Hs]; apply shipped_classes).
  eapply updated_residual; try eassumption. eapply Forall_impl; [|eapply typed_runs; eassumption]. intros x. now apply structure_typed.
Qed.
(** Every thickness constraint is on a single key [K/...] with [K] among [axs]. *)
Theorem C95_measured rid tw acts axs (l l' : layout) c ks ps : runs (empty_layout rid) acts l ->
  Forall (shipped_act tw) acts -> Forall top_key acts -> update_layout_constraints l axs = Ok l' ->
  In (c, ks, ps) (LayoutSpec.added acts) -> (is_kind KXAxisThickness c = true \/ is_kind KYAxisThickness c = true) ->
  exists key ax ay, ks = [key] /\ dget (hd EmptyString (split_all key)) axs = Some (ax, ay) /\
    measured axs (c, ks, ps) = (c, ks, [PAxis (if is_kind KYAxisThickness c then ay else ax)]).
Proof.
  intros Hr Hs Hk Hu Hin Ht. destruct (updated_flat rid tw acts axs l l' Hr Hs Hk Hu) as (_ & Hm & _).
  destruct (Hm c ks ps Hin) as (key & ax & ay & -> & D); [unfold thick; destruct Ht as [->| ->]; [reflexivity|apply orb_true_r]|].
  exists key, ax, ay. split; [reflexivity|]. split; [exact D|]. unfold measured. rewrite D.
  destruct (is_kind KYAxisThickness c); [reflexivity|]. destruct Ht as [->|Ht]; [reflexivity|discriminate].
Qed.
(** A tree solves the updated layout iff it satisfies every constraint, the thickness
    constraints with the drawn axes. *)
Theorem C95_every_constraint rid tw acts axs (l l' : layout) p z : runs (empty_layout rid) acts l ->
  Forall (shipped_act tw) acts -> Forall top_key acts -> update_layout_constraints l axs = Ok l' ->
  same_structure (l_prim l') p -> layout_residual l' p = Ok z ->
  (zeros z <-> forall c ks ps, In (c, ks, ps) (LayoutSpec.added acts) -> exists prims, mapM (get_child p) ks = Ok prims /\
     vanishes c prims (snd (measured axs (c, ks, ps)))).
Proof.
  intros Hr Hs Hk Hu Hp Hz. destruct (LayoutSpec.added acts) as [|x xs] eqn:Ex.
  - exfalso. destruct (updated_flat rid tw acts axs l l' Hr Hs Hk Hu) as (_ & _ & m & _ & Hm & Ef). rewrite Ex in Hm. cbn [map] in Hm.
    assert (Er : layout_residual l' p = layout_residual m p) by (unfold layout_residual; now rewrite Ef). rewrite Er in Hz.
    unfold layout_residual in Hz. rewrite flat_constraints_dpre in Hz. unfold holds in Hm.
    assert (E0 : nch (l_cons m) = []). { clear -Hm. remember (@nil (cons * list string * list (pyval R))) as xs eqn:E. destruct Hm; [reflexivity|]. destruct xs; discriminate. }
    rewrite E0 in Hz. discriminate.
  - rewrite <- Ex in *. assert (Hne : LayoutSpec.added acts <> []) by (rewrite Ex; discriminate). clear Ex x xs.
    apply (C95_residual rid tw acts axs l l' p z Hr Hs Hk Hne Hu Hp) in Hz as (vs & Hv & ->). unfold zeros. rewrite Forall_concat.
    clear -Hv. revert vs Hv. induction (LayoutSpec.added acts) as [|x xs IH]; intros vs Hv; inversion Hv as [|? v ? vs' H Hv']; subst.
    + split; [intros _ c ks ps []|constructor].
    + assert (Hx : forall c ks ps, x = (c, ks, ps) -> exists prims, mapM (get_child p) ks = Ok prims /\ call c prims (snd (measured axs (c, ks, ps))) = Ok v).
      { intros c ks ps ->. destruct (measured axs (c, ks, ps)) as [[c0 ks0] ps0] eqn:Em. pose proof (measured_cons axs (c, ks, ps)) as Ec. rewrite Em in Ec. cbn [fst] in Ec. injection Ec as -> ->. exact H. }
      specialize (IH _ Hv'). split.
      * intros HP c ks ps [E|Hin]; inversion HP as [|? ? P1 P2]; subst; [|now apply IH].
        destruct (Hx c ks ps eq_refl) as (prims & E1 & E2). exists prims. split; [exact E1|]. exists v. auto.
      * intros HP. destruct x as [[c ks] ps]. constructor.
        -- destruct (Hx c ks ps eq_refl) as (prims & E1 & E2). destruct (HP c ks ps (or_introl eq_refl)) as (prims' & E1' & r & E2' & E3). rewrite E1 in E1'. injection E1' as <-. rewrite E2 in E2'. injection E2' as <-. exact E3.
        -- apply IH. intros c' ks' ps' Hin. apply HP. now right.
Qed.

(** ** The figure *)
Section Figure.
  Context (acts : list (action R)) (axs : dict (mpl_axes R)) (p : prim).
  Context (Sat : forall c ks ps, In (c, ks, ps) (LayoutSpec.added acts) -> exists prims, mapM (get_child p) ks = Ok prims /\
     vanishes c prims (snd (measured axs (c, ks, ps)))).
  Context (Meas : forall c ks ps, In (c, ks, ps) (LayoutSpec.added acts) -> (is_kind KXAxisThickness c = true \/ is_kind KYAxisThickness c = true) ->
     exists key ax ay, ks = [key] /\ dget (hd EmptyString (split_all key)) axs = Some (ax, ay) /\
       measured axs (c, ks, ps) = (c, ks, [PAxis (if is_kind KYAxisThickness c then ay else ax)])).

  Lemma asked_thin rc ks ps : asked acts rc ks ps -> In rc (plain ++ twins ++ dimensions ++ margins) ->
    exists c prims, rc = Ok c /\ mapM (get_child p) ks = Ok prims /\ vanishes c prims ps.
  Proof.
    intros (c & -> & Hin) Hl. destruct (Sat _ _ _ Hin) as (prims & E1 & E2). exists c, prims. split; [reflexivity|]. split; [exact E1|].
    rewrite measured_thin in E2; [exact E2|]. pose proof (lists_thin (F:=R)) as M. rewrite forallb_forall in M. specialize (M _ Hl). cbn in M. now apply negb_true_iff in M.
  Qed.
  Lemma thick_vanish (c : cons) q a : In (Ok c) [XAxisThickness; YAxisThickness] -> vanishes c [q] [PAxis a] -> axis_param (PAxis a) (thickness a).
  Proof.
    intros H (r & E & _). constructor. unfold call in E. inv_bind E. inv_bind E. inv_bind E. inv_bind E. inv_bind E.
    match goal with X : root_params c _ = Ok _ |- _ => destruct (thick_root c a _ H X) as [Hx|(a' & d & Ea & Hd)]; [discriminate|injection Ea as <-] end.
    unfold get_axis_thickness in Hd. destruct (tightbbox a false) as [bb|]; [right|now left]. unfold tick_sides.
    repeat (match type of Hd with context [String.eqb ?x ?y] => destruct (String.eqb_spec x y) as [->|]; [cbn; tauto|] end). discriminate.
  Qed.

  Lemma boxed_at key q : get_child p key = Ok q -> (exists P0 P1 P2 P3, quad_at q P0 P1 P2 P3) -> asked acts Box [key] [] -> exists l b r t, box_at q l b r t.
  Proof.
    intros Gq (P0 & P1 & P2 & P3 & Hq) Ha. destruct (asked_thin _ _ _ Ha) as (c & prims & Ec & Em & Hv).
    { apply in_or_app. left. unfold plain. do 22 right. now left. }
    cbn [mapM] in Em. rewrite Gq in Em. cbn [bind] in Em. injection Em as <-.
    pose proof (boxed q _ _ _ _ Hq (ex_intro _ c (conj Ec Hv))) as Hb. unfold is_box in Hb. eauto.
  Qed.
  Lemma margin_at side k1 k2 q1 q2 l1 b1 r1 t1 l2 b2 r2 t2 v m : In side sides -> get_child p k1 = Ok q1 -> get_child p k2 = Ok q2 ->
    box_at q1 l1 b1 r1 t1 -> box_at q2 l2 b2 r2 t2 -> number v m -> asked acts (crInnerMargin side) [k1; k2] [v] ->
    inner_gap side l1 b1 r1 t1 l2 b2 r2 t2 = m.
  Proof.
    intros Hs G1 G2 B1 B2 [Hv1 Hv2] Ha. destruct (asked_thin _ _ _ Ha) as (c & prims & Ec & Em & Hv).
    { do 3 (apply in_or_app; right). unfold margins. apply in_or_app. right. apply in_map. exact Hs. }
    cbn [mapM] in Em. rewrite G1, G2 in Em. cbn [bind] in Em. injection Em as <-.
    destruct (C43_inner_margin side q1 q2 _ _ _ _ _ _ _ _ v m Hs B1 B2 Hv1 Hv2) as (c' & Ec' & _ & Hx). rewrite Ec in Ec'. injection Ec' as <-. now apply Hx.
  Qed.
  Lemma size_at fig q l b r t w h : get_child p fig = Ok q -> box_at q l b r t -> sized acts fig w h -> r - l = w /\ t - b = h.
  Proof.
    intros G B (_ & (vw & [w1 w2] & Aw) & (vh & [h1 h2] & Ah)). unfold box_at in B. split.
    - destruct (asked_thin _ _ _ Aw) as (c & prims & Ec & Em & Hv). { do 2 (apply in_or_app; right). apply in_or_app. left. unfold dimensions. now left. }
      cbn [mapM] in Em. rewrite G in Em. cbn [bind] in Em. injection Em as <-.
      destruct (C42_width _ _ _ _ _ _ _ B w1 w2) as (c' & Ec' & _ & Hx). rewrite Ec in Ec'. injection Ec' as <-. apply Hx in Hv. exact Hv.
    - destruct (asked_thin _ _ _ Ah) as (c & prims & Ec & Em & Hv). { do 2 (apply in_or_app; right). apply in_or_app. left. unfold dimensions. right. now left. }
      cbn [mapM] in Em. rewrite G in Em. cbn [bind] in Em. injection Em as <-.
      destruct (C42_height _ _ _ _ _ _ _ B h1 h2) as (c' & Ec' & _ & Hx). rewrite Ec in Ec'. injection Ec' as <-. apply Hx in Hv. exact Hv.
  Qed.
  Lemma thick_at (y : bool) key q l b r t v : noslash key = true ->
    get_child p (key ++ (if y then "/YAxis" else "/XAxis"))%string = Ok q -> box_at q l b r t ->
    asked acts (if y then YAxisThickness else XAxisThickness) [(key ++ (if y then "/YAxis" else "/XAxis"))%string] [v] ->
    exists ax ay, dget key axs = Some (ax, ay) /\ (if y then r - l = thickness ay else t - b = thickness ax).
  Proof.
    intros Hn G B (c & Ec & Hin). unfold box_at in B.
    assert (Hc : In (Ok c) [XAxisThickness; YAxisThickness]) by (destruct y; [right|]; left; exact Ec).
    assert (Hk : is_kind KYAxisThickness c = y /\ is_kind KXAxisThickness c = negb y).
    { unfold is_kind. destruct y; unfold YAxisThickness, XAxisThickness, AxisThickness in Ec; cbn [String.eqb Ascii.eqb Bool.eqb] in Ec; inv_bind Ec; apply construction_name in Ec; rewrite Ec; split; reflexivity. }
    destruct Hk as [Ky Kx]. destruct (Meas _ _ _ Hin) as (k & ax & ay & Ek & D & Em); [destruct y; [right; exact Ky|left; exact Kx]|].
    injection Ek as <-. rewrite Ky in Em. destruct (Sat _ _ _ Hin) as (prims & E1 & E2). rewrite Em in E2. cbn [snd] in E2.
    cbn [mapM] in E1. rewrite G in E1. cbn [bind] in E1. injection E1 as <-.
    assert (Hd : hd EmptyString (split_all (key ++ (if y then "/YAxis" else "/XAxis"))%string) = key).
    { destruct y; [change "/YAxis"%string with (String slash "YAxis")|change "/XAxis"%string with (String slash "XAxis")]; rewrite split_all_app by exact Hn; reflexivity. }
    rewrite Hd in D. exists ax, ay. split; [exact D|].
    pose proof (thick_vanish c q _ Hc E2) as Hp. destruct y.
    - destruct (C69_y_axis_thickness _ _ _ _ _ _ _ B Hp) as (c' & Ec' & _ & Hx). rewrite Ec in Ec'. injection Ec' as <-. apply Hx in E2. exact E2.
    - destruct (C69_x_axis_thickness _ _ _ _ _ _ _ B Hp) as (c' & Ec' & _ & Hx). rewrite Ec in Ec'. injection Ec' as <-. apply Hx in E2. exact E2.
  Qed.

  (** One axes. *)
  Record boxes_of (fl fb fr ft : R) (key : string) (q : axes_request) (l b r t tx ty : R) : Prop := {
    bo_frame : part_box p key "Frame" (l, b, r, t);
    bo_x : part_box p key "XAxis" (if String.eqb (x_side q) "bottom" then (l, b - tx, r, b) else (l, t, r, t + tx));
    bo_y : part_box p key "YAxis" (if String.eqb (y_side q) "left" then (l - ty, b, l, t) else (r, b, r + ty, t));
    bo_room : {| m_left := l - fl; m_right := fr - r; m_bottom := b - fb; m_top := ft - t |} = with_room q tx ty }.
  Lemma axes_at fig fq fl fb fr ft key q a : noslash key = true -> get_child p fig = Ok fq -> box_at fq fl fb fr ft ->
    get_child p key = Ok a -> ntype a = TAxes ->
    (forall part, In part ["Frame"; "XAxis"; "YAxis"]%string -> exists x, dget part (nch a) = Some x /\ exists P0 P1 P2 P3, quad_at x P0 P1 P2 P3) ->
    asked_axes acts fig key q ->
    exists ax ay l b r t, dget key axs = Some (ax, ay) /\ boxes_of fl fb fr ft key q l b r t (thickness ax) (thickness ay).
  Proof.
    intros Hn Gf Bf Ga Ta Hq (Sx & Sy & HB & HX & HY & (vx & HTx) & (vy & HTy) & HM).
    assert (Hg : forall part x, noslash part = true -> dget part (nch a) = Some x -> get_child p (key ++ String slash part)%string = Ok x).
    { intros part x Hs D. apply (proj2 (get_child_app p key part a Ga)). now apply dget_get_child. }
    destruct (Hq "Frame"%string) as (xf & Df & Qf); [cbn; tauto|]. destruct (Hq "XAxis"%string) as (xx & Dx & Qx); [cbn; tauto|]. destruct (Hq "YAxis"%string) as (xy & Dy & Qy); [cbn; tauto|].
    pose proof (Hg "Frame"%string xf eq_refl Df) as Gff. pose proof (Hg "XAxis"%string xx eq_refl Dx) as Gx. pose proof (Hg "YAxis"%string xy eq_refl Dy) as Gy. clear Hg.
    destruct (boxed_at _ _ Gff Qf (HB "/Frame"%string ltac:(cbn; tauto))) as (l & b & r & t & B).
    destruct (boxed_at _ _ Gx Qx (HB "/XAxis"%string ltac:(cbn; tauto))) as (lx & bx & rx & tx & Bx).
    destruct (boxed_at _ _ Gy Qy (HB "/YAxis"%string ltac:(cbn; tauto))) as (ly & by_ & ry & ty & By). clear HB Qf Qx Qy.
    destruct (thick_at false key xx lx bx rx tx vx Hn Gx Bx HTx) as (ax & ay & D & Tx).
    destruct (thick_at true key xy ly by_ ry ty vy Hn Gy By HTy) as (ax' & ay' & D' & Ty). rewrite D in D'. injection D' as <- <-.
    assert (Af : axes_quad a "Frame" (box_vertices l b r t)) by (split; [exact Ta|]; exists xf; auto).
    assert (Ax : axes_quad a "XAxis" (box_vertices lx bx rx tx)) by (split; [exact Ta|]; exists xx; auto).
    assert (Ay : axes_quad a "YAxis" (box_vertices ly by_ ry ty)) by (split; [exact Ta|]; exists xy; auto).
    assert (Px : edge (x_side q) (box_vertices l b r t) = swap (edge (across (x_side q)) (box_vertices lx bx rx tx))).
    { destruct (asked_thin _ _ _ HX) as (c & prims & Ec & Em & Hv). { apply in_or_app. left. unfold plain. destruct Sx as [<-|[<-|[]]]; [do 30 right; now left|do 31 right; now left]. }
      cbn [mapM] in Em. rewrite Ga in Em. cbn [bind] in Em. injection Em as <-.
      destruct (C48_x_axis (x_side q) false a _ _ (box_vertices 0 0 0 0) ltac:(destruct Sx as [<-|[<-|[]]]; cbn; tauto) Af Ax ltac:(discriminate)) as (c' & Ec' & Hx). rewrite Ec in Ec'. injection Ec' as <-. now apply Hx in Hv. }
    assert (Py : edge (y_side q) (box_vertices l b r t) = swap (edge (across (y_side q)) (box_vertices ly by_ ry ty))).
    { destruct (asked_thin _ _ _ HY) as (c & prims & Ec & Em & Hv). { apply in_or_app. left. unfold plain. destruct Sy as [<-|[<-|[]]]; [do 32 right; now left|do 33 right; now left]. }
      cbn [mapM] in Em. rewrite Ga in Em. cbn [bind] in Em. injection Em as <-.
      destruct (C48_y_axis (y_side q) false a _ _ (box_vertices 0 0 0 0) ltac:(destruct Sy as [<-|[<-|[]]]; cbn; tauto) Af Ay ltac:(discriminate)) as (c' & Ec' & Hx). rewrite Ec in Ec'. injection Ec' as <-. now apply Hx in Hv. }
    apply C48_on_boxes in Px; [|destruct Sx as [<-|[<-|[]]]; cbn; tauto]. apply C48_on_boxes in Py; [|destruct Sy as [<-|[<-|[]]]; cbn; tauto].
    assert (Mg : forall side, In side sides -> inner_gap side (if String.eqb side (x_side q) then lx else if String.eqb side (y_side q) then ly else l)
        (if String.eqb side (x_side q) then bx else if String.eqb side (y_side q) then by_ else b)
        (if String.eqb side (x_side q) then rx else if String.eqb side (y_side q) then ry else r)
        (if String.eqb side (x_side q) then tx else if String.eqb side (y_side q) then ty else t) fl fb fr ft = margin (clearance q) side).
    { intros side Hs. destruct (HM side Hs) as (v & Hv & Ha). unfold outermost in Ha.
      destruct (String.eqb side (x_side q)); [|destruct (String.eqb side (y_side q))];
        [exact (margin_at side _ _ _ _ _ _ _ _ _ _ _ _ v _ Hs Gx Gf Bx Bf Hv Ha)|exact (margin_at side _ _ _ _ _ _ _ _ _ _ _ _ v _ Hs Gy Gf By Bf Hv Ha)|exact (margin_at side _ _ _ _ _ _ _ _ _ _ _ _ v _ Hs Gff Gf B Bf Hv Ha)]. }
    exists ax, ay, l, b, r, t. split; [exact D|].
    pose proof (Mg "left"%string ltac:(cbn; tauto)) as M1. pose proof (Mg "right"%string ltac:(cbn; tauto)) as M2. pose proof (Mg "bottom"%string ltac:(cbn; tauto)) as M3. pose proof (Mg "top"%string ltac:(cbn; tauto)) as M4.
    unfold inner_gap, margin in M1, M2, M3, M4. clear Mg HM HX HY HTx HTy Af Ax Ay.
    destruct Sx as [Sx|[Sx|[]]], Sy as [Sy|[Sy|[]]]; rewrite <- Sx, <- Sy in *; cbn [String.eqb Ascii.eqb Bool.eqb] in M1, M2, M3, M4, Px, Py; constructor; unfold with_room; rewrite <- ?Sx, <- ?Sy; cbn [String.eqb Ascii.eqb Bool.eqb];
      try (exists a; eexists; split; [exact Ga|]; split; [eassumption|]); try (destruct Px as (-> & -> & Px), Py as (-> & -> & Py)); subst;
      try assumption; try (match goal with B : box_at xx _ _ _ _ |- box_at xx _ _ _ _ => replace (b - thickness ax) with bx by lra; exact B end);
      try (match goal with B : box_at xx _ _ _ _ |- box_at xx _ _ _ _ => replace (t + thickness ax) with tx by lra; exact B end);
      try (match goal with B : box_at xy _ _ _ _ |- box_at xy _ _ _ _ => replace (l - thickness ay) with ly by lra; exact B end);
      try (match goal with B : box_at xy _ _ _ _ |- box_at xy _ _ _ _ => replace (r + thickness ay) with ry by lra; exact B end);
      try (f_equal; lra).
  Qed.
  Lemma fixed_at fig q l b r t x y : get_child p fig = Ok q -> box_at q l b r t -> asked acts crFix [(fig ++ "/Line0/Point0")%string] [PA1 [x; y]] -> l = x /\ b = y.
  Proof.
    intros G B Ha. destruct (asked_thin _ _ _ Ha) as (c & prims & Ec & Em & Hv). { apply in_or_app. left. unfold plain. now left. }
    destruct B as (v & l0 & l1 & l2 & l3 & -> & (v0 & p0 & p1 & -> & H0 & _) & _).
    assert (G0 : get_child p (fig ++ String slash "Line0/Point0")%string = Ok p0) by (apply (proj2 (get_child_app p fig "Line0/Point0" _ G)); reflexivity).
    cbn [mapM] in Em. change (fig ++ "/Line0/Point0")%string with (fig ++ String slash "Line0/Point0")%string in Em. rewrite G0 in Em. cbn [bind] in Em. injection Em as <-.
    destruct (C34_fix p0 (l, b) x y H0) as (c' & Ec' & _ & Hx). rewrite Ec in Ec'. injection Ec' as <-. apply Hx in Hv. now injection Hv.
  Qed.
  Lemma away_at k1 k2 pn ln P A B v t d : get_child p k1 = Ok pn -> point_at pn P -> get_child p k2 = Ok ln -> line_at ln A B -> A <> B ->
    truthy v = Ok true -> number t d -> asked acts crPointToLineDistance [k1; k2] [v; t] -> - left_distance A B P = d.
  Proof.
    intros G1 H1 G2 H2 Hne Hv [Ht1 Ht2] Ha. destruct (asked_thin _ _ _ Ha) as (c & prims & Ec & Em & Hz). { apply in_or_app. left. unfold plain. do 20 right. now left. }
    cbn [mapM] in Em. rewrite G1, G2 in Em. cbn [bind] in Em. injection Em as <-.
    destruct (C40_point_to_line pn ln P A B v t true d H1 H2 Hne Hv Ht1) as (_ & c' & Ec' & _ & Hx). rewrite Ec in Ec'. injection Ec' as <-. now apply Hx.
  Qed.
  Lemma along_at (y : bool) key a l b r t P v d : get_child p key = Ok a -> axes_quad a "Frame" (box_vertices l b r t) ->
    axes_point a (if y then "YAxisLabel" else "XAxisLabel") P -> l < r -> b < t -> number v d ->
    asked acts (if y then PositionYAxisLabel false else PositionXAxisLabel false) [key] [v] ->
    if y then snd P = b + d * (t - b) else fst P = l + d * (r - l).
  Proof.
    intros G Hf Hp Hlr Hbt [Hv1 Hv2] Ha. destruct P as [px py]. destruct (asked_thin _ _ _ Ha) as (c & prims & Ec & Em & Hz). { apply in_or_app. left. unfold plain. destruct y; [do 35 right|do 34 right]; now left. }
    cbn [mapM] in Em. rewrite G in Em. cbn [bind] in Em. injection Em as <-. destruct y; cbn [fst snd].
    - destruct (C49_y_label false a _ _ _ _ (px, py) v d Hf Hp ltac:(intros E; injection E; lra) Hv1) as (c' & Ec' & Hx). rewrite Ec in Ec'. injection Ec' as <-. apply Hx in Hz.
      unfold projection in Hz. rewrite len_v, Rabs_pos_eq in Hz by lra. unfold inner, vec in Hz. cbn [fst snd] in Hz. rewrite <- Hz. field. lra.
    - destruct (C49_x_label false a _ _ _ _ (px, py) v d Hf Hp ltac:(intros E; injection E; lra) Hv1) as (c' & Ec' & Hx). rewrite Ec in Ec'. injection Ec' as <-. apply Hx in Hz.
      unfold projection in Hz. rewrite len_h, Rabs_pos_eq in Hz by lra. unfold inner, vec in Hz. cbn [fst snd] in Hz. rewrite <- Hz. field. lra.
  Qed.
  Lemma labels_at key q g a fl fb fr ft l b r t tx ty PX PY : get_child p key = Ok a -> ntype a = TAxes ->
    In (x_side q) ["bottom"; "top"]%string -> In (y_side q) ["left"; "right"]%string ->
    boxes_of fl fb fr ft key q l b r t tx ty -> l < r -> b < t -> part_point p key "XAxisLabel" PX -> part_point p key "YAxisLabel" PY ->
    asked_labels acts key q g ->
    PX = (l + at_x g * (r - l), if String.eqb (x_side q) "bottom" then b - tx - pad_x g else t + tx + pad_x g) /\
    PY = (if String.eqb (y_side q) "left" then l - ty - pad_y g else r + ty + pad_y g, b + at_y g * (t - b)).
  Proof.
    intros Ga Ta Sx Sy [(a0 & xf & G0 & Df & Bf) (a1 & xx & G1 & Dx & Bx) (a2 & xy & G2 & Dy & By) _] Hlr Hbt (a3 & lx & G3 & Dlx & Hlx) (a4 & ly & G4 & Dly & Hly)
      ((v1 & t1 & V1 & N1 & A1) & (v2 & t2 & V2 & N2 & A2) & (t3 & N3 & A3) & (t4 & N4 & A4)).
    rewrite Ga in G0, G1, G2, G3, G4. injection G0 as <-. injection G1 as <-. injection G2 as <-. injection G3 as <-. injection G4 as <-.
    assert (Hg : forall part x, noslash part = true -> dget part (nch a) = Some x -> get_child p (key ++ String slash part)%string = Ok x).
    { intros part x Hs D. apply (proj2 (get_child_app p key part a Ga)). now apply dget_get_child. }
    pose proof (Hg "XAxisLabel"%string lx eq_refl Dlx) as Glx. pose proof (Hg "YAxisLabel"%string ly eq_refl Dly) as Gly.
    pose proof (Hg "XAxis"%string xx eq_refl Dx) as Gx. pose proof (Hg "YAxis"%string xy eq_refl Dy) as Gy. clear Hg.
    assert (Af : axes_quad a "Frame" (box_vertices l b r t)) by (split; [exact Ta|]; exists xf; auto).
    pose proof (along_at false key a l b r t PX t3 _ Ga Af ltac:(split; [exact Ta|]; eauto) Hlr Hbt N3 A3) as EX.
    pose proof (along_at true key a l b r t PY t4 _ Ga Af ltac:(split; [exact Ta|]; eauto) Hlr Hbt N4 A4) as EY. cbn iota in EX, EY.
    assert (Hl : forall ax x s y, get_child p (key ++ String slash ax)%string = Ok x -> get_child x s = Ok y ->
      get_child p (key ++ String slash (ax ++ String slash s))%string = Ok y).
    { intros ax x s y Gq Gs. pose proof (proj2 (get_child_app p _ s x Gq) y) as Hq. rewrite append_assoc in Hq. cbn [append] in Hq. now apply Hq. }
    destruct PX as [ux uy], PY as [wx wy]. cbn [fst snd] in EX, EY. split; f_equal; try assumption.
    - clear A2 A3 A4 Sy. destruct Sx as [Sx|[Sx|[]]]; rewrite <- Sx in *; cbn [String.eqb Ascii.eqb Bool.eqb] in *.
      + destruct (quad_line0 _ _ _ _ _ Bx) as (ln & Gn & Hn).
        pose proof (away_at _ _ lx ln (ux, uy) _ _ v1 t1 _ Glx Hlx (Hl "XAxis"%string xx "Line0"%string ln Gx Gn) Hn ltac:(intros E; injection E; lra) V1 N1 A1) as E.
        unfold left_distance in E. rewrite len_h, Rabs_pos_eq in E by lra. unfold cross, vec in E. cbn [fst snd] in E.
        replace uy with ((b - tx) + ((r - l) * (uy - (b - tx)) - (b - tx - (b - tx)) * (ux - l)) / (r - l)) by (field; lra). lra.
      + destruct (quad_line2 _ _ _ _ _ Bx) as (ln & Gn & Hn).
        pose proof (away_at _ _ lx ln (ux, uy) _ _ v1 t1 _ Glx Hlx (Hl "XAxis"%string xx "Line2"%string ln Gx Gn) Hn ltac:(intros E; injection E; lra) V1 N1 A1) as E.
        unfold left_distance in E. rewrite len_h, Rabs_left in E by lra. unfold cross, vec in E. cbn [fst snd] in E.
        replace uy with ((t + tx) - ((l - r) * (uy - (t + tx)) - (t + tx - (t + tx)) * (ux - r)) / (- (l - r))) by (field; lra). lra.
    - clear A1 A3 A4 Sx. destruct Sy as [Sy|[Sy|[]]]; rewrite <- Sy in *; cbn [String.eqb Ascii.eqb Bool.eqb] in *.
      + destruct (quad_line3 _ _ _ _ _ By) as (ln & Gn & Hn).
        pose proof (away_at _ _ ly ln (wx, wy) _ _ v2 t2 _ Gly Hly (Hl "YAxis"%string xy "Line3"%string ln Gy Gn) Hn ltac:(intros E; injection E; lra) V2 N2 A2) as E.
        unfold left_distance in E. rewrite len_v, Rabs_left in E by lra. unfold cross, vec in E. cbn [fst snd] in E.
        replace wx with ((l - ty) + ((l - ty - (l - ty)) * (wy - t) - (b - t) * (wx - (l - ty))) / (- (b - t))) by (field; lra). lra.
      + destruct (quad_line1 _ _ _ _ _ By) as (ln & Gn & Hn).
        pose proof (away_at _ _ ly ln (wx, wy) _ _ v2 t2 _ Gly Hly (Hl "YAxis"%string xy "Line1"%string ln Gy Gn) Hn ltac:(intros E; injection E; lra) V2 N2 A2) as E.
        unfold left_distance in E. rewrite len_v, Rabs_pos_eq in E by lra. unfold cross, vec in E. cbn [fst snd] in E.
        replace wx with ((r + ty) - ((r + ty - (r + ty)) * (wy - b) - (t - b) * (wx - (r + ty))) / (t - b)) by (field; lra). lra.
  Qed.
End Figure.

Lemma moved_axes (root p : prim) key : same_structure root p -> ids_consistent p -> axes_in root key ->
  exists a, get_child p key = Ok a /\ ntype a = TAxes /\
    forall part, In part ["Frame"; "XAxis"; "YAxis"]%string -> exists x, dget part (nch a) = Some x /\ exists P0 P1 P2 P3, quad_at x P0 P1 P2 P3.
Proof.
  intros Hs Hi (a & Ga & Ta & Qf & Qx & Qy). rewrite get_child_walk in *. destruct (walk (split_all key) root) as [m|] eqn:Ew; [|discriminate]. injection Ga as ->.
  assert (Ew' : walk (split_all key ++ []) root = Some a) by now rewrite app_nil_r.
  destruct (moved_node root p (split_all key) Hs [] a Ew') as (a' & Ea & Ta' & _). rewrite app_nil_r in Ea. rewrite Ea. exists a'. split; [reflexivity|]. split; [congruence|].
  assert (G : forall part, noslash part = true -> quad_in a part -> exists x, dget part (nch a') = Some x /\ exists P0 P1 P2 P3, quad_at x P0 P1 P2 P3).
  { intros part Hn (x & Gx & Hx). rewrite get_child_walk, split_all_single in Gx by exact Hn. destruct (walk [part] a) as [x0|] eqn:Ex; [|discriminate]. injection Gx as ->.
    assert (W : walk (split_all key ++ [part]) root = Some x) by (rewrite walk_app, Ew; exact Ex).
    destruct (moved_quad root p _ Hs Hi x W Hx) as (x' & P0 & P1 & P2 & P3 & W' & H'). rewrite walk_app, Ea in W'. cbn [walk] in W'.
    destruct (dget part (nch a')) as [y|]; [|discriminate]. injection W' as ->. eauto 8. }
  intros part [<-|[<-|[<-|[]]]]; apply G; auto.
Qed.
Lemma moved_label (root p : prim) key part : same_structure root p -> In part ["XAxisLabel"; "YAxisLabel"]%string -> labels_in root key ->
  exists P, part_point p key part P.
Proof.
  intros Hs Hp H. destruct (H part Hp) as (a & x & i & Ga & Dx & (Cx & _ & Lx)). rewrite get_child_walk in Ga. destruct (walk (split_all key) root) as [m|] eqn:Ew; [|discriminate]. injection Ga as ->.
  assert (W : walk (split_all key ++ [part]) root = Some x) by (rewrite walk_app, Ew; cbn [walk]; now rewrite Dx).
  destruct (moved_node root p (split_all key) Hs [part] x W) as (x' & Ex & Tx & _ & Lx'). rewrite walk_app in Ex. destruct (walk (split_all key) p) as [a'|] eqn:Ea; [|discriminate]. cbn [walk] in Ex.
  destruct (dget part (nch a')) as [y|] eqn:Dy; [|discriminate]. injection Ex as ->.
  destruct x' as [t [vi d] ch]. cbn [ntype nval vdata] in *. rewrite Lx in Lx'. destruct d as [|u [|v [|? ?]]]; try discriminate.
  exists (u, v), a', (Node t {| vid := vi; vdata := [u; v] |} ch). split; [rewrite get_child_walk, Ea; reflexivity|]. split; [exact Dy|]. rewrite Tx, Cx. eexists _, _. reflexivity.
Qed.

(** The boxes of all axes, for the theorems below. *)
Lemma room_boxes rid tw acts axs (l l' : layout) p z fig w h keys qs :
  runs (empty_layout rid) acts l -> Forall (shipped_act tw) acts -> Forall top_key acts -> update_layout_constraints l axs = Ok l' ->
  same_structure (l_prim l') p -> ids_consistent p -> layout_residual l' p = Ok z -> zeros z ->
  quad_in (l_prim l') fig -> sized acts fig w h ->
  Forall2 (fun k q => noslash k = true /\ axes_in (l_prim l') k /\ asked_axes acts fig k q) keys qs ->
  exists fq fl fb fr ft, get_child p fig = Ok fq /\ box_at fq fl fb fr ft /\ fr - fl = w /\ ft - fb = h /\
    Forall2 (fun k q => exists ax ay l b r t, dget k axs = Some (ax, ay) /\ boxes_of p fl fb fr ft k q l b r t (thickness ax) (thickness ay)) keys qs.
Proof.
  intros Hr Hs Hk Hu Hp Hi Hz Hzz Hf Hsz Hm.
  pose proof (proj1 (C95_every_constraint rid tw acts axs l l' p z Hr Hs Hk Hu Hp Hz) Hzz) as Sat.
  assert (Meas := fun c ks ps => C95_measured rid tw acts axs l l' c ks ps Hr Hs Hk Hu).
  destruct (quad_moved _ p fig Hp Hi Hf) as (fq & P0 & P1 & P2 & P3 & Gf & Qf).
  destruct (boxed_at acts axs p Sat fig fq Gf) as (fl & fb & fr & ft & Bf); [eauto|apply Hsz|].
  destruct (size_at acts axs p Sat fig fq fl fb fr ft w h Gf Bf Hsz) as [Ew Eh].
  exists fq, fl, fb, fr, ft. do 4 (split; [assumption|]). clear Hsz.
  induction Hm as [|k q ks qs (Hn & Ha & Hq) _ IH]; constructor; [|exact IH].
  destruct (moved_axes _ p k Hp Hi Ha) as (a & Ga & Ta & Qa).
  exact (axes_at acts axs p Sat Meas fig fq fl fb fr ft k q a Hn Gf Bf Ga Ta Qa Hq).
Qed.

(** [update_layout_constraints] succeeds if the axes of every thickness constraint are
    among [axs] and can be measured. *)
Theorem C95_succeeds rid tw acts axs (l : layout) : runs (empty_layout rid) acts l ->
  Forall (shipped_act tw) acts -> Forall top_key acts ->
  (forall c ks ps, In (c, ks, ps) (LayoutSpec.added acts) -> (is_kind KXAxisThickness c = true \/ is_kind KYAxisThickness c = true) ->
     exists key ax ay, ks = [key] /\ dget (hd EmptyString (split_all key)) axs = Some (ax, ay) /\
       forall a, In a [ax; ay] -> tightbbox a false = None \/ In (ticks_position a) tick_sides) ->
  exists l', update_layout_constraints l axs = Ok l'.
Proof.
  intros Hr Hs Hk H. eapply updates; try eassumption. intros c ks ps Hin Ht.
  destruct (H c ks ps Hin) as (key & ax & ay & -> & D & Hx); [unfold thick in Ht; apply orb_prop in Ht; exact Ht|].
  destruct (thickness_number (if is_kind KYAxisThickness c then ay else ax)) as (d & Hd & _); [destruct (is_kind KYAxisThickness c); apply Hx; cbn; tauto|].
  exists key, ax, ay, d. auto.
Qed.

(** The figure drawn from a solution of the updated layout: it has the asked size, and the
    frame of each axes has the asked margins, enlarged on the side of the x axis by the
    measured thickness of the x axis and on the side of the y axis by that of the y axis. *)
Theorem C95_figure rid tw acts axs (l l' : layout) p z fig w h keys qs tr :
  runs (empty_layout rid) acts l -> Forall (shipped_act tw) acts -> Forall top_key acts -> update_layout_constraints l axs = Ok l' ->
  same_structure (l_prim l') p -> ids_consistent p -> layout_residual l' p = Ok z -> zeros z ->
  quad_in (l_prim l') fig -> sized acts fig w h -> w <> 0 -> h <> 0 ->
  Forall2 (fun k q => noslash k = true /\ axes_in (l_prim l') k /\ asked_axes acts fig k q) keys qs ->
  update_subplots p fig keys = (tr, Ok tt) ->
  sizes tr = [(w, h)] /\ map fst (positions tr) = keys /\
  Forall2 (fun kr q => exists ax ay, dget (fst kr) axs = Some (ax, ay) /\ inches w h (snd kr) = with_room q (thickness ax) (thickness ay)) (positions tr) qs.
Proof.
  intros Hr Hs Hk Hu Hp Hi Hz Hzz Hf Hsz Hw Hh Hm Hd.
  destruct (room_boxes rid tw acts axs l l' p z fig w h keys qs Hr Hs Hk Hu Hp Hi Hz Hzz Hf Hsz Hm) as (fq & fl & fb & fr & ft & Gf & Bf & Ew & Eh & Hb).
  assert (Hboxes : exists boxes, Forall2 (fun k e => part_box p k "Frame" e) keys boxes /\
    Forall2 (fun (kq : string * axes_request) (e : R * R * R * R) => exists ax ay, dget (fst kq) axs = Some (ax, ay) /\
       let '(l, b, r, t) := e in {| m_left := l - fl; m_right := fr - r; m_bottom := b - fb; m_top := ft - t |} = with_room (snd kq) (thickness ax) (thickness ay)) (combine keys qs) boxes).
  { clear -Hb. induction Hb as [|k q ks qs (ax & ay & l & b & r & t & D & B) _ (bs & I1 & I2)]; [exists []; split; constructor|].
    exists ((l, b, r, t) :: bs). split; constructor; [apply B|exact I1| |exact I2]. exists ax, ay. split; [exact D|apply B]. }
  destruct Hboxes as (boxes & H1 & H2).
  destruct (C63_geometry p fig fl fb fr ft keys boxes tr) as (S1 & S2 & S3); [lra|lra|exists fq; auto|exact H1|exact Hd|].
  split; [rewrite S1, Ew, Eh; reflexivity|]. split; [exact S2|].
  clear -S2 S3 H2 Ew Eh Hw Hh Hb. assert (Hl : length keys = length qs) by (clear -Hb; induction Hb; cbn; congruence). clear Hb.
  revert keys qs boxes S2 S3 H2 Hl. induction (positions tr) as [|[k rect] ps IH]; intros keys qs boxes S2 S3 H2 Hl.
  - cbn in S2. subst keys. destruct qs; [constructor|discriminate].
  - cbn [map fst snd] in S2, S3. destruct keys as [|k' keys]; [discriminate|]. injection S2 as <- S2. destruct qs as [|q qs]; [discriminate|]. injection Hl as Hl.
    cbn [combine] in H2. inversion H2 as [|? e ? es (ax & ay & D & Hx) H2']; subst boxes. inversion_clear S3 as [|? ? ? ? C S3']. constructor; [|now apply (IH keys qs es)].
    cbn [fst snd] in *. exists ax, ay. split; [exact D|]. destruct rect as [[[rx ry] rw] rh]. destruct e as [[[lf b'] r] t]. rewrite <- Hx. destruct C as [C1 C2]. unfold shown in C1, C2. injection C1 as C1 C1'. injection C2 as C2 C2'.
    rewrite Ew in C1, C2. rewrite Eh in C1', C2'. unfold inches. f_equal; lra.
Qed.
(** The ticks are drawn on the asked sides. *)
Theorem C95_ticks rid tw acts axs (l l' : layout) p z fig w h keys qs tr :
  runs (empty_layout rid) acts l -> Forall (shipped_act tw) acts -> Forall top_key acts -> update_layout_constraints l axs = Ok l' ->
  same_structure (l_prim l') p -> ids_consistent p -> layout_residual l' p = Ok z -> zeros z ->
  quad_in (l_prim l') fig -> sized acts fig w h -> w <> 0 -> h <> 0 ->
  Forall2 (fun k q => noslash k = true /\ axes_in (l_prim l') k /\ asked_axes acts fig k q) keys qs ->
  update_subplots p fig keys = (tr, Ok tt) ->
  forall i k q ax ay, nth_error keys i = Some k -> nth_error qs i = Some q -> dget k axs = Some (ax, ay) ->
    0 <= thickness ax -> 0 <= thickness ay ->
    (let m := with_room q (thickness ax) (thickness ay) in m_left m + m_right m < w /\ m_bottom m + m_top m < h) ->
    (forall s, In (k, "X"%string, s) (ticks tr) <-> s = x_side q) /\ (forall s, In (k, "Y"%string, s) (ticks tr) <-> s = y_side q).
Proof.
  intros Hr Hs Hk Hu Hp Hi Hz Hzz Hf Hsz Hw Hh Hm Hd i k q ax ay Hki Hqi D0 Tx Ty Hpos. cbv zeta in Hpos.
  destruct (room_boxes rid tw acts axs l l' p z fig w h keys qs Hr Hs Hk Hu Hp Hi Hz Hzz Hf Hsz Hm) as (fq & fl & fb & fr & ft & Gf & Bf & Ew & Eh & Hb).
  assert (Hboxes : exists boxes, Forall2 (fun k e => part_box p k "Frame" e) keys boxes).
  { clear -Hb. induction Hb as [|k q ks qs (ax & ay & l & b & r & t & D & B) _ (bs & I1)]; [exists []; constructor|].
    exists ((l, b, r, t) :: bs). constructor; [apply B|exact I1]. }
  destruct Hboxes as (boxes & H1).
  assert (Hone : asked_axes acts fig k q /\ exists l b r t, boxes_of p fl fb fr ft k q l b r t (thickness ax) (thickness ay)).
  { clear -Hm Hb Hki Hqi D0. revert i Hki Hqi Hb. induction Hm as [|k' q' ks qs (_ & _ & Ha) _ IH]; intros [|i] Hki Hqi Hb; try discriminate; inversion Hb as [|? ? ? ? (ax' & ay' & l & b & r & t & D & B) Hb']; subst.
    - cbn in Hki, Hqi. injection Hki as ->. injection Hqi as ->. split; [exact Ha|]. rewrite D0 in D. injection D as <- <-. eauto.
    - eapply IH; eassumption. }
  destruct Hone as ((Sx & Sy & _) & lf & b & r & t & [B1 B2 B3 B4]).
  assert (Hlt : lf < r /\ b < t). { rewrite <- B4 in Hpos. cbn [m_left m_right m_bottom m_top] in Hpos. lra. }
  assert (Hin : In k keys) by now apply nth_error_In in Hki.
  pose proof (C65_ticks_follow_axis p fig fl fb fr ft keys boxes tr ltac:(lra) ltac:(lra) (ex_intro _ fq (conj Gf Bf)) H1 Hd k) as T.
  assert (TX : In (k, "X"%string, x_side q) (ticks tr) /\ forall s, In (k, "X"%string, s) (ticks tr) -> s = x_side q).
  { destruct Sx as [Sx|[Sx|[]]]; rewrite <- Sx in *; cbn [String.eqb Ascii.eqb Bool.eqb] in B2;
      (eapply (T "X"%string); [exact Hin|cbn; tauto|cbn; tauto|exact B1|exact B2|lra|lra|lra|lra|]; (apply C48_on_boxes; [cbn; tauto|]); cbn; auto). }
  assert (TY : In (k, "Y"%string, y_side q) (ticks tr) /\ forall s, In (k, "Y"%string, s) (ticks tr) -> s = y_side q).
  { destruct Sy as [Sy|[Sy|[]]]; rewrite <- Sy in *; cbn [String.eqb Ascii.eqb Bool.eqb] in B3;
      (eapply (T "Y"%string); [exact Hin|cbn; tauto|cbn; tauto|exact B1|exact B3|lra|lra|lra|lra|]; (apply C48_on_boxes; [cbn; tauto|]); cbn; auto). }
  destruct TX as [X1 X2], TY as [Y1 Y2]. split; intros s; (split; [auto|intros ->; assumption]).
Qed.

(** The axis labels of an axes are drawn outside its tick labels, at the asked distance
    and at the asked fraction of the frame (positions in inches from the lower left corner
    of the figure; the figure is fixed at the origin). *)
Theorem C95_labels rid tw acts axs (l l' : layout) p z fig w h keys qs tr :
  runs (empty_layout rid) acts l -> Forall (shipped_act tw) acts -> Forall top_key acts -> update_layout_constraints l axs = Ok l' ->
  same_structure (l_prim l') p -> ids_consistent p -> layout_residual l' p = Ok z -> zeros z ->
  quad_in (l_prim l') fig -> sized acts fig w h -> w <> 0 -> h <> 0 -> asked acts crFix [(fig ++ "/Line0/Point0")%string] [PA1 [0; 0]] ->
  Forall2 (fun k q => noslash k = true /\ axes_in (l_prim l') k /\ asked_axes acts fig k q) keys qs ->
  update_subplots p fig keys = (tr, Ok tt) ->
  forall i k q g ax ay, nth_error keys i = Some k -> nth_error qs i = Some q -> dget k axs = Some (ax, ay) ->
    labels_in (l_prim l') k -> asked_labels acts k q g ->
    let m := with_room q (thickness ax) (thickness ay) in m_left m + m_right m < w -> m_bottom m + m_top m < h ->
    (exists x y, In (k, "X"%string, (x, y)) (labels tr)) /\ (exists x y, In (k, "Y"%string, (x, y)) (labels tr)) /\
    (forall x y, In (k, "X"%string, (x, y)) (labels tr) ->
       x * w = m_left m + at_x g * (w - m_left m - m_right m) /\
       y * h = if String.eqb (x_side q) "bottom" then m_bottom (clearance q) - pad_x g else h - m_top (clearance q) + pad_x g) /\
    (forall x y, In (k, "Y"%string, (x, y)) (labels tr) ->
       x * w = (if String.eqb (y_side q) "left" then m_left (clearance q) - pad_y g else w - m_right (clearance q) + pad_y g) /\
       y * h = m_bottom m + at_y g * (h - m_bottom m - m_top m)).
Proof.
  intros Hr Hs Hk Hu Hp Hi Hz Hzz Hf Hsz Hw Hh Hfix Hm Hd i k q g ax ay Hki Hqi D0 Hlab Hask m Hwm Hhm.
  destruct (room_boxes rid tw acts axs l l' p z fig w h keys qs Hr Hs Hk Hu Hp Hi Hz Hzz Hf Hsz Hm) as (fq & fl & fb & fr & ft & Gf & Bf & Ew & Eh & Hb).
  pose proof (proj1 (C95_every_constraint rid tw acts axs l l' p z Hr Hs Hk Hu Hp Hz) Hzz) as Sat.
  destruct (fixed_at acts axs p Sat fig fq fl fb fr ft 0 0 Gf Bf Hfix) as [-> ->].
  assert (Hboxes : exists boxes, Forall2 (fun k e => part_box p k "Frame" e) keys boxes).
  { clear -Hb. induction Hb as [|k q ks qs (ax & ay & l & b & r & t & D & B) _ (bs & I1)]; [exists []; constructor|].
    exists ((l, b, r, t) :: bs). constructor; [apply B|exact I1]. }
  destruct Hboxes as (boxes & H1).
  assert (Hone : axes_in (l_prim l') k /\ asked_axes acts fig k q /\ exists l b r t, boxes_of p 0 0 fr ft k q l b r t (thickness ax) (thickness ay)).
  { clear -Hm Hb Hki Hqi D0. revert i Hki Hqi Hb. induction Hm as [|k' q' ks qs (_ & Hx & Ha) _ IH]; intros [|i] Hki Hqi Hb; try discriminate; inversion Hb as [|? ? ? ? (ax' & ay' & l & b & r & t & D & B) Hb']; subst.
    - cbn in Hki, Hqi. injection Hki as ->. injection Hqi as ->. split; [exact Hx|]. split; [exact Ha|]. rewrite D0 in D. injection D as <- <-. eauto.
    - eapply IH; eassumption. }
  destruct Hone as (Hax & (Sx & Sy & _) & lf & b & r & t & B). destruct (moved_axes _ p k Hp Hi Hax) as (a & Ga & Ta & _).
  pose proof (bo_room _ _ _ _ _ _ _ _ _ _ _ _ _ B) as B4. fold m in B4.
  assert (Em : m_left m = lf - 0 /\ m_right m = fr - r /\ m_bottom m = b - 0 /\ m_top m = ft - t) by (rewrite <- B4; auto). destruct Em as (Em1 & Em2 & Em3 & Em4).
  assert (Hlt : lf < r /\ b < t) by lra. destruct Hlt as [Hlr Hbt].
  destruct (moved_label _ p k "XAxisLabel" Hp ltac:(cbn; tauto) Hlab) as (PX & HX). destruct (moved_label _ p k "YAxisLabel" Hp ltac:(cbn; tauto) Hlab) as (PY & HY).
  destruct (labels_at acts axs p Sat k q g a 0 0 fr ft lf b r t _ _ PX PY Ga Ta Sx Sy B Hlr Hbt HX HY Hask) as [-> ->].
  assert (Hin : In k keys) by now apply nth_error_In in Hki.
  destruct (C64_label_position p fig 0 0 fr ft keys boxes tr ltac:(lra) ltac:(lra) (ex_intro _ fq (conj Gf Bf)) H1 Hd) as (L1 & L2).
  split; [apply L2; [exact Hin|cbn; tauto|]; intros (a' & Ga' & Dn); destruct HX as (a'' & px & Ga'' & Dx & _); rewrite Ga' in Ga''; injection Ga'' as <-; cbn in Dx, Dn; rewrite Dn in Dx; discriminate|].
  split; [apply L2; [exact Hin|cbn; tauto|]; intros (a' & Ga' & Dn); destruct HY as (a'' & px & Ga'' & Dx & _); rewrite Ga' in Ga''; injection Ga'' as <-; cbn in Dx, Dn; rewrite Dn in Dx; discriminate|].
  unfold m in Em1, Em2, Em3, Em4. unfold with_room in Em1, Em2, Em3, Em4. cbn [m_left m_right m_bottom m_top] in Em1, Em2, Em3, Em4.
  split; intros x y Hxy; destruct (L1 _ _ _ _ Hxy) as (_ & _ & _ & LP).
  - destruct (LP _ HX) as [E _]. unfold shown in E. injection E as E1 E2.
    unfold m, with_room. cbn [m_left m_right m_bottom m_top]. destruct Sx as [Sx|[Sx|[]]]; rewrite <- Sx in *; cbn [String.eqb Ascii.eqb Bool.eqb] in *; split; try nra.
  - destruct (LP _ HY) as [E _]. unfold shown in E. injection E as E1 E2.
    unfold m, with_room. cbn [m_left m_right m_bottom m_top]. destruct Sy as [Sy|[Sy|[]]]; rewrite <- Sy in *; cbn [String.eqb Ascii.eqb Bool.eqb] in *; split; try nra.
Qed.

(** A concrete figure meeting the hypotheses of all these theorems: P_RoomCase.v, [C95_case]. *)
Print Assumptions C95_residual.
Print Assumptions C95_measured.
Print Assumptions C95_every_constraint.
Print Assumptions C95_succeeds.
Print Assumptions C95_figure.
Print Assumptions C95_ticks.
Print Assumptions C95_labels.
