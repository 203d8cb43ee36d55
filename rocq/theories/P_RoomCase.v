(** C95: a concrete figure, as in examples/tutorial.ipynb: 12 by 8 inches, one axes with
    ticks and labels at the bottom and on the left. *)
From Coq Require Import Reals Lra.
From Verif Require Import GeomProofs P_Geom CompProofs P_Comp ConsProofs TreeLemmas MplProofs P_Mpl GridProofs P_Grid HistProofs.
From Verif Require Export P_Room.
From Verif Require Import P_Affine.
Local Open Scope R_scope.

(** A tree satisfying every constraint with the measured parameters makes the residual of
    the updated layout zero. *)
Lemma all_satisfied_updated rid tw acts axs (l l' : layout) p : runs (empty_layout rid) acts l ->
  Forall (shipped_act tw) acts -> Forall top_key acts -> LayoutSpec.added acts <> [] ->
  update_layout_constraints l axs = Ok l' -> same_structure (l_prim l') p ->
  (forall c ks ps, In (c, ks, ps) (LayoutSpec.added acts) -> exists prims, mapM (get_child p) ks = Ok prims /\ vanishes c prims (snd (measured axs (c, ks, ps)))) ->
  exists z, layout_residual l' p = Ok z /\ zeros z.
Proof.
  intros Hr Hs Hk Hne Hu Hp H.
  assert (V : exists vs, Forall2 (LayoutSpec.value_at p) (map (measured axs) (LayoutSpec.added acts)) vs /\ Forall zeros vs).
  { revert H. generalize (LayoutSpec.added acts). clear. intros xs. induction xs as [|[[c ks] ps] xs IH]; intros H; [exists []; split; constructor|].
    destruct (H c ks ps (or_introl eq_refl)) as (prims & E & r & Er & Hr). destruct IH as (vs & V1 & V2); [intros; apply H; now right|]. exists (r :: vs). split; constructor; auto.
    destruct (measured axs (c, ks, ps)) as [[c0 ks0] ps0] eqn:Em. pose proof (measured_cons axs (c, ks, ps)) as Ec. rewrite Em in Ec. cbn [fst] in Ec. injection Ec as -> ->. exists prims. auto. }
  destruct V as (vs & V1 & V2). exists (List.concat vs). split; [|unfold zeros in *; now apply Forall_concat].
  eapply C95_residual; try eassumption. eauto.
Qed.

Definition quad95 : prim := match mk_quad (F:=R) 1 VNone None with Ok (p, _) => p | Err _ => noprim end.
Definition axes95 : prim := match mk_axes (F:=R) 10 VNone None true true false false with Ok (p, _) => p | Err _ => noprim end.
Definition acts95 : list (action R) :=
  [AddPrim quad95 "Figure"; AddPrim axes95 "Axes";
   AddConstraint (ok_cons Box) ["Figure"%string] [] ""; AddConstraint (ok_cons crWidth) ["Figure"%string] [PFlt 12] ""; AddConstraint (ok_cons crHeight) ["Figure"%string] [PFlt 8] "";
   AddConstraint (ok_cons crFix) ["Figure/Line0/Point0"%string] [PA1 [0; 0]] "";
   AddConstraint (ok_cons Box) ["Axes/Frame"%string] [] ""; AddConstraint (ok_cons Box) ["Axes/XAxis"%string] [] ""; AddConstraint (ok_cons Box) ["Axes/YAxis"%string] [] "";
   AddConstraint (ok_cons (PositionXAxis "bottom" false)) ["Axes"%string] [] ""; AddConstraint (ok_cons (PositionYAxis "left" false)) ["Axes"%string] [] "";
   AddConstraint (ok_cons XAxisThickness) ["Axes/XAxis"%string] [PNone] ""; AddConstraint (ok_cons YAxisThickness) ["Axes/YAxis"%string] [PNone] "";
   AddConstraint (ok_cons (crInnerMargin "left")) ["Axes/YAxis"%string; "Figure"%string] [PFlt 2] "";
   AddConstraint (ok_cons (crInnerMargin "right")) ["Axes/Frame"%string; "Figure"%string] [PFlt 1] "";
   AddConstraint (ok_cons (crInnerMargin "bottom")) ["Axes/XAxis"%string; "Figure"%string] [PFlt 2] "";
   AddConstraint (ok_cons (crInnerMargin "top")) ["Axes/Frame"%string; "Figure"%string] [PFlt 1] "";
   AddConstraint (ok_cons crPointToLineDistance) ["Axes/XAxisLabel"%string; "Axes/XAxis/Line0"%string] [PBool true; PFlt 1] "";
   AddConstraint (ok_cons crPointToLineDistance) ["Axes/YAxisLabel"%string; "Axes/YAxis/Line3"%string] [PBool true; PFlt 1] "";
   AddConstraint (ok_cons (PositionXAxisLabel false)) ["Axes"%string] [PFlt (1/2)] ""; AddConstraint (ok_cons (PositionYAxisLabel false)) ["Axes"%string] [PFlt (1/2)] ""].
Definition l95 : layout := after (empty_layout 0) acts95.
(** The axes as drawn before the update: both tick labels are one inch thick. *)
Definition axis95 (side : string) : mpl_axis R :=
  {| label_visible := true; tightbbox := fun _ => Some {| bxmin := 1/12; bymin := 1/8; bxmax := 1; bymax := 1 |}; ticks_position := side;
     fig_size_w := 12; fig_size_h := 8; axes_bbox := {| bxmin := 2/12; bymin := 2/8; bxmax := 1; bymax := 1 |} |}.
Definition axs95 : dict (mpl_axes R) := [("Axes"%string, (axis95 "bottom", axis95 "left"))].
(** Figure; Frame, XAxis, XAxisLabel, YAxis, YAxisLabel. *)
Definition g95 : list R := [0; 0; 12; 0; 12; 8; 0; 8;  3; 3; 11; 3; 11; 7; 3; 7;  3; 2; 11; 2; 11; 3; 3; 3;  7; 1;  2; 3; 3; 3; 3; 7; 2; 7;  1; 5].
Definition p95 : prim := new_tree (l_prim l95) g95.
Definition request95 : axes_request := {| x_side := "bottom"; y_side := "left"; clearance := {| m_left := 2; m_right := 1; m_bottom := 2; m_top := 1 |} |}.
Definition labels95 : label_request := {| pad_x := 1; at_x := 1/2; pad_y := 1; at_y := 1/2 |}.

Lemma thick95 : thickness (axis95 "bottom") = 1 /\ thickness (axis95 "left") = 1.
Proof. unfold thickness, axis95. cbn. lra. Qed.
Lemma runs95 : runs (empty_layout 0) acts95 l95.
Proof. apply all_ok_runs. vm_compute. reflexivity. Qed.
Lemma prim95 : l_prim l95 = Node TPrimNode {| vid := 0; vdata := [] |} [("Figure"%string, quad95); ("Axes"%string, axes95)].
Proof. vm_compute. reflexivity. Qed.
Lemma keys95 : Forall top_key acts95.
Proof. unfold acts95. repeat (apply Forall_cons; [first [exact I|reflexivity]|]). apply Forall_nil. Qed.
Lemma flat95 : Forall flat_keys acts95.
Proof. unfold acts95. repeat (apply Forall_cons; [first [exact I|reflexivity]|]). apply Forall_nil. Qed.
Lemma shipped95 : Forall (shipped_act false) acts95.
Proof.
  unfold acts95. repeat (apply Forall_cons; [first [exact I|cbn [shipped_act]]|]); [..|apply Forall_nil].
  all: try (apply sh_thickness; [rewrite <- ok_of; [cbn [In]; tauto|vm_compute; reflexivity]|now left]).
  all: try (apply sh_dimension; [|left; reflexivity]; rewrite <- ok_of; [unfold dimensions, margins; cbn [map app In]; tauto|vm_compute; reflexivity]).
  all: try (apply sh_plain; [rewrite <- ok_of; [unfold plain; cbn [In app map]; tauto|vm_compute; reflexivity]|vm_compute; reflexivity]).
Qed.
Lemma sane95 : wf (l_prim l95) /\ slashfree (l_prim l95) /\ ids_consistent (l_prim l95).
Proof.
  rewrite prim95. unfold quad95, axes95. split; [|split].
  - cbn. repeat (constructor; cbn; try (intuition discriminate)).
  - cbn. repeat (constructor; cbn; try reflexivity).
  - intros a b. cbn. intros Ha Hb E. repeat (destruct Ha as [<-|Ha]; [repeat (destruct Hb as [<-|Hb]; [first [reflexivity|discriminate E]|]); contradiction|]). contradiction.
Qed.
Lemma size95 : length (initial_global (l_prim l95)) = 36%nat.
Proof. rewrite prim95. vm_compute. reflexivity. Qed.
Lemma structure95 : same_structure (l_prim l95) p95 /\ ids_consistent p95.
Proof. destruct sane95 as (S1 & S2 & S3). split; [apply new_structure; auto; now rewrite size95|now apply new_ids]. Qed.
Lemma added95 : LayoutSpec.added acts95 =
  [(ok_cons Box, ["Figure"%string], []); (ok_cons crWidth, ["Figure"%string], [PFlt 12]); (ok_cons crHeight, ["Figure"%string], [PFlt 8]);
   (ok_cons crFix, ["Figure/Line0/Point0"%string], [PA1 [0; 0]]);
   (ok_cons Box, ["Axes/Frame"%string], []); (ok_cons Box, ["Axes/XAxis"%string], []); (ok_cons Box, ["Axes/YAxis"%string], []);
   (ok_cons (PositionXAxis "bottom" false), ["Axes"%string], []); (ok_cons (PositionYAxis "left" false), ["Axes"%string], []);
   (ok_cons XAxisThickness, ["Axes/XAxis"%string], [PNone]); (ok_cons YAxisThickness, ["Axes/YAxis"%string], [PNone]);
   (ok_cons (crInnerMargin "left"), ["Axes/YAxis"%string; "Figure"%string], [PFlt 2]);
   (ok_cons (crInnerMargin "right"), ["Axes/Frame"%string; "Figure"%string], [PFlt 1]);
   (ok_cons (crInnerMargin "bottom"), ["Axes/XAxis"%string; "Figure"%string], [PFlt 2]);
   (ok_cons (crInnerMargin "top"), ["Axes/Frame"%string; "Figure"%string], [PFlt 1]);
   (ok_cons crPointToLineDistance, ["Axes/XAxisLabel"%string; "Axes/XAxis/Line0"%string], [PBool true; PFlt 1]);
   (ok_cons crPointToLineDistance, ["Axes/YAxisLabel"%string; "Axes/YAxis/Line3"%string], [PBool true; PFlt 1]);
   (ok_cons (PositionXAxisLabel false), ["Axes"%string], [PFlt (1/2)]); (ok_cons (PositionYAxisLabel false), ["Axes"%string], [PFlt (1/2)])].
Proof. reflexivity. Qed.
Lemma kinds95 : is_kind KXAxisThickness (ok_cons (XAxisThickness (F:=R))) = true /\ is_kind KYAxisThickness (ok_cons (XAxisThickness (F:=R))) = false /\
  is_kind KYAxisThickness (ok_cons (YAxisThickness (F:=R))) = true.
Proof. vm_compute. auto. Qed.
Lemma others95 : Forall (fun x : cons * list string * list (pyval R) => thick (fst (fst x)) = negb (forallb (fun y => match y with PNone => false | _ => true end) (snd x))) (LayoutSpec.added acts95).
Proof. rewrite added95. repeat (apply Forall_cons; [vm_compute; reflexivity|]). apply Forall_nil. Qed.
Lemma measured95 : snd (measured axs95 (ok_cons XAxisThickness, ["Axes/XAxis"%string], [PNone])) = [PAxis (axis95 "bottom")] /\
  snd (measured axs95 (ok_cons YAxisThickness, ["Axes/YAxis"%string], [PNone])) = [PAxis (axis95 "left")].
Proof.
  destruct kinds95 as (K1 & K2 & K3). generalize dependent (ok_cons (YAxisThickness (F:=R))). generalize dependent (ok_cons (XAxisThickness (F:=R))). intros cx K1 K2 cy K3.
  split; unfold measured; cbn; [rewrite K2, K1|rewrite K3]; reflexivity.
Qed.
Lemma parts95 : exists f a fr x y lx ly, get_child p95 "Figure" = Ok f /\ box_at f 0 0 12 8 /\ get_child p95 "Axes" = Ok a /\ ntype a = TAxes /\
  (dget "Frame" (nch a) = Some fr /\ box_at fr 3 3 11 7) /\ (dget "XAxis" (nch a) = Some x /\ box_at x 3 2 11 3) /\ (dget "YAxis" (nch a) = Some y /\ box_at y 2 3 3 7) /\
  (dget "XAxisLabel" (nch a) = Some lx /\ point_at lx (7, 1)) /\ (dget "YAxisLabel" (nch a) = Some ly /\ point_at ly (1, 5)).
Proof.
  unfold p95. rewrite prim95. unfold g95. eexists _, _, _, _, _, _, _.
  split; [lazy -[IZR]; reflexivity|]. split; [|split; [lazy -[IZR]; reflexivity|split; [reflexivity|split; [split; [reflexivity|]|split; [split; [reflexivity|]|split; [split; [reflexivity|]|split; (split; [reflexivity|])]]]]]];
    try (eexists _, _; reflexivity);
    (eexists _, _, _, _, _; split; [reflexivity|]); repeat split; eexists _, _, _; (split; [reflexivity|]); split; eexists _, _; reflexivity.
Qed.
Lemma sat_thin axs p (c : cons) ks ps prims : thick c = false -> mapM (get_child p) ks = Ok prims -> vanishes c prims ps ->
  exists prims, mapM (get_child p) ks = Ok prims /\ vanishes c prims (snd (measured axs (c, ks, ps))).
Proof. intros H E V. exists prims. split; [exact E|]. now rewrite measured_thin. Qed.
Lemma sat_thick axs p (c : cons) ks ps prims v : snd (measured axs (c, ks, ps)) = v -> mapM (get_child p) ks = Ok prims -> vanishes c prims v ->
  exists prims, mapM (get_child p) ks = Ok prims /\ vanishes c prims (snd (measured axs (c, ks, ps))).
Proof. intros H E V. exists prims. split; [exact E|]. now rewrite H. Qed.
Definition sat95 (x : cons * list string * list (pyval R)) : Prop :=
  let '(c, ks, ps) := x in exists prims, mapM (get_child p95) ks = Ok prims /\ vanishes c prims (snd (measured axs95 (c, ks, ps))).
Lemma satisfied95 : Forall sat95 (LayoutSpec.added acts95).
Proof.
  destruct parts95 as (f & a & fr & x & y & lx & ly & Ef & Bf & Ea & Ta & (Dfr & Bfr) & (Dx & Bx) & (Dy & By) & (Dlx & Plx) & (Dly & Ply)).
  assert (Hg : forall part z, noslash part = true -> dget part (nch a) = Some z -> get_child p95 (String.append "Axes" (String slash part)) = Ok z).
  { intros part z Hs D. apply (proj2 (get_child_app p95 "Axes" part a Ea)). now apply dget_get_child. }
  assert (Gfr : get_child p95 "Axes/Frame" = Ok fr) by exact (Hg "Frame"%string fr eq_refl Dfr). assert (Gx : get_child p95 "Axes/XAxis" = Ok x) by exact (Hg "XAxis"%string x eq_refl Dx).
  assert (Gy : get_child p95 "Axes/YAxis" = Ok y) by exact (Hg "YAxis"%string y eq_refl Dy). assert (Glx : get_child p95 "Axes/XAxisLabel" = Ok lx) by exact (Hg "XAxisLabel"%string lx eq_refl Dlx).
  assert (Gly : get_child p95 "Axes/YAxisLabel" = Ok ly) by exact (Hg "YAxisLabel"%string ly eq_refl Dly). clear Hg.
  destruct (quad_line0 _ _ _ _ _ Bx) as (xl & Gxl & Hxl). destruct (quad_line3 _ _ _ _ _ By) as (yl & Gyl & Hyl). destruct (quad_line0 _ _ _ _ _ Bf) as (fl & Gfl & Hfl).
  apply (proj2 (get_child_app p95 "Axes/XAxis" "Line0" x Gx)) in Gxl. apply (proj2 (get_child_app p95 "Axes/YAxis" "Line3" y Gy)) in Gyl. apply (proj2 (get_child_app p95 "Figure" "Line0" f Ef)) in Gfl.
  destruct Hfl as (v0 & f0 & f1 & Efl & H0 & _). assert (G0 : get_child fl "Point0" = Ok f0) by (rewrite Efl; reflexivity). apply (proj2 (get_child_app p95 _ "Point0" fl Gfl)) in G0.
  change (get_child p95 "Figure/Line0/Point0" = Ok f0) in G0. change (get_child p95 "Axes/XAxis/Line0" = Ok xl) in Gxl. change (get_child p95 "Axes/YAxis/Line3" = Ok yl) in Gyl.
  assert (Af : axes_quad a "Frame" (box_vertices 3 3 11 7)) by (split; [exact Ta|]; exists fr; auto).
  assert (Ax : axes_quad a "XAxis" (box_vertices 3 2 11 3)) by (split; [exact Ta|]; exists x; auto).
  assert (Ay : axes_quad a "YAxis" (box_vertices 2 3 3 7)) by (split; [exact Ta|]; exists y; auto).
  assert (Px : axes_point a "XAxisLabel" (7, 1)) by (split; [exact Ta|]; exists lx; auto).
  assert (Py : axes_point a "YAxisLabel" (1, 5)) by (split; [exact Ta|]; exists ly; auto).
  destruct thick95 as [T1 T2]. destruct measured95 as [M1 M2].
  rewrite added95. repeat apply Forall_cons; [..|apply Forall_nil]; unfold sat95.
  - apply (sat_thin _ _ _ _ _ [f]); [vm_compute; reflexivity|cbn [mapM]; now rewrite Ef|]. eapply box_vanishes, Bf.
  - apply (sat_thin _ _ _ _ _ [f]); [vm_compute; reflexivity|cbn [mapM]; now rewrite Ef|]. destruct (C42_width _ _ _ _ _ (PFlt 12) 12 Bf eq_refl eq_refl) as (c' & Ec & _ & V). rewrite (ok_cons_of _ _ Ec). apply V. cbn. lra.
  - apply (sat_thin _ _ _ _ _ [f]); [vm_compute; reflexivity|cbn [mapM]; now rewrite Ef|]. destruct (C42_height _ _ _ _ _ (PFlt 8) 8 Bf eq_refl eq_refl) as (c' & Ec & _ & V). rewrite (ok_cons_of _ _ Ec). apply V. cbn. lra.
  - apply (sat_thin _ _ _ _ _ [f0]); [vm_compute; reflexivity|cbn [mapM]; now rewrite G0|]. destruct (C34_fix f0 _ 0 0 H0) as (c' & Ec & _ & V). rewrite (ok_cons_of _ _ Ec). apply V. reflexivity.
  - apply (sat_thin _ _ _ _ _ [fr]); [vm_compute; reflexivity|cbn [mapM]; now rewrite Gfr|]. eapply box_vanishes, Bfr.
  - apply (sat_thin _ _ _ _ _ [x]); [vm_compute; reflexivity|cbn [mapM]; now rewrite Gx|]. eapply box_vanishes, Bx.
  - apply (sat_thin _ _ _ _ _ [y]); [vm_compute; reflexivity|cbn [mapM]; now rewrite Gy|]. eapply box_vanishes, By.
  - apply (sat_thin _ _ _ _ _ [a]); [vm_compute; reflexivity|cbn [mapM]; now rewrite Ea|]. destruct (C48_x_axis "bottom" false a _ _ (box_vertices 0 0 0 0) ltac:(cbn; tauto) Af Ax ltac:(discriminate)) as (c' & Ec & V). rewrite (ok_cons_of _ _ Ec). apply V. split; [reflexivity|discriminate].
  - apply (sat_thin _ _ _ _ _ [a]); [vm_compute; reflexivity|cbn [mapM]; now rewrite Ea|]. destruct (C48_y_axis "left" false a _ _ (box_vertices 0 0 0 0) ltac:(cbn; tauto) Af Ay ltac:(discriminate)) as (c' & Ec & V). rewrite (ok_cons_of _ _ Ec). apply V. split; [reflexivity|discriminate].
  - apply (sat_thick _ _ _ _ _ [x] _ M1); [cbn [mapM]; now rewrite Gx|]. destruct (C69_x_axis_thickness _ _ _ _ _ (PAxis (axis95 "bottom")) (thickness (axis95 "bottom")) Bx ltac:(constructor; right; cbn; tauto)) as (c' & Ec & _ & V). rewrite (ok_cons_of _ _ Ec). apply V. rewrite T1. cbn. lra.
  - apply (sat_thick _ _ _ _ _ [y] _ M2); [cbn [mapM]; now rewrite Gy|]. destruct (C69_y_axis_thickness _ _ _ _ _ (PAxis (axis95 "left")) (thickness (axis95 "left")) By ltac:(constructor; right; cbn; tauto)) as (c' & Ec & _ & V). rewrite (ok_cons_of _ _ Ec). apply V. rewrite T2. cbn. lra.
  - apply (sat_thin _ _ _ _ _ [y; f]); [vm_compute; reflexivity|cbn [mapM]; now rewrite Gy, Ef|]. apply (margin_vanishes "left" y f _ _ _ _ _ _ _ _ 2 ltac:(cbn; tauto) By Bf). cbn. lra.
  - apply (sat_thin _ _ _ _ _ [fr; f]); [vm_compute; reflexivity|cbn [mapM]; now rewrite Gfr, Ef|]. apply (margin_vanishes "right" fr f _ _ _ _ _ _ _ _ 1 ltac:(cbn; tauto) Bfr Bf). cbn. lra.
  - apply (sat_thin _ _ _ _ _ [x; f]); [vm_compute; reflexivity|cbn [mapM]; now rewrite Gx, Ef|]. apply (margin_vanishes "bottom" x f _ _ _ _ _ _ _ _ 2 ltac:(cbn; tauto) Bx Bf). cbn. lra.
  - apply (sat_thin _ _ _ _ _ [fr; f]); [vm_compute; reflexivity|cbn [mapM]; now rewrite Gfr, Ef|]. apply (margin_vanishes "top" fr f _ _ _ _ _ _ _ _ 1 ltac:(cbn; tauto) Bfr Bf). cbn. lra.
  - apply (sat_thin _ _ _ _ _ [lx; xl]); [vm_compute; reflexivity|cbn [mapM]; now rewrite Glx, Gxl|]. destruct (C40_point_to_line lx xl (7, 1) _ _ (PBool true) (PFlt 1) true 1 Plx Hxl ltac:(intros E; injection E; lra) eq_refl eq_refl) as (_ & c' & Ec & _ & V). rewrite (ok_cons_of _ _ Ec). apply V.
    unfold left_distance. rewrite len_h, Rabs_pos_eq by lra. unfold cross, vec. cbn [fst snd]. field; lra.
  - apply (sat_thin _ _ _ _ _ [ly; yl]); [vm_compute; reflexivity|cbn [mapM]; now rewrite Gly, Gyl|]. destruct (C40_point_to_line ly yl (1, 5) _ _ (PBool true) (PFlt 1) true 1 Ply Hyl ltac:(intros E; injection E; lra) eq_refl eq_refl) as (_ & c' & Ec & _ & V). rewrite (ok_cons_of _ _ Ec). apply V.
    unfold left_distance. rewrite len_v, Rabs_left by lra. unfold cross, vec. cbn [fst snd]. field; lra.
  - apply (sat_thin _ _ _ _ _ [a]); [vm_compute; reflexivity|cbn [mapM]; now rewrite Ea|]. destruct (C49_x_label false a _ _ _ _ (7, 1) (PFlt (1/2)) (1/2) Af Px ltac:(intros E; injection E; lra) eq_refl) as (c' & Ec & V). rewrite (ok_cons_of _ _ Ec). apply V.
    unfold projection. rewrite len_h, Rabs_pos_eq by lra. unfold inner, vec. cbn [fst snd]. field; lra.
  - apply (sat_thin _ _ _ _ _ [a]); [vm_compute; reflexivity|cbn [mapM]; now rewrite Ea|]. destruct (C49_y_label false a _ _ _ _ (1, 5) (PFlt (1/2)) (1/2) Af Py ltac:(intros E; injection E; lra) eq_refl) as (c' & Ec & V). rewrite (ok_cons_of _ _ Ec). apply V.
    unfold projection. rewrite len_v, Rabs_pos_eq by lra. unfold inner, vec. cbn [fst snd]. field; lra.
Qed.
Lemma updated95 : exists l', update_layout_constraints l95 axs95 = Ok l'.
Proof.
  apply (C95_succeeds 0 false acts95 axs95 l95 runs95 shipped95 keys95). intros c ks ps Hin Ht.
  pose proof others95 as O. rewrite Forall_forall in O. specialize (O _ Hin). cbn [fst snd] in O.
  assert (Tk : thick c = true) by (unfold thick; destruct Ht as [->| ->]; [reflexivity|apply orb_true_r]). rewrite Tk in O.
  assert (K : ks = ["Axes/XAxis"%string] \/ ks = ["Axes/YAxis"%string]).
  { rewrite added95 in Hin. cbn [In] in Hin. clear Ht Tk. repeat (destruct Hin as [H|Hin]; [apply pair_equal_spec in H as [H <-]; apply pair_equal_spec in H as [_ <-]; first [discriminate O|auto]|]). contradiction. }
  destruct K as [-> | ->]; (eexists _, (axis95 "bottom"), (axis95 "left"); split; [reflexivity|]; split; [reflexivity|]; intros a [<-|[<-|[]]]; right; cbn; tauto).
Qed.
Lemma drawn95 : exists tr, update_subplots p95 "Figure" ["Axes"%string] = (tr, Ok tt).
Proof.
  unfold p95. rewrite prim95. unfold g95. lazy -[IZR Rplus Rminus Rmult Ropp Rlt_dec Req_EM_T Rdiv Rinv sqrt Rlt].
  repeat match goal with |- context [Req_EM_T ?x ?y] => let X := fresh in destruct (Req_EM_T x y) as [X|_]; [exfalso; lra|] end.
  repeat match goal with |- context [Rlt_dec ?x ?y] => let X := fresh in destruct (Rlt_dec x y) as [X|X]; try (exfalso; lra); clear X end.
  all: eexists; reflexivity.
Qed.
Lemma asked95 (rc : result cons) ks ps : (if rc then true else false) = true -> In (ok_cons rc, ks, ps) (LayoutSpec.added acts95) -> asked acts95 rc ks ps.
Proof. intros H1 H2. exists (ok_cons rc). split; [now apply ok_of|exact H2]. Qed.
Lemma request_met95 : sized acts95 "Figure" 12 8 /\ asked acts95 crFix ["Figure/Line0/Point0"%string] [PA1 [0; 0]] /\
  asked_axes acts95 "Figure" "Axes" request95 /\ asked_labels acts95 "Axes" request95 labels95.
Proof.
  split; [|split; [|split]].
  - split; [|split; eexists; (split; [apply number_flt|])]; apply asked95; try (vm_compute; reflexivity); rewrite added95; cbn [In]; tauto.
  - apply asked95; [vm_compute; reflexivity|]. rewrite added95. cbn [In]. tauto.
  - split; [now left|]. split; [now left|]. split; [|split; [|split; [|split; [|split]]]].
    + intros part [<-|[<-|[<-|[]]]]; (apply asked95; [vm_compute; reflexivity|]); rewrite added95; cbn [append In]; tauto.
    + apply asked95; [vm_compute; reflexivity|]. rewrite added95. cbn [In x_side request95]. tauto.
    + apply asked95; [vm_compute; reflexivity|]. rewrite added95. cbn [In y_side request95]. tauto.
    + exists PNone. apply asked95; [vm_compute; reflexivity|]. rewrite added95. cbn [append In]. tauto.
    + exists PNone. apply asked95; [vm_compute; reflexivity|]. rewrite added95. cbn [append In]. tauto.
    + intros side Hs. cbn [In] in Hs. destruct Hs as [<-|[<-|[<-|[<-|[]]]]]; [exists (PFlt 2)|exists (PFlt 1)|exists (PFlt 2)|exists (PFlt 1)];
        (split; [apply number_flt|]); (apply asked95; [vm_compute; reflexivity|]); rewrite added95; cbn [outermost request95 x_side y_side String.eqb Ascii.eqb Bool.eqb append In]; tauto.
  - split; [|split; [|split]].
    + exists (PBool true), (PFlt 1). split; [reflexivity|]. split; [apply number_flt|]. apply asked95; [vm_compute; reflexivity|]. rewrite added95. cbn [request95 x_side y_side String.eqb Ascii.eqb Bool.eqb append In]. tauto.
    + exists (PBool true), (PFlt 1). split; [reflexivity|]. split; [apply number_flt|]. apply asked95; [vm_compute; reflexivity|]. rewrite added95. cbn [request95 x_side y_side String.eqb Ascii.eqb Bool.eqb append In]. tauto.
    + exists (PFlt (1/2)). split; [apply number_flt|]. apply asked95; [vm_compute; reflexivity|]. rewrite added95. cbn [In]. tauto.
    + exists (PFlt (1/2)). split; [apply number_flt|]. apply asked95; [vm_compute; reflexivity|]. rewrite added95. cbn [In]. tauto.
Qed.
Lemma parts_in95 : quad_in (l_prim l95) "Figure" /\ axes_in (l_prim l95) "Axes" /\ labels_in (l_prim l95) "Axes".
Proof.
  assert (Ga : get_child (l_prim l95) "Axes" = Ok axes95) by (rewrite prim95; reflexivity).
  assert (Q : forall i q, mk_quad (F:=R) i VNone None = Ok (q, (i + 9)%nat) -> closed_quad q) by (intros i q; exact (built_quad_closed i VNone None q (i + 9) I)).
  split; [|split].
  - exists quad95. split; [rewrite prim95; reflexivity|]. apply (Q 1%nat). vm_compute. reflexivity.
  - exists axes95. split; [exact Ga|]. split; [reflexivity|]. split; [|split]; (eexists; split; [vm_compute; reflexivity|]).
    + apply (Q 31%nat). vm_compute. reflexivity.
    + apply (Q 11%nat). vm_compute. reflexivity.
    + apply (Q 21%nat). vm_compute. reflexivity.
  - intros part [<-|[<-|[]]]; exists axes95; eexists _, _; (split; [exact Ga|]); (split; [vm_compute; reflexivity|]); split; [reflexivity|split; reflexivity|reflexivity|split; reflexivity].
Qed.
(** All the hypotheses of the theorems hold here, and what is drawn: the frame is three
    inches from the left and bottom edges (two inches and the thickness of the axis), the
    labels one inch outside the tick labels at half the width and height of the frame. *)
Example C95_case : exists l' z tr,
  runs (empty_layout 0) acts95 l95 /\ Forall (shipped_act false) acts95 /\ Forall top_key acts95 /\ update_layout_constraints l95 axs95 = Ok l' /\
  same_structure (l_prim l') p95 /\ ids_consistent p95 /\ layout_residual l' p95 = Ok z /\ zeros z /\
  quad_in (l_prim l') "Figure" /\ axes_in (l_prim l') "Axes" /\ labels_in (l_prim l') "Axes" /\
  sized acts95 "Figure" 12 8 /\ asked acts95 crFix ["Figure/Line0/Point0"%string] [PA1 [0; 0]] /\
  asked_axes acts95 "Figure" "Axes" request95 /\ asked_labels acts95 "Axes" request95 labels95 /\
  update_subplots p95 "Figure" ["Axes"%string] = (tr, Ok tt) /\
  sizes tr = [(12, 8)] /\ map (fun kr => inches 12 8 (snd kr)) (positions tr) = [{| m_left := 3; m_right := 1; m_bottom := 3; m_top := 1 |}] /\
  (forall s, In ("Axes"%string, "X"%string, s) (ticks tr) <-> s = "bottom"%string) /\ (forall s, In ("Axes"%string, "Y"%string, s) (ticks tr) <-> s = "left"%string) /\
  (exists x y, In ("Axes"%string, "X"%string, (x, y)) (labels tr) /\ x * 12 = 7 /\ y * 8 = 1) /\
  (exists x y, In ("Axes"%string, "Y"%string, (x, y)) (labels tr) /\ x * 12 = 1 /\ y * 8 = 5).
Proof.
  destruct updated95 as (l' & U). destruct (updated_flat 0 false acts95 axs95 l95 l' runs95 shipped95 keys95 U) as (El & _).
  destruct structure95 as [S1 S2]. destruct parts_in95 as (Qf & Qa & Ql). rewrite <- El in S1, Qf, Qa, Ql.
  destruct request_met95 as (Sz & Fx & Ra & Rl). destruct drawn95 as (tr & D). destruct thick95 as [T1 T2].
  destruct (all_satisfied_updated 0 false acts95 axs95 l95 l' p95 runs95 shipped95 keys95) as (z & Z1 & Z2); [rewrite added95; intros E; symmetry in E; exact (nil_cons E)|exact U|exact S1| |].
  { intros c ks ps Hin. pose proof satisfied95 as A. rewrite Forall_forall in A. exact (A _ Hin). }
  assert (H2 : Forall2 (fun k q => noslash k = true /\ axes_in (l_prim l') k /\ asked_axes acts95 "Figure" k q) ["Axes"%string] [request95]) by (constructor; [auto|constructor]).
  assert (n12 : 12 <> 0) by lra. assert (n8 : 8 <> 0) by lra.
  destruct (C95_figure 0 false acts95 axs95 l95 l' p95 z "Figure" 12 8 _ _ tr runs95 shipped95 keys95 U S1 S2 Z1 Z2 Qf Sz n12 n8 H2 D) as (F1 & F2 & F3).
  assert (Hw : let m := with_room request95 (thickness (axis95 "bottom")) (thickness (axis95 "left")) in m_left m + m_right m < 12 /\ m_bottom m + m_top m < 8) by (rewrite T1, T2; cbn; lra).
  destruct (C95_ticks 0 false acts95 axs95 l95 l' p95 z "Figure" 12 8 _ _ tr runs95 shipped95 keys95 U S1 S2 Z1 Z2 Qf Sz n12 n8 H2 D
    0%nat "Axes"%string request95 (axis95 "bottom") (axis95 "left") eq_refl eq_refl eq_refl ltac:(rewrite T1; lra) ltac:(rewrite T2; lra) Hw) as (K1 & K2).
  destruct Hw as [Hw1 Hw2].
  destruct (C95_labels 0 false acts95 axs95 l95 l' p95 z "Figure" 12 8 _ _ tr runs95 shipped95 keys95 U S1 S2 Z1 Z2 Qf Sz n12 n8 Fx H2 D
    0%nat "Axes"%string request95 labels95 (axis95 "bottom") (axis95 "left") eq_refl eq_refl eq_refl Ql Rl Hw1 Hw2) as ((x1 & y1 & I1) & (x2 & y2 & I2) & L1 & L2).
  exists l', z, tr. do 16 (split; [first [exact runs95|exact shipped95|exact keys95|assumption]|]). split; [exact F1|]. split; [|split; [exact K1|split; [exact K2|split]]].
  - inversion F3 as [|kr q ps qs (ax & ay & Dk & E) F' E1]. inversion F'. subst. rewrite <- E1 in F2. cbn [map fst] in F2. injection F2 as F2. rewrite F2 in Dk. cbn in Dk. injection Dk as <- <-.
    cbn [map]. rewrite E, T1, T2. unfold with_room. cbn. f_equal. f_equal; lra.
  - exists x1, y1. split; [exact I1|]. destruct (L1 x1 y1 I1) as [-> ->]. rewrite T1, T2. cbn. lra.
  - exists x2, y2. split; [exact I2|]. destruct (L2 x2 y2 I2) as [-> ->]. rewrite T1, T2. cbn. lra.
Qed.
