(** Property C107: constraints that do not mention the axes do not depend on how the figure is
    turned.  Vocabulary: TurnSpec.v. *)
From Coq Require Import Reals Lra.
From Verif Require Import TurnProofs PureProofs LayoutProofs GeomProofs P_Angle P_Same.
From Verif Require Import P_Affine EndProofs.
Local Open Scope R_scope.

(** Whatever is built (with the transforms, operators and compound classes) from lengths,
    distances along and across lines, ratios, orthogonality, parallelism and collinearity has
    the same value, or raises the same exception, on turned primitives. *)
Theorem C107_value co si (c : cons) ps params : co * co + si * si = 1 -> orientation_free c -> Forall planar ps ->
  call c (map (turn co si) ps) params = call c ps params.
Proof. intros Hcs Hc Hp. apply call_turn; [now apply free_pure|exact Hp]. Qed.

Lemma free_leaf (c : cons) : In c free_leaves -> orientation_free c.
Proof. apply ex_leaf. Qed.
Ltac infree := unfold free_leaves; cbn [In]; tauto.
Lemma free_cr (c d : cons) : In c free_leaves -> transform_constraint c = Ok d -> orientation_free d.
Proof. intros H E. apply (ex_constraint free_leaves c d); [now apply ex_leaf|exact E]. Qed.
Lemma free_relative c : RelativeLength = Ok c -> orientation_free c.
Proof.
  intros E. unfold RelativeLength in E. inv_bind E. inv_bind E. eapply ex_sum; [| |exact E]; [apply ex_leaf; infree|].
  eapply ex_mul; [| |exact E1]; [|intros b Eb; injection Eb as <-; apply ex_leaf; infree]. eapply ex_mul; [| |exact E0]; [apply ex_leaf; infree|intros b Eb; discriminate Eb].
Qed.
Lemma free_compound name np keys (rcs : list cons) pks cps sg c : (forall x, In x rcs -> orientation_free x) -> mk_construction (compound_cls name np) keys rcs pks cps sg = Ok c -> orientation_free c.
Proof. intros H E. eapply (ex_compound _ name []); [exact H|exact E]. Qed.
Lemma free_align name row c : Align name row = Ok c -> orientation_free c.
Proof. unfold Align. destruct row; apply free_compound; intros y [<-|[<-|[]]]; apply free_leaf; infree. Qed.
Lemma free_label name axis twin c : PositionAxisLabel name axis twin = Ok c -> orientation_free c.
Proof. intros E. unfold PositionAxisLabel in E. inv_bind E. inv_bind E. revert E. apply free_compound. intros y [<-|[]]. eapply free_cr; [|exact E0]. infree. Qed.
Lemma free_rect r k c : RectilinearGrid r k = Ok c -> orientation_free c.
Proof.
  intros E. unfold RectilinearGrid in E. inv_bind E. inv_bind E. inv_bind E. inv_bind E. revert E. apply free_compound. intros y Hy.
  apply in_app_iff in Hy as [Hy|Hy]; apply repeat_spec in Hy as ->; (eapply ex_map; [|eassumption]); [exact (free_align _ _ _ E0)|exact (free_align _ _ _ E1)].
Qed.

(** The constraints of the library of this kind. *)
Definition free_shipped : list (result cons) :=
  [Ok Orthogonal; Ok Parallel; Ok Collinear; crLength; RelativeLength; crPointOnLineDistance; crPointToLineDistance; crRelativePointOnLineDistance; crAspectRatio; AlignRow; AlignColumn;
   PositionXAxisLabel false; PositionYAxisLabel false; PositionXAxisLabel true; PositionYAxisLabel true].
(** Those of them whose residuals are coordinates: they turn with the figure. *)
Definition turning_shipped : list (result cons) :=
  [Ok Coincident; Ok CoincidentLines;
   CoincidentOutwardFaces "left"; CoincidentOutwardFaces "right"; CoincidentOutwardFaces "bottom"; CoincidentOutwardFaces "top";
   PositionXAxis "bottom" false; PositionXAxis "top" false; PositionYAxis "left" false; PositionYAxis "right" false;
   PositionXAxis "bottom" true; PositionXAxis "top" true; PositionYAxis "left" true; PositionYAxis "right" true].
Theorem C107_shipped (c : cons) : In (Ok c) free_shipped \/ (exists r k, RectilinearGrid r k = Ok c) -> orientation_free c.
Proof.
  intros [H|(r & k & E)]; [|now apply free_rect in E]. unfold free_shipped in H. cbn [In] in H.
  repeat match type of H with _ \/ _ => destruct H as [H|H] end; try contradiction.
  - injection H as <-. apply free_leaf. infree.
  - injection H as <-. apply free_leaf. infree.
  - injection H as <-. apply free_leaf. infree.
  - eapply free_cr; [|exact H]. infree.
  - now apply free_relative.
  - eapply free_cr; [|exact H]. infree.
  - eapply free_cr; [|exact H]. infree.
  - eapply free_cr; [|exact H]. infree.
  - eapply free_cr; [|exact H]. infree.
  - exact (free_align _ _ _ H).
  - exact (free_align _ _ _ H).
  - unfold PositionXAxisLabel, PositionYAxisLabel in H. exact (free_label _ _ _ _ H).
  - unfold PositionXAxisLabel, PositionYAxisLabel in H. exact (free_label _ _ _ _ H).
  - unfold PositionXAxisLabel, PositionYAxisLabel in H. exact (free_label _ _ _ _ H).
  - unfold PositionXAxisLabel, PositionYAxisLabel in H. exact (free_label _ _ _ _ H).
Qed.
Definition turnable (c : cons) : Prop := In (Ok c) (free_shipped ++ turning_shipped) \/ exists r k, RectilinearGrid r k = Ok c.
Lemma turnable_weak co si c : co * co + si * si = 1 -> turnable c -> weak co si c.
Proof.
  intros Hcs H. assert (G : orientation_free c -> weak co si c) by now apply free_is_weak.
  destruct H as [H|H]; [|apply G, C107_shipped; now right]. apply in_app_iff in H as [H|H]; [apply G, C107_shipped; now left|]. clear G.
  unfold turning_shipped in H. cbn [In] in H. repeat match type of H with _ \/ _ => destruct H as [H|H] end; try contradiction.
  - injection H as <-. apply leaf_weak. now apply coincident_weak.
  - injection H as <-. apply leaf_weak. now apply lines_weak.
  - exact (faces_weak _ _ Hcs _ _ H).
  - exact (faces_weak _ _ Hcs _ _ H).
  - exact (faces_weak _ _ Hcs _ _ H).
  - exact (faces_weak _ _ Hcs _ _ H).
  - unfold PositionXAxis, PositionYAxis in H. exact (position_weak _ _ Hcs _ _ _ _ _ H).
  - unfold PositionXAxis, PositionYAxis in H. exact (position_weak _ _ Hcs _ _ _ _ _ H).
  - unfold PositionXAxis, PositionYAxis in H. exact (position_weak _ _ Hcs _ _ _ _ _ H).
  - unfold PositionXAxis, PositionYAxis in H. exact (position_weak _ _ Hcs _ _ _ _ _ H).
  - unfold PositionXAxis, PositionYAxis in H. exact (position_weak _ _ Hcs _ _ _ _ _ H).
  - unfold PositionXAxis, PositionYAxis in H. exact (position_weak _ _ Hcs _ _ _ _ _ H).
  - unfold PositionXAxis, PositionYAxis in H. exact (position_weak _ _ Hcs _ _ _ _ _ H).
  - unfold PositionXAxis, PositionYAxis in H. exact (position_weak _ _ Hcs _ _ _ _ _ H).
Qed.
(** They all hold before turning exactly if they hold after. *)
Theorem C107_satisfied co si (c : cons) ps params : co * co + si * si = 1 -> turnable c -> Forall planar ps ->
  vanishes c ps params <-> vanishes c (map (turn co si) ps) params.
Proof.
  intros Hcs Hc Hp. pose proof (call_weak co si c ps params (turnable_weak co si c Hcs Hc) Hp) as A. unfold agree in A. unfold vanishes.
  destruct (call c ps params) as [r|], (call c (map (turn co si) ps) params) as [r'|]; try contradiction.
  - split; intros (x & E & Z); injection E as <-; eexists; (split; [reflexivity|]); now apply A.
  - split; intros (x & E & _); discriminate.
Qed.
(** After any history of calls with such constraints, the layout is satisfied at a tree exactly
    if it is satisfied at the turned tree. *)
Theorem C107_layout co si i (acts : list (action R)) (p : prim) : co * co + si * si = 1 -> Forall turnable (flat_map given_cons acts) -> planar p ->
  satisfied (after (empty_layout i) acts) p <-> satisfied (after (empty_layout i) acts) (turn co si p).
Proof.
  intros Hcs Hc Hp. set (l := after (empty_layout i) acts).
  assert (K : Forall (weak_cls co si) (map (@ntype _ _) (preorder (l_cons l)))).
  { apply Forall_forall. intros t Ht. destruct (after_kinds acts t (empty_layout i) Ht) as [H0|(x & c & H1 & H2 & H3)].
    - cbn in H0. destruct H0 as [<-|[]]. intros ps params _. reflexivity.
    - rewrite Forall_flat_map, Forall_forall in Hc. specialize (Hc x H1). rewrite Forall_forall in Hc. specialize (Hc c H2). apply (turnable_weak co si c Hcs) in Hc. unfold weak in Hc. rewrite <- Forall_map, Forall_forall in Hc. now apply Hc. }
  assert (K' : Forall (weak_cls co si) (map (@ntype _ _) (dpre (nch (l_cons l))))) by (destruct (l_cons l) as [t v ch]; cbn [preorder map] in K; now inversion K).
  unfold satisfied, layout_residual. rewrite flat_constraints_dpre.
  pose proof (residual_weak co si _ p Hp K' (map (@nval _ _) (dpre (nch (l_keys l)))) (map (@nval _ _) (dpre (nch (l_params l))))) as A.
  destruct (assem_constraint_residual p _ _ _) as [rs|], (assem_constraint_residual (turn co si p) _ _ _) as [rs'|]; try contradiction; cbn [bind].
  - destruct A as [A1 A2]. destruct rs as [|r rs], rs' as [|r' rs']; try discriminate; [reflexivity|]. split; intros (z & E & Z); injection E as <-; eexists; (split; [reflexivity|]); now apply A1.
  - split; intros (z & E & _); discriminate.
Qed.

(** Angle is not of this kind, although it looks like it: what the code measures jumps by a full
    turn.  Two lines, and the same turned by half a turn. *)
Lemma dirangle_diag' s : s = 1 \/ s = -1 -> dirangle (1, s) = s * (PI / 4).
Proof.
  intros Hs. unfold dirangle, unit_vec. set (L := len (1, s)).
  assert (HL : 0 < L). { unfold L. assert (H : len (1, s) <> 0) by (rewrite len_zero; intros E; inversion E; lra).
    pose proof (sqrt_pos (inner (1, s) (1, s))). fold (len (1, s)) in *. lra. }
  cbn [fst snd]. unfold Ratan2. assert (Hl : 0 < / L) by now apply Rinv_0_lt_compat. destruct (Rlt_dec 0 (1 / L)) as [_|H]; [|exfalso; apply H; unfold Rdiv; lra].
  replace (s / L / (1 / L)) with s by (field; lra). destruct Hs as [-> | ->]; [rewrite atan_1; lra|]. change (-1) with (- (1)). rewrite atan_opp, atan_1. lra.
Qed.
Theorem C107_angle_refuted : exists l m : prim, planar l /\ planar m /\ (-1) * (-1) + 0 * 0 = 1 /\
  call Angle [l; m] [] = Ok [- (3 * (PI / 2))] /\ call Angle (map (turn (-1) 0) [l; m]) [] = Ok [PI / 2].
Proof.
  assert (Pl : forall x y, planar (at_angle x y)). { intros x y. unfold planar, at_angle. cbn [preorder flat_map snd List.app]. constructor; [now left|]. constructor; [right; cbn; eauto|]. constructor; [right; cbn; eauto|]. constructor. }
  exists (at_angle (-1) 1), (at_angle (-1) (-1)). split; [apply Pl|]. split; [apply Pl|]. split; [ring|].
  assert (V : forall a s, vec (0, 0) (a, s) = (a, s)) by (intros; unfold vec; cbn; f_equal; ring). split.
  - rewrite (angle_value _ _ _ _ _ _ (at_angle_line _ _) (at_angle_line _ _)) by (intros E; inversion E; lra). rewrite !V.
    rewrite (dirangle_diag 1), (dirangle_diag (-1)) by auto. do 2 f_equal. lra.
  - assert (T : forall x y, turn (-1) 0 (at_angle x y) = at_angle (- x) (- y)).
    { intros x y. unfold at_angle. cbn [turn map fst snd turned vid vdata]. do 2 f_equal; [do 4 f_equal; [ring|f_equal; ring]|]. f_equal. do 4 f_equal; [ring|f_equal; ring]. }
    cbn [map]. rewrite !T. replace (- -1) with 1 by ring. change (- (1)) with (-1).
    rewrite (angle_value _ _ _ _ _ _ (at_angle_line _ _) (at_angle_line _ _)) by (intros E; inversion E; lra). rewrite !V.
    rewrite (dirangle_diag' 1), (dirangle_diag' (-1)) by auto. do 2 f_equal. lra.
Qed.

(** The unit square with one side of length 1 and a right angle, in any position. *)
Definition acts107 : list (action R) :=
  [AddPrim quad60 "Q"; AddConstraint Orthogonal ["Q/Line0"%string; "Q/Line1"%string] [] "O"; AddConstraint (ok_cons crLength) ["Q/Line0"%string] [PFlt 1%R] "L";
   AddConstraint Coincident ["Q/Line0/Point1"%string; "Q/Line1/Point0"%string] [] "C"].
Definition l107 : layout := after (empty_layout 0) acts107.
Lemma planar107 : planar (l_prim l107).
Proof.
  unfold planar. assert (E : exists ds, map (fun m => vdata (nval m)) (preorder (l_prim l107)) = ds /\ Forall flat2 ds).
  { eexists. split; [lazy -[IZR]; reflexivity|]. repeat (apply Forall_cons; [first [left; reflexivity | right; eexists _, _; reflexivity]|]). apply Forall_nil. }
  destruct E as (ds & E & H). rewrite <- E in H. now rewrite Forall_map in H.
Qed.
Lemma turnable107 : Forall turnable (flat_map given_cons acts107).
Proof.
  unfold acts107. cbn [flat_map given_cons List.app]. apply Forall_cons; [|apply Forall_cons; [|apply Forall_cons; [|apply Forall_nil]]]; left; apply in_or_app.
  - left. unfold free_shipped. cbn [In]. tauto.
  - left. rewrite <- ok_of; [unfold free_shipped; cbn [In]; tauto|vm_compute; reflexivity].
  - right. unfold turning_shipped. cbn [In]. tauto.
Qed.
Lemma satisfied107 : satisfied l107 (l_prim l107).
Proof.
  eexists. split.
  - lazy -[IZR Rplus Rminus Rmult Ropp Rlt_dec Req_EM_T Rdiv sqrt]. destruct (Rlt_dec _ 0) as [H|_]; [exfalso; lra|]. reflexivity.
  - assert (E : sqrt ((1 - 0) * (1 - 0) + ((0 - 0) * (0 - 0) + 0)) = 1) by (replace ((1 - 0) * (1 - 0) + ((0 - 0) * (0 - 0) + 0)) with 1 by ring; apply sqrt_1).
    rewrite E. repeat (apply Forall_cons; [lra|]). apply Forall_nil.
Qed.
Example C107_case : (3 / 5) * (3 / 5) + (4 / 5) * (4 / 5) = 1 /\ Forall turnable (flat_map given_cons acts107) /\ planar (l_prim l107) /\
  satisfied l107 (l_prim l107) /\ satisfied l107 (turn (3 / 5) (4 / 5) (l_prim l107)) /\ runs (empty_layout 0) acts107 l107.
Proof.
  split; [lra|]. split; [exact turnable107|]. split; [exact planar107|]. split; [exact satisfied107|]. split; [|unfold l107; apply all_ok_runs; vm_compute; reflexivity].
  apply C107_layout; [lra|exact turnable107|exact planar107|exact satisfied107].
Qed.

Print Assumptions C107_value.
Print Assumptions C107_shipped.
Print Assumptions C107_satisfied.
Print Assumptions C107_layout.
Print Assumptions C107_angle_refuted.
