(** Property C111: constraints that know neither the axes nor left and right hold for a figure
    exactly if they hold for its mirror image.  Vocabulary: MirrorSpec.v. *)
From Coq Require Import Reals Lra.
From Verif Require Import MirrorProofs PureProofs LayoutProofs GeomProofs P_Angle P_Same.
From Verif Require Import P_Affine EndProofs.
Local Open Scope R_scope.

(** Whatever is built (with the transforms, operators and compound classes) from lengths,
    distances along lines, ratios and orthogonality has the same value, or raises the same
    exception, on mirrored primitives. *)
Theorem C111_value co si (c : cons) ps params : co * co + si * si = 1 -> side_free c -> Forall planar ps ->
  call c (map (mirror co si) ps) params = call c ps params.
Proof. intros Hcs Hc Hp. apply call_mirror; [now apply free_pure|exact Hp]. Qed.

Lemma free_leaf (c : cons) : In c side_free_leaves -> side_free c.
Proof. apply ex_leaf. Qed.
Ltac infree := unfold side_free_leaves; cbn [In]; tauto.
Lemma free_cr (c d : cons) : In c side_free_leaves -> transform_constraint c = Ok d -> side_free d.
Proof. intros H E. apply (ex_constraint side_free_leaves c d); [now apply ex_leaf|exact E]. Qed.
Lemma free_relative c : RelativeLength = Ok c -> side_free c.
Proof.
  intros E. unfold RelativeLength in E. inv_bind E. inv_bind E. eapply ex_sum; [| |exact E]; [apply ex_leaf; infree|].
  eapply ex_mul; [| |exact E1]; [|intros b Eb; injection Eb as <-; apply ex_leaf; infree]. eapply ex_mul; [| |exact E0]; [apply ex_leaf; infree|intros b Eb; discriminate Eb].
Qed.
Lemma free_compound name np keys (rcs : list cons) pks cps sg c : (forall x, In x rcs -> side_free x) -> mk_construction (compound_cls name np) keys rcs pks cps sg = Ok c -> side_free c.
Proof. intros H E. eapply (ex_compound _ name []); [exact H|exact E]. Qed.
Lemma free_label name axis twin c : PositionAxisLabel name axis twin = Ok c -> side_free c.
Proof. intros E. unfold PositionAxisLabel in E. inv_bind E. inv_bind E. revert E. apply free_compound. intros y [<-|[]]. eapply free_cr; [|exact E0]. infree. Qed.
(** The distance of a point to a line has a sign, which tells the side: the mirror image is on
    the other one. *)
Theorem C111_side co si p l flag : co * co + si * si = 1 -> planar p -> planar l ->
  call PointToLineDistance (map (mirror co si) [p; l]) [flag] = bind (call PointToLineDistance [p; l] [flag]) (fun v => Ok (map Ropp v)).
Proof. intros Hcs Hp Hl. now apply call_to_line. Qed.

(** The constraints of the library of this kind. *)
Definition side_free_shipped : list (result cons) :=
  [Ok Orthogonal; crLength; RelativeLength; crPointOnLineDistance; crRelativePointOnLineDistance; crAspectRatio;
   PositionXAxisLabel false; PositionYAxisLabel false; PositionXAxisLabel true; PositionYAxisLabel true].
(** Those whose residuals are mirrored with the figure or change sign. *)
Definition mirroring_shipped : list (result cons) :=
  [Ok Coincident; Ok CoincidentLines; Ok Parallel; Ok Collinear; AlignRow; AlignColumn;
   CoincidentOutwardFaces "left"; CoincidentOutwardFaces "right"; CoincidentOutwardFaces "bottom"; CoincidentOutwardFaces "top";
   PositionXAxis "bottom" false; PositionXAxis "top" false; PositionYAxis "left" false; PositionYAxis "right" false;
   PositionXAxis "bottom" true; PositionXAxis "top" true; PositionYAxis "left" true; PositionYAxis "right" true].
Theorem C111_shipped (c : cons) : In (Ok c) side_free_shipped -> side_free c.
Proof.
  intros H. unfold side_free_shipped in H. cbn [In] in H.
  repeat match type of H with _ \/ _ => destruct H as [H|H] end; try contradiction.
  - injection H as <-. apply free_leaf. infree.
  - eapply free_cr; [|exact H]. infree.
  - now apply free_relative.
  - eapply free_cr; [|exact H]. infree.
  - eapply free_cr; [|exact H]. infree.
  - eapply free_cr; [|exact H]. infree.
  - unfold PositionXAxisLabel, PositionYAxisLabel in H. exact (free_label _ _ _ _ H).
  - unfold PositionXAxisLabel, PositionYAxisLabel in H. exact (free_label _ _ _ _ H).
  - unfold PositionXAxisLabel, PositionYAxisLabel in H. exact (free_label _ _ _ _ H).
  - unfold PositionXAxisLabel, PositionYAxisLabel in H. exact (free_label _ _ _ _ H).
Qed.
Definition mirrorable (c : cons) : Prop := In (Ok c) (side_free_shipped ++ mirroring_shipped) \/ exists r k, RectilinearGrid r k = Ok c.
Lemma mirrorable_weak co si c : co * co + si * si = 1 -> mirrorable c -> weak co si c.
Proof.
  intros Hcs [H|(r & k & E)]; [|now apply (grid_weak co si Hcs r k)]. apply in_app_iff in H as [H|H]; [apply free_is_weak; [exact Hcs|now apply C111_shipped]|].
  unfold mirroring_shipped in H. cbn [In] in H. repeat match type of H with _ \/ _ => destruct H as [H|H] end; try contradiction.
  - injection H as <-. apply leaf_weak. now apply coincident_weak.
  - injection H as <-. apply leaf_weak. now apply lines_weak.
  - injection H as <-. apply leaf_weak. now apply parallel_weak.
  - injection H as <-. apply leaf_weak. now apply collinear_weak.
  - exact (align_weak _ _ Hcs _ _ _ H).
  - exact (align_weak _ _ Hcs _ _ _ H).
  - exact (faces_weak _ _ Hcs _ _ H).
  - exact (faces_weak _ _ Hcs _ _ H).
  - exact (faces_weak _ _ Hcs _ _ H).
  - exact (faces_weak _ _ Hcs _ _ H).
  - unfold PositionXAxis, PositionYAxis in H. exact (position_weak _ _ Hcs _ _ _ _ _ H).
  - unfold PositionXAxis, PositionYAxis in H. exact (position_weak _ _ Hcs _ _ _ _ _ H).
  - unfold PositionXAxis, PositionYAxis in H. exact (position_weak _ _ Hcs _ _ _ _ _ H).
  - unfold PositionXAxis, PositionYAxis in H. exact (position_weak _ _ Hcs _ _ _ _ _ H).
  - unfold PositionXAxis, PositionYAxis in H. exact (position_weak _ _ Hcs _ _ _ _ _ H).
  - unfold PositionXAxis, PositionYAxis in H. exact (position_weak _ _ Hcs _ _ _ _ _ H).
  - unfold PositionXAxis, PositionYAxis in H. exact (position_weak _ _ Hcs _ _ _ _ _ H).
  - unfold PositionXAxis, PositionYAxis in H. exact (position_weak _ _ Hcs _ _ _ _ _ H).
Qed.
(** They all hold for primitives exactly if they hold for the mirrored ones. *)
Theorem C111_satisfied co si (c : cons) ps params : co * co + si * si = 1 -> mirrorable c -> Forall planar ps ->
  vanishes c ps params <-> vanishes c (map (mirror co si) ps) params.
Proof.
  intros Hcs Hc Hp. pose proof (call_weak co si c ps params (mirrorable_weak co si c Hcs Hc) Hp) as A. unfold agree in A. unfold vanishes.
  destruct (call c ps params) as [r|], (call c (map (mirror co si) ps) params) as [r'|]; try contradiction.
  - split; intros (x & E & Z); injection E as <-; eexists; (split; [reflexivity|]); now apply A.
  - split; intros (x & E & _); discriminate.
Qed.
(** After any history of calls with such constraints, the layout is satisfied at a tree exactly
    if it is satisfied at the mirrored tree. *)
Lemma layout_mirror co si i (acts : list (action R)) (p : prim) : Forall (weak co si) (flat_map given_cons acts) -> planar p ->
  satisfied (after (empty_layout i) acts) p <-> satisfied (after (empty_layout i) acts) (mirror co si p).
Proof.
  intros Hc Hp. set (l := after (empty_layout i) acts).
  assert (K : Forall (weak_cls co si) (map (@ntype _ _) (preorder (l_cons l)))).
  { apply Forall_forall. intros t Ht. destruct (after_kinds acts t (empty_layout i) Ht) as [H0|(x & c & H1 & H2 & H3)].
    - cbn in H0. destruct H0 as [<-|[]]. intros ps params _. reflexivity.
    - rewrite Forall_flat_map, Forall_forall in Hc. specialize (Hc x H1). rewrite Forall_forall in Hc. specialize (Hc c H2). unfold weak in Hc. rewrite <- Forall_map, Forall_forall in Hc. now apply Hc. }
  assert (K' : Forall (weak_cls co si) (map (@ntype _ _) (dpre (nch (l_cons l))))) by (destruct (l_cons l) as [t v ch]; cbn [preorder map] in K; now inversion K).
  unfold satisfied, layout_residual. rewrite flat_constraints_dpre.
  pose proof (residual_weak co si _ p Hp K' (map (@nval _ _) (dpre (nch (l_keys l)))) (map (@nval _ _) (dpre (nch (l_params l))))) as A.
  destruct (assem_constraint_residual p _ _ _) as [rs|], (assem_constraint_residual (mirror co si p) _ _ _) as [rs'|]; try contradiction; cbn [bind].
  - destruct A as [A1 A2]. destruct rs as [|r rs], rs' as [|r' rs']; try discriminate; [reflexivity|]. split; intros (z & E & Z); injection E as <-; eexists; (split; [reflexivity|]); now apply A1.
  - split; intros (z & E & _); discriminate.
Qed.
Theorem C111_layout co si i (acts : list (action R)) (p : prim) : co * co + si * si = 1 -> Forall mirrorable (flat_map given_cons acts) -> planar p ->
  satisfied (after (empty_layout i) acts) p <-> satisfied (after (empty_layout i) acts) (mirror co si p).
Proof. intros Hcs Hc. apply layout_mirror. eapply Forall_impl; [|exact Hc]. intros c. now apply mirrorable_weak. Qed.

(** About one of the axes, also what asks lines to be horizontal or vertical. *)
Definition upright_shipped : list (result cons) := [Ok Horizontal; Ok Vertical; Box].
Theorem C111_axes co i (acts : list (action R)) (p : prim) : co = 1 \/ co = -1 -> Forall (fun c => mirrorable c \/ In (Ok c) upright_shipped) (flat_map given_cons acts) -> planar p ->
  satisfied (after (empty_layout i) acts) p <-> satisfied (after (empty_layout i) acts) (mirror co 0 p).
Proof.
  intros Hco Hc. assert (Hcs : co * co + 0 * 0 = 1) by (destruct Hco as [-> | ->]; ring). apply layout_mirror. eapply Forall_impl; [|exact Hc]. intros c [H|H]; [now apply mirrorable_weak|].
  unfold upright_shipped in H. cbn [In] in H. destruct (upright_weak co 0 Hcs eq_refl) as [H1 H2]. destruct H as [H|[H|[H|[]]]].
  - injection H as <-. now apply leaf_weak.
  - injection H as <-. now apply leaf_weak.
  - exact (box_weak co 0 Hcs c eq_refl H).
Qed.

(** The unit square with a side of length 1, a right angle and two parallel sides, mirrored
    about a slanted line. *)
Definition acts111 : list (action R) :=
  [AddPrim quad60 "Q"; AddConstraint Orthogonal ["Q/Line0"%string; "Q/Line1"%string] [] "O"; AddConstraint (ok_cons crLength) ["Q/Line0"%string] [PFlt 1%R] "L";
   AddConstraint Parallel ["Q/Line0"%string; "Q/Line2"%string] [] "P"].
Definition l111 : layout := after (empty_layout 0) acts111.
Lemma planar111 : planar (l_prim l111).
Proof.
  unfold planar. assert (E : exists ds, map (fun m => vdata (nval m)) (preorder (l_prim l111)) = ds /\ Forall flat2 ds).
  { eexists. split; [lazy -[IZR]; reflexivity|]. repeat (apply Forall_cons; [first [left; reflexivity | right; eexists _, _; reflexivity]|]). apply Forall_nil. }
  destruct E as (ds & E & H). rewrite <- E in H. now rewrite Forall_map in H.
Qed.
Lemma mirrorable111 : Forall mirrorable (flat_map given_cons acts111).
Proof.
  unfold acts111. cbn [flat_map given_cons List.app]. apply Forall_cons; [|apply Forall_cons; [|apply Forall_cons; [|apply Forall_nil]]]; left; apply in_or_app.
  - left. unfold side_free_shipped. cbn [In]. tauto.
  - left. rewrite <- ok_of; [unfold side_free_shipped; cbn [In]; tauto|vm_compute; reflexivity].
  - right. unfold mirroring_shipped. cbn [In]. tauto.
Qed.
Lemma satisfied111 : satisfied l111 (l_prim l111).
Proof.
  eexists. split.
  - lazy -[IZR Rplus Rminus Rmult Ropp Rlt_dec Req_EM_T Rdiv sqrt]. destruct (Rlt_dec _ 0) as [H|_]; [exfalso; lra|]. reflexivity.
  - assert (E : sqrt ((1 - 0) * (1 - 0) + ((0 - 0) * (0 - 0) + 0)) = 1) by (replace ((1 - 0) * (1 - 0) + ((0 - 0) * (0 - 0) + 0)) with 1 by ring; apply sqrt_1).
    rewrite E. repeat (apply Forall_cons; [lra|]). apply Forall_nil.
Qed.
Example C111_case : (3 / 5) * (3 / 5) + (4 / 5) * (4 / 5) = 1 /\ Forall mirrorable (flat_map given_cons acts111) /\ planar (l_prim l111) /\
  satisfied l111 (l_prim l111) /\ satisfied l111 (mirror (3 / 5) (4 / 5) (l_prim l111)) /\ runs (empty_layout 0) acts111 l111.
Proof.
  split; [lra|]. split; [exact mirrorable111|]. split; [exact planar111|]. split; [exact satisfied111|]. split; [|unfold l111; apply all_ok_runs; vm_compute; reflexivity].
  apply C111_layout; [lra|exact mirrorable111|exact planar111|exact satisfied111].
Qed.

(** With all four sides along the axes as well. *)
Definition acts111x : list (action R) := (acts111 ++ [AddConstraint (ok_cons Box) ["Q"%string] [] "B"])%list.
Definition l111x : layout := after (empty_layout 0) acts111x.
Lemma planar111x : planar (l_prim l111x).
Proof. replace (l_prim l111x) with (l_prim l111) by (lazy -[IZR]; reflexivity). exact planar111. Qed.
Lemma satisfied111x : satisfied l111x (l_prim l111x).
Proof.
  eexists. split.
  - lazy -[IZR Rplus Rminus Rmult Ropp Rlt_dec Req_EM_T Rdiv sqrt]. destruct (Rlt_dec _ 0) as [H|_]; [exfalso; lra|]. reflexivity.
  - assert (E : sqrt ((1 - 0) * (1 - 0) + ((0 - 0) * (0 - 0) + 0)) = 1) by (replace ((1 - 0) * (1 - 0) + ((0 - 0) * (0 - 0) + 0)) with 1 by ring; apply sqrt_1).
    rewrite E. repeat (apply Forall_cons; [lra|]). apply Forall_nil.
Qed.
Example C111_axes_case : Forall (fun c => mirrorable c \/ In (Ok c) upright_shipped) (flat_map given_cons acts111x) /\ planar (l_prim l111x) /\
  satisfied l111x (l_prim l111x) /\ satisfied l111x (mirror (-1) 0 (l_prim l111x)) /\ runs (empty_layout 0) acts111x l111x.
Proof.
  assert (H : Forall (fun c => mirrorable c \/ In (Ok c) upright_shipped) (flat_map given_cons acts111x)).
  { unfold acts111x. rewrite flat_map_app. apply Forall_app. split; [eapply Forall_impl; [|exact mirrorable111]; intros c Hc; now left|]. cbn [flat_map given_cons List.app]. apply Forall_cons; [|apply Forall_nil].
    right. rewrite <- ok_of; [unfold upright_shipped; cbn [In]; tauto|vm_compute; reflexivity]. }
  split; [exact H|]. split; [exact planar111x|]. split; [exact satisfied111x|]. split; [|unfold l111x; apply all_ok_runs; vm_compute; reflexivity].
  apply C111_axes; [now right|exact H|exact planar111x|exact satisfied111x].
Qed.

Print Assumptions C111_value.
Print Assumptions C111_side.
Print Assumptions C111_shipped.
Print Assumptions C111_satisfied.
Print Assumptions C111_layout.
Print Assumptions C111_axes.
