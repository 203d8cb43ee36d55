(** Every shipped constraint serves its parts : dimensions, margins, thickness. *)
From Verif Require Export ReadyProofs CtorProofs Constr ConsSpec.

Section Arrays.
  Context {F : Type} {N : Num F}.
  Notation prim := (prim F).
  Notation pyval := (pyval F).
  Notation cons := (cons F).
  Variable tw : bool.
  Notation ready := (ready tw).
  Notation readys := (readys tw).

  (** A value a dimension can be compared with: a number or a one-dimensional array. *)
  Definition dimension (v : pyval) : Prop := is_number v = true \/ (exists l, v = PA1 l) \/ (exists l, v = PList l).

  Ltac rdy := repeat first
    [ apply readys_nil
    | eapply readys_cons; [solve [repeat (apply Forall2_cons || apply Forall2_nil); (eexists; split; [reflexivity|reflexivity])]| |]
    | eapply ready_node; [reflexivity|reflexivity|cbn [csig prim_types cpk]] ].
  Ltac build := match goal with |- exists c, ?e = Ok c /\ _ =>
    let x := eval vm_compute in e in match x with Ok ?c => exists c; split; [vm_compute; reflexivity|] end end.

  Definition dimensions : list (result cons) := [crWidth; crHeight].
  Lemma dimension_ready : Forall (fun rc => exists c, rc = Ok c /\ csig (nval c) = msig [TQuad] 0 1 /\ forall v, dimension v -> ready c [v]) dimensions.
  Proof.
    unfold dimensions. repeat first [apply Forall_nil | apply Forall_cons; [build; split; [reflexivity|]; intros v [H|[[l ->]|[l ->]]]; [destruct v; try discriminate; rdy|rdy|rdy]|]].
  Qed.
  Definition margins : list (result cons) :=
    map crOuterMargin ["left"; "right"; "bottom"; "top"] ++ map crInnerMargin ["left"; "right"; "bottom"; "top"].
  Lemma margin_ready : Forall (fun rc => exists c, rc = Ok c /\ csig (nval c) = msig [TQuad; TQuad] 0 1 /\ forall v, dimension v -> ready c [v]) margins.
  Proof.
    unfold margins. cbn [map app]. repeat first [apply Forall_nil | apply Forall_cons; [build; split; [reflexivity|]; intros v [H|[[l ->]|[l ->]]]; [destruct v; try discriminate; rdy|rdy|rdy]|]].
  Qed.
  Lemma outer_ready side : In side ["left"; "right"; "bottom"; "top"] ->
    exists c, crOuterMargin side = Ok c /\ csig (nval c) = msig [TQuad; TQuad] 0 1 /\ forall v, dimension v -> ready c [v].
  Proof.
    intros H. pose proof margin_ready as M. rewrite Forall_forall in M. apply M. unfold margins. apply in_or_app. left. now apply in_map.
  Qed.

  (** Axis thickness: nothing, or an axis that is positioned. *)
  Definition thickness_value (v : pyval) : Prop := v = PNone \/ exists a d, v = PAxis a /\ snd (get_axis_thickness a) = Ok d.
  Lemma thickness_is_number a d : snd (get_axis_thickness (F:=F) a) = Ok d -> is_number d = true.
  Proof.
    unfold get_axis_thickness. destruct (tightbbox a false); [|intros H; inversion H; reflexivity].
    repeat (destruct (String.eqb _ _); [intros H; inversion H; reflexivity|]). discriminate.
  Qed.
  Lemma thickness_ready : Forall (fun rc => exists c, rc = Ok c /\ forall v, thickness_value v -> ready c [v]) [XAxisThickness; YAxisThickness].
  Proof.
    repeat first [apply Forall_nil | apply Forall_cons].
    - assert (Hy : exists c, crYLength (F:=F) = Ok c /\ csig (nval c) = msig [TLine] 1 1 /\ forall v, is_number v = true -> ready c [v]) by (build; split; [reflexivity|]; intros v H; destruct v; try discriminate; rdy).
      destruct Hy as (y & Ey & Sy & Hy). unfold XAxisThickness, AxisThickness. cbn [String.eqb Ascii.eqb Bool.eqb]. rewrite Ey. cbn [bind]. unfold mk_construction. cbn [zip dict_of fold_left dset].
      rewrite mk_cons_ok; [|reflexivity|cbn; intuition discriminate]. eexists. split; [reflexivity|]. intros v [->|(a & d & -> & Ea)].
      + eapply ready_node; [reflexivity|reflexivity|]. constructor; [cbn [fst snd]; rewrite Sy; repeat constructor; eexists; split; reflexivity|now apply Hy|constructor].
      + eapply ready_node; [reflexivity|cbn [cparams thickness_params]; rewrite Ea; reflexivity|]. constructor; [cbn [fst snd]; rewrite Sy; repeat constructor; eexists; split; reflexivity|apply Hy; eapply thickness_is_number, Ea|constructor].
    - assert (Hy : exists c, crXLength (F:=F) = Ok c /\ csig (nval c) = msig [TLine] 1 1 /\ forall v, is_number v = true -> ready c [v]) by (build; split; [reflexivity|]; intros v H; destruct v; try discriminate; rdy).
      destruct Hy as (y & Ey & Sy & Hy). unfold YAxisThickness, AxisThickness. cbn [String.eqb Ascii.eqb Bool.eqb]. rewrite Ey. cbn [bind]. unfold mk_construction. cbn [zip dict_of fold_left dset].
      rewrite mk_cons_ok; [|reflexivity|cbn; intuition discriminate]. eexists. split; [reflexivity|]. intros v [->|(a & d & -> & Ea)].
      + eapply ready_node; [reflexivity|reflexivity|]. constructor; [cbn [fst snd]; rewrite Sy; repeat constructor; eexists; split; reflexivity|now apply Hy|constructor].
      + eapply ready_node; [reflexivity|cbn [cparams thickness_params]; rewrite Ea; reflexivity|]. constructor; [cbn [fst snd]; rewrite Sy; repeat constructor; eexists; split; reflexivity|apply Hy; eapply thickness_is_number, Ea|constructor].
  Qed.

  Lemma align_ready : exists r c, AlignRow (F:=F) = Ok r /\ AlignColumn = Ok c /\ csig (nval r) = msig [TQuad; TQuad] 0 0 /\ csig (nval c) = msig [TQuad; TQuad] 0 0 /\ ready r [] /\ ready c [].
  Proof.
    assert (H : exists r, AlignRow (F:=F) = Ok r /\ csig (nval r) = msig [TQuad; TQuad] 0 0 /\ ready r []) by (build; split; [reflexivity|rdy]).
    assert (H' : exists r, AlignColumn (F:=F) = Ok r /\ csig (nval r) = msig [TQuad; TQuad] 0 0 /\ ready r []) by (build; split; [reflexivity|rdy]).
    destruct H as (r & ? & ? & ?), H' as (c & ? & ? & ?). exists r, c. tauto.
  Qed.
End Arrays.
