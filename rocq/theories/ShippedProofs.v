(** Every shipped constraint serves its parts. *)
From Verif Require Export ReadyProofs Constr ConsSpec.

Section Shipped.
  Context {F : Type} {N : Num F}.
  Notation prim := (prim F).
  Notation pyval := (pyval F).
  Notation cons := (cons F).

  (** Constraints whose parts take no parameter other than the constraint value: any
      parameters, in the declared number, can be distributed. *)
  Definition plain : list (result cons) :=
    [crFix; crDirectedDistance; crXDistance; crYDistance; Ok Coincident;
     crLength; crDirectedLength; crXLength; crYLength; Ok Vertical; Ok Horizontal; RelativeLength;
     crMidpointXDistance; crMidpointYDistance; Ok Orthogonal; Ok Parallel; crAngle; Ok Collinear;
     Ok CoincidentLines; crPointOnLineDistance; crPointToLineDistance; crRelativePointOnLineDistance;
     Box; crAspectRatio; AlignRow; AlignColumn;
     CoincidentOutwardFaces "left"; CoincidentOutwardFaces "right"; CoincidentOutwardFaces "bottom"; CoincidentOutwardFaces "top";
     PositionXAxis "bottom" false; PositionXAxis "top" false; PositionYAxis "left" false; PositionYAxis "right" false;
     PositionXAxisLabel false; PositionYAxisLabel false].

  Ltac keys := repeat (apply Forall2_cons || apply Forall2_nil); (eexists; split; [reflexivity|reflexivity]).
  Ltac rdy := repeat first
    [ apply readys_nil
    | eapply readys_cons; [solve [repeat (apply Forall2_cons || apply Forall2_nil); (eexists; split; [reflexivity|reflexivity])]| |]
    | eapply ready_node; [reflexivity|reflexivity|cbn [csig prim_types cpk]] ].
  Ltac build := match goal with |- exists c, ?e = Ok c /\ _ =>
    let x := eval vm_compute in e in match x with Ok ?c => exists c; split; [vm_compute; reflexivity|] end end.
  Ltac lists := repeat match goal with
    | H : length ?l = _ |- _ => is_var l; destruct l; cbn in H; try discriminate; try injection H as H end.
  Ltac last_value := match goal with |- ready _ _ ?l => match l with
    | [?a] => destruct a | [_; ?a] => destruct a | [_; _; ?a] => destruct a | _ => idtac end end.
  Lemma plain_ready tw : Forall (fun rc => exists c, rc = Ok c /\ forall ps, length ps = nparams (csig (nval c)) -> ready tw c ps) plain.
  Proof.
    unfold plain. repeat first [apply Forall_nil | apply Forall_cons; [build; intros ps H; lists; last_value; rdy|]].
  Qed.
End Shipped.
