(** The shipped constraints whose residual is affine in the primitives. *)
From Coq Require Import Reals Lra.
From Verif Require Export AffineShipped ShippedSpec SizeSpec.
Local Open Scope R_scope.

Notation prim := (prim R).
Notation pyval := (pyval R).
Notation cons := (cons R).
Notation cls := (cls R).

Definition affine_shipped : list (result cons) :=
  map Ok affine_leaves ++
  [crFix; crDirectedDistance; crXDistance; crYDistance; crDirectedLength; crXLength; crYLength; crMidpointXDistance; crMidpointYDistance;
   Width; Height; crWidth; crHeight; Box; XAxisThickness; YAxisThickness] ++
  map OuterMargin sides ++ map InnerMargin sides ++ map crOuterMargin sides ++ map crInnerMargin sides ++
  map CoincidentOutwardFaces sides ++
  flat_map (fun s => [PositionXAxis s false; PositionXAxis s true; PositionYAxis s false; PositionYAxis s true]) sides.

Definition is_affine (rc : result cons) : Prop := forall c, rc = Ok c -> affine_cons c.

Lemma leaf_is_affine (c : cons) : In c affine_leaves -> affine_cons c.
Proof. pose proof leaves_affine as H. rewrite Forall_forall in H. apply H. Qed.
Lemma compound_is_affine name n keys cs pks cps sg : Forall affine_cons cs -> is_affine (mk_construction (compound_cls name n) keys cs pks cps sg).
Proof. intros H c E. eapply construction_affine; [exact E| |exact H]. apply (compound_affine name [] n). Qed.
Lemma constraint_is_affine (rc : result cons) : slimb rc = true -> is_affine rc -> is_affine (c <- rc ;; transform_constraint c).
Proof.
  intros Hs H c E. destruct rc as [d|]; [|discriminate]. cbn [bind] in E. apply slimb_ok in Hs as [(H1 & H2 & H3) _].
  eapply constraint_affine; [exact H1|exact H3| |exact E]. now apply H.
Qed.
Ltac inl := unfold affine_leaves; cbn [In]; tauto.
Ltac leaves1 := repeat (apply Forall_cons; [apply leaf_is_affine; inl|]); apply Forall_nil.

Definition parts : list (result cons) := [Width; Height] ++ map OuterMargin sides ++ map InnerMargin sides.
Lemma parts_affine : Forall is_affine parts.
Proof.
  unfold parts, sides. cbn [map app].
  repeat (apply Forall_cons; [unfold Width, Height, RectangleDim, OuterMargin, InnerMargin, Margin; cbn [String.eqb Ascii.eqb Bool.eqb bind]; apply compound_is_affine; leaves1|]). apply Forall_nil.
Qed.
Lemma slim_all : forallb slimb (map Ok affine_leaves ++ parts) = true.
Proof. vm_compute. reflexivity. Qed.
Lemma faces_affine s : is_affine (CoincidentOutwardFaces s).
Proof. intros c E. unfold CoincidentOutwardFaces in E. inv_bind E. eapply compound_is_affine; [|exact E]. leaves1. Qed.
Lemma position_affine name axis s twin : is_affine (PositionAxis name axis s twin).
Proof.
  intros c E. unfold PositionAxis in E. inv_bind E. destruct twin.
  - cbn [bind] in E. inv_bind E. destruct x0 as [[keys cs] pks]. inv_bind E1. inv_bind E1. injection E1 as <- <- <-.
    eapply compound_is_affine; [|exact E]. repeat (apply Forall_cons; [eapply faces_affine; eassumption|]). apply Forall_nil.
  - cbn [bind] in E. eapply compound_is_affine; [|exact E]. repeat (apply Forall_cons; [eapply faces_affine; eassumption|]). apply Forall_nil.
Qed.
Lemma affine_shipped_affine : Forall is_affine affine_shipped.
Proof.
  pose proof parts_affine as P. pose proof slim_all as S. rewrite Forall_forall in P. rewrite forallb_forall in S.
  assert (L : forall c, In c affine_leaves -> is_affine (Ok c)) by (intros c Hc d Ed; injection Ed as <-; now apply leaf_is_affine).
  assert (CL : forall c, In c affine_leaves -> is_affine (transform_constraint c)).
  { intros c Hc. apply (constraint_is_affine (Ok c)); [|now apply L]. apply S. apply in_or_app. left. now apply in_map. }
  assert (CP : forall rc, In rc parts -> is_affine (c <- rc ;; transform_constraint c)).
  { intros rc Hc. apply constraint_is_affine; [|now apply P]. apply S. apply in_or_app. now right. }
  assert (T : forall name kinds axis, is_affine (AxisThickness name kinds axis)).
  { intros name kinds axis c E. unfold AxisThickness in E. inv_bind E. eapply construction_affine; [exact E|apply compound_affine|]. apply Forall_cons; [|apply Forall_nil].
    destruct (String.eqb axis "x"); (eapply CL; [|exact E0]); inl. }
  apply Forall_forall. intros rc H. unfold affine_shipped in H.
  apply in_app_iff in H as [H|H]; [apply in_map_iff in H as (c & <- & Hc); now apply L|].
  apply in_app_iff in H as [H|H].
  { cbn [In] in H. destruct H as [<-|[<-|[<-|[<-|[<-|[<-|[<-|[<-|[<-|[<-|[<-|[<-|[<-|[<-|[<-|[<-|[]]]]]]]]]]]]]]]]].
    1-9: apply CL; inl.
    1-2: apply P; unfold parts; cbn [In app]; tauto.
    1-2: apply CP; unfold parts; cbn [In app]; tauto.
    2-3: apply T.
    apply compound_is_affine. leaves1. }
  apply in_app_iff in H as [H|H]; [apply P; unfold parts; apply in_or_app; right; apply in_or_app; now left|].
  apply in_app_iff in H as [H|H]; [apply P; unfold parts; apply in_or_app; right; apply in_or_app; now right|].
  apply in_app_iff in H as [H|H]; [apply in_map_iff in H as (s & <- & Hs); apply (CP (OuterMargin s)); unfold parts; apply in_or_app; right; apply in_or_app; left; now apply in_map|].
  apply in_app_iff in H as [H|H]; [apply in_map_iff in H as (s & <- & Hs); apply (CP (InnerMargin s)); unfold parts; apply in_or_app; right; apply in_or_app; right; now apply in_map|].
  apply in_app_iff in H as [H|H]; [apply in_map_iff in H as (s & <- & Hs); apply faces_affine|].
  apply in_flat_map in H as (s & _ & H). cbn [In] in H. destruct H as [<-|[<-|[<-|[<-|[]]]]]; apply position_affine.
Qed.
Lemma array_affine n side : is_affine (OuterMarginArray n side).
Proof.
  intros c E. unfold OuterMarginArray in E. inv_bind E. eapply construction_affine; [exact E|apply empty_affine|].
  assert (G : forall l x, mapM (fun _ : nat => crOuterMargin side) l = Ok x -> Forall affine_cons x).
  { induction l as [|i l IH]; intros y Hy; [injection Hy as <-; constructor|]. cbn [mapM] in Hy. inv_bind Hy. inv_bind Hy. injection Hy as <-. constructor; [|auto].
    pose proof affine_shipped_affine as M. rewrite Forall_forall in M. destruct (in_dec String.string_dec side sides) as [Hs|Hs].
    - apply (M (crOuterMargin side)); [|assumption]. unfold affine_shipped. do 4 (apply in_or_app; right). apply in_or_app. left. now apply in_map.
    - exfalso. unfold crOuterMargin, OuterMargin, Margin in E1. unfold sides in Hs. cbn [In] in Hs.
      repeat match type of E1 with context [String.eqb side ?k] => destruct (String.eqb_spec side k); [subst; tauto|] end. discriminate. }
  eapply G; eassumption.
Qed.
