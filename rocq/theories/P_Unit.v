(** Property C104: constraints and layouts in another unit of length.  Vocabulary:
    UnitSpec.v (parameters), ScaleSpec.v (coordinates). *)
From Coq Require Import Reals Lra.
From Verif Require Import UnitLayout LayoutProofs P_Layout NeatProofs.
From Verif Require Import CompProofs EndProofs P_End.
Local Open Scope R_scope.

(** A shipped constraint on primitives with all coordinates multiplied by k, with its length
    parameters multiplied by k and the others unchanged: every residual is multiplied by a
    positive number, and exceptions are the same. *)
Theorem C104_value k (c : cons) prims ps ps' : 0 < k -> in_unit k c ps ps' ->
  match call c prims ps, call c (map (scale k) prims) ps' with
  | Ok r, Ok r' => Forall2 (fun x x' => exists d, 0 < d /\ x' = d * x) r r'
  | Err e, Err e' => e = e'
  | _, _ => False
  end.
Proof. intros Hk U. exact (call_scale k (fun d => 0 < d) c prims ps ps' (in_unit_scaling k Hk c ps ps' U)). Qed.
Lemma times_zeros r r' : Forall2 (fun x x' => exists d, 0 < d /\ x' = d * x) r r' -> zeros r <-> zeros r'.
Proof.
  unfold zeros. induction 1 as [|x x' r r' (d & Hd & ->) _ IH]; [split; constructor|]. split; intros H; inversion H; subst; constructor; try (now apply IH); [apply Rmult_0_r|].
  match goal with E : d * x = 0 |- _ => apply Rmult_integral in E as [E|E]; lra end.
Qed.
(** It holds in the one unit exactly if it holds in the other. *)
Theorem C104_satisfied k (c : cons) prims ps ps' : 0 < k -> in_unit k c ps ps' ->
  vanishes c prims ps <-> vanishes c (map (scale k) prims) ps'.
Proof.
  intros Hk U. pose proof (C104_value k c prims ps ps' Hk U) as V. unfold vanishes. split; intros (r & E & Z); rewrite E in V.
  - destruct (call c (map (scale k) prims) ps') as [r'|]; [|contradiction]. exists r'. split; [reflexivity|]. now apply (times_zeros r r' V).
  - destruct (call c prims ps) as [r'|]; [|contradiction]. exists r'. split; [reflexivity|]. now apply (times_zeros r' r V).
Qed.

(** A layout built by the same calls in another unit: the calls succeed, the layout's tree is
    the scaled one; every residual at a scaled tree is a positive multiple of the old one,
    and all constraints hold at the scaled tree exactly if they hold at the tree. *)
Theorem C104_layout k tw tw' rid acts acts' (l : layout) : 0 < k -> runs (empty_layout rid) acts l -> Forall2 (act_unit k) acts acts' ->
  Forall (shipped_act tw) acts -> Forall (shipped_act tw') acts' -> Forall top_key acts ->
  exists l', runs (empty_layout rid) acts' l' /\ l_prim l' = scale k (l_prim l) /\
    forall p, same_structure (l_prim l) p ->
      (forall z, layout_residual l p = Ok z -> exists z', layout_residual l' (scale k p) = Ok z' /\ Forall2 (fun x x' => exists d, 0 < d /\ x' = d * x) z z') /\
      ((exists z, layout_residual l p = Ok z /\ zeros z) <-> (exists z', layout_residual l' (scale k p) = Ok z' /\ zeros z')).
Proof.
  intros Hk Hr HU Hs Hs' Ht. destruct (rescaled_runs k Hk acts acts' HU _ _ _ (rescaled_empty k rid) Hr) as (l' & Hr' & Q). exists l'. split; [exact Hr'|]. split; [apply Q|].
  intros p Hp. pose proof (scale_structure k _ _ Hp) as Hp'. rewrite <- (r_prim k _ _ Q) in Hp'. pose proof (unit_top k acts acts' HU Ht) as Ht'.
  destruct (LayoutSpec.added acts) as [|x xs] eqn:Ea.
  - pose proof (proj1 (unit_added k acts acts' HU) Ea) as Ea'. rewrite (C53_no_constraints rid acts l p Hr Ea), (C53_no_constraints rid acts' l' (scale k p) Hr' Ea').
    split; [discriminate|]. split; intros (z & E & _); discriminate.
  - assert (Hne : LayoutSpec.added acts <> []) by (rewrite Ea; discriminate). assert (Hne' : LayoutSpec.added acts' <> []) by (intros E; apply Hne; now apply (unit_added k acts acts' HU)).
    assert (Fw : forall z, layout_residual l p = Ok z -> exists z', layout_residual l' (scale k p) = Ok z' /\ Forall2 (fun x x' => exists d, 0 < d /\ x' = d * x) z z').
    { intros z Hz. apply (residual_iff rid tw acts l p z Hr Hs Ht Hp Hne) in Hz as (vs & Hv & ->). destruct (unit_values k Hk acts acts' p vs HU Hv) as (vs' & Hv' & T).
      exists (List.concat vs'). split; [|exact (times_concat (fun d => 0 < d) vs vs' T)]. apply (residual_iff rid tw' acts' l' _ _ Hr' Hs' Ht' Hp' Hne'). eauto. }
    split; [exact Fw|]. split.
    + intros (z & Hz & Z). destruct (Fw z Hz) as (z' & Hz' & T). exists z'. split; [exact Hz'|]. now apply (times_zeros z z' T).
    + intros (z' & Hz & Z). apply (residual_iff rid tw' acts' l' _ _ Hr' Hs' Ht' Hp' Hne') in Hz as (vs' & Hv' & ->). destruct (unit_values_back k Hk acts acts' p vs' HU Hv') as (vs & Hv & T).
      exists (List.concat vs). split; [|now apply (times_zeros _ _ (times_concat (fun d => 0 < d) vs vs' T))]. apply (residual_iff rid tw acts l p _ Hr Hs Ht Hp Hne). eauto.
Qed.

(** The README layout (P_End.v) in inches, and in centimetres. *)
Definition inch : R := 254 / 100.
Definition metric (W H ml mr mb mt : R) : list (action R) :=
  [AddPrim (scale inch readme_quad) "Figure";
   AddConstraint (ok_cons Box) ["Figure"%string] [] "";
   AddConstraint (ok_cons crWidth) ["Figure"%string] [PFlt (inch * W)] "";
   AddConstraint (ok_cons crHeight) ["Figure"%string] [PFlt (inch * H)] "";
   AddPrim (scale inch readme_axes) "MyAxes";
   AddConstraint (ok_cons Box) ["MyAxes/Frame"%string] [] "";
   AddConstraint (ok_cons (crInnerMargin "bottom")) ["MyAxes/Frame"%string; "Figure"%string] [PFlt (inch * mb)] "";
   AddConstraint (ok_cons (crInnerMargin "top")) ["MyAxes/Frame"%string; "Figure"%string] [PFlt (inch * mt)] "";
   AddConstraint (ok_cons (crInnerMargin "left")) ["MyAxes/Frame"%string; "Figure"%string] [PFlt (inch * ml)] "";
   AddConstraint (ok_cons (crInnerMargin "right")) ["MyAxes/Frame"%string; "Figure"%string] [PFlt (inch * mr)] ""].
Lemma metric_length x : as_length inch (PFlt x) (PFlt (inch * x)).
Proof. split; [reflexivity|]. split; [reflexivity|]. exists x. split; reflexivity. Qed.
Example C104_case W H ml mr mb mt : 0 < inch /\ runs (empty_layout 0) (readme W H ml mr mb mt) (readme_layout W H ml mr mb mt) /\
  Forall2 (act_unit inch) (readme W H ml mr mb mt) (metric W H ml mr mb mt) /\
  Forall (shipped_act false) (readme W H ml mr mb mt) /\ Forall (shipped_act false) (metric W H ml mr mb mt) /\ Forall top_key (readme W H ml mr mb mt).
Proof.
  destruct (C79_figure_case W H ml mr mb mt) as (F1 & F2 & F3 & _). split; [unfold inch; lra|]. split; [exact F1|]. split; [|split; [exact F2|split; [|exact F3]]].
  - unfold readme, metric. repeat (apply Forall2_cons; [constructor|]); [..|apply Forall2_nil].
    all: try (apply u_length; [|apply metric_length]; rewrite <- ok_of; [unfold lengths, dimensions, margins; cbn [map app In]; tauto|vm_compute; reflexivity]).
    all: apply u_none; rewrite <- ok_of; [unfold unitless; cbn [In]; tauto|vm_compute; reflexivity].
  - unfold metric. repeat (apply Forall_cons; [first [exact I|cbn [shipped_act]]|]); [..|apply Forall_nil].
    all: try (apply sh_dimension; [|left; reflexivity]; rewrite <- ok_of; [unfold dimensions, margins; cbn [map app In]; tauto|vm_compute; reflexivity]).
    all: apply sh_plain; [rewrite <- ok_of; [unfold plain; cbn [In app map]; tauto|vm_compute; reflexivity]|vm_compute; reflexivity].
Qed.

Print Assumptions C104_value.
Print Assumptions C104_satisfied.
Print Assumptions C104_layout.
