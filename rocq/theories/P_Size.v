(** Property C21: declared output sizes.
    Vocabulary: SizeSpec.v ([documented]: the shipped constructions except those built on
    CoincidentLines, with parameters of the documented form; [well_made]: every node is
    what its class promises), ReadySpec.v ([whole]), ConsSpec.v ([denote],
    [declared_sizes], [valid_args]). *)
From Coq Require Import QArith.
From Verif Require Import SizeShipped P_Layout Inst ConsSpec.
Local Open Scope nat_scope.

Section Props.
Context {F : Type} {N : Num F}.
Notation prim := (prim F).
Notation pyval := (pyval F).
Notation cons := (cons F).

(** Every shipped construction except CoincidentLines (for which C21_declared_sizes_refuted
    says what happens) and the constraints made of it. *)
Theorem C21_declared_sizes (c : cons) prims params outs : documented c params -> valid_args c prims params ->
  Forall (whole false) prims -> Forall well_made prims ->
  denote c prims params = Ok outs -> map (@length F) outs = declared_sizes c.
Proof. intros Hd [Hv _]. apply sized_sizes; [now apply documented_sized|exact Hv]. Qed.
(** The value of a call has as many entries as the declared sizes add up to. *)
Theorem C21_call_size (c : cons) prims params v : documented c params ->
  Forall (fun p : prim => ntype p <> TNode) prims -> Forall (whole false) prims -> Forall well_made prims ->
  call c prims params = Ok v -> length v = list_sum (declared_sizes c).
Proof.
  intros Hd Hn Hw Hm H. apply documented_sized in Hd as Hs.
  destruct (denote_call c prims params v Hn (sized_arity _ _ Hs) H) as (Hv & outs & Ho & ->).
  rewrite <- (C21_declared_sizes c prims params outs Hd Hv Hw Hm Ho).
  clear. induction outs as [|o outs IH]; [reflexivity|]. cbn. rewrite app_length, IH. reflexivity.
Qed.
(** CoincidentLines declares two entries; whenever it returns anything it returns four. *)
Theorem C21_declared_sizes_refuted (l0 l1 : prim) reverse v : ntype l0 = TLine -> ntype l1 = TLine -> well_made l0 -> well_made l1 ->
  declared_sizes (F:=F) CoincidentLines = [2] /\
  (call CoincidentLines [l0; l1] [reverse] = Ok v -> length v = 4).
Proof.
  intros T0 T1 W0 W1. split; [reflexivity|]. intros H.
  assert (Hn : Forall (fun p : prim => ntype p <> TNode) [l0; l1]) by (repeat constructor; congruence).
  assert (Ha : arity_ok (F:=F) CoincidentLines [reverse]).
  { constructor; [reflexivity|]. intros cps _. split; [cbn; lia|]. intros [|i]; discriminate. }
  destruct (denote_call _ _ _ _ Hn Ha H) as (_ & outs & Ho & ->).
  unfold CoincidentLines, mk_leaf in Ho. rewrite denote_unfold in Ho. inv_bind Ho. cbn [cpk mapM bind cparams denotes] in Ho. inversion Ho; subst. clear Ho.
  unfold assem1 in E. cbn [cassem] in E. inv_bind E. rename x0 into y, E0 into Ea. inv_bind Ea. rename x0 into rev. do 4 inv_bind Ea.
  assert (L : forall l p k, ntype l = TLine -> well_made (F:=F) l -> In k ["Point0"; "Point1"] -> get_child l k = Ok p -> length (coord p) = 2).
  { intros l p k Tl Wl Hk Hp. eapply line_point; [rewrite Tl; reflexivity| | |]; eassumption. }
  assert (B : forall a b r, length (coord a) = 2 -> length (coord b) = 2 -> coincident (F:=F) a b = Ok r -> length r = 2) by (intros a b r Xa Xb X; unfold coincident, vsub in X; eapply bcast2_length; eassumption).
  assert (G : length x = 4).
  { destruct rev; inv_bind Ea; inv_bind Ea; inversion Ea; subst; cbn [atleast_1d] in E; inversion E; subst; rewrite app_length;
      (erewrite (B _ _ _ _ _ E5), (B _ _ _ _ _ E6); reflexivity).
    Unshelve. all: first [exact (L _ _ _ T1 W1 (or_introl eq_refl) E1)|exact (L _ _ _ T1 W1 (or_intror (or_introl eq_refl)) E2)|exact (L _ _ _ T0 W0 (or_introl eq_refl) E3)|exact (L _ _ _ T0 W0 (or_intror (or_introl eq_refl)) E4)]. }
  cbn [List.concat]. rewrite app_nil_r. exact G.
Qed.
End Props.

(** The cases: a 2 x 2 grid over four boxes; a coordinate pinned to a position. *)
Lemma well_made_four : Forall well_made (dvals four).
Proof.
  assert (H : forall i l b r t, well_made (qbox i l b r t)).
  { intros. unfold well_made, qbox. cbn. repeat (apply Forall_cons; [repeat split; try reflexivity|]); try apply Forall_nil. }
  repeat (apply Forall_cons; [apply H|]). apply Forall_nil.
Qed.
Example C21_grid_case : documented grid22 good_margins /\ valid_args grid22 (dvals four) good_margins /\
  Forall (whole false) (dvals four) /\ Forall well_made (dvals four) /\
  (exists outs, denote grid22 (dvals four) good_margins = Ok outs) /\ list_sum (declared_sizes grid22) = 20.
Proof.
  split; [|split; [|split; [|split; [|split]]]].
  - eapply (doc_grid 2 2); [lia|lia|exact grid22_ok| | | | | | | |]; reflexivity.
  - split; [|vm_compute; reflexivity]. vm_compute. repeat constructor.
  - exact (Forall_inv_tail good_whole).
  - exact well_made_four.
  - assert (H : is_ok (denote grid22 (dvals four) good_margins) = true) by (vm_compute; reflexivity). destruct (denote _ _ _); [eauto|discriminate].
  - vm_compute. reflexivity.
Qed.
Example C21_refuted_case : exists v, call CoincidentLines
    [Node TLine {| vid := 0; vdata := [] |} [("Point0", qpt 1 0 0); ("Point1", qpt 2 1 0)];
     Node TLine {| vid := 3; vdata := [] |} [("Point0", qpt 4 0 0); ("Point1", qpt 5 1 1)]] [PBool false] = Ok v /\ length v = 4.
Proof. eexists. split; [vm_compute; reflexivity|reflexivity]. Qed.

Print Assumptions C21_declared_sizes.
Print Assumptions C21_call_size.
Print Assumptions C21_declared_sizes_refuted.
