(** Property C97: solving a layout of objects touches none of them.
    Vocabulary: HeapLayoutSpec.v ([shows_layout], [all_dicts], [performs], [stands_for],
    [flat_key]), HeapSpec.v ([shows], [holds], [extends], [unshared], [only_children_of]). *)
From Coq Require Import QArith.
From Verif Require Export HeapSolveProofs.
From Verif Require Export HeapSpec.

Local Open Scope nat_scope.
Local Open Scope list_scope.

Section Props.
  Context {F : Type} {N : Num F}.
  Notation layout := (layout F).

  (** What scipy's minimizer does depends on the values of the objective only. *)
  Definition sees_values (mi : (list F -> result F) -> list F -> nat -> list (F * list F)) : Prop :=
    forall f f' x n, (forall g, f g = f' g) -> mi f x n = mi f' x n.

  (** Solving objects has the outcome of solving the trees they stand for, exception for
      exception.  Everything that existed is as it was; the solved tree consists of new
      objects, each found along one path only. *)
  Theorem C97_solve step mi (w : world F) l (L : layout) at' rt n method : sees_values mi ->
    all_dicts w -> shows_layout w l L -> slashfree (l_prim L) ->
    match solve step mi L at' rt n method with
    | Err e => hsolve step mi w l at' rt n method = Err e
    | Ok (p, info) => exists w' r, hsolve step mi w l at' rt n method = Ok (w', r, info) /\
        extends (w_prims w) (w_prims w') /\ w_cons w' = w_cons w /\ w_keys w' = w_keys w /\ w_params w' = w_params w /\
        shows (w_prims w') r p /\
        (forall x, holds (w_prims w') r x -> length (w_prims w) <= x) /\ unshared (w_prims w') r
    end.
  Proof.
    intros Hm D S Hs. pose proof (hsolve_same w l L step mi at' rt n method Hm D S Hs) as H.
    destruct (solve step mi L at' rt n method) as [[p info]|e]; [|exact H]. destruct H as (w' & r & E & H).
    destruct (solved_facts w w' r p D H) as (F1 & F2 & F3 & F4 & F5 & F6 & F7 & _). exists w', r. auto 10.
  Qed.

  (** Inversion of the above. *)
  Lemma solved step mi (w : world F) l (L : layout) at' rt n method w' r info : sees_values mi ->
    all_dicts w -> shows_layout w l L -> slashfree (l_prim L) ->
    hsolve step mi w l at' rt n method = Ok (w', r, info) ->
    exists p, solve step mi L at' rt n method = Ok (p, info) /\
        extends (w_prims w) (w_prims w') /\ w_cons w' = w_cons w /\ w_keys w' = w_keys w /\ w_params w' = w_params w /\
        shows (w_prims w') r p /\
        (forall x, holds (w_prims w') r x -> length (w_prims w) <= x) /\ unshared (w_prims w') r /\ all_dicts w'.
  Proof.
    intros Hm D S Hs E. pose proof (hsolve_same w l L step mi at' rt n method Hm D S Hs) as H.
    destruct (solve step mi L at' rt n method) as [[p i]|e]; [|congruence]. destruct H as (w2 & r2 & E2 & H).
    rewrite E in E2. injection E2 as <- <- <-. exists p. split; [reflexivity|]. now apply solved_facts.
  Qed.

  (** Every layout there was - the one solved, and others that share objects with it - is
      as before. *)
  Theorem C97_layouts_kept step mi (w : world F) l (L : layout) at' rt n method w' r info : sees_values mi ->
    all_dicts w -> shows_layout w l L -> slashfree (l_prim L) ->
    hsolve step mi w l at' rt n method = Ok (w', r, info) ->
    all_dicts w' /\ forall l2 L2, shows_layout w l2 L2 -> shows_layout w' l2 L2.
  Proof.
    intros Hm D S Hs E. destruct (solved _ _ _ _ _ _ _ _ _ _ _ _ Hm D S Hs E) as (p & _ & [new Ex] & E2 & E3 & E4 & _ & _ & _ & D').
    split; [exact D'|]. intros l2 L2 (S1 & S2 & S3 & S4 & S5). unfold shows_layout. rewrite Ex, E2, E3, E4.
    split; [now apply shows_ext|]. auto.
  Qed.

  (** Changing an object of the solved tree changes no tree that existed before the call,
      and changing an object that existed before does not change the solved tree. *)
  Theorem C97_independent step mi (w : world F) l (L : layout) at' rt n method w' r info p ch h'' : sees_values mi ->
    all_dicts w -> shows_layout w l L -> slashfree (l_prim L) ->
    hsolve step mi w l at' rt n method = Ok (w', r, info) -> only_children_of (w_prims w') h'' p ch ->
    (holds (w_prims w') r p -> forall x tx, shows (w_prims w) x tx -> shows h'' x tx) /\
    (p < length (w_prims w) -> forall t, shows (w_prims w') r t -> shows h'' r t).
  Proof.
    intros Hm D S Hs E Ho. pose proof D as (D1 & _).
    destruct (solved _ _ _ _ _ _ _ _ _ _ _ _ Hm D S Hs E) as (q & _ & [new Ex] & _ & _ & _ & Sq & B & U & (D1' & _)). split.
    - intros Hp x tx Hx. apply B in Hp. pose proof (shows_wf _ _ _ D1 Hx) as Hw.
      eapply shows_frame; [exact Hw|exact Ho| |rewrite Ex; now apply shows_ext].
      intros [q' Hq']. rewrite Ex in Hq'. eapply hwalk_ext_inv in Hq'; [|exact Hx]. eapply hwalk_bound in Hq'; [|exact Hx]. lia.
    - intros Hp t Ht. pose proof (shows_wf _ _ _ D1' Ht) as Hw.
      eapply shows_frame; [exact Hw|exact Ho| |exact Ht]. intros Hh. apply B in Hh. lia.
  Qed.

  (** Solving again - also after the caller has changed the first solution - gives the same
      solution and report, in objects of its own. *)
  Theorem C97_again step mi (w : world F) l (L : layout) at' rt n method w1 r1 info p ch h2 t1 : sees_values mi ->
    all_dicts w -> shows_layout w l L -> slashfree (l_prim L) ->
    hsolve step mi w l at' rt n method = Ok (w1, r1, info) -> shows (w_prims w1) r1 t1 ->
    holds (w_prims w1) r1 p -> only_children_of (w_prims w1) h2 p ch -> NoDup (map fst ch) ->
    exists w3 r3, hsolve step mi (set_w_prims w1 h2) l at' rt n method = Ok (w3, r3, info) /\
      shows (w_prims w3) r3 t1 /\ (forall x, holds (w_prims w3) r3 x -> ~ holds (w_prims w1) r1 x).
  Proof.
    intros Hm D S Hs E St Hp Ho Hn.
    destruct (C97_independent _ _ _ _ _ _ _ _ _ _ _ _ p ch h2 Hm D S Hs E Ho) as [Hi _]. specialize (Hi Hp).
    destruct (solved _ _ _ _ _ _ _ _ _ _ _ _ Hm D S Hs E) as (q & Eq & _ & E2 & E3 & E4 & Sq & B & U & (D1' & D2' & D3' & D4')).
    assert (q = t1) as -> by (eapply shows_det; eauto).
    assert (D2 : all_dicts (set_w_prims w1 h2)).
    { split; [|auto]. cbn [set_w_prims w_prims]. eapply only_dicts; eauto. }
    assert (S2 : shows_layout (set_w_prims w1 h2) l L).
    { destruct S as (S1 & S2 & S3 & S4 & S5). unfold shows_layout. cbn [set_w_prims w_prims w_cons w_keys w_params]. rewrite E2, E3, E4. auto. }
    pose proof (C97_solve step mi _ l L at' rt n method Hm D2 S2 Hs) as H. rewrite Eq in H.
    destruct H as (w3 & r3 & E5 & _ & _ & _ & _ & S5 & B5 & _). exists w3, r3. split; [exact E5|]. split; [exact S5|].
    intros x Hx [q' Hq']. apply B5 in Hx. cbn [set_w_prims w_prims] in Hx. destruct Ho as (Hl & _).
    apply (hwalk_bound _ _ _ _ _ Sq) in Hq'. lia.
  Qed.

  (** Nor do later calls on the layout (or on any other layout there was) reach into the
      solved tree. *)
  Theorem C97_later_calls step mi (w : world F) l (L : layout) at' rt n method w1 r info l2 L2 rs acts w2 l3 outs t : sees_values mi ->
    all_dicts w -> shows_layout w l L -> slashfree (l_prim L) ->
    hsolve step mi w l at' rt n method = Ok (w1, r, info) -> shows (w_prims w1) r t ->
    shows_layout w l2 L2 -> Forall2 (stands_for w1 l2) rs acts -> Forall flat_key acts ->
    performs w1 l2 rs = (w2, l3, outs) -> shows (w_prims w2) r t.
  Proof.
    intros Hm D S Hs E St S2 Hf Hk Ep.
    destruct (C97_layouts_kept _ _ _ _ _ _ _ _ _ _ _ _ Hm D S Hs E) as [D1 Keep]. specialize (Keep _ _ S2).
    destruct (solved _ _ _ _ _ _ _ _ _ _ _ _ Hm D S Hs E) as (q & _ & _ & _ & _ & _ & Sq & B & U & (D1' & _)).
    destruct (C78_refinement w1 l2 L2 rs acts w2 l3 outs D1 Keep Hf Hk Ep) as (_ & _ & _ & _ & _ & _ & _ & [Hl Hu] & _).
    apply (shows_agree (w_prims w1)); [eapply shows_wf; eauto| |exact St].
    intros x Hx. apply Hu; [destruct Hx as [p Hp]; eapply hwalk_bound; eauto|].
    intros ->. apply B in Hx. destruct S2 as (S2 & _). apply (hwalk_bound _ [] _ _ (r_prim l2)) in S2; [lia|reflexivity].
  Qed.
End Props.

(** ** A case: a box of width 1 in a layout, to be made 3 wide; the step moves the right side. *)
Definition wide_requests : list (request (F:=Q)) := [RAddPrim 13 "A"; RAddConstraint 2 ["A"] [PFlt 3%Q] "W"].
Definition wide_actions : list (action Q) := [AddPrim abox "A"; AddConstraint width ["A"] [PFlt 3%Q] "W"].
Definition wide_layout : layout Q := after (empty_layout 0) wide_actions.
Definition wide_w := fst (fst (performs w0 l0 wide_requests)).
Definition wide_l := snd (fst (performs w0 l0 wide_requests)).
Definition move_right (g r : list Q) : result (list Q) := let d := (- hd 0 r)%Q in Ok [0; 0; d; 0; d; 0; 0; 0]%Q.
Definition no_minimizer (f : list Q -> result Q) (x : list Q) (n : nat) : list (Q * list Q) := [].
Definition wide_solve := hsolve move_right no_minimizer wide_w wide_l 0%Q 0%Q 5 "newton".
Definition corners (t : prim Q) : list (list Q) := map (fun n => vdata (nval n)) (preorder t).
Lemma wide_case : all_dicts wide_w /\ shows_layout wide_w wide_l wide_layout.
Proof.
  destruct C78_case as (D & S & _). destruct (start_spec _ _ _ _ _ _ _ _ box_wf width_wf width_wf start_case) as (_ & _ & G & G1 & _).
  unfold wide_w, wide_l, wide_layout. destruct (performs w0 l0 wide_requests) as [[w l] outs] eqn:E. cbn [fst snd].
  assert (Hf : Forall2 (stands_for w0 l0) wide_requests wide_actions).
  { unfold wide_requests, wide_actions. apply Forall2_cons; [cbn [stands_for]; auto|]. apply Forall2_cons; [cbn [stands_for]; auto|]. apply Forall2_nil. }
  assert (Hk : Forall flat_key wide_actions).
  { unfold wide_actions. apply Forall_cons; [reflexivity|]. apply Forall_cons; [cbn [flat_key]; split; vm_compute; reflexivity|]. apply Forall_nil. }
  destruct (C78_refinement w0 l0 (empty_layout 0) wide_requests wide_actions w l outs D S Hf Hk E) as (_ & D2 & S2 & _). auto.
Qed.
Lemma wide_slashfree : slashfree (l_prim wide_layout).
Proof. vm_compute. repeat (constructor; cbn; auto). Qed.
(** The hypotheses hold; the layout had objects up to 13 (55 with the trees made on the way);
    the solution's root is object 55; its corners are those of a box 3 wide, the layout's
    those of the box as added. *)
Example C97_case : sees_values no_minimizer /\ all_dicts wide_w /\ shows_layout wide_w wide_l wide_layout /\ slashfree (l_prim wide_layout) /\
  length (w_prims wide_w) = 14 /\
  match wide_solve with
  | Ok (w', r, info) => r = 55 /\ info = ([2%Q; 0%Q], [Fin 1%Q; Fin 0%Q]) /\
      match tree_at (w_prims w') r, tree_at (w_prims w') (r_prim wide_l) with
      | Ok t, Ok u => corners t <> corners u
      | _, _ => False
      end
  | Err _ => False
  end.
Proof.
  split; [intros ? ? ? ? _; reflexivity|]. split; [apply wide_case|]. split; [apply wide_case|]. split; [exact wide_slashfree|].
  split; [vm_compute; reflexivity|]. vm_compute. split; [reflexivity|]. split; [reflexivity|]. discriminate.
Qed.

Print Assumptions C97_solve.
Print Assumptions C97_layouts_kept.
Print Assumptions C97_independent.
Print Assumptions C97_again.
Print Assumptions C97_later_calls.
