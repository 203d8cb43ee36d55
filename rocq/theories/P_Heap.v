(** Properties C75 and C76: trees of objects that may be shared.
    Vocabulary: HeapSpec.v ([shows], [hwalk], [holds], [finds], [only_children_of],
    [graft], [unshared], [dicts]) and Spec.v ([components]). *)
From Verif Require Export HeapCopy.

Section C75.
  Context {T A : Type}.
  Implicit Types (h : heap T A).

  (** Reading: lookup and membership depend only on the tree an object shows, so C01, C05
      hold for objects too; a found object shows the found subtree. *)
  Theorem C75_lookup h r t key : shows h r t ->
    match get_child t key with
    | Ok c => exists x, hget_child h r key = Ok x /\ shows h x c
    | Err e => hget_child h r key = Err e
    end /\ hcontains h r key = contains t key.
  Proof. exact (fun Hs => conj (hget_child_shows h r t key Hs) (hcontains_same h r t key Hs)). Qed.

  (** [add_child] has the outcome of C02/C03; a refusal changes nothing; success changes
      one object only, the one found at the parent path: the child reference itself becomes
      its last child. *)
  Theorem C75_one_object_changes h r t key path c tc h' res : shows h r t -> components key path ->
    hadd_child h r key c = (h', res) ->
    res = snd (add_child t key tc) /\
    (res <> Ok tt -> h' = h) /\
    (res = Ok tt -> exists p o, hwalk h (removelast path) r = Some p /\ nth_error h p = Some o /\
       only_children_of h h' p (och o ++ [(last path EmptyString, c)])).
  Proof.
    intros Hs Hc E. pose proof (hadd_child_outcome h r t key path c tc Hs Hc) as (H1 & H2 & H3).
    rewrite E in *. cbn [fst snd] in *. split; [exact H1|]. split.
    - intros Hn. destruct H2; [assumption|contradiction].
    - intros Hok. destruct (H3 Hok) as (p & o & ? & ? & _ & ?). eauto.
  Qed.
  (** Every object then shows its former tree with the new child at exactly the places
      where the changed object is found: once, several times, or never. *)
  Theorem C75_every_holder h r t key path c tc h' p : dicts h -> shows h r t -> components key path ->
    hadd_child h r key c = (h', Ok tt) -> hwalk h (removelast path) r = Some p ->
    shows h c tc -> ~ holds h c p ->
    forall x tx, shows h x tx -> shows h' x (graft (finds h x p) (last path EmptyString) tc tx).
  Proof.
    intros Hd Hs Hc E Hp Hct Hcp x tx Hx.
    pose proof (hadd_child_outcome h r t key path c tc Hs Hc) as (_ & _ & H3).
    rewrite E in H3. cbn [fst snd] in H3. destruct (H3 eq_refl) as (p' & o & Hp' & Eo & Dk & Ho).
    rewrite Hp in Hp'. injection Hp' as <-. eapply shows_graft; eauto.
  Qed.
  (** In particular a tree that does not contain the changed object is untouched. *)
  Theorem C75_others_untouched h r t key path c tc h' p : dicts h -> shows h r t -> components key path ->
    hadd_child h r key c = (h', Ok tt) -> hwalk h (removelast path) r = Some p ->
    shows h c tc -> ~ holds h c p ->
    forall x tx, shows h x tx -> ~ holds h x p -> shows h' x tx.
  Proof.
    intros Hd Hs Hc E Hp Hct Hcp x tx Hx Hn.
    pose proof (C75_every_holder h r t key path c tc h' p Hd Hs Hc E Hp Hct Hcp x tx Hx) as H.
    rewrite graft_none in H; [exact H|]. intros q. unfold finds.
    destruct (hwalk h q x) as [y|] eqn:Eq; [|reflexivity].
    destruct (Nat.eqb_spec y p) as [->|]; [|reflexivity]. exfalso. apply Hn. now exists q.
  Qed.
  (** If the changed object is found along one path only, the result is that of C02. *)
  Theorem C75_unshared h r t key path c tc h' p : dicts h -> shows h r t -> components key path ->
    hadd_child h r key c = (h', Ok tt) -> hwalk h (removelast path) r = Some p ->
    (forall q, hwalk h q r = Some p -> q = removelast path) ->
    shows h c tc -> ~ holds h c p ->
    shows h' r (fst (add_child t key tc)).
  Proof.
    intros Hd Hs Hc E Hp Hu Hct Hcp.
    replace h' with (fst (hadd_child h r key c)) by now rewrite E.
    eapply hadd_child_unshared; eauto. now rewrite E.
  Qed.
  (** Adding a node below itself leaves no finite tree at the changed object. *)
  Theorem C75_cycle h r t key path c h' p : shows h r t -> components key path ->
    hadd_child h r key c = (h', Ok tt) -> hwalk h (removelast path) r = Some p ->
    holds h c p -> forall t', ~ shows h' p t'.
  Proof.
    intros Hs Hc E Hp Hcp.
    pose proof (hadd_child_outcome h r t key path c t Hs Hc) as (_ & _ & H3).
    rewrite E in H3. cbn [fst snd] in H3. destruct (H3 eq_refl) as (p' & o & Hp' & Eo & Dk & Ho).
    rewrite Hp in Hp'. injection Hp' as <-. eapply cycle_no_tree; eauto.
  Qed.
  (** Assignment: the outcome of C04, and one entry of one object's dict changes (for keys
      other than the two forms of C04 the object at the parent path). *)
  Theorem C75_assignment h r t key path c tc h' res : shows h r t -> components key path ->
    (forall k, path <> [EmptyString; k]) ->
    hsetitem h r key c = (h', res) ->
    res = snd (setitem t key tc) /\ (res <> Ok tt -> h' = h) /\
    (res = Ok tt -> exists p o, hwalk h (removelast path) r = Some p /\ nth_error h p = Some o /\
       only_children_of h h' p (dset (last path EmptyString) c (och o))).
  Proof.
    intros Hs Hc Hne E. pose proof (hsetitem_outcome h r t key c tc Hs) as (H1 & H2 & H3).
    rewrite E in *. cbn [fst snd] in *. split; [exact H1|]. split.
    - intros Hn. destruct H2; [assumption|contradiction].
    - intros Hok. specialize (H3 Hok). cbv zeta in H3. rewrite (components_split _ _ Hc) in H3.
      destruct (String.eqb_spec (join (removelast path)) EmptyString) as [Ej|_]; [|exact H3].
      assert (Hr : removelast path = []).
      { destruct Hc as (Hn & Hf & _). destruct path as [|a [|b [|d path]]]; [congruence|reflexivity| |].
        - cbn in Ej. subst a. now destruct (Hne b).
        - exfalso. cbn in Ej. destruct path; cbn in Ej; destruct a; discriminate. }
      rewrite Hr. exact H3.
  Qed.
End C75.

(** Two lines sharing a point, as in a polygon: objects 0 (a polygon) with lines 1 and 2,
    whose points are 3, 4 and 4, 5. *)
Definition shared_heap : heap nat nat :=
  [Obj 0 0 [("Line0", 1); ("Line1", 2)]; Obj 1 0 [("Point0", 3); ("Point1", 4)];
   Obj 1 0 [("Point0", 4); ("Point1", 5)]; Obj 2 7 []; Obj 2 8 []; Obj 2 9 []; Obj 3 1 []].
Definition shared_tree : node nat nat :=
  Node 0 0 [("Line0", Node 1 0 [("Point0", Node 2 7 []); ("Point1", Node 2 8 [])]);
            ("Line1", Node 1 0 [("Point0", Node 2 8 []); ("Point1", Node 2 9 [])])].
Ltac show := repeat (match goal with
  | |- shows ?h ?r (Node ?t ?v ?ch) => let o := eval cbn in (nth_error h r) in
      match o with Some ?x => apply (shows_intro h r x); [reflexivity|] end
  | |- Forall2 _ _ _ => constructor
  | |- _ /\ _ => split
  | |- _ = _ => reflexivity
  end; cbn [fst snd]).
Example shared_shows : shows shared_heap 0 shared_tree.
Proof. unfold shared_tree. show. Qed.
Example shared_dicts : dicts shared_heap.
Proof. unfold shared_heap, dicts. repeat (constructor; cbn; try tauto; try (intuition discriminate)). Qed.
(** Adding a child below "Line0/Point1" also adds it below "Line1/Point0". *)
Example C75_case : exists h', hadd_child shared_heap 0 "Line0/Point1/x" 6 = (h', Ok tt) /\
  shows h' 0 (Node 0 0 [("Line0", Node 1 0 [("Point0", Node 2 7 []); ("Point1", Node 2 8 [("x", Node 3 1 [])])]);
            ("Line1", Node 1 0 [("Point0", Node 2 8 [("x", Node 3 1 [])]); ("Point1", Node 2 9 [])])]) /\
  ~ holds shared_heap 6 4.
Proof.
  eexists. split; [reflexivity|]. split; [show|].
  intros [[|k [|k2 p]] H]; cbn in H; discriminate.
Qed.
Example C75_cycle_case : holds shared_heap 0 4 /\ exists h', hadd_child shared_heap 0 "Line0/Point1/x" 0 = (h', Ok tt).
Proof. split; [now exists ["Line0"; "Point1"]|]. eexists. reflexivity. Qed.

Section C76.
  Context {T A : Type}.
  Implicit Types (h : heap T A).

  (** [copy()] only makes new objects; the copy shows the copied tree (C08: same keys and
      values, plain nodes) and shares no object with anything that existed before, nor
      within itself. *)
  Theorem C76_copy h depth base r t : dicts h -> shows h r t -> node_height t < depth ->
    exists h' r' t', hcopy depth base h r = Ok (h', r') /\ extends h h' /\
      node_copy base t = Ok t' /\ shows h' r' t' /\
      (forall x, holds h' r' x -> length h <= x) /\ unshared h' r'.
  Proof.
    intros Hd Hs Hf. destruct (hcopy_spec h depth base r t Hd Hs Hf) as (new & r' & t' & E1 & E2 & F1 & F2 & F3).
    exists (h ++ new), r', t'. split; [exact E1|]. split; [now exists new|]. split; [exact E2|]. split; [exact F1|].
    split; [|exact F3]. intros x [p Hp]. eauto.
  Qed.
  (** Hence changing an object of the copy changes no older tree, and changing an older
      object does not change the copy. *)
  Theorem C76_independent h depth base r t h' r' p ch h'' : dicts h -> shows h r t -> node_height t < depth ->
    hcopy depth base h r = Ok (h', r') -> only_children_of h' h'' p ch ->
    (holds h' r' p -> forall x tx, shows h x tx -> shows h'' x tx) /\
    (p < length h -> forall t', shows h' r' t' -> shows h'' r' t').
  Proof.
    intros Hd Hs Hf E Ho. destruct (hcopy_spec h depth base r t Hd Hs Hf) as (new & r2 & t2 & E1 & E2 & F1 & F2 & F3).
    rewrite E in E1. injection E1 as -> ->. split.
    - intros [q Hq] x tx Hx. apply F2 in Hq. pose proof (shows_wf _ _ _ Hd Hx) as Hw.
      eapply shows_frame; [exact Hw|exact Ho| |now apply shows_ext].
      intros [q' Hq']. eapply hwalk_ext_inv in Hq'; [|exact Hx]. eapply hwalk_bound in Hq'; [|exact Hx]. lia.
    - intros Hp t' Ht'. assert (t' = t2) as -> by (eapply shows_det; eauto).
      eapply shows_frame; [|exact Ho| |exact Ht'].
      + unfold node_copy in E2. rewrite node_map_tmap in E2 by (eapply shows_wf; eauto).
        injection E2 as <-. apply tmap_wf. eapply shows_wf; eauto.
      + intros [q Hq]. apply F2 in Hq. lia.
  Qed.
End C76.
(** Copying the shared example: seven old objects, seven new ones (the shared point twice). *)
Example C76_case : exists h', hcopy 5 9 shared_heap 0 = Ok (h', 13) /\ length h' = 14 /\
  hwalk h' ["Line0"; "Point1"] 13 = Some 8 /\ hwalk h' ["Line1"; "Point0"] 13 = Some 10.
Proof. eexists. split; [vm_compute; reflexivity|]. repeat split. Qed.

Print Assumptions C75_lookup.
Print Assumptions C75_one_object_changes.
Print Assumptions C75_every_holder.
Print Assumptions C75_others_untouched.
Print Assumptions C75_unshared.
Print Assumptions C75_cycle.
Print Assumptions C75_assignment.
Print Assumptions C76_copy.
Print Assumptions C76_independent.
