(** Lemmas about pytrees of nodes. *)
From Coq Require Import Sorted Permutation NArith Nnat.
From Verif Require Export Pytree TreeLemmas NodeProofs.

Definition before (a b : string) : Prop := String.ltb a b = true.
Lemma ascii_compare_nat a b : Ascii.compare a b = Nat.compare (nat_of_ascii a) (nat_of_ascii b).
Proof. unfold Ascii.compare, nat_of_ascii. rewrite <- N2Nat.inj_compare. reflexivity. Qed.
Lemma before_trans a b c : before a b -> before b c -> before a c.
Proof.
  unfold before, String.ltb. revert b c. induction a as [|x a IH]; intros [|y b] [|z c] H1 H2; cbn in *; try discriminate; [reflexivity|].
  rewrite !ascii_compare_nat in *. destruct (Nat.compare_spec (nat_of_ascii x) (nat_of_ascii y)), (Nat.compare_spec (nat_of_ascii y) (nat_of_ascii z)); try discriminate; destruct (Nat.compare_spec (nat_of_ascii x) (nat_of_ascii z)); try lia; try reflexivity.
  now apply (IH b c).
Qed.
Lemma before_irrefl a : ~ before a a.
Proof. unfold before, String.ltb. intros H. assert (E : String.compare a a = Eq) by (induction a as [|x a IH]; [reflexivity|]; cbn; rewrite ascii_compare_nat, Nat.compare_refl; apply IH; intros; now cbn in *; rewrite ascii_compare_nat, Nat.compare_refl in H). rewrite E in H. discriminate. Qed.
Lemma before_total a b : a <> b -> ~ before a b -> before b a.
Proof.
  unfold before, String.ltb. intros Hne H. destruct (String.compare a b) eqn:E; [apply String.compare_eq_iff in E; contradiction|elim H; reflexivity|].
  rewrite String.compare_antisym, E. reflexivity.
Qed.

Section Sort.
  Context {X : Type}.
  Implicit Types d : list (string * X).
  Lemma insert_perm k x d : Permutation (insert_item k x d) ((k, x) :: d).
  Proof.
    induction d as [|[k' x'] d IH]; [reflexivity|]. cbn. destruct (String.ltb k k'); [reflexivity|]. rewrite IH. apply perm_swap.
  Qed.
  Lemma sort_perm d : Permutation (sort_items d) d.
  Proof. induction d as [|[k x] d IH]; [reflexivity|]. cbn. rewrite insert_perm. now apply perm_skip. Qed.
  Lemma insert_sorted k x d : ~ In k (map fst d) -> StronglySorted before (map fst d) -> StronglySorted before (map fst (insert_item k x d)).
  Proof.
    induction d as [|[k' x'] d IH]; intros Hk Hs; [repeat constructor|]. cbn in *. inversion_clear Hs as [|? ? Hs' Hf]. destruct (String.ltb k k') eqn:E; cbn.
    - constructor; [now constructor|]. constructor; [exact E|]. eapply Forall_impl; [|exact Hf]. intros a. apply before_trans. exact E.
    - constructor; [apply IH; tauto|]. rewrite Forall_forall in *. intros a Ha. apply in_map_iff in Ha as ([k1 x1] & <- & Ha). apply (Permutation_in _ (insert_perm k x d)) in Ha as [Ha|Ha].
      + injection Ha as <- <-. cbn. apply before_total; [intros ->; apply Hk; now left|]. unfold before. congruence.
      + apply Hf. now apply (in_map fst) in Ha.
  Qed.
  Lemma sort_keys_nodup d : NoDup (map fst d) -> NoDup (map fst (sort_items d)).
  Proof. intros H. apply (Permutation_NoDup (l := map fst d)); [|exact H]. apply Permutation_map, Permutation_sym, sort_perm. Qed.
  Lemma sort_sorted d : NoDup (map fst d) -> StronglySorted before (map fst (sort_items d)).
  Proof.
    induction d as [|[k x] d IH]; intros H; [constructor|]. cbn in *. inversion_clear H as [|? ? Hk Hn]. apply insert_sorted; [|now apply IH].
    intros Hi. apply Hk. apply (Permutation_in k (Permutation_map fst (sort_perm d))). exact Hi.
  Qed.
  Lemma sort_already d : StronglySorted before (map fst d) -> sort_items d = d.
  Proof.
    induction d as [|[k x] d IH]; intros H; [reflexivity|]. cbn in *. inversion_clear H as [|? ? Hs Hf]. fold (sort_items d). rewrite (IH Hs). destruct d as [|[k' x'] d]; [reflexivity|]. cbn. inversion_clear Hf as [|? ? Hb _]. unfold before in Hb. cbn in Hb. now rewrite Hb.
  Qed.
  Lemma sort_dget k d : NoDup (map fst d) -> dget k (sort_items d) = dget k d.
  Proof.
    intros H. destruct (dget k d) as [x|] eqn:E.
    - apply In_dget; [now apply sort_keys_nodup|]. apply (Permutation_in _ (Permutation_sym (sort_perm d))). now apply dget_In.
    - apply dget_None_iff in E. apply dget_None_iff. intros Hi. apply E. exact (Permutation_in k (Permutation_map fst (sort_perm d)) Hi).
  Qed.
  Lemma sort_length d : length (sort_items d) = length d.
  Proof. apply Permutation_length, sort_perm. Qed.
End Sort.
Lemma sort_map {X Y} (g : X -> Y) (d : list (string * X)) : sort_items (map (fun kx => (fst kx, g (snd kx))) d) = map (fun kx => (fst kx, g (snd kx))) (sort_items d).
Proof.
  assert (I : forall k x (e : list (string * X)), insert_item k (g x) (map (fun kx => (fst kx, g (snd kx))) e) = map (fun kx => (fst kx, g (snd kx))) (insert_item k x e)).
  { intros k x. induction e as [|[k' x'] e IH]; [reflexivity|]. cbn. destruct (String.ltb k k'); [reflexivity|]. cbn. now rewrite IH. }
  induction d as [|[k x] d IH]; [reflexivity|]. cbn [map fst snd]. unfold sort_items in *. cbn [fold_right fst snd]. rewrite IH. apply I.
Qed.
Lemma sorted_unique_keys (l : list string) : forall m, StronglySorted before l -> StronglySorted before m -> (forall x, In x l <-> In x m) -> l = m.
Proof.
  induction l as [|a l IH]; intros m Hl Hm H.
  - destruct m as [|b m]; [reflexivity|]. exfalso. apply (proj2 (H b)). now left.
  - destruct m as [|b m]; [exfalso; apply (proj1 (H a)); now left|]. inversion_clear Hl as [|? ? Hl' Fl]. inversion_clear Hm as [|? ? Hm' Fm]. rewrite Forall_forall in Fl, Fm.
    assert (a = b). { destruct (proj1 (H a) (or_introl eq_refl)) as [E|Ha]; [auto|]. destruct (proj2 (H b) (or_introl eq_refl)) as [E|Hb]; [auto|]. exfalso. apply (before_irrefl a). eapply before_trans; [apply (Fl b Hb)|apply (Fm a Ha)]. }
    subst b. f_equal. apply IH; [assumption..|]. intros x. split; intros Hx.
    + destruct (proj1 (H x) (or_intror Hx)) as [<-|E]; [exfalso; apply (before_irrefl a), (Fl a Hx)|exact E].
    + destruct (proj2 (H x) (or_intror Hx)) as [<-|E]; [exfalso; apply (before_irrefl a), (Fm a Hx)|exact E].
Qed.

Section Canon.
  Context {T A B : Type}.
  Variable f : A -> B.
  (** The tree with sorted children at every level and [f] on the values. *)
  Fixpoint canon (n : node T A) : node T B :=
    match n with Node t v ch => Node t (f v) (sort_items (map (fun kc => (fst kc, canon (snd kc))) ch)) end.
  Lemma canon_eq t v ch : canon (Node t v ch) = Node t (f v) (map (fun kc => (fst kc, canon (snd kc))) (sort_items ch)).
  Proof. cbn [canon]. now rewrite sort_map. Qed.
  Lemma leaves_eq t v (ch : list (string * node T A)) : tree_leaves (Node t v ch) = v :: flat_map (fun kc => tree_leaves (snd kc)) (sort_items ch).
  Proof. cbn [tree_leaves]. f_equal. rewrite sort_map. generalize (sort_items ch). intros d. induction d as [|kc d IH]; [reflexivity|]. cbn. now rewrite IH. Qed.
  Lemma structure_eq t v (ch : list (string * node T A)) : tree_structure (Node t v ch) = TreeDef t (map (fun kc => (fst kc, tree_structure (snd kc))) (sort_items ch)).
  Proof. cbn [tree_structure]. now rewrite sort_map. Qed.
  Lemma sort_Forall {X} (P : string * X -> Prop) d : Forall P d -> Forall P (sort_items d).
  Proof. rewrite !Forall_forall. intros H x Hx. apply H. exact (Permutation_in x (sort_perm d) Hx). Qed.
  Lemma unflatten_leaves (n : node T A) : forall rest, unflatten_from (tree_structure n) (map f (tree_leaves n) ++ rest) = Ok (canon n, rest).
  Proof.
    induction n as [t v ch IH] using node_ind'. intros rest. rewrite structure_eq, leaves_eq. apply sort_Forall in IH. rewrite canon_eq. cbn [map List.app unflatten_from].
    match goal with |- bind ?x _ = _ => assert (E : x = Ok (map (fun kc => (fst kc, canon (snd kc))) (sort_items ch), rest)); [|rewrite E; reflexivity] end.
    revert rest. induction IH as [|[k c] d Hc _ IHd]; intros rest; [reflexivity|]. cbn [map fst snd flat_map]. rewrite map_app, <- app_assoc. rewrite Hc. cbn [bind]. rewrite IHd. reflexivity.
  Qed.
  Lemma tree_map_canon (n : node T A) : tree_map f n = Ok (canon n).
  Proof. unfold tree_map, tree_unflatten. rewrite <- (app_nil_r (map f (tree_leaves n))), unflatten_leaves. reflexivity. Qed.
  Lemma canon_nch n : nch (canon n) = map (fun kc => (fst kc, canon (snd kc))) (sort_items (nch n)).
  Proof. destruct n. now rewrite canon_eq. Qed.
  Lemma dget_canon k (d : list (string * node T A)) : dget k (map (fun kc => (fst kc, canon (snd kc))) d) = option_map canon (dget k d).
  Proof. induction d as [|[k' c] d IH]; [reflexivity|]. cbn. destruct (String.eqb k k'); [reflexivity|exact IH]. Qed.
  Lemma canon_walk path : forall n, wf n -> walk path (canon n) = option_map canon (walk path n).
  Proof.
    induction path as [|k path IH]; intros n Hn; [reflexivity|]. cbn [walk]. destruct n as [t v ch]. apply wf_children in Hn as [Hd Hf]. rewrite canon_nch. cbn [nch]. rewrite dget_canon, sort_dget by exact Hd.
    destruct (dget k ch) as [c|] eqn:E; [|reflexivity]. cbn [option_map]. apply IH. apply dget_In in E. rewrite Forall_forall in Hf. apply (Hf _ E).
  Qed.
  Lemma canon_wf n : wf n -> wf (canon n).
  Proof.
    induction n as [t v ch IH] using node_ind'. intros Hn. apply wf_children in Hn as [Hd Hf]. rewrite canon_eq. constructor.
    - rewrite map_map. cbn [fst]. now apply sort_keys_nodup.
    - apply Forall_map. cbn [snd]. apply sort_Forall. rewrite Forall_forall in *. intros x Hx. apply (IH x Hx), (Hf x Hx).
  Qed.
  Lemma canon_sorted n : wf n -> StronglySorted before (nkeys (canon n)).
  Proof. intros Hn. destruct n as [t v ch]. apply wf_children in Hn as [Hd _]. unfold nkeys, dkeys. rewrite canon_nch. cbn [nch]. rewrite map_map. cbn [fst]. now apply sort_sorted. Qed.
End Canon.
