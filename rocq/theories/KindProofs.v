(** The classes of nodes in a layout come from the constraints handed in. *)
From Verif Require Export HistWf.

Section Kinds.
  Context {T A : Type}.
  Definition kinds (n : node T A) : list T := map (@ntype T A) (preorder n).
  Definition dkinds (ch : dict (node T A)) : list T := flat_map (fun kc => kinds (snd kc)) ch.
  Lemma kinds_unfold t v (ch : dict (node T A)) : kinds (Node t v ch) = t :: dkinds ch.
  Proof. unfold kinds, dkinds. cbn [preorder map ntype]. f_equal. induction ch as [|kc ch IH]; [reflexivity|]. cbn [flat_map]. rewrite map_app, IH. reflexivity. Qed.
  Lemma dset_kinds k x (ch : dict (node T A)) w : In w (dkinds (dset k x ch)) -> In w (kinds x) \/ In w (dkinds ch).
  Proof.
    unfold dkinds. induction ch as [|[k' c] ch IH]; cbn [dset]; [cbn; rewrite app_nil_r; now left|].
    destruct (String.eqb k k'); cbn [flat_map snd]; rewrite !in_app_iff; intros [H|H]; auto. destruct (IH H); auto.
  Qed.
  Lemma pupd_kinds p f (n : node T A) (P : T -> Prop) : (forall c w, In w (kinds (f c)) -> In w (kinds c) \/ P w) -> forall w, In w (kinds (pupd p f n)) -> In w (kinds n) \/ P w.
  Proof.
    intros Hf. revert n. induction p as [|k p IH]; intros n w Hw; [now apply Hf|]. cbn [pupd] in Hw. destruct (dget k (nch n)) as [c|] eqn:E; [|now left].
    destruct n as [t v ch]. cbn [nch ntype nval] in *. rewrite kinds_unfold in *. destruct Hw as [Hw|Hw]; [left; now left|]. apply dset_kinds in Hw as [Hw|Hw]; [|left; now right].
    destruct (IH _ _ Hw) as [H|H]; [|now right]. left. right. apply in_flat_map. apply dget_In in E. eexists. split; [exact E|exact H].
  Qed.
  Lemma add_child_kinds (n : node T A) key x w : In w (kinds (fst (add_child n key x))) -> In w (kinds n) \/ In w (kinds x).
  Proof.
    rewrite (add_child_cases _ _ _ _ (components_total key)). cbv zeta.
    destruct (walk _ n); [|auto]. destruct (walk _ n); [auto|]. cbn [fst]. apply (pupd_kinds _ _ _ (fun w => In w (kinds x))).
    intros [t v ch] u. unfold set_key. cbn [ntype nval nch]. rewrite !kinds_unfold. intros [H|H]; [left; now left|]. apply dset_kinds in H as [H|H]; [now right|left; now right].
  Qed.
End Kinds.
Section KindsOf.
Context {F : Type} {N : Num F}.
Lemma act_kinds (l : layout F) a t : In t (kinds (l_cons (fst (act l a)))) -> In t (kinds (l_cons l)) \/ exists c, In c (given_cons a) /\ In t (kinds c).
Proof.
  destruct a as [p k|d|c ks ps k]; cbn [act given_cons].
  - unfold add_prim. destruct (add_child _ _ _). auto.
  - intros H. left. revert l H. induction d as [|[k p] d IH]; intros l H; [exact H|]. cbn [add_prims] in H.
    assert (E : l_cons (fst (add_prim l p k)) = l_cons l) by (unfold add_prim; destruct (add_child _ _ _); reflexivity).
    destruct (add_prim l p k) as [l' [u|e]]; cbn [fst] in *; [apply IH in H|]; now rewrite <- E.
  - assert (Hins : forall (l : layout F) key, In t (kinds (l_cons (fst (insert_constraint l c ks ps key)))) -> In t (kinds (l_cons l)) \/ In t (kinds c)).
    { clear. intros l key. unfold insert_constraint. pose proof (add_child_kinds (l_cons l) key c t) as G. destruct (add_child (l_cons l) key c) as [t2 [u|e]]; cbn [fst] in *; [|exact G].
      destruct (root_prim_keys c ks) as [kt|e]; [|exact G]. cbn [set_cons l_keys]. destruct (add_child _ key kt) as [t3 [u'|e]]; [|exact G].
      destruct (root_params c ps) as [pt|e]; [|exact G]. cbn [set_keys l_params]. destruct (add_child _ key pt) as [t4 [u''|e]]; exact G. }
    intros H. assert (G : In t (kinds (l_cons l)) \/ In t (kinds c)); [|destruct G; [now left|right; exists c; split; [now left|assumption]]]. unfold add_constraint in H.
    destruct (String.eqb k ""); [destruct (gen_key l c) as [cnt [r|]]|]; cbn [fst] in H.
    + destruct (validate_inputs _ _ _ _); [apply Hins in H; exact H|now left].
    + now left.
    + destruct (validate_inputs _ _ _ _); [apply Hins in H; exact H|now left].
Qed.
Lemma after_kinds acts t : forall l : layout F, In t (kinds (l_cons (after l acts))) -> In t (kinds (l_cons l)) \/ exists a c, In a acts /\ In c (given_cons a) /\ In t (kinds c).
Proof.
  induction acts as [|a acts IH]; intros l H; [now left|]. cbn [after fold_left] in H. apply IH in H as [H|(a' & c & H1 & H2 & H3)].
  - apply act_kinds in H as [H|(c & H1 & H2)]; [now left|]. right. exists a, c. split; [now left|auto].
  - right. exists a', c. split; [now right|auto].
Qed.

End KindsOf.
