(** Trees of the same structure and numbers have the same vector of numbers. *)
From Verif Require Export SolverProofs SolverSpec.

Section Global.
  Context {F : Type} {N : Num F}.
  Notation prim := (prim F).
  Notation pv := (pv F).

  Lemma firsts_index {K} (a b : K -> pv) (ks : list K) : forall seen : list K,
    (forall k k', In k (seen ++ ks) -> In k' (seen ++ ks) -> vid (a k) = vid (a k') <-> vid (b k) = vid (b k')) ->
    (forall k, In k ks -> vdata (a k) = vdata (b k)) ->
    map vdata (firsts (map a seen) (map a ks)) = map vdata (firsts (map b seen) (map b ks)).
  Proof.
    induction ks as [|k ks IH]; intros seen H D; [reflexivity|]. cbn [map firsts].
    assert (E : seen_id (vid (a k)) (map a seen) = seen_id (vid (b k)) (map b seen)).
    { apply eq_true_iff_eq. rewrite !seen_id_iff, !map_map, !in_map_iff. split; intros (x & Ex & Hx); exists x; (split; [|exact Hx]); apply (H x k); auto; apply in_or_app; [now left|right; now left|now left|right; now left]. }
    rewrite E. destruct (seen_id (vid (b k)) (map b seen)).
    - apply IH; [|intros; apply D; now right]. intros x y Hx Hy. apply H; apply in_app_iff; apply in_app_iff in Hx, Hy; cbn; tauto.
    - cbn [map]. f_equal; [apply D; now left|]. apply (IH (k :: seen)); [|intros; apply D; now right]. intros x y Hx Hy. apply H; apply in_app_iff; cbn in Hx, Hy |- *; rewrite in_app_iff in Hx, Hy; tauto.
  Qed.

  Lemma keys_paths (p : prim) : forall q : prim, wf p -> wf q -> (forall k, option_map (@nkeys _ _) (walk k p) = option_map (@nkeys _ _) (walk k q)) -> paths p = paths q.
  Proof.
    induction p as [t v ch IH] using node_ind'. intros [t' v' ch'] Hw Hw' H. pose proof (H []) as H0. cbn in H0. injection H0 as Hk. unfold nkeys, dkeys in Hk. cbn [nch] in Hk.
    apply wf_children in Hw as [Hn Hf]. apply wf_children in Hw' as [Hn' Hf'].
    assert (Hc : forall k x y, In (k, x) ch -> In (k, y) ch' -> paths x = paths y).
    { intros k x y Hx Hy. rewrite Forall_forall in IH, Hf, Hf'. apply (IH _ Hx); [apply (Hf _ Hx)|apply (Hf' _ Hy)|]. intros path. specialize (H (k :: path)). cbn [walk nch] in H.
      rewrite (In_dget _ _ _ Hn Hx), (In_dget _ _ _ Hn' Hy) in H. exact H. }
    cbn [paths]. f_equal. clear -Hk Hc. revert ch' Hk Hc. induction ch as [|[k x] ch IH]; intros [|[k' y] ch'] Hk Hc; try discriminate; [reflexivity|].
    cbn in Hk. injection Hk as <- Hk. cbn [flat_map fst snd]. rewrite (Hc k x y) by (now left). f_equal. apply IH; [exact Hk|]. intros. eapply Hc; right; eassumption.
  Qed.

  Definition value_at (n : prim) (path : list string) : pv := match walk path n with Some m => nval m | None => nval n end.
  Lemma node_values_paths (n : prim) : wf n -> node_values n = map (value_at n) (paths n).
  Proof.
    intros Hw. pose proof (preorder_paths n Hw) as E. unfold node_values, value_at.
    assert (G : forall (ms : list prim) ps, map Some ms = map (fun p => walk p n) ps -> map (@nval _ _) ms = map (fun p => match walk p n with Some m => nval m | None => nval n end) ps).
    { induction ms as [|m ms IH]; intros [|p ps] H; try discriminate; [reflexivity|]. cbn in H. injection H as H1 H2. cbn. rewrite <- H1. f_equal. now apply IH. }
    now apply G.
  Qed.
  Lemma same_global (p q : prim) : wf p -> slashfree p -> wf q -> slashfree q -> same_structure p q -> same_numbers p q -> initial_global p = initial_global q.
  Proof.
    intros Wp Sp Wq Sq [H1 H2] Hn. unfold initial_global, global_of. rewrite !filter_values by assumption.
    assert (Hk : forall k, option_map (@nkeys _ _) (walk k p) = option_map (@nkeys _ _) (walk k q)).
    { intros k. specialize (H1 k). destruct (walk k p), (walk k q); cbn in *; congruence. }
    rewrite !node_values_paths, <- (keys_paths p q Wp Wq Hk) by assumption. f_equal. apply (firsts_index (value_at p) (value_at q) (paths p) []).
    - intros k k' Hp Hp'. cbn [app] in *. apply (in_paths_iff p) in Hp, Hp'; try assumption. unfold value_at. pose proof (H1 k) as E. pose proof (H1 k') as E'.
      destruct (walk k p) as [a|] eqn:A; [|congruence]. destruct (walk k' p) as [b|] eqn:B; [|congruence]. destruct (walk k q) as [c|] eqn:C; [|discriminate]. destruct (walk k' q) as [d|] eqn:D; [|discriminate].
      apply (H2 k k'); assumption.
    - intros k Hp. apply (in_paths_iff p) in Hp; [|assumption]. unfold value_at. specialize (Hn k). destruct (walk k p) as [a|]; [|congruence]. destruct (walk k q) as [c|]; [|discriminate]. cbn in Hn. congruence.
  Qed.
End Global.
