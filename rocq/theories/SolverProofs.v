(** Proofs about solver.py: the loop, the rebuilt tree. *)
From Verif Require Export DofProofs Trans2Proofs LayoutProofs Solver.

Section Loop.
  Context {F : Type} {N : Num F}.
  Notation prim := (prim F).
  Variable res : list F -> result (list F).
  Variable step : list F -> list F -> result (list F).
  Variables abs_tol rel_tol : F.

  (** One iteration from [g] to [g'] with error [a]. *)
  Definition iterates (g : list F) (a : F) (g' : list F) : Prop :=
    exists r d, res g = Ok r /\ step g r = Ok d /\ vadd g d = Ok g' /\ norm r = Ok a.
  Definition goes_on (e : ext (F:=F)) (rel : ext (F:=F)) : bool := gtb e abs_tol && gtb rel rel_tol.

  (** What the loop guarantees, as an invariant over the list of iterates. *)
  Record trace (gs : list (list F)) (s : newton_state (F:=F)) : Prop := {
    tr_len : length gs = S (length (ns_abs s));
    tr_last : last gs [] = ns_g s;
    tr_step : forall k a, nth_error (ns_abs s) k = Some a -> exists g g', nth_error gs k = Some g /\ nth_error gs (S k) = Some g' /\ iterates g a g';
    tr_rel : ns_rel s = map (fun a => rel_of a (hd a (ns_abs s))) (ns_abs s);
    tr_on : forall k a e, S k < length (ns_abs s) -> nth_error (ns_abs s) k = Some a -> nth_error (ns_rel s) k = Some e -> goes_on (Fin a) e = true;
    tr_err : (ns_abs s = [] /\ ns_abs_err s = PInf /\ ns_rel_err s = PInf) \/
             (exists k a, length (ns_abs s) = S k /\ nth_error (ns_abs s) k = Some a /\ ns_abs_err s = Fin a /\ nth_error (ns_rel s) k = Some (ns_rel_err s))
  }.
  Lemma trace_init g : trace [g] (newton_init g).
  Proof.
    split; cbn; auto; try (intros k; intros; lia).
    intros k a E. destruct k; discriminate.
  Qed.
  Lemma trace_body gs s s' : trace gs s -> goes_on (ns_abs_err s) (ns_rel_err s) = true -> newton_body res step s = Ok s' ->
    exists g', trace (gs ++ [g']) s' /\ length (ns_abs s') = S (length (ns_abs s)).
  Proof.
    intros [Hl Ha Hs Hr Ho He] Hon H. unfold newton_body in H.
    destruct (res (ns_g s)) as [r|] eqn:Er; [|discriminate]. cbn [bind] in H.
    destruct (step (ns_g s) r) as [d|] eqn:Ed; [|discriminate]. cbn [bind] in H.
    destruct (vadd (ns_g s) d) as [g|] eqn:Eg; [|discriminate]. cbn [bind] in H.
    destruct (norm r) as [a|] eqn:En; [|discriminate]. cbn [bind] in H. injection H as <-.
    assert (Hlr : length (ns_rel s) = length (ns_abs s)) by (rewrite Hr, map_length; reflexivity).
    exists g. split; [|cbn; rewrite app_length; cbn; lia]. split; cbn [ns_abs ns_rel ns_g ns_abs_err ns_rel_err].
    - rewrite !app_length, Hl. cbn. lia.
    - apply last_last.
    - intros k b Hk. destruct (Nat.lt_ge_cases k (length (ns_abs s))) as [Hlt|Hge].
      + rewrite nth_error_app1 in Hk by assumption. destruct (Hs k b Hk) as (x & y & Hx & Hy & Hi).
        exists x, y. rewrite !nth_error_app1 by lia. auto.
      + rewrite nth_error_app2 in Hk by assumption. destruct (k - length (ns_abs s)) as [|q] eqn:Eq; [|destruct q; discriminate].
        cbn in Hk. injection Hk as <-. assert (k = length (ns_abs s)) by lia. subst k.
        exists (ns_g s), g. rewrite nth_error_app1 by lia. rewrite nth_error_app2 by lia. rewrite Hl, Nat.sub_diag. split; [|split; [reflexivity|exists r, d; auto]].
        rewrite <- Ha. destruct gs as [|g0 gs]; [discriminate|]. destruct (@exists_last _ (g0 :: gs) ltac:(discriminate)) as (u & x & Eu).
        rewrite Eu in *. rewrite last_last. rewrite app_length in Hl. cbn in Hl. assert (length (ns_abs s) = length u) as -> by lia. rewrite nth_error_app2 by lia. now rewrite Nat.sub_diag.
    - rewrite map_app. cbn. f_equal. rewrite Hr. apply map_ext_in. intros b Hb. destruct (ns_abs s); [destruct Hb|reflexivity].
    - intros k b e Hk Hb Hke. rewrite app_length in Hk. cbn in Hk. rewrite nth_error_app1 in Hb by lia. rewrite nth_error_app1 in Hke by lia.
      destruct (Nat.eq_dec (S k) (length (ns_abs s))) as [Heq|Hne]; [|apply (Ho k); [lia|assumption..]].
      destruct He as [(H0 & _)|(j & a0 & Hj & Hja & E1 & E2)]; [rewrite H0 in Heq; discriminate|].
      assert (j = k) by lia. subst j. rewrite Hja in Hb. rewrite Hke in E2. injection Hb as <-. injection E2 as ->. rewrite E1 in Hon. exact Hon.
    - right. exists (length (ns_abs s)), a. rewrite app_length. cbn. rewrite !nth_error_app2 by lia. rewrite Hlr, Nat.sub_diag. cbn. repeat split; lia.
  Qed.
  Lemma trace_loop left : forall gs s s', trace gs s -> newton_loop res step abs_tol rel_tol left s = Ok s' ->
    exists gs', trace (gs ++ gs') s' /\ length (ns_abs s') <= length (ns_abs s) + left /\
      (length (ns_abs s') < length (ns_abs s) + left -> goes_on (ns_abs_err s') (ns_rel_err s') = false).
  Proof.
    induction left as [|left IH]; intros gs s s' Ht H; cbn in H.
    - injection H as <-. exists []. rewrite app_nil_r. split; [assumption|]. split; lia.
    - fold (goes_on (ns_abs_err s) (ns_rel_err s)) in H. destruct (goes_on _ _) eqn:Eo.
      + destruct (newton_body res step s) as [s1|] eqn:Eb; [|discriminate]. cbn [bind] in H.
        destruct (trace_body gs s s1 Ht Eo Eb) as (g' & Ht' & Hl'). destruct (IH _ _ _ Ht' H) as (gs' & Hf & Hle & Hst).
        exists (g' :: gs'). rewrite <- app_assoc in Hf. split; [exact Hf|]. split; [lia|]. intros. apply Hst. lia.
      + injection H as <-. exists []. rewrite app_nil_r. split; [assumption|]. split; [lia|auto].
  Qed.
  (** Totality. *)
  Lemma loop_total (good : list F -> Prop) :
    (forall g, good g -> exists r d g' a, res g = Ok r /\ step g r = Ok d /\ vadd g d = Ok g' /\ norm r = Ok a /\ good g') ->
    forall left s, good (ns_g s) -> exists s', newton_loop res step abs_tol rel_tol left s = Ok s' /\ good (ns_g s').
  Proof.
    intros Hg. induction left as [|left IH]; intros s Hs; cbn; [eauto|].
    destruct (gtb _ _ && gtb _ _); [|eauto]. destruct (Hg _ Hs) as (r & d & g' & a & E1 & E2 & E3 & E4 & Hg').
    unfold newton_body. rewrite E1. cbn. rewrite E2. cbn. rewrite E3. cbn. rewrite E4. cbn. now apply IH.
  Qed.
  Lemma loop_good (good : list F -> Prop) : (forall g r d g' a, good g -> res g = Ok r -> step g r = Ok d -> vadd g d = Ok g' -> norm r = Ok a -> good g') ->
    forall left s s', good (ns_g s) -> newton_loop res step abs_tol rel_tol left s = Ok s' -> good (ns_g s').
  Proof.
    intros Hg. induction left as [|left IH]; intros s s' Hs H; cbn in H; [injection H as <-; exact Hs|].
    destruct (gtb _ _ && gtb _ _); [|injection H as <-; exact Hs].
    destruct (newton_body res step s) as [s1|] eqn:Eb; [|discriminate]. cbn [bind] in H. refine (IH _ _ _ H).
    unfold newton_body in Eb. destruct (res _) as [r|] eqn:Er; [|discriminate]. cbn [bind] in Eb.
    destruct (step _ r) as [d|] eqn:Ed; [|discriminate]. cbn [bind] in Eb.
    destruct (vadd _ d) as [g|] eqn:Eg; [|discriminate]. cbn [bind] in Eb.
    destruct (norm r) as [a|] eqn:En; [|discriminate]. cbn [bind] in Eb. injection Eb as <-. cbn. eauto.
  Qed.
End Loop.

Section Tree.
  Context {F : Type} {N : Num F}.
  Notation prim := (prim F).

  Lemma fresh_nth (chunks : list (list F)) i : nth_error (fresh_values chunks) i = option_map (fun c => {| vid := i; vdata := c |}) (nth_error chunks i).
  Proof.
    unfold fresh_values. assert (G : forall k, nth_error (map (fun ic : nat * list F => {| vid := fst ic; vdata := snd ic |}) (zip (seq k (length chunks)) chunks)) i
       = option_map (fun c => {| vid := k + i; vdata := c |}) (nth_error chunks i)).
    { revert i. induction chunks as [|c l IH]; intros i k; [destruct i; reflexivity|]. cbn [length seq zip map]. destruct i as [|i]; cbn [nth_error option_map fst snd].
      - now rewrite Nat.add_0_r.
      - rewrite IH. now rewrite Nat.add_succ_r. }
    apply (G 0).
  Qed.
  Lemma fresh_length (chunks : list (list F)) : length (fresh_values chunks) = length chunks.
  Proof. unfold fresh_values. rewrite map_length, zip_length, seq_length. lia. Qed.
  Lemma slices_length (values : list (pv F)) g : length (slices values g) = length values.
  Proof. unfold slices. rewrite chunk_cut, cut_length. unfold sizes_of. apply map_length. Qed.

  (** The tree of a global vector. *)
  Definition new_tree (root : prim) (g : list F) : prim := rebuilt root (fresh_values (slices (snd (filter_unique root)) g)).
  Lemma tree_of_global_ok root g : wf root -> slashfree root -> tree_of_global root g = Ok (new_tree root g).
  Proof.
    intros Hw Hs. unfold tree_of_global, new_tree. pose proof (build_spec root) as B. destruct (filter_unique root) as [graph values] eqn:E.
    cbn [fst snd] in *. apply B; auto. now rewrite fresh_length, slices_length.
  Qed.
  (** The new value of a node. *)
  Lemma new_value (root : prim) g : wf root -> slashfree root -> forall v, In v (node_values root) ->
    exists i c, pos (vid v) (snd (filter_unique root)) = Some i /\ nth_error (slices (snd (filter_unique root)) g) i = Some c /\
      nth i (fresh_values (slices (snd (filter_unique root)) g)) v = {| vid := i; vdata := c |}.
  Proof.
    intros Hw Hs v Hv. destruct (pos_unique root Hw Hs v Hv) as (i & Hi & Hlt).
    destruct (nth_error (slices (snd (filter_unique root)) g) i) as [c|] eqn:Ec; [|apply nth_error_None in Ec; rewrite slices_length in Ec; lia].
    exists i, c. repeat split; auto. apply nth_error_nth. rewrite fresh_nth, Ec. reflexivity.
  Qed.

  Definition renew (root : prim) (g : list F) (v : pv F) : pv F :=
    match pos (vid v) (snd (filter_unique root)) with
    | Some i => nth i (fresh_values (slices (snd (filter_unique root)) g)) v
    | None => v
    end.
  Lemma new_walk root g p n : walk p root = Some n ->
    exists n', walk p (new_tree root g) = Some n' /\ ntype n' = ntype n /\ nval n' = renew root g (nval n) /\ nkeys n' = nkeys n.
  Proof.
    intros H. unfold new_tree, rebuilt. rewrite walk_tmap, H. cbn [option_map]. eexists. split; [reflexivity|].
    match goal with |- context [tmap ?G n] => destruct (tmap_val G n) as [-> ->] end. split; [reflexivity|]. split; [reflexivity|].
    destruct n; unfold nkeys, dkeys. cbn. now rewrite map_map.
  Qed.
  Lemma renew_ids root g : wf root -> slashfree root -> forall v w, In v (node_values root) -> In w (node_values root) ->
    vid (renew root g v) = vid (renew root g w) <-> vid v = vid w.
  Proof.
    intros Hw Hs v w Hv Hw'. destruct (new_value root g Hw Hs v Hv) as (i & c & Hi & Hc & E). destruct (new_value root g Hw Hs w Hw') as (j & c' & Hj & Hc' & E').
    unfold renew. rewrite Hi, Hj, E, E'. cbn. split; [intros ->; eapply pos_inj; eassumption|intros Ev; rewrite Ev in Hi; congruence].
  Qed.
  Lemma node_values_In (root : prim) p (n : prim) : wf root -> walk p root = Some n -> In (nval n) (node_values root).
  Proof.
    intros Hw H. pose proof (iter_flat_complete root Hw EmptyString p n H) as Hin. rewrite <- (node_values_flat root EmptyString).
    apply in_map_iff. eexists; split; [|exact Hin]. reflexivity.
  Qed.
  Lemma new_values root g : node_values (new_tree root g) = map (renew root g) (node_values root).
  Proof.
    unfold node_values, new_tree, rebuilt. match goal with |- context [tmap ?G root] => pose proof (tmap_preorder G root) as P end.
    apply (f_equal (map (fun x => snd (fst x)))) in P. rewrite !map_map in P. cbn in P. rewrite map_map. exact P.
  Qed.
  Lemma firsts_map (h : pv F -> pv F) (l : list (pv F)) : forall seen, (forall v w, In v (seen ++ l) -> In w (seen ++ l) -> vid (h v) = vid (h w) <-> vid v = vid w) ->
    firsts (map h seen) (map h l) = map h (firsts seen l).
  Proof.
    induction l as [|v l IH]; intros seen H; [reflexivity|]. cbn [map firsts].
    assert (E : seen_id (vid (h v)) (map h seen) = seen_id (vid v) seen).
    { destruct (seen_id (vid v) seen) eqn:E.
      - apply seen_id_iff in E. apply in_map_iff in E as (w & Ew & Hw). apply seen_id_iff. rewrite map_map. apply in_map_iff. exists w. split; [|assumption].
        apply H; [apply in_or_app; now left|apply in_or_app; right; now left|assumption].
      - destruct (seen_id (vid (h v)) (map h seen)) eqn:E'; [|reflexivity]. apply seen_id_iff in E'. rewrite map_map in E'. apply in_map_iff in E' as (w & Ew & Hw).
        rewrite H in Ew by (apply in_or_app; cbn; tauto). assert (seen_id (vid v) seen = true) by (apply seen_id_iff, in_map_iff; eauto). congruence. }
    rewrite E. destruct (seen_id (vid v) seen).
    - apply IH. intros a b Ha Hb. apply H; apply in_app_iff; cbn; apply in_app_iff in Ha, Hb; tauto.
    - cbn [map]. f_equal. apply (IH (v :: seen)). intros a b Ha Hb. apply H; apply in_app_iff; cbn; cbn in Ha, Hb; rewrite in_app_iff in Ha, Hb; tauto.
  Qed.
  Lemma pos_firsts l i v : nth_error (firsts (F:=F) [] l) i = Some v -> pos (vid v) (firsts [] l) = Some i.
  Proof.
    intros H. destruct (firsts_NoDup [] l) as [Hn _]. set (u := firsts [] l) in *. clearbody u. clear l. revert i H. induction u as [|w u IH]; intros i H; [destruct i; discriminate|].
    cbn in Hn. inversion Hn; subst. destruct i as [|i]; cbn in *.
    - injection H as ->. now rewrite Nat.eqb_refl.
    - destruct (Nat.eqb_spec (vid w) (vid v)) as [E|E].
      + exfalso. apply H2. rewrite E. apply in_map. eapply nth_error_In; eassumption.
      + now rewrite (IH H3 i H).
  Qed.
  Lemma renew_uniques root g : wf root -> slashfree root ->
    map (renew root g) (snd (filter_unique root)) = fresh_values (slices (snd (filter_unique root)) g).
  Proof.
    intros Hw Hs. apply nth_error_ext. intros i. rewrite nth_error_map, fresh_nth.
    destruct (nth_error (snd (filter_unique root)) i) as [v|] eqn:Ev.
    - assert (Hv : In v (node_values root)). { apply nth_error_In in Ev. rewrite (filter_values root Hw Hs) in Ev. now apply firsts_incl in Ev. }
      destruct (new_value root g Hw Hs v Hv) as (j & c & Hj & Hc & E). cbn [option_map]. unfold renew. rewrite Hj, E.
      assert (j = i). { rewrite (filter_values root Hw Hs) in Ev, Hj. apply pos_firsts in Ev. congruence. } subst j. rewrite Hc. reflexivity.
    - cbn [option_map]. apply nth_error_None in Ev. rewrite (proj2 (nth_error_None _ i)); [reflexivity|]. now rewrite slices_length.
  Qed.
  Lemma new_wf (root : prim) g : wf root -> wf (new_tree root g).
  Proof. intros H. now apply tmap_wf. Qed.
  Lemma slashfree_tmap {T A T' A'} (h : node T A -> T' * A') (n : node T A) : slashfree n -> slashfree (tmap h n).
  Proof.
    induction n as [t v ch IH] using node_ind'. intros H. inversion H as [? ? ? Hk Hc]; subst. cbn [tmap]. constructor.
    - rewrite Forall_map. exact Hk.
    - rewrite Forall_map. cbn [snd]. rewrite Forall_forall in *. intros x Hx. apply IH; auto.
  Qed.
  Lemma new_slashfree (root : prim) g : slashfree root -> slashfree (new_tree root g).
  Proof. apply slashfree_tmap. Qed.
  (** Packing the new tree gives the vector back. *)
  Lemma new_global root g : wf root -> slashfree root -> length g = length (initial_global root) -> initial_global (new_tree root g) = g.
  Proof.
    intros Hw Hs Hg. unfold initial_global. rewrite (filter_values _ (new_wf root g Hw) (new_slashfree root g Hs)), new_values.
    change (@nil (pv F)) with (map (renew root g) []) at 1. rewrite firsts_map.
    - rewrite <- (filter_values root Hw Hs), renew_uniques by assumption. unfold global_of.
      assert (E : forall chunks : list (list F), map vdata (fresh_values chunks) = chunks).
      { intros chunks. apply nth_error_ext. intros i. rewrite nth_error_map, fresh_nth. destruct (nth_error chunks i); reflexivity. }
      rewrite E. now apply pack_unpack.
    - cbn. intros v w Hv Hw'. now apply renew_ids.
  Qed.
  Lemma new_sizes root g : wf root -> slashfree root -> ids_consistent root -> length g = length (initial_global root) ->
    forall v, In v (node_values root) -> length (vdata (renew root g v)) = length (vdata v).
  Proof.
    intros Hw Hs Hi Hg v Hv. destruct (new_value root g Hw Hs v Hv) as (i & c & Hp & Hc & E). unfold renew. rewrite Hp, E. cbn.
    destruct (pack_unpack (snd (filter_unique root))) as [_ P]. destruct (P g Hg) as [_ P2].
    apply (f_equal (fun l => nth_error l i)) in P2. rewrite nth_error_map, Hc in P2. unfold sizes_of in P2. rewrite nth_error_map in P2.
    apply pos_Some in Hp as (w & Hn & Hid). rewrite Hn in P2. cbn [option_map] in P2. injection P2 as ->.
    assert (w = v) as -> ; [|reflexivity]. apply Hi; auto. apply nth_error_In in Hn. rewrite (filter_values root Hw Hs) in Hn. now apply firsts_incl in Hn.
  Qed.
  Lemma new_initial root : wf root -> slashfree root -> ids_consistent root ->
    forall v, In v (node_values root) -> vdata (renew root (initial_global root) v) = vdata v.
  Proof.
    intros Hw Hs Hi v Hv. destruct (new_value root (initial_global root) Hw Hs v Hv) as (i & c & Hp & Hc & E). unfold renew. rewrite Hp, E. cbn.
    destruct (pack_unpack (snd (filter_unique root))) as [P _]. unfold initial_global in Hc. rewrite P, nth_error_map in Hc.
    apply pos_Some in Hp as (w & Hn & Hid). rewrite Hn in Hc. cbn [option_map] in Hc. injection Hc as <-.
    f_equal. apply Hi; auto. apply nth_error_In in Hn. rewrite (filter_values root Hw Hs) in Hn. now apply firsts_incl in Hn.
  Qed.
  Lemma vadd_length (a b r : list F) : vadd a b = Ok r -> length a = length b -> length r = length a.
  Proof. unfold vadd, bcast2. intros H E. rewrite E, Nat.eqb_refl in H. apply mapM_length in H. rewrite zip_length in H. lia. Qed.
End Tree.
