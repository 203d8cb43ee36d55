(** Proofs about primitives.py (constructors, unique values). *)
From Verif Require Export CounterProofs Prim.

(** ** Chunks *)
Lemma accum_shift a b l : accum (a + b) l = map (Nat.add a) (accum b l).
Proof. revert b. induction l as [|x l IH]; intros b; cbn; [reflexivity|]. f_equal. rewrite <- IH. f_equal. lia. Qed.
Lemma accum_nonempty a l : accum a l <> [].
Proof. destruct l; discriminate. Qed.
Lemma accum_length a l : length (accum a l) = S (length l).
Proof. revert a. induction l as [|x l IH]; intros a; cbn; [reflexivity|]. f_equal. apply IH. Qed.

Definition bounds_of (sizes : list nat) : list (nat * nat) :=
  zip (removelast (accum 0 sizes)) (tl (accum 0 sizes)).

Fixpoint cut {A} (l : list A) (sizes : list nat) : list (list A) :=
  match sizes with
  | [] => []
  | s :: r => firstn s l :: cut (skipn s l) r
  end.

Lemma skipn_skipn' {A} a b (l : list A) : skipn a (skipn b l) = skipn (b + a) l.
Proof. revert l. induction b as [|b IH]; intros l; [reflexivity|]. destruct l; cbn; [destruct a; reflexivity|apply IH]. Qed.

Lemma slices_cut_gen {A} (l : list A) sizes a :
  map (fun se => slice (fst se) (snd se) l) (zip (removelast (accum a sizes)) (tl (accum a sizes)))
  = cut (skipn a l) sizes.
Proof.
  revert a. induction sizes as [|s sizes IH]; intros a; [reflexivity|].
  cbn [accum tl cut]. change (removelast (a :: accum (a + s) sizes)) with
    (match accum (a + s) sizes with [] => [] | _ => a :: removelast (accum (a + s) sizes) end).
  destruct (accum (a + s) sizes) as [|b bs] eqn:E; [now apply accum_nonempty in E|].
  assert (Hb : b = a + s) by (destruct sizes; cbn in E; inversion E; reflexivity). subst b.
  cbn [zip map fst snd]. f_equal.
  - unfold slice. f_equal. lia.
  - rewrite skipn_skipn'. rewrite <- IH. rewrite E. reflexivity.
Qed.
Lemma chunk_cut {A} (l : list A) sizes :
  map (fun se => slice (fst se) (snd se) l) (zip (removelast (accum 0 sizes)) (tl (accum 0 sizes))) = cut l sizes.
Proof. apply (slices_cut_gen l sizes 0). Qed.

Lemma cut_length {A} (l : list A) sizes : length (cut l sizes) = length sizes.
Proof. revert l. induction sizes as [|s r IH]; intros l; cbn; [reflexivity|]. now rewrite IH. Qed.
Lemma cut_spec {A} (l : list A) sizes : fold_right Nat.add 0 sizes = length l ->
  List.concat (cut l sizes) = l /\ map (@length A) (cut l sizes) = sizes.
Proof.
  revert l. induction sizes as [|s r IH]; intros l H; cbn in *.
  - destruct l; [auto|discriminate].
  - destruct (IH (skipn s l)) as [H1 H2].
    { rewrite skipn_length. lia. }
    rewrite H1, H2, firstn_skipn. split; [reflexivity|]. f_equal. rewrite firstn_length. lia.
Qed.
Lemma cut_concat {A} (pieces : list (list A)) : cut (List.concat pieces) (map (@length A) pieces) = pieces.
Proof.
  induction pieces as [|p r IH]; cbn; [reflexivity|].
  rewrite firstn_app, firstn_all, Nat.sub_diag, skipn_app, skipn_all, Nat.sub_diag. cbn.
  now rewrite app_nil_r, IH.
Qed.
Lemma cut_app_prefix {A} (pieces : list (list A)) rest :
  cut (List.concat pieces ++ rest) (map (@length A) pieces) = pieces.
Proof.
  induction pieces as [|p r IH]; cbn; [reflexivity|].
  rewrite <- app_assoc, firstn_app, firstn_all, Nat.sub_diag, skipn_app, skipn_all, Nat.sub_diag. cbn.
  now rewrite app_nil_r, IH.
Qed.

(** ** Types *)
Lemma ptype_eqb_eq a b : ptype_eqb a b = true <-> a = b.
Proof. destruct a, b; cbn; split; congruence. Qed.

(** ** Unique values: first occurrences by identity *)
Section Unique.
  Context {F : Type}.
  Notation prim := (prim F).

  Definition seen_id (i : nat) (l : list (pv F)) : bool := existsb (fun v => Nat.eqb (vid v) i) l.
  (** First occurrence of each identity, in order ([seen] are already listed). *)
  Fixpoint firsts (seen l : list (pv F)) : list (pv F) :=
    match l with
    | [] => []
    | v :: r => if seen_id (vid v) seen then firsts seen r else v :: firsts (v :: seen) r
    end.
  (** Position of the identity in a list of arrays. *)
  Fixpoint pos (i : nat) (l : list (pv F)) : option nat :=
    match l with
    | [] => None
    | v :: r => if Nat.eqb (vid v) i then Some 0 else option_map S (pos i r)
    end.

  Lemma seen_id_iff i l : seen_id i l = true <-> In i (map vid l).
  Proof.
    unfold seen_id. rewrite existsb_exists, in_map_iff. split.
    - intros (v & Hv & He). apply Nat.eqb_eq in He. eauto.
    - intros (v & He & Hv). exists v. split; [assumption|now apply Nat.eqb_eq].
  Qed.
  Lemma seen_id_perm i a b : (forall x, In x (map vid a) <-> In x (map vid b)) -> seen_id i a = seen_id i b.
  Proof.
    intros H. destruct (seen_id i a) eqn:Ea, (seen_id i b) eqn:Eb; auto.
    - apply seen_id_iff in Ea. apply H in Ea. apply seen_id_iff in Ea. congruence.
    - apply seen_id_iff in Eb. apply H in Eb. apply seen_id_iff in Eb. congruence.
  Qed.
  Lemma firsts_ext a b l : (forall x, In x (map vid a) <-> In x (map vid b)) -> firsts a l = firsts b l.
  Proof.
    revert a b. induction l as [|v l IH]; intros a b H; [reflexivity|]. cbn.
    rewrite (seen_id_perm (vid v) a b H). destruct (seen_id (vid v) b); [now apply IH|].
    f_equal. apply IH. intros x. cbn. rewrite (H x). tauto.
  Qed.
  Lemma firsts_NoDup seen l : NoDup (map vid (firsts seen l)) /\
    (forall x, In x (map vid (firsts seen l)) -> ~ In x (map vid seen)).
  Proof.
    revert seen. induction l as [|v l IH]; intros seen; cbn; [split; [constructor|tauto]|].
    destruct (seen_id (vid v) seen) eqn:E; [apply IH|].
    destruct (IH (v :: seen)) as [Hn Hd]. cbn. split.
    - constructor; [|assumption]. intros Hi. apply (Hd _ Hi). now left.
    - intros x [<-|Hx].
      + intros Hc. apply seen_id_iff in Hc. congruence.
      + intros Hc. apply (Hd x Hx). now right.
  Qed.
  Lemma firsts_incl seen l v : In v (firsts seen l) -> In v l.
  Proof.
    revert seen. induction l as [|w l IH]; intros seen; cbn; [tauto|].
    destruct (seen_id (vid w) seen); [intros H; right; eauto|]. intros [->|H]; [now left|right; eauto].
  Qed.
  Lemma firsts_cover seen l v : In v l -> In (vid v) (map vid seen) \/ In (vid v) (map vid (firsts seen l)).
  Proof.
    revert seen. induction l as [|w l IH]; intros seen; cbn; [tauto|]. intros [->|H].
    - destruct (seen_id (vid v) seen) eqn:E; [left; now apply seen_id_iff|right; now left].
    - destruct (seen_id (vid w) seen) eqn:E; [now apply IH|].
      destruct (IH (w :: seen) H) as [[Hw|Hs]|Hr]; cbn; auto.
  Qed.

  Lemma pos_Some i l j : pos i l = Some j -> exists v, nth_error l j = Some v /\ vid v = i.
  Proof.
    revert j. induction l as [|v l IH]; cbn; intros j H; [discriminate|].
    destruct (Nat.eqb_spec (vid v) i); [inversion H; subst; cbn; eauto|].
    destruct (pos i l) as [k|] eqn:E; [|discriminate]. inversion H; subst. cbn. now apply IH.
  Qed.
  Lemma pos_In i l : In i (map vid l) -> exists j, pos i l = Some j.
  Proof.
    induction l as [|v l IH]; cbn; [tauto|]. intros H. destruct (Nat.eqb_spec (vid v) i); [eauto|].
    destruct H as [H|H]; [congruence|]. destruct (IH H) as [j Hj]. rewrite Hj. cbn. eauto.
  Qed.
  Lemma pos_inj i i' l j : pos i l = Some j -> pos i' l = Some j -> i = i'.
  Proof.
    intros H1 H2. apply pos_Some in H1 as (v & Hv & <-). apply pos_Some in H2 as (w & Hw & <-). congruence.
  Qed.
  Lemma pos_app_new i l v : ~ In i (map vid l) -> vid v = i -> pos i (l ++ [v]) = Some (length l).
  Proof.
    induction l as [|w l IH]; cbn; intros Hn Hv.
    - rewrite Hv, Nat.eqb_refl. reflexivity.
    - destruct (Nat.eqb_spec (vid w) i); [exfalso; auto|]. rewrite IH; auto.
  Qed.
  Lemma pos_app_old i l r j : pos i l = Some j -> pos i (l ++ r) = Some j.
  Proof.
    revert j. induction l as [|w l IH]; cbn; intros j H; [discriminate|].
    destruct (Nat.eqb (vid w) i); [assumption|]. destruct (pos i l) as [k|]; [|discriminate].
    now rewrite (IH k eq_refl).
  Qed.
  Lemma pos_app_none i l v : vid v <> i -> pos i l = None -> pos i (l ++ [v]) = None.
  Proof.
    induction l as [|w l IH]; cbn; intros Hn Hp.
    - destruct (Nat.eqb_spec (vid v) i); congruence.
    - destruct (Nat.eqb (vid w) i); [discriminate|]. destruct (pos i l); [discriminate|]. now rewrite IH.
  Qed.
  Lemma pos_None i l : pos i l = None <-> ~ In i (map vid l).
  Proof.
    split.
    - intros H Hi. apply pos_In in Hi as [j Hj]. congruence.
    - intros H. destruct (pos i l) as [j|] eqn:E; [|reflexivity]. exfalso. apply H.
      apply pos_Some in E as (v & Hv & <-). apply in_map. eapply nth_error_In; eassumption.
  Qed.

  Definition getval (kn : string * prim) : pv F := nval (snd kn).
  (** The loop invariant. *)
  Record finv (done : list (string * prim)) (s : @filter_state F) : Prop := {
    fi_values : fs_values s = firsts [] (map getval done);
    fi_ids : forall i, idget i (fs_ids s) = pos i (fs_values s);
    fi_keys : map fst (fs_map s) = map fst done;
    fi_map : forall k n, In (k, n) done -> exists j, dget k (fs_map s) = Some j /\ pos (vid (nval n)) (fs_values s) = Some j
  }.

  Lemma firsts_snoc seen l v : firsts seen (l ++ [v]) =
    firsts seen l ++ (if seen_id (vid v) seen || seen_id (vid v) l then [] else [v]).
  Proof.
    revert seen. induction l as [|w l IH]; intros seen; cbn.
    - destruct (seen_id (vid v) seen); reflexivity.
    - rewrite !IH. destruct (seen_id (vid w) seen) eqn:E.
      + f_equal. cbn. destruct (Nat.eqb_spec (vid w) (vid v)) as [Hw|Hw].
        * rewrite Hw in E. now rewrite E.
        * reflexivity.
      + cbn. f_equal. f_equal. destruct (Nat.eqb_spec (vid w) (vid v)) as [Hw|Hw].
        * cbn. now rewrite !orb_true_r.
        * cbn. reflexivity.
  Qed.

  Lemma finv_step done s k n : finv done s -> ~ In k (map fst done) ->
    finv (done ++ [(k, n)]) (filter_step s (k, n)).
  Proof.
    intros [Hv Hi Hk Hm] Hnew. unfold filter_step. cbn [fst snd]. rewrite Hi.
    assert (Hdn : dget k (fs_map s) = None) by (apply dget_None_iff; now rewrite Hk).
    assert (Hcov : forall l i, In i (map vid (firsts [] l)) <-> In i (map vid l)).
    { intros l i. split.
      - intros H. apply in_map_iff in H as (w & <- & Hw). apply in_map. eapply firsts_incl; eassumption.
      - intros H. apply in_map_iff in H as (w & <- & Hw). destruct (firsts_cover [] l w Hw) as [[]|]; assumption. }
    destruct (pos (vid (nval n)) (fs_values s)) as [j|] eqn:Ep.
    - assert (Hseen : seen_id (vid (nval n)) (map getval done) = true).
      { apply seen_id_iff. apply Hcov. rewrite Hv in Ep. apply pos_Some in Ep as (w & Hw & <-).
        apply in_map. eapply nth_error_In; eassumption. }
      split; cbn [fs_values fs_ids fs_map].
      + rewrite map_app. cbn [map]. rewrite firsts_snoc. change (getval (k, n)) with (nval n). rewrite Hseen, orb_true_r, app_nil_r. assumption.
      + assumption.
      + rewrite dset_new by assumption. rewrite !map_app, Hk. reflexivity.
      + intros k' n' Hin. apply in_app_or in Hin as [Hin|[He|[]]].
        * destruct (Hm _ _ Hin) as (j' & Hd & Hp). exists j'. split; [|assumption].
          rewrite dget_dset_other; [assumption|]. intros ->. apply Hnew. now apply (in_map fst) in Hin.
        * inversion He; subst. exists j. rewrite dget_dset_same. auto.
    - apply pos_None in Ep.
      assert (Hseen : seen_id (vid (nval n)) (map getval done) = false).
      { destruct (seen_id _ _) eqn:E; [|reflexivity]. exfalso. apply seen_id_iff in E. apply Hcov in E.
        rewrite Hv in Ep. contradiction. }
      assert (Hlen : length (fs_values s ++ [nval n]) - 1 = length (fs_values s)) by (rewrite app_length; cbn; lia).
      split; cbn [fs_values fs_ids fs_map]; rewrite ?Hlen.
      + rewrite map_app. cbn [map]. rewrite firsts_snoc. change (getval (k, n)) with (nval n). rewrite Hseen. cbn. now rewrite Hv.
      + intros i. cbn [idget]. destruct (Nat.eqb_spec i (vid (nval n))) as [->|Hne].
        * now rewrite pos_app_new.
        * rewrite Hi. destruct (pos i (fs_values s)) as [j|] eqn:Epi.
          -- symmetry. now apply pos_app_old.
          -- symmetry. apply pos_app_none; auto.
      + rewrite dset_new by assumption. rewrite !map_app, Hk. reflexivity.
      + intros k' n' Hin. apply in_app_or in Hin as [Hin|[He|[]]].
        * destruct (Hm _ _ Hin) as (j' & Hd & Hp). exists j'. split.
          -- rewrite dget_dset_other; [assumption|]. intros ->. apply Hnew. now apply (in_map fst) in Hin.
          -- now apply pos_app_old.
        * inversion He; subst. exists (length (fs_values s)). rewrite dget_dset_same. split; [reflexivity|].
          now apply pos_app_new.
  Qed.

  Lemma finv_fold l : NoDup (map fst l) ->
    finv l (fold_left filter_step l {| fs_ids := []; fs_values := []; fs_map := [] |}).
  Proof.
    intros Hnd. assert (Hgen : forall rest done s, done ++ rest = l -> finv done s ->
                     finv l (fold_left filter_step rest s)).
    { induction rest as [|[k n] rest IH]; intros done s Hl Hs; cbn.
      - rewrite app_nil_r in Hl. now subst.
      - apply (IH (done ++ [(k, n)])); [now rewrite <- app_assoc|].
        apply finv_step; [assumption|]. subst l. rewrite map_app in Hnd. cbn in Hnd.
        apply NoDup_remove_2 in Hnd. intros Hi. apply Hnd. apply in_or_app. now left. }
    apply (Hgen l []); [reflexivity|]. split; cbn; try reflexivity. intros k n [].
  Qed.

  Definition node_values (root : prim) : list (pv F) := map (@nval _ _) (preorder root).

  Lemma node_values_flat root key : map getval (iter_flat key root) = node_values root.
  Proof. unfold node_values. rewrite <- (iter_flat_preorder root key), map_map. reflexivity. Qed.

  (** Same identity, same data: what Python guarantees for [id]. *)
  Definition ids_consistent (root : prim) : Prop :=
    forall a b, In a (node_values root) -> In b (node_values root) -> vid a = vid b -> a = b.

  Lemma filter_values root : wf root -> slashfree root ->
    snd (filter_unique root) = firsts [] (node_values root).
  Proof.
    intros Hw Hs. unfold filter_unique. cbn [snd].
    pose proof (finv_fold (iter_flat EmptyString root) (iter_flat_keys_NoDup _ _ Hw Hs)) as [Hv _ _ _].
    rewrite Hv. now rewrite node_values_flat.
  Qed.

  Lemma filter_spec root : wf root -> slashfree root -> ids_consistent root ->
    let (m, vals) := filter_unique root in
    dkeys m = map fst (iter_flat EmptyString root) /\
    (forall k n, In (k, n) (iter_flat EmptyString root) ->
       exists i, dget k m = Some i /\ nth_error vals i = Some (nval n)) /\
    (forall k1 n1 i1 k2 n2 i2, In (k1, n1) (iter_flat EmptyString root) -> In (k2, n2) (iter_flat EmptyString root) ->
       dget k1 m = Some i1 -> dget k2 m = Some i2 -> (i1 = i2 <-> vid (nval n1) = vid (nval n2))) /\
    NoDup (map vid vals) /\
    (forall v, In v vals -> exists k n, In (k, n) (iter_flat EmptyString root) /\ nval n = v).
  Proof.
    intros Hw Hs Hids. unfold filter_unique.
    pose proof (finv_fold (iter_flat EmptyString root) (iter_flat_keys_NoDup _ _ Hw Hs)) as [Hv Hi Hk Hm].
    set (s := fold_left filter_step (iter_flat EmptyString root) _) in *.
    assert (Hin : forall k n, In (k, n) (iter_flat EmptyString root) -> In (nval n) (node_values root)).
    { intros k n H. rewrite <- (node_values_flat root EmptyString).
      apply in_map_iff. exists (k, n). auto. }
    assert (Hvals : forall v, In v (fs_values s) -> exists k n, In (k, n) (iter_flat EmptyString root) /\ nval n = v).
    { intros v Hvin. rewrite Hv in Hvin. apply firsts_incl in Hvin.
      apply in_map_iff in Hvin as ([k n] & <- & Hin'). cbn. eauto. }
    repeat split.
    - assumption.
    - intros k n H. destruct (Hm _ _ H) as (j & Hd & Hp). exists j. split; [assumption|].
      apply pos_Some in Hp as (v & Hnth & Hid). rewrite Hnth. f_equal.
      apply nth_error_In in Hnth. destruct (Hvals _ Hnth) as (k' & n' & Hin' & <-).
      apply Hids; eauto.
    - intros ->. destruct (Hm _ _ H) as (j & Hd & Hp). destruct (Hm _ _ H0) as (j' & Hd' & Hp').
      rewrite H1 in Hd. rewrite H2 in Hd'. inversion Hd; inversion Hd'; subst.
      eapply pos_inj; eassumption.
    - intros He. destruct (Hm _ _ H) as (j & Hd & Hp). destruct (Hm _ _ H0) as (j' & Hd' & Hp').
      rewrite H1 in Hd. rewrite H2 in Hd'. inversion Hd; inversion Hd'; subst. congruence.
    - rewrite Hv. apply firsts_NoDup.
    - assumption.
  Qed.

  (** Position of each node's array among the unique values. *)
  Lemma filter_map_pos root : wf root -> slashfree root -> forall k n,
    In (k, n) (iter_flat EmptyString root) ->
    dget k (fst (filter_unique root)) = pos (vid (nval n)) (snd (filter_unique root)).
  Proof.
    intros Hw Hs k n Hin. unfold filter_unique. cbn [fst snd].
    pose proof (finv_fold (iter_flat EmptyString root) (iter_flat_keys_NoDup _ _ Hw Hs)) as [Hv Hi Hk Hm].
    destruct (Hm _ _ Hin) as (j & -> & ->). reflexivity.
  Qed.
  Lemma pos_unique root : wf root -> slashfree root -> forall v, In v (node_values root) ->
    exists i, pos (vid v) (snd (filter_unique root)) = Some i /\ i < length (snd (filter_unique root)).
  Proof.
    intros Hw Hs v Hv. rewrite (filter_values root Hw Hs).
    destruct (pos_In (vid v) (firsts [] (node_values root))) as [i Hi].
    - destruct (firsts_cover [] (node_values root) v Hv) as [[]|H]; assumption.
    - exists i. split; [assumption|]. apply pos_Some in Hi as (w & Hw' & _).
      apply nth_error_Some. congruence.
  Qed.

  (** Rebuilding: each node gets the value at its index. *)
  Definition rebuilt (root : prim) (values : list (pv F)) : prim :=
    tmap (fun n => (ntype n,
                    match pos (vid (nval n)) (snd (filter_unique root)) with
                    | Some i => nth i values (nval n)
                    | None => nval n
                    end)) root.

  Lemma build_spec root values : wf root -> slashfree root ->
    length values = length (snd (filter_unique root)) ->
    build_prim (flatten EmptyString root) (fst (filter_unique root)) values = Ok (rebuilt root values).
  Proof.
    intros Hw Hs Hlen. unfold build_prim.
    set (g := fun n : prim => (ntype n,
                    match pos (vid (nval n)) (snd (filter_unique root)) with
                    | Some i => nth i values (nval n)
                    | None => nval n
                    end)).
    match goal with |- context [mapM ?f _] => set (step := f) end.
    assert (Hm : mapM step (flatten EmptyString root) =
       Ok (map (fun kn : string * prim => (fst kn, fst (g (snd kn)), snd (g (snd kn)), nkeys (snd kn)))
               (iter_flat EmptyString root))).
    { unfold flatten. rewrite mapM_map. rewrite <- mapM_Ok_map. apply mapM_ext. intros [k n] Hin.
      unfold step. cbn [fst snd].
      rewrite (filter_map_pos root Hw Hs k n Hin).
      destruct (pos_unique root Hw Hs (nval n)) as (i & Hi & Hlt).
      { rewrite <- (node_values_flat root EmptyString). apply in_map_iff. exists (k, n). auto. }
      rewrite Hi. unfold g. cbn [fst snd]. rewrite Hi.
      rewrite (nth_error_nth' values (nval n)) by lia. reflexivity. }
    rewrite Hm. cbn [bind].
    match goal with |- context [unflatten ?L] => set (l := L) end.
    assert (H : unflatten (l ++ []) = Ok (tmap g root, [])).
    { apply unflatten_spec; [now apply tmap_wf|]. unfold l. rewrite tmap_preorder, map_map.
      rewrite <- (iter_flat_preorder root EmptyString), map_map. reflexivity. }
    rewrite app_nil_r in H. rewrite H. reflexivity.
  Qed.

  Lemma tmap_id {T A} (n : node T A) (g : node T A -> T * A) :
    Forall (fun m => g m = (ntype m, nval m)) (preorder n) -> tmap g n = n.
  Proof.
    induction n as [t v ch IH] using node_ind'. intros H. cbn [preorder] in H. inversion H as [|? ? Hg Hr]; subst.
    cbn [tmap]. rewrite Hg. cbn. f_equal. clear H Hg.
    induction ch as [|[k c] ch IHch]; [reflexivity|]. cbn in *. inversion IH; subst.
    apply Forall_app in Hr as [Hc Hr]. f_equal.
    - f_equal. auto.
    - apply IHch; auto.
  Qed.

  Lemma rebuild_same root : wf root -> slashfree root -> ids_consistent root ->
    build_prim (flatten EmptyString root) (fst (filter_unique root)) (snd (filter_unique root)) = Ok root.
  Proof.
    intros Hw Hs Hids. rewrite build_spec by auto. f_equal. unfold rebuilt. apply tmap_id.
    apply Forall_forall. intros m Hm. f_equal.
    assert (Hv : In (nval m) (node_values root)) by (now apply in_map).
    destruct (pos_unique root Hw Hs (nval m) Hv) as (i & Hi & Hlt). rewrite Hi.
    apply pos_Some in Hi as (v & Hn & Hid). erewrite nth_error_nth by eassumption.
    apply Hids; auto. apply nth_error_In in Hn. rewrite (filter_values root Hw Hs) in Hn.
    now apply firsts_incl in Hn.
  Qed.

  Lemma rebuild_new root values : wf root -> slashfree root ->
    length values = length (snd (filter_unique root)) ->
    exists new, build_prim (flatten EmptyString root) (fst (filter_unique root)) values = Ok new /\
      same_shape root new /\
      (forall p n, walk p root = Some n -> exists n' i, walk p new = Some n' /\ ntype n' = ntype n /\
          dget (path_key EmptyString p) (fst (filter_unique root)) = Some i /\
          nth_error values i = Some (nval n')) /\
      (forall p1 (n1 n1' : prim) p2 (n2 n2' : prim), walk p1 root = Some n1 -> walk p2 root = Some n2 ->
          walk p1 new = Some n1' -> walk p2 new = Some n2' ->
          vid (nval n1) = vid (nval n2) -> nval n1' = nval n2').
  Proof.
    intros Hw Hs Hlen. exists (rebuilt root values).
    split; [now apply build_spec|]. split; [apply tmap_shape|].
    assert (Hp : forall p n, walk p root = Some n -> exists n' i, walk p (rebuilt root values) = Some n' /\
              ntype n' = ntype n /\ dget (path_key EmptyString p) (fst (filter_unique root)) = Some i /\
              pos (vid (nval n)) (snd (filter_unique root)) = Some i /\ nth_error values i = Some (nval n')).
    { intros p n Hpn. unfold rebuilt. rewrite walk_tmap, Hpn. cbn [option_map].
      pose proof (iter_flat_complete root Hw EmptyString p n Hpn) as Hin.
      destruct (pos_unique root Hw Hs (nval n)) as (i & Hi & Hlt).
      { rewrite <- (node_values_flat root EmptyString). apply in_map_iff. eexists; split; [|exact Hin]. reflexivity. }
      eexists _, i. split; [reflexivity|].
      match goal with |- context [tmap ?G n] => destruct (tmap_val G n) as [-> ->] end.
      split; [reflexivity|]. split; [now rewrite (filter_map_pos root Hw Hs _ _ Hin)|]. split; [assumption|].
      cbn [snd]. rewrite Hi. apply nth_error_nth'. lia. }
    split.
    - intros p n Hpn. destruct (Hp p n Hpn) as (n' & i & H1 & H2 & H3 & _ & H4). exists n', i. auto.
    - intros p1 n1 n1' p2 n2 n2' H1 H2 H1' H2' Hid.
      destruct (Hp _ _ H1) as (m1 & i1 & Hm1 & _ & _ & Hi1 & Hn1).
      destruct (Hp _ _ H2) as (m2 & i2 & Hm2 & _ & _ & Hi2 & Hn2).
      rewrite H1' in Hm1. rewrite H2' in Hm2. inversion Hm1; inversion Hm2; subst. rewrite Hid in Hi1. congruence.
  Qed.
End Unique.
