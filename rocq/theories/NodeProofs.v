(** Proofs about containers.py (lemmas for P_Node). *)
From Verif Require Export TreeLemmas.

Lemma components_split key path : components key path -> split_all key = path.
Proof. intros (Hn & Hf & <-). now apply split_join. Qed.
Lemma components_total key : components key (split_all key).
Proof. split; [apply split_all_nonempty|split; [apply split_all_noslash|apply join_split]]. Qed.
Lemma components_unique key p q : components key p -> components key q -> p = q.
Proof. intros Hp Hq. apply components_split in Hp, Hq. congruence. Qed.

Section NodeP.
  Context {T A : Type}.
  Implicit Types (n c : node T A).

  Lemma lookup_walks n key path : components key path ->
    get_child n key = match walk path n with Some c => Ok c | None => Err (KeyError key) end.
  Proof. intros H. rewrite get_child_walk. now rewrite (components_split _ _ H). Qed.

  Lemma app_neq_prefix (p : list string) k : ~ prefix_of (p ++ [k]) p.
  Proof. intros [r H]. apply (f_equal (@length _)) in H. rewrite !app_length in H; cbn in H. lia. Qed.

  (** Effect of replacing the children at the parent of a path. *)
  Lemma pupd_effect parents k new n par :
    walk parents n = Some par ->
    let n' := pupd parents (set_key k new) n in
    (forall q, walk (parents ++ k :: q) n' = walk q new) /\
    walk parents n' = Some (set_key k new par) /\
    (forall q, ~ prefix_of (parents ++ [k]) q -> ~ prefix_of q (parents ++ [k]) -> walk q n' = walk q n) /\
    (forall q r c, parents = q ++ r -> r <> [] -> walk q n = Some c ->
                   exists c', walk q n' = Some c' /\ same_node c c').
  Proof.
    intros Hw n'. unfold n'. split; [|split; [|split]].
    - intros q. rewrite (walk_pupd _ _ _ _ _ Hw). cbn. now rewrite dget_dset_same.
    - rewrite <- (app_nil_r parents) at 1. now rewrite (walk_pupd _ _ _ _ _ Hw).
    - intros q H1 H2.
      destruct (list_eq_dec string_dec (firstn (length parents) q) parents) as [Heq|Hne].
      + (* parents is a prefix of q *)
        rewrite <- (firstn_skipn (length parents) q), Heq.
        rewrite (walk_pupd _ _ _ _ _ Hw), walk_app, Hw.
        destruct (skipn (length parents) q) as [|k' r] eqn:Es.
        * exfalso. apply H2. exists [k]. rewrite <- (firstn_skipn (length parents) q), Heq, Es.
          now rewrite app_nil_r.
        * cbn. rewrite dget_dset_other; [reflexivity|].
          intros ->. apply H1. exists r. rewrite <- (firstn_skipn (length parents) q), Heq, Es.
          now rewrite <- app_assoc.
      + apply walk_pupd_other.
        * intros [r ->]. apply Hne. rewrite firstn_app, firstn_all, Nat.sub_diag. cbn. apply app_nil_r.
        * intros [r ->]. apply H2. exists (r ++ [k]). now rewrite app_assoc.
    - intros q r c -> Hr Hq. rewrite walk_app, Hq in Hw.
      exists (pupd r (set_key k new) c). split.
      + apply walk_pupd_prefix; congruence.
      + destruct (pupd_same_node r (set_key k new) c Hr) as (? & ? & ?). repeat split; auto.
  Qed.

  Lemma add_child_cases n key path child : components key path ->
    let parents := removelast path in let k := last path EmptyString in
    add_child n key child =
      match walk parents n with
      | None => (n, Err (KeyError key))
      | Some par => match walk path n with
                    | Some _ => (n, Err (KeyError key))
                    | None => (pupd parents (set_key k child) n, Ok tt)
                    end
      end.
  Proof.
    intros H. pose proof (add_child_spec n key child) as Ha. cbv zeta in *.
    rewrite (components_split _ _ H) in Ha. rewrite Ha.
    destruct (walk (removelast path) n) as [par|] eqn:E; [|reflexivity].
    assert (Hp : path = removelast path ++ [last path EmptyString]).
    { apply app_removelast_last. apply H. }
    rewrite Hp at 4. rewrite walk_app, E. cbn. unfold dmem.
    destruct (dget (last path EmptyString) (nch par)); reflexivity.
  Qed.

  Lemma add_child_effect n key path child n' : components key path ->
    add_child n key child = (n', Ok tt) ->
    let parents := removelast path in let k := last path EmptyString in
    get_child n' key = Ok child /\
    (forall q, walk (path ++ q) n' = walk q child) /\
    (exists par par', walk parents n = Some par /\ walk parents n' = Some par' /\
        ntype par' = ntype par /\ nval par' = nval par /\ nch par' = nch par ++ [(k, child)]) /\
    (forall q, ~ prefix_of path q -> ~ prefix_of q path -> walk q n' = walk q n) /\
    (forall q r c, parents = q ++ r -> r <> [] -> walk q n = Some c ->
                   exists c', walk q n' = Some c' /\ same_node c c').
  Proof.
    intros H Ha parents k. rewrite (add_child_cases _ _ _ _ H) in Ha. fold parents k in Ha.
    destruct (walk parents n) as [par|] eqn:E; [|discriminate].
    destruct (walk path n) eqn:E2; [discriminate|]. inversion Ha; subst n'; clear Ha.
    assert (Hp : path = parents ++ [k]) by (apply app_removelast_last; apply H).
    destruct (pupd_effect parents k child n par E) as (H1 & H2 & H3 & H4).
    assert (Hq : forall q, walk (path ++ q) (pupd parents (set_key k child) n) = walk q child).
    { intros q. rewrite Hp, <- app_assoc. cbn. apply H1. }
    split; [|split; [exact Hq|split; [|split]]].
    - rewrite (lookup_walks _ _ _ H). rewrite <- (app_nil_r path), Hq. reflexivity.
    - exists par, (set_key k child par). repeat split; auto. cbn.
      apply dset_new. rewrite Hp, walk_app, E in E2. cbn in E2.
      destruct (dget k (nch par)); congruence.
    - rewrite Hp. exact H3.
    - exact H4.
  Qed.

  Lemma add_child_refuses n key path child : components key path ->
    (walk path n <> None \/ walk (removelast path) n = None) <->
    add_child n key child = (n, Err (KeyError key)).
  Proof.
    intros H. rewrite (add_child_cases _ _ _ _ H).
    destruct (walk (removelast path) n) as [par|] eqn:E.
    - destruct (walk path n) eqn:E2; split; intros H1; auto.
      + left; discriminate.
      + destruct H1; congruence.
      + discriminate.
    - split; auto.
  Qed.

  Lemma contains_spec n key path : components key path ->
    (length path = 1 \/ last path EmptyString <> EmptyString) ->
    match walk (removelast path) n with
    | Some _ => contains n key = Ok (match walk path n with Some _ => true | None => false end)
    | None => exists e, contains n key = Err (KeyError e)
    end.
  Proof.
    intros H Hl. pose proof (contains_f_spec (S (String.length key)) n key ltac:(lia)) as Hc.
    cbv zeta in Hc. rewrite (components_split _ _ H) in Hc.
    assert (Hx : match path with
                 | _ :: _ :: _ => if String.eqb (last path EmptyString) EmptyString then removelast path else path
                 | _ => path
                 end = path).
    { destruct path as [|a [|b p]]; auto. destruct Hl as [Hl|Hl]; [discriminate|].
      destruct (String.eqb_spec (last (a :: b :: p) EmptyString) EmptyString); [contradiction|reflexivity]. }
    rewrite Hx in Hc. unfold contains.
    assert (Hp : path = removelast path ++ [last path EmptyString]).
    { apply app_removelast_last. apply H. }
    destruct (walk (removelast path) n) as [par|] eqn:E; [|exact Hc].
    rewrite Hc. f_equal. rewrite Hp at 2. rewrite walk_app, E. cbn. unfold dmem.
    now destruct (dget _ _).
  Qed.

  Lemma setitem_effect n key path new : components key path ->
    (length path = 1 \/ last path EmptyString <> EmptyString) ->
    (forall k, path <> [EmptyString; k]) ->
    let parents := removelast path in let k := last path EmptyString in
    match walk path n with
    | None => exists e, setitem n key new = (n, Err (KeyError e))
    | Some old =>
        exists n', setitem n key new = (n', Ok tt) /\
        get_child n' key = Ok new /\
        (forall q, walk (path ++ q) n' = walk q new) /\
        (forall q, ~ prefix_of path q -> ~ prefix_of q path -> walk q n' = walk q n) /\
        (forall q r c, path = q ++ r -> r <> [] -> walk q n = Some c ->
                       exists c', walk q n' = Some c' /\ same_node c c')
    end.
  Proof.
    intros H Hl H2 parents k.
    pose proof (contains_spec n key path H Hl) as Hc. fold parents in Hc.
    assert (Hp : path = parents ++ [k]) by (apply app_removelast_last; apply H).
    unfold setitem. rewrite (components_split _ _ H). fold parents k.
    destruct (walk parents n) as [par|] eqn:E.
    2: { destruct Hc as [e ->]. assert (Hw : walk path n = None) by (rewrite Hp, walk_app, E; reflexivity).
         rewrite Hw. eauto. }
    rewrite Hc. destruct (walk path n) as [old|] eqn:Eo; [|eauto].
    exists (pupd parents (set_key k new) n).
    split.
    { destruct (String.eqb_spec (join parents) EmptyString) as [Hj|Hj].
      - assert (Hpa : parents = []).
        { destruct parents as [|a [|b q]] eqn:Ep; auto.
          - cbn in Hj. subst a. exfalso. apply (H2 k). exact Hp.
          - exfalso. cbn in Hj. destruct a; discriminate. }
        rewrite Hpa. reflexivity.
      - assert (Hpne : parents <> []) by (intros ->; apply Hj; reflexivity).
        assert (Hcp : components (join parents) parents).
        { split; [assumption|split; [|reflexivity]]. destruct H as (_ & Hf & _).
          rewrite Hp in Hf. now apply Forall_app in Hf as [Hf _]. }
        rewrite (lookup_walks _ _ _ Hcp), E. unfold update_at.
        rewrite update_at_pupd by lia. now rewrite (components_split _ _ Hcp). }
    destruct (pupd_effect parents k new n par E) as (H1 & H3 & H4 & H5).
    assert (Hq : forall q, walk (path ++ q) (pupd parents (set_key k new) n) = walk q new).
    { intros q. rewrite Hp, <- app_assoc. cbn. apply H1. }
    split; [|split; [exact Hq|split]].
    - rewrite (lookup_walks _ _ _ H). rewrite <- (app_nil_r path), Hq. reflexivity.
    - rewrite Hp. exact H4.
    - intros q r c Hqr Hr Hqc.
      (* q is a prefix of parents *)
      destruct (exists_last Hr) as (r' & x & ->).
      rewrite app_assoc in Hqr. rewrite Hp in Hqr. apply app_inj_tail in Hqr as [Hpar Hx]. subst x.
      destruct r' as [|y r'].
      + rewrite app_nil_r in Hpar. subst q. rewrite E in Hqc. inversion Hqc; subst c.
        exists (set_key k new par). split; [exact H3|]. split; [reflexivity|split; [reflexivity|]].
        cbn. apply dset_keys. rewrite Hp, walk_app, E in Eo. cbn in Eo. now destruct (dget k (nch par)).
      + apply (H5 q (y :: r') c); [exact Hpar|discriminate|exact Hqc].
  Qed.

  (** ** Flattening *)
  Lemma wf_children t v (ch : dict (node T A)) : wf (Node t v ch) -> NoDup (map fst ch) /\ Forall (fun kc => wf (snd kc)) ch.
  Proof. intros H. inversion H; auto. Qed.

  Lemma iter_flat_preorder n : forall key, map snd (iter_flat key n) = preorder n.
  Proof.
    induction n as [t v ch IH] using node_ind'. intros key. cbn. f_equal.
    induction IH as [|[k c] ch Hc _ IHch]; cbn; [reflexivity|].
    rewrite map_app, Hc, IHch. reflexivity.
  Qed.

  Lemma iter_flat_keys n : forall key, map fst (iter_flat key n) = map (path_key key) (paths n).
  Proof.
    induction n as [t v ch IH] using node_ind'. intros key. cbn. f_equal.
    induction IH as [|[k c] ch Hc _ IHch]; cbn; [reflexivity|].
    rewrite !map_app, Hc, IHch, map_map. reflexivity.
  Qed.

  Lemma preorder_paths n : wf n -> map Some (preorder n) = map (fun p => walk p n) (paths n).
  Proof.
    induction n as [t v ch IH] using node_ind'. intros Hw. cbn. f_equal.
    apply wf_children in Hw as [Hnd Hwf].
    assert (Hgen : forall pre post, ch = pre ++ post ->
       map Some (flat_map (fun kc => preorder (snd kc)) post) =
       map (fun p => walk p (Node t v ch)) (flat_map (fun kc => map (List.cons (fst kc)) (paths (snd kc))) post)).
    { intros pre post. revert pre. induction post as [|[k c] post IHp]; intros pre Hch; [reflexivity|].
      cbn [flat_map]. rewrite !map_app. f_equal.
      - assert (Hin : In (k, c) ch) by (rewrite Hch; apply in_elt).
        rewrite Forall_forall in IH, Hwf. cbn [snd fst].
        pose proof (IH (k, c) Hin (Hwf (k, c) Hin)) as Hk; cbn [snd] in Hk; rewrite Hk; clear Hk.
        rewrite map_map. apply map_ext. intros p. cbn [walk nch].
        now rewrite (In_dget k c ch Hnd Hin).
      - apply (IHp (pre ++ [(k, c)])). now rewrite <- app_assoc. }
    apply (Hgen [] ch eq_refl).
  Qed.

  Lemma in_paths_iff n p : wf n -> In p (paths n) <-> walk p n <> None.
  Proof.
    revert p. induction n as [t v ch IH] using node_ind'. intros p Hw.
    apply wf_children in Hw as [Hnd Hwf]. rewrite Forall_forall in IH, Hwf. cbn [paths].
    destruct p as [|k p].
    - split; [discriminate|left; reflexivity].
    - cbn [walk nch]. split.
      + intros [H|H]; [discriminate|]. apply in_flat_map in H as ([k' c] & Hin & H).
        apply in_map_iff in H as (p' & He & Hp'). inversion He; subst; clear He. cbn in *.
        rewrite (In_dget _ _ _ Hnd Hin). apply (IH _ Hin); [apply (Hwf _ Hin)|assumption].
      + destruct (dget k ch) as [c|] eqn:E; [|congruence]. intros H. right.
        apply dget_In in E. apply in_flat_map. exists (k, c). split; [assumption|].
        apply in_map. apply (IH _ E); [apply (Hwf _ E)|assumption].
  Qed.

  Lemma NoDup_app_intro {B} (a b : list B) : NoDup a -> NoDup b -> (forall x, In x a -> ~ In x b) -> NoDup (a ++ b).
  Proof.
    induction a as [|x a IH]; cbn; intros Ha Hb Hd; auto. inversion Ha; subst.
    constructor.
    - intros Hi. apply in_app_or in Hi as [Hi|Hi]; [contradiction|]. apply (Hd x); auto.
    - apply IH; auto.
  Qed.

  Lemma NoDup_paths n : wf n -> NoDup (paths n).
  Proof.
    induction n as [t v ch IH] using node_ind'. intros Hw.
    apply wf_children in Hw as [Hnd Hwf]. cbn. constructor.
    - intros H. apply in_flat_map in H as ([k c] & _ & H). apply in_map_iff in H as (p & He & _). discriminate.
    - induction ch as [|[k c] ch IHch]; cbn; [constructor|].
      inversion IH; inversion Hwf; inversion Hnd; subst. apply NoDup_app_intro.
      + apply FinFun.Injective_map_NoDup; [intros x y Hxy; now inversion Hxy|]. auto.
      + apply IHch; auto.
      + intros x Hx Hx'. apply in_map_iff in Hx as (p & <- & _).
        apply in_flat_map in Hx' as ([k' c'] & Hin & Hx'). apply in_map_iff in Hx' as (p' & He & _).
        inversion He; subst; cbn in *.
        match goal with H : ~ In _ (map fst ch) |- _ => apply H end.
        now apply (in_map fst) in Hin.
  Qed.

  Lemma slashfree_path n p : slashfree n -> walk p n <> None -> Forall (fun k => noslash k = true) p.
  Proof.
    revert n. induction p as [|k p IH]; intros n Hs Hw; constructor.
    - inversion Hs as [t v ch Hk Hc E]; subst. cbn in Hw. destruct (dget k ch) as [c|] eqn:Ed; [|congruence].
      apply dget_In in Ed. rewrite Forall_forall in Hk. apply (Hk _ Ed).
    - inversion Hs as [t v ch Hk Hc E]; subst. cbn in Hw. destruct (dget k ch) as [c|] eqn:Ed; [|congruence].
      apply dget_In in Ed. rewrite Forall_forall in Hc. apply (IH c); [apply (Hc _ Ed)|assumption].
  Qed.

  Lemma path_key_join root p : p <> [] -> path_key root p = (root ++ String slash (join p))%string.
  Proof.
    revert root. induction p as [|k p IH]; intros root Hp; [congruence|]. cbn [path_key].
    destruct p as [|k2 p].
    - reflexivity.
    - rewrite IH by discriminate. change (join (k :: k2 :: p)) with (k ++ String slash (join (k2 :: p)))%string.
      now rewrite append_assoc.
  Qed.

  Lemma path_key_inj root p q : Forall (fun k => noslash k = true) p -> Forall (fun k => noslash k = true) q ->
    path_key root p = path_key root q -> p = q.
  Proof.
    intros Hp Hq H.
    assert (Hnil : forall r (x : list string), x <> [] -> path_key r x <> r).
    { intros r x Hx Hc. rewrite path_key_join in Hc by assumption.
      apply (f_equal String.length) in Hc. rewrite length_append in Hc. cbn in Hc. lia. }
    destruct p as [|k p], q as [|k' q]; auto.
    - exfalso. apply (Hnil root (k' :: q)); [discriminate|]. now rewrite <- H.
    - exfalso. apply (Hnil root (k :: p)); [discriminate|]. now rewrite H.
    - rewrite !path_key_join in H by discriminate. apply append_inj_l in H. assert (H' : join (k :: p) = join (k' :: q)) by (injection H; auto).
      apply join_inj in H'; auto; discriminate.
  Qed.

  Lemma iter_flat_keys_NoDup n root : wf n -> slashfree n -> NoDup (map fst (iter_flat root n)).
  Proof.
    intros Hw Hs. rewrite iter_flat_keys.
    assert (Hall : Forall (Forall (fun k => noslash k = true)) (paths n)).
    { apply Forall_forall. intros p Hp. apply in_paths_iff in Hp; [|assumption]. now apply (slashfree_path n). }
    pose proof (NoDup_paths n Hw) as Hnd. induction (paths n) as [|p l IH]; cbn; [constructor|].
    inversion Hall; inversion Hnd; subst. constructor; auto.
    intros Hin. apply in_map_iff in Hin as (q & He & Hq). apply path_key_inj in He; subst; auto.
    match goal with H : Forall _ l |- _ => rewrite Forall_forall in H; now apply H end.
  Qed.

  Lemma iter_flat_in n root k c : wf n -> In (k, c) (iter_flat root n) ->
    exists p, k = path_key root p /\ walk p n = Some c.
  Proof.
    revert root k c. induction n as [t v ch IH] using node_ind'. intros root k c Hw Hin.
    apply wf_children in Hw as [Hnd Hwf]. rewrite Forall_forall in IH, Hwf.
    cbn in Hin. destruct Hin as [He|Hin].
    - inversion He; subst. exists []. auto.
    - apply in_flat_map in Hin as ([k' c'] & Hi & Hin).
      apply (IH _ Hi) in Hin as (p & -> & Hp); [|apply (Hwf _ Hi)].
      exists (k' :: p). split; [reflexivity|]. cbn. now rewrite (In_dget _ _ _ Hnd Hi).
  Qed.

  (** ** Unflattening: any list of structures whose classes, values and child keys
      are those of [n] in preorder. *)
  Definition nokey {T A} (s : flat_struct T A) : T * A * list string :=
    let '(_, t, v, ks) := s in (t, v, ks).
  Definition skel {T A} (n : node T A) : T * A * list string := (ntype n, nval n, nkeys n).

  Lemma preorder_length_pos n : 1 <= length (preorder n).
  Proof. destruct n; cbn; lia. Qed.

  Lemma unflatten_gen n : wf n -> forall fuel l rest,
    length (preorder n) <= fuel -> map nokey l = map skel (preorder n) ->
    unflatten_f fuel (l ++ rest) = Ok (n, rest).
  Proof.
    induction n as [t v ch IH] using node_ind'. intros Hw fuel l rest Hf Hl.
    apply wf_children in Hw as [Hnd Hwf].
    destruct fuel as [|f]; [cbn in Hf; lia|].
    destruct l as [|[[[k0 t0] v0] ks0] l]; [discriminate|].
    cbn [preorder map] in Hl. inversion Hl as [[Ht Hv Hks Hrest]]. clear Hl.
    cbn [app unflatten_f].
    match goal with |- context [bind (?G (nkeys (Node t v ch)) (l ++ rest)) _] => set (go := G) end.
    assert (Hgo : forall ch0 l0, Forall (fun kc => wf (snd kc)) ch0 ->
        Forall (fun kc => forall fuel l rest, length (preorder (snd kc)) <= fuel ->
           map nokey l = map skel (preorder (snd kc)) -> unflatten_f fuel (l ++ rest) = Ok (snd kc, rest)) ch0 ->
        length (flat_map (fun kc => preorder (snd kc)) ch0) <= f ->
        map nokey l0 = map skel (flat_map (fun kc => preorder (snd kc)) ch0) ->
        go (map fst ch0) (l0 ++ rest) = Ok (map snd ch0, rest)).
    { induction ch0 as [|[k c] ch0 IHc]; intros l0 Hwf0 HI Hlen Hm.
      - cbn in Hm. destruct l0; [reflexivity|discriminate].
      - cbn [flat_map] in Hm, Hlen. rewrite map_app in Hm. cbn [snd] in *.
        apply map_eq_app in Hm as (l1 & l2 & -> & Hm1 & Hm2).
        cbn [map fst snd]. rewrite <- app_assoc. cbn [go]. fold go.
        inversion HI as [|? ? HIc HIr]; subst. inversion Hwf0; subst. cbn [snd] in *.
        rewrite app_length in Hlen.
        rewrite HIc by (assumption || lia). cbn [bind].
        rewrite IHc by (assumption || lia). reflexivity. }
    change (nkeys (Node t v ch)) with (map fst ch).
    rewrite (Hgo ch l).
    - cbn [bind]. rewrite zip_map_fst_snd, dict_of_nodup by assumption. reflexivity.
    - assumption.
    - rewrite Forall_forall in *. intros kc Hin. apply IH; auto.
    - cbn [preorder length] in Hf. lia.
    - assumption.
  Qed.

  Lemma unflatten_spec n l rest : wf n -> map nokey l = map skel (preorder n) ->
    unflatten (l ++ rest) = Ok (n, rest).
  Proof.
    intros Hw Hl. unfold unflatten. apply unflatten_gen; auto.
    rewrite app_length. apply (f_equal (@length _)) in Hl. rewrite !map_length in Hl. lia.
  Qed.

  Lemma flatten_nokey key n : map nokey (flatten key n) = map skel (preorder n).
  Proof.
    unfold flatten. rewrite map_map, <- (iter_flat_preorder n key), map_map. reflexivity.
  Qed.

  Lemma unflatten_flatten key n rest : wf n -> unflatten (flatten key n ++ rest) = Ok (n, rest).
  Proof. intros Hw. apply unflatten_spec; [assumption|apply flatten_nokey]. Qed.
End NodeP.

(** ** Mapping over trees *)
Section TMap.
  Context {T A T' A' : Type}.
  (** The tree with the same keys and classes/values computed from each node. *)
  Fixpoint tmap (g : node T A -> T' * A') (n : node T A) : node T' A' :=
    match n with
    | Node _ _ ch => Node (fst (g n)) (snd (g n)) (map (fun kc => (fst kc, tmap g (snd kc))) ch)
    end.
  Lemma tmap_keys g n : nkeys (tmap g n) = nkeys n.
  Proof. destruct n; unfold nkeys, dkeys; cbn. rewrite map_map. reflexivity. Qed.
  Lemma tmap_wf g n : wf n -> wf (tmap g n).
  Proof.
    induction n as [t v ch IH] using node_ind'. intros Hw. inversion Hw; subst. cbn. constructor.
    - rewrite map_map. cbn. assumption.
    - rewrite Forall_forall in *. intros kc Hin. apply in_map_iff in Hin as (kc' & <- & Hin). cbn. auto.
  Qed.
  Lemma tmap_preorder g n : map skel (preorder (tmap g n)) =
    map (fun m => (fst (g m), snd (g m), nkeys m)) (preorder n).
  Proof.
    induction n as [t v ch IH] using node_ind'.
    cbn [tmap preorder map]. f_equal.
    - unfold skel. cbn. f_equal. unfold nkeys, dkeys. cbn. now rewrite map_map.
    - induction IH as [|[k c] ch Hc _ IHch]; [reflexivity|].
      cbn [map flat_map snd fst]. rewrite !map_app. cbn [snd] in Hc. now rewrite Hc, IHch.
  Qed.
  Lemma tmap_shape g n : same_shape n (tmap g n).
  Proof.
    induction n as [t v ch IH] using node_ind'. cbn. constructor.
    - now rewrite map_map.
    - induction IH as [|[k c] ch Hc _ IHch]; cbn; constructor; auto.
  Qed.
  Lemma walk_tmap g n p : walk p (tmap g n) = option_map (tmap g) (walk p n).
  Proof.
    revert n. induction p as [|k p IH]; intros n; [reflexivity|].
    destruct n as [t v ch]. cbn [walk tmap nch].
    assert (Hd : dget k (map (fun kc => (fst kc, tmap g (snd kc))) ch) = option_map (tmap g) (dget k ch)).
    { induction ch as [|[k' c] ch IHc]; cbn; [reflexivity|]. destruct (String.eqb k k'); auto. }
    rewrite Hd. destruct (dget k ch); cbn; auto.
  Qed.
  Lemma tmap_val g n : ntype (tmap g n) = fst (g n) /\ nval (tmap g n) = snd (g n).
  Proof. destruct n; auto. Qed.
End TMap.

Lemma same_shape_refl {T A} (n : node T A) : same_shape n n.
Proof.
  induction n as [t v ch IH] using node_ind'. constructor; [reflexivity|].
  induction IH; constructor; auto.
Qed.

Lemma node_map_tmap {T A B} (base : T) (f : A -> B) (n : node T A) : wf n ->
  node_map base f n = Ok (tmap (fun m => (base, f (nval m))) n).
Proof.
  intros Hw. unfold node_map.
  match goal with |- context [unflatten ?L] => set (l := L) end.
  assert (H : unflatten (l ++ []) = Ok (tmap (fun m => (base, f (nval m))) n, [])).
  2: { rewrite app_nil_r in H. rewrite H. reflexivity. }
  apply unflatten_spec; [now apply tmap_wf|]. unfold l.
  rewrite tmap_preorder, map_map. unfold flatten. rewrite map_map.
  rewrite <- (iter_flat_preorder n EmptyString), map_map. reflexivity.
Qed.

Lemma node_map_effect {T A B} (base : T) (f : A -> B) (n : node T A) : wf n ->
  exists m, node_map base f n = Ok m /\ same_shape n m /\
            forall p c, walk p n = Some c -> exists c', walk p m = Some c' /\ nval c' = f (nval c).
Proof.
  intros Hw. eexists. split; [now apply node_map_tmap|]. split; [apply tmap_shape|].
  intros p c Hp. rewrite walk_tmap, Hp. cbn. eexists; split; [reflexivity|]. now destruct c.
Qed.

Lemma accumulate_effect {T} (base : T) (n : node T nat) :
  same_shape n (accumulate base Nat.add n 0) /\ nval (accumulate base Nat.add n 0) = tree_sum n.
Proof.
  induction n as [t v ch IH] using node_ind'. cbn. split.
  - constructor; [now rewrite map_map|]. induction IH as [|[k c] ch [Hc _] _ IHch]; cbn; constructor; auto.
  - assert (Hs : forall (l : list (string * node T nat)) a,
        Forall (fun kc => same_shape (snd kc) (accumulate base Nat.add (snd kc) 0) /\
                          nval (accumulate base Nat.add (snd kc) 0) = tree_sum (snd kc)) l ->
        fold_left Nat.add (map (fun kc => nval (snd kc)) (map (fun kc => (fst kc, accumulate base Nat.add (snd kc) 0)) l)) a
        = a + fold_right Nat.add 0 (map (fun kc => tree_sum (snd kc)) l)).
    { induction l as [|[k c] l IHl]; cbn; intros a HF; [lia|]. inversion HF as [|? ? [_ Hc] Hl]; subst.
      cbn in Hc. rewrite IHl by assumption. rewrite Hc. lia. }
    destruct ch as [|kc ch]; cbn [map].
    + cbn. lia.
    + exact (Hs (kc :: ch) v IH).
Qed.

Lemma walk_accumulate {T} (base : T) (n : node T nat) p :
  walk p (accumulate base Nat.add n 0) = option_map (fun c => accumulate base Nat.add c 0) (walk p n).
Proof.
  revert n. induction p as [|k p IH]; intros n; [reflexivity|].
  destruct n as [t v ch]. cbn [walk accumulate nch].
  assert (Hd : dget k (map (fun kc => (fst kc, accumulate base Nat.add (snd kc) 0)) ch)
               = option_map (fun c => accumulate base Nat.add c 0) (dget k ch)).
  { induction ch as [|[k' c] ch IHc]; cbn; [reflexivity|]. destruct (String.eqb k k'); auto. }
  rewrite Hd. destruct (dget k ch); cbn; auto.
Qed.

(** Any associative operation and any initial value. *)
Definition total {A} (f : A -> A -> A) (l : list A) (d : A) : A :=
  match l with [] => d | x :: r => fold_left f r x end.
Lemma fold_left_assoc {A} (f : A -> A -> A) : (forall x y z, f (f x y) z = f x (f y z)) ->
  forall l a b, fold_left f l (f a b) = f a (fold_left f l b).
Proof. intros H. induction l as [|x l IH]; intros a b; [reflexivity|]. cbn. rewrite H. apply IH. Qed.
Lemma accumulate_any {T A} (base : T) (f : A -> A -> A) (i : A) :
  (forall x y z, f (f x y) z = f x (f y z)) ->
  forall n : node T A, nval (accumulate base f n i) = total f (listing i n) i.
Proof.
  intros H n. induction n as [t v ch IH] using node_ind'.
  destruct ch as [|kc ch]; [reflexivity|].
  cbn [accumulate listing total]. rewrite map_map. cbn [nval map].
  set (l := kc :: ch) in *.
  change (fold_left f (map (fun x => nval (accumulate base f (snd x) i)) l) v
          = fold_left f (flat_map (fun kc => listing i (snd kc)) l) v).
  clearbody l. revert v. induction IH as [|x l Hx _ IHl]; intros v; [reflexivity|].
  cbn [map flat_map fold_left]. rewrite fold_left_app, Hx, IHl. f_equal.
  destruct (snd x) as [t' v' [|c ch']]; cbn [listing total fold_left].
  - symmetry. apply H.
  - now rewrite fold_left_assoc.
Qed.
Lemma walk_accumulate_any {T A} (base : T) (f : A -> A -> A) i (n : node T A) p :
  walk p (accumulate base f n i) = option_map (fun c => accumulate base f c i) (walk p n).
Proof.
  revert n. induction p as [|k p IH]; intros n; [reflexivity|].
  destruct n as [t v ch]. cbn [walk accumulate nch].
  assert (Hd : dget k (map (fun kc => (fst kc, accumulate base f (snd kc) i)) ch)
               = option_map (fun c => accumulate base f c i) (dget k ch)).
  { induction ch as [|[k' c] ch IHc]; cbn; [reflexivity|]. destruct (String.eqb k k'); auto. }
  rewrite Hd. destruct (dget k ch); cbn; auto.
Qed.
Lemma accumulate_shape {T A} (base : T) (f : A -> A -> A) i (n : node T A) :
  same_shape n (accumulate base f n i).
Proof.
  induction n as [t v ch IH] using node_ind'. cbn. constructor; [now rewrite map_map|].
  induction IH as [|[k c] ch Hc _ IHch]; cbn; constructor; auto.
Qed.
Lemma total_sum (l : list nat) d a : fold_left Nat.add l a = a + fold_right Nat.add 0 l /\
  (l <> [] -> total Nat.add l d = fold_right Nat.add 0 l).
Proof.
  assert (H : forall l a, fold_left Nat.add l a = a + fold_right Nat.add 0 l).
  { induction l0 as [|x l0 IH]; intros b; cbn; [lia|]. rewrite IH. lia. }
  split; [apply H|]. destruct l as [|x l]; [congruence|]. intros _. cbn. apply H.
Qed.
Lemma listing_sum {T} (i : nat) (n : node T nat) :
  fold_right Nat.add 0 (listing i n) = tree_sum n + i * leaf_count n.
Proof.
  induction n as [t v ch IH] using node_ind'. destruct ch as [|kc ch]; [cbn; lia|].
  set (l := kc :: ch) in *.
  change (v + fold_right Nat.add 0 (flat_map (fun kc => listing i (snd kc)) l)
    = (v + fold_right Nat.add 0 (map (fun kc => tree_sum (snd kc)) l))
      + i * fold_right Nat.add 0 (map (fun kc => leaf_count (snd kc)) l)).
  clearbody l. induction IH as [|x l Hx _ IHl]; [cbn; lia|].
  cbn [map flat_map fold_right]. rewrite fold_right_app.
  assert (E : forall (a : list nat) b, fold_right Nat.add b a = fold_right Nat.add 0 a + b).
  { clear. induction a as [|y a IH]; intros b; cbn; [lia|]. rewrite IH. lia. }
  rewrite E, Hx. nia.
Qed.

Lemma node_height_bound {T A} (n : node T A) p : walk p n <> None -> length p <= node_height n.
Proof.
  revert p. induction n as [t v ch IH] using node_ind'. intros p Hp.
  destruct p as [|k p]; [cbn; lia|]. cbn [walk nch] in Hp.
  destruct (dget k ch) as [c|] eqn:E; [|congruence]. apply dget_In in E.
  rewrite Forall_forall in IH. pose proof (IH _ E p Hp) as Hc. cbn in Hc.
  assert (Hm : node_height c <= fold_right Nat.max 0 (map (fun kc => node_height (snd kc)) ch)).
  { clear -E. induction ch as [|[k' c'] ch IHc]; [destruct E|]. cbn. destruct E as [E|E].
    - inversion E; subst. lia.
    - apply IHc in E. lia. }
  cbn [node_height]. destruct ch; [destruct E|]. cbn [length]. lia.
Qed.
Lemma node_height_reached {T A} (n : node T A) : wf n ->
  exists p, walk p n <> None /\ length p = node_height n.
Proof.
  induction n as [t v ch IH] using node_ind'. intros Hw. apply wf_children in Hw as [Hnd Hwf].
  destruct ch as [|kc0 ch0]; [exists []; split; [discriminate|reflexivity]|].
  cbn [node_height].
  assert (Hm : forall l : list (string * node T A), l <> [] ->
     exists kc, In kc l /\ node_height (snd kc) = fold_right Nat.max 0 (map (fun kc => node_height (snd kc)) l)).
  { induction l as [|kc l IHl]; [congruence|]. intros _. destruct l as [|kc1 l].
    - exists kc. cbn. split; [now left|lia].
    - destruct IHl as (kc' & Hin & Hh); [discriminate|]. cbn [map fold_right] in *.
      destruct (Nat.le_gt_cases (node_height (snd kc)) (node_height (snd kc'))).
      + exists kc'. split; [now right|]. lia.
      + exists kc. split; [now left|]. lia. }
  destruct (Hm (kc0 :: ch0) ltac:(discriminate)) as ([k c] & Hin & Hh).
  rewrite Forall_forall in IH, Hwf.
  destruct (IH _ Hin (Hwf _ Hin)) as (p & Hp & Hl). exists (k :: p).
  cbn [walk nch]. rewrite (In_dget _ _ _ Hnd Hin). split; [assumption|]. cbn [length]. cbn [snd] in Hl, Hh. lia.
Qed.

Lemma iter_flat_complete {T A} (n : node T A) : wf n -> forall root p c,
  walk p n = Some c -> In (path_key root p, c) (iter_flat root n).
Proof.
  induction n as [t v ch IH] using node_ind'. intros Hw root p c Hp.
  apply wf_children in Hw as [Hnd Hwf]. rewrite Forall_forall in IH, Hwf.
  destruct p as [|k p].
  - cbn in Hp. inversion Hp; subst. now left.
  - cbn [walk nch] in Hp. destruct (dget k ch) as [c1|] eqn:E; [|discriminate]. apply dget_In in E.
    right. apply in_flat_map. exists (k, c1). split; [assumption|]. cbn [fst snd path_key].
    apply (IH _ E (Hwf _ E)). assumption.
Qed.

(** Enumeration, for trees whose child keys contain no slash. *)
Lemma iter_flat_resolves {T A} (n : node T A) root : wf n -> slashfree n ->
  map snd (iter_flat root n) = preorder n /\
  NoDup (map fst (iter_flat root n)) /\
  (forall key c, In (key, c) (iter_flat root n) ->
     (key = root /\ c = n) \/
     exists rel, key = (root ++ String slash rel)%string /\ get_child n rel = Ok c) /\
  (forall rel c, get_child n rel = Ok c -> In ((root ++ String slash rel)%string, c) (iter_flat root n)).
Proof.
  intros Hw Hs. split; [apply iter_flat_preorder|]. split; [now apply iter_flat_keys_NoDup|]. split.
  - intros key c Hin. apply iter_flat_in in Hin as (p & -> & Hp); [|assumption].
    destruct p as [|k p]; [left; cbn in Hp; inversion Hp; auto|right].
    exists (join (k :: p)). split; [now apply path_key_join|].
    rewrite (lookup_walks n _ (k :: p)); [now rewrite Hp|].
    split; [discriminate|split; [|reflexivity]]. apply (slashfree_path n); congruence.
  - intros rel c Hg. pose proof (components_total rel) as Hc. rewrite (lookup_walks _ _ _ Hc) in Hg.
    destruct (walk (split_all rel) n) as [c'|] eqn:E; [|discriminate]. inversion Hg; subst c'.
    pose proof (iter_flat_complete n Hw root _ _ E) as Hin.
    rewrite path_key_join in Hin by apply split_all_nonempty. now rewrite join_split in Hin.
Qed.
