(** Proofs about [ItemCounter] and decimal key suffixes. *)
From Coq Require Import DecimalString DecimalNat.
From Verif Require Export NodeProofs.

Lemma dec_parse n : NilEmpty.uint_of_string (dec n) = Some (Nat.to_uint n).
Proof. unfold dec. apply NilEmpty.usu. Qed.
Lemma dec_inj n m : dec n = dec m -> n = m.
Proof.
  intros H. pose proof (dec_parse n) as Hn. rewrite H, dec_parse in Hn. inversion Hn as [E].
  apply (f_equal Nat.of_uint) in E. now rewrite !DecimalNat.Unsigned.of_to in E.
Qed.
Lemma dec_nonempty n : dec n <> EmptyString.
Proof.
  intros H. pose proof (dec_parse n) as Hn. rewrite H in Hn. cbn in Hn. inversion Hn as [E].
  apply (f_equal Nat.of_uint) in E. rewrite DecimalNat.Unsigned.of_to in E. cbn in E. subst n.
  discriminate.
Qed.
Lemma parse_dec n : parse_nat (dec n) = Some n.
Proof.
  unfold parse_nat. pose proof (dec_nonempty n). pose proof (dec_parse n) as Hp.
  destruct (dec n) eqn:E; [congruence|]. rewrite Hp. now rewrite DecimalNat.Unsigned.of_to.
Qed.
Lemma noslash_uint u : noslash (NilEmpty.string_of_uint u) = true.
Proof. induction u; cbn; auto. Qed.
Lemma noslash_dec n : noslash (dec n) = true.
Proof. apply noslash_uint. Qed.
Lemma noslash_app a b : noslash (a ++ b)%string = noslash a && noslash b.
Proof. induction a as [|c a IH]; cbn; [reflexivity|]. rewrite IH. now rewrite andb_assoc. Qed.
Lemma append_dec_inj a n m : (a ++ dec n = a ++ dec m)%string -> n = m.
Proof. intros H. apply append_inj_l in H. now apply dec_inj. Qed.

Lemma contains_simple {T A} (n : node T A) k : noslash k = true -> contains n k = Ok (dmem k (nch n)).
Proof.
  intros H. assert (Hc : components k [k]) by (split; [discriminate|split; [auto|reflexivity]]).
  pose proof (contains_spec n k [k] Hc (or_introl eq_refl)) as Hs. cbn [removelast walk] in Hs. rewrite Hs.
  unfold dmem. now destruct (dget k (nch n)).
Qed.

(** Number of items already counted in a category. *)
Definition count_of (c : counter) (cat : string) : nat :=
  match dget cat c with Some m => m | None => 0 end.

Lemma add_item_spec c cat :
  add_item c cat = (dset cat (S (count_of c cat)) c, (cat ++ dec (count_of c cat))%string).
Proof.
  unfold add_item, count_of. destruct (dget cat c) as [m|]; f_equal; f_equal; try lia; f_equal; lia.
Qed.
Lemma count_of_dset c cat n : count_of (dset cat n c) cat = n.
Proof. unfold count_of. now rewrite dget_dset_same. Qed.

Section Until.
  Variables (valid : string -> result bool) (cat : string) (used : list string).
  Hypothesis Hvalid : forall n, valid (cat ++ dec n)%string =
    Ok (if in_dec string_dec (cat ++ dec n)%string used then false else true).

  Lemma until_from fuel : forall c,
    (exists j, j < fuel /\ ~ In (cat ++ dec (count_of c cat + j))%string used) ->
    exists c' j, add_item_until_valid fuel c cat valid = Some (c', Ok (cat ++ dec (count_of c cat + j))%string)
       /\ ~ In (cat ++ dec (count_of c cat + j))%string used
       /\ (forall i, i < j -> In (cat ++ dec (count_of c cat + i))%string used)
       /\ count_of c' cat = S (count_of c cat + j).
  Proof.
    induction fuel as [|f IH]; intros c (j & Hj & Hfree); [lia|].
    cbn [add_item_until_valid]. rewrite add_item_spec, Hvalid.
    destruct (in_dec string_dec (cat ++ dec (count_of c cat))%string used) as [Hin|Hni].
    - assert (Hj0 : j <> 0) by (intros ->; rewrite Nat.add_0_r in Hfree; contradiction).
      destruct (IH (dset cat (S (count_of c cat)) c)) as (c' & j' & Hr & Hn & Hall & Hcnt).
      { exists (j - 1). split; [lia|]. rewrite count_of_dset.
        replace (S (count_of c cat) + (j - 1)) with (count_of c cat + j) by lia. assumption. }
      rewrite count_of_dset in *. exists c', (S j').
      replace (count_of c cat + S j') with (S (count_of c cat) + j') by lia.
      split; [exact Hr|split; [exact Hn|split; [|lia]]].
      intros i Hi. destruct i as [|i]; [now rewrite Nat.add_0_r|].
      replace (count_of c cat + S i) with (S (count_of c cat) + i) by lia. apply Hall; lia.
    - eexists _, 0. rewrite Nat.add_0_r. split; [reflexivity|split; [assumption|split]].
      + intros i Hi; lia.
      + rewrite count_of_dset. reflexivity.
  Qed.

  (** Pigeonhole: among [length used + 1] consecutive candidates one is free. *)
  Lemma some_free start : exists j, j < S (length used) /\ ~ In (cat ++ dec (start + j))%string used.
  Proof.
    destruct (Exists_dec (fun j => ~ In (cat ++ dec (start + j))%string used) (seq 0 (S (length used)))) as [H|H].
    - intros j. destruct (in_dec string_dec (cat ++ dec (start + j))%string used); [right; tauto|left; assumption].
    - apply Exists_exists in H as (j & Hj & Hf). apply in_seq in Hj. exists j. split; [lia|assumption].
    - exfalso. pose (L := map (fun j => (cat ++ dec (start + j))%string) (seq 0 (S (length used)))).
      assert (Hnd : NoDup L).
      { apply FinFun.Injective_map_NoDup; [|apply seq_NoDup]. intros x y Hxy. apply append_dec_inj in Hxy. lia. }
      assert (Hinc : incl L used).
      { intros s Hs. apply in_map_iff in Hs as (j & <- & Hj).
        destruct (in_dec string_dec (cat ++ dec (start + j))%string used); [assumption|].
        exfalso. apply H. apply Exists_exists. exists j. auto. }
      pose proof (NoDup_incl_length Hnd Hinc) as Hl. unfold L in Hl. rewrite map_length, seq_length in Hl. lia.
  Qed.

  Lemma until_terminates fuel c : length used < fuel ->
    exists c' key, add_item_until_valid fuel c cat valid = Some (c', Ok key) /\ ~ In key used /\
      (exists n, key = (cat ++ dec n)%string /\ count_of c cat <= n /\ count_of c' cat = S n).
  Proof.
    intros Hf. destruct (until_from fuel c) as (c' & j & Hr & Hn & _ & Hc).
    { destruct (some_free (count_of c cat)) as (j & Hj & Hn). exists j. split; [lia|assumption]. }
    exists c', (cat ++ dec (count_of c cat + j))%string. split; [assumption|split; [assumption|]].
    exists (count_of c cat + j). split; [reflexivity|split; [lia|assumption]].
  Qed.
End Until.

Lemma until_more {valid cat} fuel fuel' c r : fuel <= fuel' ->
  add_item_until_valid fuel c cat valid = Some r -> add_item_until_valid fuel' c cat valid = Some r.
Proof.
  revert fuel' c. induction fuel as [|f IH]; intros fuel' c Hle H; [discriminate|].
  destruct fuel' as [|f']; [lia|]. cbn [add_item_until_valid] in *.
  destruct (add_item c cat) as [c1 k]. destruct (valid k) as [[|]|e]; auto. apply IH; [lia|assumption].
Qed.

(** [all(key not in node for node in nodes)] for slash-free keys. *)
Lemma notin_all_spec (l : list ((string -> result bool) * list string)) k :
  (forall t ks, In (t, ks) l -> t k = Ok (if in_dec string_dec k ks then true else false)) ->
  notin_all (map fst l) k = Ok (if in_dec string_dec k (flat_map snd l) then false else true).
Proof.
  induction l as [|[t ks] l IH]; intros H; [reflexivity|]. cbn [map fst notin_all flat_map snd].
  rewrite (H t ks) by now left. cbn [bind].
  destruct (in_dec string_dec k ks) as [Hk|Hk].
  - destruct (in_dec string_dec k (ks ++ flat_map snd l)) as [|Hn]; [reflexivity|].
    exfalso. apply Hn, in_or_app. now left.
  - rewrite IH by (intros t' ks' Hi; apply H; now right).
    destruct (in_dec string_dec k (flat_map snd l)) as [Hi|Hi],
             (in_dec string_dec k (ks ++ flat_map snd l)) as [Hj|Hj]; try reflexivity; exfalso.
    + apply Hj, in_or_app. now right.
    + apply in_app_or in Hj as [Hj|Hj]; contradiction.
Qed.
Lemma contains_in_dec {T A} (n : node T A) k : noslash k = true ->
  contains n k = Ok (if in_dec string_dec k (nkeys n) then true else false).
Proof.
  intros H. rewrite contains_simple by assumption. f_equal.
  destruct (in_dec string_dec k (nkeys n)) as [Hi|Hi].
  - now apply dmem_true_iff.
  - destruct (dmem k (nch n)) eqn:E; [|reflexivity]. apply dmem_true_iff in E. contradiction.
Qed.

Lemma fresh_key {T A} (trees : list (node T A)) (c : counter) cat : noslash cat = true ->
  exists fuel c' key, (forall fuel', fuel <= fuel' ->
      add_item_until_valid fuel' c cat (notin_all (map (@contains T A) trees)) = Some (c', Ok key)) /\
    (exists n, key = (cat ++ dec n)%string /\ count_of c cat <= n < count_of c' cat) /\
    Forall (fun t => ~ In key (nkeys t)) trees.
Proof.
  intros Hc. pose (l := map (fun t => (@contains T A t, nkeys t)) trees).
  destruct (until_terminates (notin_all (map (@contains T A) trees)) cat (flat_map snd l)) with
    (fuel := S (length (flat_map snd l))) (c := c) as (c' & key & Hr & Hn & (n & Hk & Hle & Hcnt)).
  - intros n. replace (map (@contains T A) trees) with (map fst l) by (unfold l; now rewrite map_map).
    apply notin_all_spec. intros t ks Hin. apply in_map_iff in Hin as (tr & E & _). inversion E; subst.
    apply contains_in_dec. now rewrite noslash_app, Hc, noslash_dec.
  - lia.
  - exists (S (length (flat_map snd l))), c', key. split; [|split].
    + intros fuel' Hf. eapply until_more; eassumption.
    + exists n. split; [assumption|lia].
    + apply Forall_forall. intros t Ht Hin. apply Hn. apply in_flat_map.
      exists (contains t, nkeys t). split; [|assumption]. unfold l. apply in_map_iff. eauto.
Qed.

Lemma fresh_key3 {T1 A1 T2 A2 T3 A3} (a : node T1 A1) (b : node T2 A2) (d : node T3 A3)
      (c : counter) cat : noslash cat = true ->
  exists c' key, (forall fuel', S (nlen a + nlen b + nlen d) <= fuel' ->
      add_item_until_valid fuel' c cat (notin_all [contains a; contains b; contains d]) = Some (c', Ok key)) /\
    (exists n, key = (cat ++ dec n)%string /\ count_of c cat <= n < count_of c' cat) /\
    ~ In key (nkeys a) /\ ~ In key (nkeys b) /\ ~ In key (nkeys d).
Proof.
  intros Hc. pose (l := [(contains a, nkeys a); (contains b, nkeys b); (contains d, nkeys d)]).
  assert (Hlen : length (flat_map snd l) = nlen a + nlen b + nlen d).
  { unfold l. cbn [flat_map snd]. rewrite !app_length. cbn. unfold nkeys, dkeys, nlen. rewrite !map_length. lia. }
  destruct (until_terminates (notin_all (map fst l)) cat (flat_map snd l)) with
    (fuel := S (nlen a + nlen b + nlen d)) (c := c) as (c' & key & Hr & Hn & (n & Hk & Hle & Hcnt)).
  - intros n. apply notin_all_spec. intros t ks Hin.
    assert (Hs : noslash (cat ++ dec n)%string = true) by now rewrite noslash_app, Hc, noslash_dec.
    destruct Hin as [E|[E|[E|[]]]]; inversion E; subst; now apply contains_in_dec.
  - lia.
  - exists c', key. split; [|split].
    + intros fuel' Hf. eapply until_more; [|exact Hr]. lia.
    + exists n. split; [assumption|lia].
    + unfold l in Hn. cbn [flat_map snd] in Hn. rewrite !in_app_iff in Hn. tauto.
Qed.

(** ** Leftovers for P_Node *)
Lemma add_child_accepts {T A} (n : node T A) key path child : components key path ->
  ~ (walk path n <> None \/ walk (removelast path) n = None) ->
  exists n', add_child n key child = (n', Ok tt).
Proof.
  intros H Hn. rewrite (add_child_cases _ _ _ _ H).
  destruct (walk (removelast path) n); [|exfalso; auto].
  destruct (walk path n); [exfalso; apply Hn; left; discriminate|eauto].
Qed.

Lemma setitem_refuted :
  (exists (n n' : node nat nat) new, get_child n "d/" = Err (KeyError "d/") /\
      setitem n "d/" new = (n', Ok tt)) /\
  (exists (n n' : node nat nat) new old, get_child n "/d" = Ok old /\ setitem n "/d" new = (n', Ok tt) /\
      get_child n' "/d" = Ok old /\ new <> old /\ get_child n "d" <> get_child n' "d").
Proof.
  split.
  - exists (Node 0 0 [("d", Node 0 1 [])]). eexists. exists (Node 0 2 []). split; vm_compute; reflexivity.
  - exists (Node 0 0 [("", Node 0 5 [("d", Node 0 6 [])]); ("d", Node 0 1 [])]). eexists.
    exists (Node 0 2 []), (Node 0 6 []).
    split; [vm_compute; reflexivity|]. split; [vm_compute; reflexivity|].
    repeat split; try (vm_compute; reflexivity); vm_compute; discriminate.
Qed.

Lemma contains_agrees {T A} (n : node T A) key path : components key path ->
  (length path = 1 \/ last path EmptyString <> EmptyString) ->
  match walk (removelast path) n with
  | Some _ => contains n key = Ok (match get_child n key with Ok _ => true | Err _ => false end)
  | None => exists e, contains n key = Err (KeyError e)
  end.
Proof.
  intros H Hl. pose proof (contains_spec n key path H Hl) as Hc. rewrite (lookup_walks _ _ _ H).
  destruct (walk (removelast path) n); [|assumption]. rewrite Hc. now destruct (walk path n).
Qed.
Lemma contains_refuted :
  (exists n : node nat nat, get_child n "x/y" = Err (KeyError "x/y") /\ contains n "x/y" <> Ok false) /\
  (exists n : node nat nat, get_child n "a/" = Err (KeyError "a/") /\ contains n "a/" = Ok true).
Proof.
  split.
  - exists (Node 0 0 []). split; [reflexivity|discriminate].
  - exists (Node 0 0 [("a", Node 0 0 [])]). split; reflexivity.
Qed.

Lemma iter_flat_keys_refuted :
  exists n : node nat nat, wf n /\ ~ NoDup (map fst (iter_flat "" n)).
Proof.
  exists (Node 0 0 [("a", Node 0 1 [("b", Node 0 2 [])]); ("a/b", Node 0 3 [])]). split.
  - repeat (constructor; cbn; try tauto; try (intuition discriminate)).
  - cbn. intros H. inversion H as [|? ? H1 H2]; subst. inversion H2 as [|? ? H3 H4]; subst.
    inversion H4 as [|? ? H5 H6]; subst. apply H5. now left.
Qed.

Lemma accumulate_everywhere {T} (base : T) (n : node T nat) :
  same_shape n (accumulate base Nat.add n 0) /\
  forall p c, walk p n = Some c ->
    exists c', walk p (accumulate base Nat.add n 0) = Some c' /\ nval c' = tree_sum c.
Proof.
  split; [apply accumulate_effect|]. intros p c Hp. rewrite walk_accumulate, Hp. cbn.
  eexists; split; [reflexivity|]. apply accumulate_effect.
Qed.

Lemma node_height_spec {T A} (n : node T A) : wf n ->
  (forall p, walk p n <> None -> length p <= node_height n) /\
  (exists p, walk p n <> None /\ length p = node_height n) /\
  (node_height n = 0 <-> nch n = []).
Proof.
  intros Hw. split; [intros p; apply node_height_bound|]. split; [now apply node_height_reached|].
  destruct n as [t v [|kc ch]]; cbn; split; intros H; auto; discriminate.
Qed.

Lemma until_key_number valid cat fuel : forall c c' key,
  add_item_until_valid fuel c cat valid = Some (c', Ok key) ->
  exists n, key = (cat ++ dec n)%string /\ count_of c cat <= n < count_of c' cat.
Proof.
  induction fuel as [|f IH]; intros c c' key H; [discriminate|]. cbn [add_item_until_valid] in H.
  rewrite add_item_spec in H. destruct (valid _) as [[|]|e]; [| |discriminate].
  - inversion H; subst. exists (count_of c cat). rewrite count_of_dset. split; [reflexivity|lia].
  - apply IH in H as (n & -> & Hn). rewrite count_of_dset in Hn. exists n. split; [reflexivity|lia].
Qed.
Lemma successive_differ c cat v1 v2 f1 f2 c1 c2 k1 k2 :
  add_item_until_valid f1 c cat v1 = Some (c1, Ok k1) ->
  add_item_until_valid f2 c1 cat v2 = Some (c2, Ok k2) -> k1 <> k2.
Proof.
  intros H1 H2. apply until_key_number in H1 as (n & -> & Hn). apply until_key_number in H2 as (m & -> & Hm).
  intros He. apply append_dec_inj in He. lia.
Qed.
Lemma raw_keys_clash : exists c cat1 cat2, cat1 <> cat2 /\
  snd (add_item c cat1) = snd (add_item (fst (add_item c cat1)) cat2).
Proof. exists [("A", 10)], "A1", "A". split; [discriminate|reflexivity]. Qed.
