(** Properties C01-C11: trees of [containers.py].
    Vocabulary: Spec.v ([components], [walk], [prefix_of], [same_node], [preorder],
    [same_shape], [tree_sum], [wf], [slashfree]). *)
From Verif Require Import CounterProofs.

(** A tree used to show that hypotheses are satisfiable: a frame-like tree with two
    levels. *)
Definition ex_tree : node nat nat :=
  Node 0 1 [("a", Node 1 2 [("b", Node 2 3 []); ("c", Node 2 4 [])]); ("d", Node 1 5 [])].
Example ex_tree_wf : wf ex_tree.
Proof. unfold ex_tree. repeat (constructor; cbn; try tauto; try (intuition discriminate)). Qed.
Example ex_tree_slashfree : slashfree ex_tree.
Proof. unfold ex_tree. repeat (constructor; cbn; try reflexivity). Qed.

(** C01: [node["a/b/c"]] is the node reached key by key, KeyError(full key) exactly
    when a component is missing. *)
Theorem C01_lookup {T A} (n : node T A) key path : components key path ->
  get_child n key = match walk path n with Some c => Ok c | None => Err (KeyError key) end.
Proof. exact (lookup_walks n key path). Qed.
Print Assumptions C01_lookup.
(** Every key has exactly one component list, so C01 covers every key. *)
Theorem C01_every_key_has_components key : exists path, components key path /\ forall p, components key p -> p = path.
Proof. exact (ex_intro _ (split_all key) (conj (components_total key)
        (fun p Hp => eq_sym (components_split _ _ Hp)))). Qed.
Print Assumptions C01_every_key_has_components.
Example C01_case : components "a/b" ["a"; "b"] /\ get_child ex_tree "a/b" = Ok (Node 2 3 [])
  /\ get_child ex_tree "a/x" = Err (KeyError "a/x").
Proof. repeat split; try discriminate. repeat constructor. Qed.

(** C02: effect of a successful [add_child]. *)
Theorem C02_add_child_effect {T A} (n : node T A) key path child n' : components key path ->
  add_child n key child = (n', Ok tt) ->
  let parents := removelast path in let k := last path EmptyString in
  get_child n' key = Ok child /\
  (forall q, walk (path ++ q) n' = walk q child) /\
  (exists par par', walk parents n = Some par /\ walk parents n' = Some par' /\
      ntype par' = ntype par /\ nval par' = nval par /\ nch par' = nch par ++ [(k, child)]) /\
  (forall q, ~ prefix_of path q -> ~ prefix_of q path -> walk q n' = walk q n) /\
  (forall q r c, parents = q ++ r -> r <> [] -> walk q n = Some c ->
                 exists c', walk q n' = Some c' /\ same_node c c').
Proof. exact (add_child_effect n key path child n'). Qed.
Print Assumptions C02_add_child_effect.
Example C02_case : exists n', add_child ex_tree "a/x" (Node 7 7 []) = (n', Ok tt) /\ nkeys n' = ["a"; "d"].
Proof. eexists; split; reflexivity. Qed.

(** C03: refusal, without side effect, exactly for existing keys and missing parents;
    otherwise it succeeds. *)
Theorem C03_add_child_refuses {T A} (n : node T A) key path child : components key path ->
  ((walk path n <> None \/ walk (removelast path) n = None) <->
   add_child n key child = (n, Err (KeyError key))) /\
  (~ (walk path n <> None \/ walk (removelast path) n = None) ->
   exists n', add_child n key child = (n', Ok tt)).
Proof.
  exact (fun H => conj (add_child_refuses n key path child H) (add_child_accepts n key path child H)).
Qed.
Print Assumptions C03_add_child_refuses.
Example C03_case : add_child ex_tree "a/b" (Node 7 7 []) = (ex_tree, Err (KeyError "a/b"))
  /\ add_child ex_tree "x/y" (Node 7 7 []) = (ex_tree, Err (KeyError "x/y")).
Proof. split; reflexivity. Qed.

(** C04: for keys that do not end in a slash and are not of the form "/k".  For those two
    forms the code misbehaves ([C04_setitem_refuted]). *)
Theorem C04_setitem {T A} (n : node T A) key path new : components key path ->
  (length path = 1 \/ last path EmptyString <> EmptyString) ->
  (forall k, path <> [EmptyString; k]) ->
  match walk path n with
  | None => exists e, setitem n key new = (n, Err (KeyError e))
  | Some old =>
      exists n', setitem n key new = (n', Ok tt) /\
      get_child n' key = Ok new /\
      (forall q, walk (path ++ q) n' = walk q new) /\
      (forall q, ~ prefix_of path q -> ~ prefix_of q path -> walk q n' = walk q n) /\
      (forall q r c, path = q ++ r -> r <> [] -> walk q n = Some c ->
                     exists c', walk q n' = Some c' /\ same_node c c')
  end.
Proof. exact (setitem_effect n key path new). Qed.
Print Assumptions C04_setitem.
Example C04_case : exists n', setitem ex_tree "a/b" (Node 9 9 []) = (n', Ok tt) /\
  get_child n' "a/b" = Ok (Node 9 9 []) /\ get_child n' "a/c" = get_child ex_tree "a/c".
Proof. eexists; split; [reflexivity|split; reflexivity]. Qed.
(** The code violates C04: ["d/"] does not resolve, but assignment succeeds (and adds
    a child with an empty key); ["/d"] addresses d below the child "" but the
    assignment replaces the top-level d. *)
Theorem C04_setitem_refuted :
  (exists (n n' : node nat nat) new, get_child n "d/" = Err (KeyError "d/") /\
      setitem n "d/" new = (n', Ok tt)) /\
  (exists (n n' : node nat nat) new old, get_child n "/d" = Ok old /\ setitem n "/d" new = (n', Ok tt) /\
      get_child n' "/d" = Ok old /\ new <> old /\ get_child n "d" <> get_child n' "d").
Proof. exact setitem_refuted. Qed.
Print Assumptions C04_setitem_refuted.

(** C05: for keys without a trailing slash.  A missing parent gives KeyError instead of
    False, and a trailing slash a wrong answer ([C05_membership_refuted]). *)
Theorem C05_membership {T A} (n : node T A) key path : components key path ->
  (length path = 1 \/ last path EmptyString <> EmptyString) ->
  match walk (removelast path) n with
  | Some _ => contains n key = Ok (match get_child n key with Ok _ => true | Err _ => false end)
  | None => exists e, contains n key = Err (KeyError e)
  end.
Proof. exact (contains_agrees n key path). Qed.
Print Assumptions C05_membership.
Example C05_case : contains ex_tree "a/b" = Ok true /\ contains ex_tree "a/z" = Ok false.
Proof. split; reflexivity. Qed.
Theorem C05_membership_refuted :
  (exists n : node nat nat, get_child n "x/y" = Err (KeyError "x/y") /\ contains n "x/y" <> Ok false) /\
  (exists n : node nat nat, get_child n "a/" = Err (KeyError "a/") /\ contains n "a/" = Ok true).
Proof. exact contains_refuted. Qed.
Print Assumptions C05_membership_refuted.

(** C06: flatten then unflatten. *)
Theorem C06_unflatten_flatten {T A} (n : node T A) key rest : wf n ->
  unflatten (flatten key n ++ rest) = Ok (n, rest).
Proof. exact (unflatten_flatten key n rest). Qed.
Print Assumptions C06_unflatten_flatten.
Example C06_case : wf ex_tree /\ length (flatten "r" ex_tree) = 5.
Proof. split; [exact ex_tree_wf|reflexivity]. Qed.

(** C07: nodes are listed once each in depth-first order (every tree) ... *)
Theorem C07_order {T A} (n : node T A) root : map snd (iter_flat root n) = preorder n.
Proof. exact (iter_flat_preorder n root). Qed.
Print Assumptions C07_order.
(** ... under distinct keys that resolve to the listed node, and every resolvable key
    is listed.  Child keys must not contain slashes ([C07_keys_refuted]). *)
Theorem C07_keys {T A} (n : node T A) root : wf n -> slashfree n ->
  map snd (iter_flat root n) = preorder n /\
  NoDup (map fst (iter_flat root n)) /\
  (forall key c, In (key, c) (iter_flat root n) ->
     (key = root /\ c = n) \/
     exists rel, key = (root ++ String slash rel)%string /\ get_child n rel = Ok c) /\
  (forall rel c, get_child n rel = Ok c -> In ((root ++ String slash rel)%string, c) (iter_flat root n)).
Proof. exact (iter_flat_resolves n root). Qed.
Print Assumptions C07_keys.
Example C07_case : map fst (iter_flat "" ex_tree) = [""; "/a"; "/a/b"; "/a/c"; "/d"].
Proof. reflexivity. Qed.
Theorem C07_keys_refuted :
  exists n : node nat nat, wf n /\ ~ NoDup (map fst (iter_flat "" n)).
Proof. exact iter_flat_keys_refuted. Qed.
Print Assumptions C07_keys_refuted.

(** C08: [map] and [copy]; [base] is the class [Node], whatever the classes of the original. *)
Theorem C08_map {T A B} (base : T) (f : A -> B) (n : node T A) : wf n ->
  exists m, node_map base f n = Ok m /\ same_shape n m /\
            forall p c, walk p n = Some c -> exists c', walk p m = Some c' /\ ntype c' = base /\ nval c' = f (nval c).
Proof.
  intros Hw. eexists. split; [now apply node_map_tmap|]. split; [apply tmap_shape|].
  intros p c Hp. rewrite walk_tmap, Hp. cbn. eexists; split; [reflexivity|]. now destruct c.
Qed.
Print Assumptions C08_map.
Theorem C08_copy {T A} (base : T) (n : node T A) : wf n ->
  exists m, node_copy base n = Ok m /\ same_shape n m /\
            forall p c, walk p n = Some c -> exists c', walk p m = Some c' /\ ntype c' = base /\ nval c' = nval c.
Proof. exact (C08_map base (fun v => v) n). Qed.
Print Assumptions C08_copy.
Example C08_case : node_map 0 S ex_tree =
  Ok (Node 0 2 [("a", Node 0 3 [("b", Node 0 4 []); ("c", Node 0 5 [])]); ("d", Node 0 6 [])]).
Proof. reflexivity. Qed.

(** C09: [accumulate] with addition and initial 0: the value at every path is the sum
    over the subtree there. *)
Theorem C09_accumulate {T} (base : T) (n : node T nat) :
  same_shape n (accumulate base Nat.add n 0) /\
  forall p c, walk p n = Some c ->
    exists c', walk p (accumulate base Nat.add n 0) = Some c' /\ nval c' = tree_sum c.
Proof. exact (accumulate_everywhere base n). Qed.
Print Assumptions C09_accumulate.
(** Any associative operation, any initial value: the value at every path combines the
    values of the subtree there, parents first, with the initial value put in after each
    leaf.  In particular for addition. *)
Theorem C09_any_operation {T A} (base : T) (f : A -> A -> A) (i : A) (n : node T A) :
  (forall x y z, f (f x y) z = f x (f y z)) ->
  same_shape n (accumulate base f n i) /\
  forall p c, walk p n = Some c -> exists c' v l,
    walk p (accumulate base f n i) = Some c' /\
    listing i c = v :: l /\ nval c' = fold_left f l v.
Proof.
  intros H. split; [apply accumulate_shape|]. intros p c Hp.
  exists (accumulate base f c i). rewrite walk_accumulate_any, Hp.
  destruct c as [t v ch]. exists v, (tl (listing i (Node t v ch))). split; [reflexivity|]. split.
  - now destruct ch.
  - rewrite (accumulate_any base f i H). now destruct ch.
Qed.
Print Assumptions C09_any_operation.
Theorem C09_initial_value {T} (base : T) (i : nat) (n : node T nat) p c : walk p n = Some c ->
  exists c', walk p (accumulate base Nat.add n i) = Some c' /\ nval c' = tree_sum c + i * leaf_count c.
Proof.
  intros Hp. exists (accumulate base Nat.add c i). rewrite walk_accumulate_any, Hp. split; [reflexivity|].
  rewrite (accumulate_any base Nat.add i) by (intros; lia).
  rewrite <- listing_sum. apply (proj2 (total_sum _ i 0)). now destruct c as [? ? [|? ?]].
Qed.
Print Assumptions C09_initial_value.
Example C09_initial_case : nval (accumulate 0 Nat.add ex_tree 100) = 15 + 300
  /\ nval (accumulate 0 Nat.mul ex_tree 1) = 120.
Proof. split; reflexivity. Qed.
Example C09_case : nval (accumulate 0 Nat.add ex_tree 0) = 15.
Proof. reflexivity. Qed.

(** C10: [node_height]. *)
Theorem C10_node_height {T A} (n : node T A) : wf n ->
  (forall p, walk p n <> None -> length p <= node_height n) /\
  (exists p, walk p n <> None /\ length p = node_height n) /\
  (node_height n = 0 <-> nch n = []).
Proof. exact (node_height_spec n). Qed.
Print Assumptions C10_node_height.
Example C10_case : node_height ex_tree = 2.
Proof. reflexivity. Qed.

(** C11: generating an automatic key terminates (with any sufficiently large fuel, and
    always with the same result) and the key is in none of the trees; its number is not
    below the counter and the counter moves past it.  (Class names, the categories,
    contain no slash.) *)
Theorem C11_fresh_key {T A} (trees : list (node T A)) (c : counter) cat : noslash cat = true ->
  exists fuel c' key, (forall fuel', fuel <= fuel' ->
      add_item_until_valid fuel' c cat (notin_all (map (@contains T A) trees)) = Some (c', Ok key)) /\
    (exists n, key = (cat ++ dec n)%string /\ count_of c cat <= n < count_of c' cat) /\
    Forall (fun t => ~ In key (nkeys t)) trees.
Proof. exact (fresh_key trees c cat). Qed.
Print Assumptions C11_fresh_key.
Theorem C11_fresh_key_three_trees {T1 A1 T2 A2 T3 A3} (a : node T1 A1) (b : node T2 A2) (d : node T3 A3)
      (c : counter) cat : noslash cat = true ->
  exists c' key, (forall fuel', S (nlen a + nlen b + nlen d) <= fuel' ->
      add_item_until_valid fuel' c cat (notin_all [contains a; contains b; contains d]) = Some (c', Ok key)) /\
    (exists n, key = (cat ++ dec n)%string /\ count_of c cat <= n < count_of c' cat) /\
    ~ In key (nkeys a) /\ ~ In key (nkeys b) /\ ~ In key (nkeys d).
Proof. exact (fresh_key3 a b d c cat). Qed.
Print Assumptions C11_fresh_key_three_trees.
(** Two successive keys of one category differ even if the first was not added. *)
Theorem C11_successive_keys_differ c cat v1 v2 f1 f2 c1 c2 k1 k2 :
  add_item_until_valid f1 c cat v1 = Some (c1, Ok k1) ->
  add_item_until_valid f2 c1 cat v2 = Some (c2, Ok k2) -> k1 <> k2.
Proof. exact (successive_differ c cat v1 v2 f1 f2 c1 c2 k1 k2). Qed.
Print Assumptions C11_successive_keys_differ.
Example C11_case : noslash "Box" = true /\
  add_item_until_valid 5 [("Box", 1)] "Box" (notin_all [contains (Node 0 0 [("Box1", ex_tree); ("Box2", ex_tree)])])
  = Some ([("Box", 4)], Ok "Box3").
Proof. split; reflexivity. Qed.
(** Raw [add_item] keys (without the validity loop) can clash across categories. *)
Theorem C11_raw_keys_clash : exists c cat1 cat2, cat1 <> cat2 /\
  snd (add_item c cat1) = snd (add_item (fst (add_item c cat1)) cat2).
Proof. exact raw_keys_clash. Qed.
Print Assumptions C11_raw_keys_clash.
