(** C91: nodes as jax pytrees. *)
From Coq Require Import Sorted Permutation QArith.
From Verif Require Import PytreeSpec PytreeProofs P_Node Prim Inst.
Local Open Scope nat_scope.

Lemma before_precedes a : forall b, before a b <-> precedes a b.
Proof.
  unfold before, String.ltb. induction a as [|x a IH]; intros [|y b]; cbn.
  - split; [discriminate|]. intros [(c & r & E)|(p & u & v & r & s & E & _)]; [discriminate E|]. destruct p; discriminate E.
  - split; [|reflexivity]. intros _. left. now exists y, b.
  - split; [discriminate|]. intros [(c & r & E)|(p & u & v & r & s & _ & E & _)]; [discriminate E|]. destruct p; discriminate E.
  - specialize (IH b). rewrite ascii_compare_nat. destruct (Nat.compare_spec (nat_of_ascii x) (nat_of_ascii y)) as [E|E|E].
    + assert (x = y) as <- by (rewrite <- (ascii_nat_embedding x), E; apply ascii_nat_embedding). rewrite IH. split.
      * intros [(c & r & ->)|(p & u & v & r & s & -> & -> & H)]; [left; now exists c, r|right; exists (String x p), u, v, r, s; auto].
      * intros [(c & r & H)|(p & u & v & r & s & H1 & H2 & H)].
        -- injection H as H. left. now exists c, r.
        -- destruct p as [|z p]; cbn in H1, H2; injection H1 as H1 H1'; injection H2 as H2 H2'; [subst; lia|]. right. now exists p, u, v, r, s.
    + split; [|reflexivity]. intros _. right. exists ""%string, x, y, a, b. auto.
    + split; [discriminate|]. intros [(c & r & H)|(p & u & v & r & s & H1 & H2 & H)].
      * injection H as H _. subst. lia.
      * destruct p as [|z p]; cbn in H1, H2; injection H1 as H1 H1'; injection H2 as H2 H2'; subst; lia.
Qed.
Lemma sorted_precedes l : StronglySorted before l <-> StronglySorted precedes l.
Proof.
  induction l as [|a l IH]; [split; constructor|]. split; intros H; inversion_clear H as [|? ? Hs Hf]; constructor; try (now apply IH); eapply Forall_impl; try exact Hf; intros b; apply before_precedes.
Qed.

Section P.
  Context {T A B : Type}.
  Implicit Types (n : node T A).
  Lemma walk_wf path : forall n c, wf n -> walk path n = Some c -> wf c.
  Proof.
    induction path as [|k path IH]; intros n c Hn H; [injection H as <-; exact Hn|]. cbn in H. destruct n as [t v ch]. apply wf_children in Hn as [_ Hf]. cbn [nch] in H. destruct (dget k ch) as [d|] eqn:E; [|discriminate]. apply dget_In in E. rewrite Forall_forall in Hf. exact (IH _ _ (Hf _ E) H).
  Qed.
  Lemma canon_reordered (f : A -> B) n : wf n -> reordered f n (canon f n).
  Proof.
    intros Hn. split; [now apply canon_wf|]. split.
    - intros path c Hc. rewrite canon_walk in Hc by exact Hn. destruct (walk path n) as [d|] eqn:E; [|discriminate]. injection Hc as <-. apply sorted_precedes, canon_sorted. exact (walk_wf path n d Hn E).
    - intros path. rewrite canon_walk by exact Hn. destruct (walk path n) as [[t v ch]|]; [|exact I]. cbn [option_map]. rewrite canon_eq. split; [reflexivity|]. split; [reflexivity|]. unfold nkeys, dkeys. cbn [nch]. rewrite map_map. cbn [fst]. apply Permutation_map, Permutation_sym, sort_perm.
  Qed.
  (** [tree_map] succeeds and applies the function at every node; it keeps the classes and
      keys, and sorts the keys of every dict. *)
  Theorem C91_map (f : A -> B) n : wf n -> exists m, tree_map f n = Ok m /\ reordered f n m.
  Proof. intros Hn. exists (canon f n). split; [apply tree_map_canon|now apply canon_reordered]. Qed.

  Lemma canon_leaves (f : A -> B) n : map f (tree_leaves n) = map nval (preorder (canon f n)).
  Proof.
    induction n as [t v ch IH] using node_ind'. rewrite leaves_eq, canon_eq. cbn [map preorder nval]. f_equal. apply sort_Forall in IH. induction IH as [|[k c] d Hc _ IHd]; [reflexivity|]. cbn [flat_map map fst snd]. rewrite !map_app. now f_equal.
  Qed.
  Lemma flat_perm {X Y} (g : X -> list Y) l l' : Permutation l l' -> Permutation (flat_map g l) (flat_map g l').
  Proof. intros H. induction H; cbn; [reflexivity|now apply Permutation_app_head| |etransitivity; eauto]. rewrite !app_assoc. apply Permutation_app_tail, Permutation_app_comm. Qed.
  Lemma leaves_perm n : Permutation (tree_leaves n) (map nval (preorder n)).
  Proof.
    induction n as [t v ch IH] using node_ind'. rewrite leaves_eq. cbn [preorder map nval]. apply perm_skip. transitivity (flat_map (fun kc => tree_leaves (snd kc)) ch); [apply flat_perm, sort_perm|]. induction IH as [|[k c] d Hc _ IHd]; [reflexivity|]. cbn [flat_map fst snd]. rewrite map_app. now apply Permutation_app.
  Qed.
  (** The leaves are the values of the nodes, one for each node ... *)
  Theorem C91_leaves n : Permutation (tree_leaves n) (map nval (preorder n)) /\ length (tree_leaves n) = length (preorder n).
  Proof. split; [apply leaves_perm|]. rewrite (Permutation_length (leaves_perm n)). apply map_length. Qed.

  (** Values forgotten. *)
  Fixpoint strip {V} (n : node T V) : node T unit :=
    match n with Node t _ ch => Node t tt (map (fun kc => (fst kc, strip (snd kc))) ch) end.
  Lemma dget_strip {V} k (d : list (string * node T V)) : dget k (map (fun kc => (fst kc, strip (snd kc))) d) = option_map strip (dget k d).
  Proof. induction d as [|[k' c] d IH]; [reflexivity|]. cbn. destruct (String.eqb k k'); [reflexivity|exact IH]. Qed.
  Lemma walk_strip {V} path : forall n : node T V, walk path (strip n) = option_map strip (walk path n).
  Proof.
    induction path as [|k path IH]; intros [t v ch]; [reflexivity|]. cbn [walk strip nch]. rewrite dget_strip. destruct (dget k ch); [apply IH|reflexivity].
  Qed.
  Lemma strip_type {V} (n : node T V) : ntype (strip n) = ntype n. Proof. now destruct n. Qed.
  Lemma skipn_add {X} a b (l : list X) : skipn (a + b) l = skipn b (skipn a l).
  Proof. revert l. induction a as [|a IH]; intros l; [reflexivity|]. destruct l; [now rewrite !skipn_nil|]. apply IH. Qed.
  Lemma firstn_add {X} a b (l : list X) : firstn (a + b) l = firstn a l ++ firstn b (skipn a l).
  Proof. revert l. induction a as [|a IH]; intros l; [reflexivity|]. destruct l; [now rewrite !firstn_nil|]. cbn. f_equal. apply IH. Qed.
  Lemma unflatten_any n : forall ls : list B,
    let k := length (tree_leaves n) in
    (k <= length ls -> exists m, unflatten_from (tree_structure n) ls = Ok (m, skipn k ls) /\ map nval (preorder m) = firstn k ls /\ strip m = canon (fun _ => tt) n) /\
    (length ls < k -> unflatten_from (tree_structure n) ls = Err ValueErr).
  Proof.
    induction n as [t v ch IH] using node_ind'. apply sort_Forall in IH. rewrite structure_eq, leaves_eq, canon_eq. set (d := sort_items ch) in *.
    assert (G : forall ls : list B, let k := length (flat_map (fun kc => tree_leaves (snd kc)) d) in
      let go := fix go (ch : list (string * treedef T)) (leaves : list B) : result (list (string * node T B) * list B) :=
                 match ch with
                 | [] => Ok ([], leaves)
                 | (k, d) :: ch =>
                     '(c, leaves) <- unflatten_from d leaves ;;
                     '(cs, leaves) <- go ch leaves ;;
                     Ok ((k, c) :: cs, leaves)
                 end in
      (k <= length ls -> exists ms, go (map (fun kc => (fst kc, tree_structure (snd kc))) d) ls = Ok (ms, skipn k ls) /\ flat_map (fun kc => map nval (preorder (snd kc))) ms = firstn k ls /\ map (fun kc => (fst kc, strip (snd kc))) ms = map (fun kc => (fst kc, canon (fun _ => tt) (snd kc))) d) /\
      (length ls < k -> go (map (fun kc => (fst kc, tree_structure (snd kc))) d) ls = Err ValueErr)).
    { clearbody d. induction IH as [|[key c] d Hc _ IHd]; intros ls.
      - cbn. split; [intros _; now exists []|lia].
      - cbn [map fst snd flat_map]. rewrite app_length. cbn [fst snd] in Hc. destruct (Hc ls) as [C1 C2]. clear Hc. split; intros Hl.
        + destruct (C1 ltac:(lia)) as (m & -> & Em & Es). cbn [bind]. destruct (IHd (skipn (length (tree_leaves c)) ls)) as [D1 _]. destruct D1 as (ms & E & Ems & Ess); [rewrite skipn_length; lia|]. rewrite E. cbn [bind]. exists ((key, m) :: ms). split; [now rewrite skipn_add|]. cbn [flat_map map fst snd]. rewrite Em, Ems, Es, Ess, firstn_add. auto.
        + destruct (Nat.le_gt_cases (length (tree_leaves c)) (length ls)) as [Hc|Hc].
          * destruct (C1 Hc) as (m & -> & _). cbn [bind]. destruct (IHd (skipn (length (tree_leaves c)) ls)) as [_ D2]. rewrite D2; [reflexivity|]. rewrite skipn_length. lia.
          * rewrite (C2 Hc). reflexivity. }
    intros [|x ls]; cbn [length]; [split; [lia|reflexivity]|]. destruct (G ls) as [G1 G2]. clear G. cbn [unflatten_from]. split; intros Hl.
    - destruct G1 as (ms & E & Ems & Ess); [lia|]. rewrite E. cbn [bind]. eexists. split; [reflexivity|]. cbn [preorder map nval firstn strip]. rewrite Ess. split; [|reflexivity]. f_equal. rewrite <- Ems. clear. induction ms as [|kc ms IH]; [reflexivity|]. cbn [flat_map]. now rewrite map_app, IH.
    - rewrite G2 by lia. reflexivity.
  Qed.
  Lemma canon_classes {C} (f : A -> C) n : wf n -> same_classes n (canon f n).
  Proof. intros Hn path. rewrite canon_walk by exact Hn. destruct (walk path n) as [[t v ch]|]; [cbn [option_map]; now rewrite canon_eq|reflexivity]. Qed.
  (** ... and [tree_unflatten] takes exactly that many leaves, which become the values of
      the new tree: any other number raises ValueError. *)
  Theorem C91_unflatten n (ls : list B) :
    (length ls = length (preorder n) -> exists m, tree_unflatten (tree_structure n) ls = Ok m /\ map nval (preorder m) = ls /\ (wf n -> same_classes n m)) /\
    (length ls <> length (preorder n) -> tree_unflatten (tree_structure n) ls = Err ValueErr).
  Proof.
    rewrite <- (proj2 (C91_leaves n)). destruct (unflatten_any n ls) as [H1 H2]. unfold tree_unflatten. split; intros Hl.
    - destruct H1 as (m & -> & Em & Es); [lia|]. cbn [bind]. rewrite <- Hl, skipn_all. exists m. split; [reflexivity|]. split; [rewrite Em, <- Hl; apply firstn_all|].
      intros Hn path. rewrite (canon_classes (fun _ => tt) n Hn path), <- Es, walk_strip. destruct (walk path m) as [c|]; [cbn; now rewrite strip_type|reflexivity].
    - destruct (Nat.le_gt_cases (length (tree_leaves n)) (length ls)) as [Hk|Hk]; [|now rewrite (H2 Hk)].
      destruct (H1 Hk) as (m & -> & _). cbn [bind]. destruct (skipn (length (tree_leaves n)) ls) as [|x r] eqn:E; [|reflexivity]. apply (f_equal (@length B)) in E. rewrite skipn_length in E. cbn in E. lia.
  Qed.
End P.

Section Q.
  Context {T A : Type}.
  Implicit Types (n : node T A).
  (** Flattening and unflattening gives back a tree with the same class and value at every
      path, and the children of every node in key order. *)
  Theorem C91_roundtrip n : wf n -> exists m, tree_unflatten (tree_structure n) (tree_leaves n) = Ok m /\ reordered (fun v => v) n m.
  Proof. intros Hn. destruct (C91_map (fun v : A => v) n Hn) as (m & H & R). exists m. split; [|exact R]. unfold tree_map in H. now rewrite map_id in H. Qed.
  Lemma canon_same n : wf n -> in_key_order n -> canon (fun v => v) n = n.
  Proof.
    induction n as [t v ch IH] using node_ind'. intros Hn Ho. rewrite canon_eq. apply wf_children in Hn as [Hd Hf].
    rewrite sort_already by (apply sorted_precedes, (Ho [] _ eq_refl)). f_equal. rewrite Forall_forall in IH, Hf. rewrite <- (map_id ch) at 2. apply map_ext_in. intros [k c] Hi. cbn [fst snd]. f_equal. apply (IH _ Hi (Hf _ Hi)).
    intros path d Hw. apply (Ho (k :: path)). cbn [walk nch]. rewrite (In_dget _ _ _ Hd Hi). exact Hw.
  Qed.
  (** A tree whose children are in key order at every level comes back unchanged; so does
      the result of a round trip. *)
  Theorem C91_sorted n : wf n -> (tree_unflatten (tree_structure n) (tree_leaves n) = Ok n <-> in_key_order n).
  Proof.
    intros Hn. assert (E : tree_unflatten (tree_structure n) (tree_leaves n) = Ok (canon (fun v => v) n)) by (pose proof (tree_map_canon (fun v : A => v) n) as H; unfold tree_map in H; now rewrite map_id in H). rewrite E. split.
    - intros H. injection H as H. rewrite <- H. exact (proj1 (proj2 (canon_reordered _ n Hn))).
    - intros H. now rewrite canon_same.
  Qed.
  Theorem C91_twice n m : wf n -> tree_unflatten (tree_structure n) (tree_leaves n) = Ok m -> tree_unflatten (tree_structure m) (tree_leaves m) = Ok m.
  Proof. intros Hn H. destruct (C91_roundtrip n Hn) as (m' & H' & R). rewrite H in H'. injection H' as <-. now apply C91_sorted; apply R. Qed.
End Q.

Section D.
  Context {T A B : Type}.
  Lemma structure_classes (n : node T A) (m : node T B) : wf n -> wf m -> tree_structure n = tree_structure m <-> same_classes n m.
  Proof.
    revert m. induction n as [t v ch IH] using node_ind'. intros [t' v' ch'] Hn Hm. rewrite !structure_eq. apply wf_children in Hn as [Hd Hf]. apply wf_children in Hm as [Hd' Hf']. rewrite Forall_forall in IH, Hf, Hf'. split.
    - intros E. injection E as -> E. intros [|k path]; [reflexivity|]. cbn [walk nch].
      assert (Ed : option_map tree_structure (dget k ch) = option_map tree_structure (dget k ch')).
      { rewrite <- (sort_dget k ch Hd), <- (sort_dget k ch' Hd'). clear - E. revert E. generalize (sort_items ch) (sort_items ch'). intros d. induction d as [|[a x] d IH]; intros [|[b y] e] E; try discriminate; [reflexivity|]. cbn [map fst snd] in E. injection E as -> E1 E2. cbn. destruct (String.eqb k b); [cbn; now rewrite E1|now apply IH]. }
      destruct (dget k ch) as [c|] eqn:E1, (dget k ch') as [c'|] eqn:E2; try discriminate; [|reflexivity]. injection Ed as Ed. apply dget_In in E1, E2. apply (proj1 (IH _ E1 c' (Hf _ E1) (Hf' _ E2))). exact Ed.
    - intros H. pose proof (H []) as Ht. injection Ht as ->. f_equal.
      assert (Hk : forall k, match dget k ch, dget k ch' with Some c, Some c' => tree_structure c = tree_structure c' | None, None => True | _, _ => False end).
      { intros k. pose proof (H [k]) as Hk. cbn [walk nch] in Hk. destruct (dget k ch) as [c|] eqn:E1, (dget k ch') as [c'|] eqn:E2; try discriminate; [|exact I]. pose proof (dget_In _ _ _ E1) as I1. pose proof (dget_In _ _ _ E2) as I2. apply (IH _ I1 c' (Hf _ I1) (Hf' _ I2)). intros path. specialize (H (k :: path)). cbn [walk nch] in H. now rewrite E1, E2 in H. }
      assert (Ek : map fst (sort_items ch) = map fst (sort_items ch')).
      { apply sorted_unique_keys; [now apply sort_sorted..|]. intros k. rewrite (Permutation_in' (eq_refl k) (Permutation_map fst (sort_perm ch))), (Permutation_in' (eq_refl k) (Permutation_map fst (sort_perm ch'))). specialize (Hk k). destruct (dget k ch) eqn:E1, (dget k ch') eqn:E2; try contradiction.
        - apply dget_In, (in_map fst) in E1. apply dget_In, (in_map fst) in E2. tauto.
        - apply dget_None_iff in E1. apply dget_None_iff in E2. tauto. }
      assert (Hk' : forall k, match dget k (sort_items ch), dget k (sort_items ch') with Some c, Some c' => tree_structure c = tree_structure c' | None, None => True | _, _ => False end) by (intros k; rewrite !sort_dget by assumption; apply Hk).
      pose proof (sort_keys_nodup ch Hd) as Hu. clear - Ek Hk' Hu. revert Ek Hk' Hu. generalize (sort_items ch) (sort_items ch'). intros d. induction d as [|[a x] d IH]; intros [|[b y] e] E Hk Hu; try discriminate; [reflexivity|]. cbn [map fst snd] in *. injection E as <- E. inversion_clear Hu as [|? ? Ha Hu']. f_equal.
      + specialize (Hk a). cbn in Hk. rewrite String.eqb_refl in Hk. now rewrite Hk.
      + apply IH; [exact E| |exact Hu']. intros k. specialize (Hk k). cbn in Hk. destruct (String.eqb_spec k a) as [E1|]; [rewrite E1|exact Hk]. rewrite (proj2 (dget_None_iff a d)) by exact Ha. rewrite (proj2 (dget_None_iff a e)) by (now rewrite <- E). exact I.
  Qed.
  (** Two trees have the same tree definition exactly if they have the same classes at the
      same paths, whatever their values and the order of their children. *)
  Theorem C91_structure (n : node T A) (m : node T B) : wf n -> wf m -> tree_structure n = tree_structure m <-> same_classes n m.
  Proof. apply structure_classes. Qed.
End D.

(** The tree definition forgets the order of children, so it is not restored: the sides of
    a polygon with eleven vertices come back with "Line10" after "Line1", and a twin
    x axis before the x axis. *)
Theorem C91_order_refuted :
  (exists (p : node ptype (pv Q)) nxt, mk_polygon 0 VNone (Some (map (fun i => Node TPoint {| vid := i; vdata := [inject_Z (Z.of_nat i); 0%Q] |} []) (seq 1 11))) 11 = Ok (p, nxt) /\
     exists m, tree_unflatten (tree_structure p) (tree_leaves p) = Ok m /\
       nkeys p = ["Line0"; "Line1"; "Line2"; "Line3"; "Line4"; "Line5"; "Line6"; "Line7"; "Line8"; "Line9"; "Line10"]%string /\
       nkeys m = ["Line0"; "Line1"; "Line10"; "Line2"; "Line3"; "Line4"; "Line5"; "Line6"; "Line7"; "Line8"; "Line9"]%string) /\
  (exists (p : node ptype (pv Q)) nxt, mk_axes 0 VNone None true true true false = Ok (p, nxt) /\
     exists m, tree_unflatten (tree_structure p) (tree_leaves p) = Ok m /\ nkeys m <> nkeys p).
Proof.
  split.
  - destruct (mk_polygon 0 VNone _ 11) as [[p nxt]|e] eqn:E; [|vm_compute in E; discriminate E]. exists p, nxt. split; [reflexivity|]. vm_compute in E. injection E as <- <-. eexists. split; [vm_compute; reflexivity|]. split; reflexivity.
  - destruct (mk_axes 0 VNone None true true true false) as [[p nxt]|e] eqn:E; [|vm_compute in E; discriminate E]. exists p, nxt. split; [reflexivity|]. vm_compute in E. injection E as <- <-. eexists. split; [vm_compute; reflexivity|]. discriminate.
Qed.

(** Concrete cases. *)
Definition mixed : node nat nat := Node 0 1 [("b", Node 1 2 [("z", Node 2 3 []); ("c", Node 2 4 [])]); ("a", Node 1 5 [])]%string.
Example C91_case : wf mixed /\ tree_leaves mixed = [1; 5; 2; 4; 3] /\
  tree_map (fun v => v * 10) mixed = Ok (Node 0 10 [("a", Node 1 50 []); ("b", Node 1 20 [("c", Node 2 40 []); ("z", Node 2 30 [])])])%string.
Proof. split; [unfold mixed; repeat (constructor; cbn; try tauto; try (intuition discriminate))|]. split; reflexivity. Qed.
Example C91_case_sorted : tree_unflatten (tree_structure ex_tree) (tree_leaves ex_tree) = Ok ex_tree /\ in_key_order ex_tree.
Proof. split; [reflexivity|]. apply C91_sorted; [apply ex_tree_wf|reflexivity]. Qed.
Example C91_case_wrong : tree_unflatten (tree_structure mixed) [1; 2; 3; 4] = Err ValueErr /\ tree_unflatten (tree_structure mixed) [1; 2; 3; 4; 5; 6] = Err ValueErr.
Proof. split; reflexivity. Qed.

Print Assumptions C91_map.
Print Assumptions C91_leaves.
Print Assumptions C91_unflatten.
Print Assumptions C91_roundtrip.
Print Assumptions C91_sorted.
Print Assumptions C91_twice.
Print Assumptions C91_structure.
Print Assumptions C91_order_refuted.
