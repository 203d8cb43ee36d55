(** Construction nodes, partial application and mapping against [denote]. *)
From Verif Require Export TransProofs ConsSpec.

Lemma nth_error_ext {A} (a b : list A) : (forall i, nth_error a i = nth_error b i) -> a = b.
Proof.
  revert b. induction a as [|x a IH]; intros [|y b] H; [reflexivity|specialize (H 0); discriminate|specialize (H 0); discriminate|].
  f_equal; [specialize (H 0); now inversion H|]. apply IH. intros i. exact (H (S i)).
Qed.

Section Trans2.
  Context {F : Type} {N : Num F}.
  Notation prim := (prim F).
  Notation pyval := (pyval F).
  Notation cons := (cons F).

  (** ** Construction nodes *)
  Lemma dset_keys_In {V} k v (d : dict V) x : In x (map fst (dset k v d)) <-> x = k \/ In x (map fst d).
  Proof.
    induction d as [|[k0 v0] d IH]; cbn; [intuition|].
    destruct (String.eqb k k0) eqn:E; cbn.
    - apply String.eqb_eq in E. subst. intuition.
    - rewrite IH. intuition.
  Qed.
  Lemma dict_of_keys_In {V} (l : list (string * V)) x : In x (map fst (dict_of l)) <-> In x (map fst l).
  Proof.
    unfold dict_of.
    assert (H : forall acc, In x (map fst (fold_left (fun d kv => dset (fst kv) (snd kv) d) l acc)) <-> In x (map fst l) \/ In x (map fst acc)).
    { induction l as [|[k v] l IH]; intros acc; cbn; [intuition|]. rewrite IH, dset_keys_In. intuition. }
    rewrite H. cbn. intuition.
  Qed.

  Lemma mk_cons_cases (c : cls F) (v : cval F) (ch : dict cons) :
    (length (cpk v) = length ch /\ ~ In EmptyString (map fst ch) /\ mk_cons c v ch = Ok (Node c v ch)) \/
    ((length (cpk v) <> length ch \/ In EmptyString (map fst ch)) /\ mk_cons c v ch = Err ValueErr).
  Proof.
    unfold mk_cons. destruct (Nat.eqb (length (cpk v)) (length ch)) eqn:El; cbn [negb].
    2: { right. apply Nat.eqb_neq in El. auto. }
    apply Nat.eqb_eq in El.
    match goal with |- context [dkeys (dict_of ?L)] => set (l := L) end.
    assert (Hk : map fst l = map fst ch).
    { unfold l. rewrite map_map. cbn [fst].
      rewrite <- (map_map (fun x : string * list ptype * list string => fst x) fst).
      rewrite map_fst_zip by (rewrite map_length; lia). rewrite map_map. reflexivity. }
    destruct (in_dec string_dec EmptyString (map fst ch)) as [Hin|Hout].
    - right. split; [auto|].
      match goal with |- context [forallb ?f ?x] => assert (Hf : forallb f x = false) end.
      { apply not_true_iff_false. rewrite forallb_forall. intros H.
        specialize (H EmptyString). unfold dkeys in H. rewrite dict_of_keys_In, Hk in H. specialize (H Hin). discriminate. }
      rewrite Hf. reflexivity.
    - left. split; [assumption|]. split; [assumption|].
      match goal with |- context [forallb ?f ?x] => assert (Hf : forallb f x = true) end.
      { apply forallb_forall. intros x Hx. unfold dkeys in Hx. rewrite dict_of_keys_In, Hk in Hx.
        destruct (String.eqb x EmptyString) eqn:E; [|reflexivity]. apply String.eqb_eq in E. subst. contradiction. }
      rewrite Hf. reflexivity.
  Qed.
  Lemma mk_cons_ok (c : cls F) (v : cval F) (ch : dict cons) :
    length (cpk v) = length ch -> ~ In EmptyString (map fst ch) -> mk_cons c v ch = Ok (Node c v ch).
  Proof. intros H1 H2. destruct (mk_cons_cases c v ch) as [(_ & _ & H)|[[H|H] _]]; [assumption|congruence|contradiction]. Qed.

  (** ** Partial application *)
  Lemma iter_flat_node {T A} key t (v : A) (ch : dict (node T A)) :
    map snd (iter_flat key (Node t v ch)) = Node t v ch :: dpre ch.
  Proof. rewrite iter_flat_preorder. reflexivity. Qed.

  Lemma partial_call (c : cons) freeze prims rest :
    freeze <> [] -> length freeze <= nparams (csig (nval c)) ->
    length (cpk (nval c)) = length (nch c) -> ~ In EmptyString (nkeys c) ->
    exists p, transform_partial c freeze = Ok p /\ call p prims rest = call c prims (rest ++ freeze).
  Proof.
    destruct c as [t v ch]. cbn [nval nch]. intros Hne Hle Hpk Hk. unfold transform_partial. cbn [nval nch ntype].
    rewrite mk_cons_ok; [|assumption|assumption]. eexists. split; [reflexivity|].
    unfold call. unfold cvalidate_prims, cvalidate_params. cbn [nval csig prim_types nparams].
    destruct freeze as [|f0 fr] eqn:Ef; [contradiction|]. rewrite <- Ef in *. clear Hne.
    assert (Hn : Nat.eqb (length rest) (nparams (csig v) - length freeze) = Nat.eqb (length (rest ++ freeze)) (nparams (csig v))).
    { rewrite app_length. destruct (Nat.eqb_spec (length rest) (nparams (csig v) - length freeze)); symmetry; [apply Nat.eqb_eq|apply Nat.eqb_neq]; lia. }
    rewrite Hn. repeat match goal with |- bind ?x _ = bind ?x _ => destruct x as [?|?]; [cbn [bind]|reflexivity] end.
    rewrite !root_prim_keys_unfold, !root_params_unfold. unfold child_prim_keys. cbn [nval cpk cparams].
    destruct (mapM (mapM (replace_prim_key_prefix (arg_keys (length prims)))) (cpk v)) as [cks|]; [cbn [bind]|reflexivity].
    destruct (rpks ch cks) as [ks|]; [cbn [bind]|reflexivity].
    destruct (cparams v (rest ++ freeze)) as [cps|]; [cbn [bind]|reflexivity].
    destruct (rps ch cps) as [ps|]; [cbn [bind]|reflexivity].
    unfold assem_from_tree. rewrite !iter_flat_node.
    rewrite <- !(map_map snd (fun x => nval x)). rewrite !iter_flat_node. cbn [map nval mapM].
    destruct (mapM (get_child a1) (arg_keys (length prims))) as [q|]; [cbn [bind]|reflexivity].
    destruct (mapM (mapM (get_child a1)) (map (fun x : knode => nval x) (dpre ks))) as [qs|]; [cbn [bind]|reflexivity].
    cbn [zip mapM fst snd ntype]. unfold assem1 at 1 4. cbn [cassem]. reflexivity.
  Qed.

  (** ** Mapping *)
  Lemma dec_nonempty i : dec i <> EmptyString.
  Proof. intros H. pose proof (parse_dec i) as P. rewrite H in P. discriminate. Qed.
  Lemma split1_noslash s : noslash s = true -> split1 s = (s, None).
  Proof.
    intros H. destruct (split1 s) as [p [r|]] eqn:E.
    - exfalso. destruct (split1_Some _ _ _ E) as (E1 & Hp & _). pose proof (split_all_single s H) as Hs.
      rewrite E1 in Hs. rewrite (split_all_app p r Hp) in Hs. pose proof (split_all_nonempty r). destruct (split_all r); [contradiction|].
      discriminate.
    - now destruct (split1_None _ _ E) as (-> & _).
  Qed.
  Lemma noslash_arg i : noslash ("arg" ++ dec i) = true.
  Proof. rewrite noslash_app, noslash_dec. reflexivity. Qed.
  Lemma select_arg (prims : list prim) i p : nth_error prims i = Some p -> select prims ("arg" ++ dec i) = Ok p.
  Proof.
    intros H. unfold select. rewrite (split1_noslash _ (noslash_arg i)). rewrite argnum_dec. cbn [bind]. now rewrite H.
  Qed.
  Lemma select_args (prims : list prim) : forall k n, k + n <= length prims ->
    mapM (select prims) (map (fun i => ("arg" ++ dec i)%string) (seq k n)) = Ok (firstn n (skipn k prims)).
  Proof.
    intros k n. revert k. induction n as [|n IH]; intros k H; [reflexivity|].
    cbn [seq map mapM]. destruct (nth_error prims k) as [p|] eqn:E.
    2: { apply nth_error_None in E. lia. }
    rewrite (select_arg _ _ _ E). cbn [bind]. rewrite IH by lia. cbn [bind].
    assert (Hs : skipn k prims = p :: skipn (S k) prims).
    { clear -E. revert k E. induction prims as [|q l IHl]; intros [|k] E; cbn in *; try discriminate; [now inversion E|now apply IHl]. }
    rewrite Hs. reflexivity.
  Qed.

  (** The tree built by [transform_map]. *)
  Definition map_num (c : cons) (n : nat) : nat := n + 1 - length (prim_types (csig (nval c))).
  Definition mapped (c : cons) (n : nat) : cons :=
    let s := csig (nval c) in
    let num := map_num c n in
    let constant := map (fun i => ("arg" ++ dec i)%string) (seq num (n - num)) in
    Node {| cname := ("Map" ++ cname (ntype c))%string; cisa := []; cassem := empty_assem |}
         {| cpk := map (fun i => ("arg" ++ dec i)%string :: constant) (seq 0 num);
            cparams := fun params =>
              Ok (map (fun i => slice (i * nparams s) ((i + 1) * nparams s) params) (seq 0 num));
            csig := {| prim_types := List.concat (List.repeat (firstn 1 (prim_types s)) num)
                                       ++ skipn 1 (prim_types s);
                       nparams := num * nparams s;
                       value_size := 0 |} |}
         (map (fun i => ((cname (ntype c) ++ dec i)%string, c)) (seq 0 num)).

  Lemma numbered_NoDup s k n : NoDup (map (fun i => (s ++ dec i)%string) (seq k n)).
  Proof.
    apply FinFun.Injective_map_NoDup; [|apply seq_NoDup]. intros i j H. now apply append_inj_l, dec_inj in H.
  Qed.
  Lemma transform_map_ok (c : cons) ts : transform_map c ts = Ok (mapped c (length ts)).
  Proof.
    unfold transform_map, mapped. fold (map_num c (length ts)). set (num := map_num c (length ts)).
    rewrite dict_of_nodup.
    2: { rewrite map_map. cbn [fst]. apply numbered_NoDup. }
    apply mk_cons_ok; cbn [cpk].
    - now rewrite !map_length.
    - rewrite map_map. cbn [fst]. rewrite in_map_iff. intros (i & H & _). destruct (cname (ntype c)); [|discriminate].
      now apply dec_nonempty in H.
  Qed.

  Lemma map_denotes (c : cons) (constprims : list prim) : forall is sels gs oss,
    Forall2 (fun sg o => denote c (fst sg) (snd sg) = Ok o) (zip sels gs) oss ->
    length sels = length is -> length gs = length is ->
    denotes (map (fun i => ((cname (ntype c) ++ dec i)%string, c)) is) sels gs = Ok (List.concat oss).
  Proof.
    induction is as [|i is IH]; intros [|s sels] [|g gs] oss H H1 H2; try discriminate.
    - inversion H; subst. reflexivity.
    - cbn [zip] in H. inversion H as [|? o ? os Ho Hos]; subst. cbn [map denotes]. cbn [fst snd] in Ho. rewrite Ho. cbn [bind].
      rewrite (IH sels gs os); [reflexivity|assumption|now inversion H1|now inversion H2].
  Qed.

  Lemma slice_concat {A} (gs : list (list A)) k : Forall (fun g => length g = k) gs -> forall i g,
    nth_error gs i = Some g -> slice (i * k) ((i + 1) * k) (List.concat gs) = g.
  Proof.
    intros H i. unfold slice. replace ((i + 1) * k - i * k) with k by lia. revert gs H.
    induction i as [|i IH]; intros [|g0 gs] H g Hg; try discriminate; inversion H; subst.
    - cbn in Hg. inversion Hg; subst. cbn. rewrite firstn_app, firstn_all, Nat.sub_diag, firstn_O. apply app_nil_r.
    - cbn [nth_error] in Hg. cbn [List.concat]. rewrite skipn_app, skipn_all2 by lia. cbn [app].
      replace (S i * length g0 - length g0) with (i * length g0) by lia. now apply IH.
  Qed.

  Definition nth_prims (prims : list prim) (num : nat) (i : nat) : list prim :=
    firstn 1 (skipn i prims) ++ skipn num prims.

  Lemma map_seq_nth {A B} (f : nat -> B) (l : list A) k n : n = length l ->
    map f (seq k n) = map (fun ix => f (k + fst ix)) (zip (seq 0 n) l).
  Proof.
    intros ->. revert k f. induction l as [|a l IH]; intros k f; [reflexivity|]. cbn [length seq map zip fst].
    rewrite Nat.add_0_r. f_equal. rewrite IH. rewrite <- seq_shift, zip_map_l, map_map. apply map_ext. intros [i x]. cbn. f_equal. lia.
  Qed.

  Lemma denote_map (c : cons) n prims gs oss :
    length prims = n -> 1 <= length (prim_types (csig (nval c))) ->
    length gs = map_num c n -> Forall (fun g => length g = nparams (csig (nval c))) gs ->
    Forall2 (fun ig o => denote c (nth_prims prims (map_num c n) (fst ig)) (snd ig) = Ok o) (zip (seq 0 (map_num c n)) gs) oss ->
    denote (mapped c n) prims (List.concat gs) = Ok ([] :: List.concat oss).
  Proof.
    intros Hn Hl Hg Hgs Ho. unfold mapped. set (num := map_num c n) in *.
    assert (Hnum : num <= n) by (unfold num, map_num; lia).
    rewrite denote_unfold. cbn [cpk cparams]. unfold assem1. cbn [cassem empty_assem]. unfold empty_assem. cbn [bind atleast_1d].
    assert (Hsel : mapM (mapM (select prims)) (map (fun i => ("arg" ++ dec i)%string :: map (fun i0 => ("arg" ++ dec i0)%string) (seq num (n - num))) (seq 0 num))
                   = Ok (map (nth_prims prims num) (seq 0 num))).
    { rewrite mapM_map. rewrite <- mapM_Ok_map. apply mapM_ext. intros i Hi. apply in_seq in Hi.
      cbn [mapM]. destruct (nth_error prims i) as [p|] eqn:E; [|apply nth_error_None in E; lia].
      rewrite (select_arg _ _ _ E). cbn [bind]. rewrite select_args by lia. cbn [bind].
      rewrite (firstn_all2 (skipn num prims)) by (rewrite skipn_length; lia).
      unfold nth_prims. f_equal. change (p :: skipn num prims) with ([p] ++ skipn num prims). f_equal.
      pose proof (select_args prims i 1) as Hs. cbn [seq map mapM] in Hs. rewrite (select_arg _ _ _ E) in Hs. cbn [bind] in Hs.
      specialize (Hs ltac:(lia)). now inversion Hs. }
    rewrite Hsel. cbn [bind].
    assert (Hsl : map (fun i => slice (i * nparams (csig (nval c))) ((i + 1) * nparams (csig (nval c))) (List.concat gs)) (seq 0 num) = gs).
    { apply nth_error_ext. intros i. rewrite nth_error_map. destruct (nth_error gs i) as [g|] eqn:E.
      - assert (Hi : i < num) by (rewrite <- Hg; apply nth_error_Some; congruence).
        rewrite (nth_error_nth' _ 0) by (rewrite seq_length; lia). rewrite seq_nth by lia. cbn [option_map Nat.add].
        f_equal. now apply slice_concat.
      - apply nth_error_None in E. rewrite (proj2 (nth_error_None _ _)); [reflexivity|]. rewrite seq_length. lia. }
    rewrite Hsl. rewrite (map_denotes c prims (seq 0 num) (map (nth_prims prims num) (seq 0 num)) gs oss).
    - reflexivity.
    - rewrite zip_map_l. clear -Ho. revert oss Ho. induction (zip (seq 0 num) gs) as [|x l IH]; intros oss Ho; inversion Ho; subst; cbn; constructor; auto.
    - now rewrite map_length.
    - now rewrite seq_length.
  Qed.

  Lemma call_map (c : cons) (ts : list ptype) prims gs vs :
    length prims = length ts -> length (prim_types (csig (nval c))) <= length ts ->
    1 <= length (prim_types (csig (nval c))) ->
    Forall (fun p => ntype p <> TNode) prims ->
    length gs = map_num c (length ts) -> Forall (arity_ok c) gs ->
    Forall2 (fun ig v => call c (nth_prims prims (map_num c (length ts)) (fst ig)) (snd ig) = Ok v)
            (zip (seq 0 (map_num c (length ts))) gs) vs ->
    call (mapped c (length ts)) prims (List.concat gs) = Ok (List.concat vs).
  Proof.
    set (n := length ts). intros Hn Hle Hl Hp Hg Har Hv.
    set (num := map_num c n) in *.
    assert (Hnum : 1 <= num <= n) by (unfold num, map_num; lia).
    assert (Hpn : forall i, Forall (fun p => ntype p <> TNode) (nth_prims prims num i)).
    { intros i. unfold nth_prims. apply Forall_app. split.
      - apply Forall_forall. intros x Hx. rewrite Forall_forall in Hp. apply Hp.
        rewrite <- (firstn_skipn i prims). apply in_or_app. right. rewrite <- (firstn_skipn 1 (skipn i prims)). apply in_or_app. now left.
      - apply Forall_forall. intros x Hx. rewrite Forall_forall in Hp. apply Hp.
        rewrite <- (firstn_skipn num prims). apply in_or_app. now right. }
    assert (Hall : exists oss, Forall2 (fun ig o => denote c (nth_prims prims num (fst ig)) (snd ig) = Ok o) (zip (seq 0 num) gs) oss /\
              map (@List.concat F) oss = vs /\ Forall (fun ig => valid_args c (nth_prims prims num (fst ig)) (snd ig)) (zip (seq 0 num) gs)).
    { assert (Hz : Forall (fun ig => arity_ok c (snd ig)) (zip (seq 0 num) gs)).
      { clear -Har. clearbody num. revert Har. generalize 0 as k. revert num. induction gs as [|g gs IH]; intros num k H.
        - destruct (seq k num); constructor.
        - destruct num; [constructor|]. cbn [seq zip]. inversion H; subst. constructor; [assumption|]. now apply IH. }
      clear -Hv Hz Hpn. revert vs Hv. induction (zip (seq 0 num) gs) as [|ig l IH]; intros vs Hv; inversion Hv as [|? v ? vs' H1 H2]; subst.
      - exists []. repeat constructor.
      - inversion Hz; subst. destruct (IH ltac:(assumption) _ H2) as (oss & A & B & C).
        destruct (denote_call c _ _ _ (Hpn (fst ig)) ltac:(eassumption) H1) as (V & outs & D & E).
        exists (outs :: oss). split; [now constructor|]. split; [cbn; congruence|]. now constructor. }
    destruct Hall as (oss & Hd & <- & Hva).
    assert (Hgl : Forall (fun g => length g = nparams (csig (nval c))) gs).
    { assert (Hs : map snd (zip (seq 0 num) gs) = gs) by (apply map_snd_zip; rewrite seq_length; lia).
      rewrite <- Hs. apply Forall_map. eapply Forall_impl; [|exact Hva]. now intros a [_ H]. }
    replace (List.concat (map (@List.concat F) oss)) with (List.concat ([] :: List.concat oss)).
    2: { cbn. clear. induction oss as [|o oss IH]; [reflexivity|]. cbn. now rewrite concat_app, IH. }
    apply call_denote; [assumption| |].
    - split.
      + unfold mapped. cbn [nval csig prim_types]. fold num.
        assert (Hi : forall i, i < num -> Forall2 (fun p t => issubclass (ntype p) t = true) (nth_prims prims num i) (prim_types (csig (nval c)))).
        { intros i Hi. destruct (nth_error gs i) as [g|] eqn:E; [|apply nth_error_None in E; lia].
          assert (Hin : In (i, g) (zip (seq 0 num) gs)).
          { assert (Hgen : forall k m, i < m -> nth_error gs i = Some g -> In (k + i, g) (zip (seq k m) gs)).
            { clear. revert gs. induction i as [|i IH]; intros [|g0 gs] k [|m] Hm E; try discriminate; try lia; cbn in E.
              - inversion E; subst. cbn. left. f_equal. lia.
              - cbn [seq zip]. right. replace (k + S i) with (S k + i) by lia. apply IH; [lia|assumption]. }
            apply (Hgen 0 num); assumption. }
          rewrite Forall_forall in Hva. exact (proj1 (Hva _ Hin)). }
        destruct (prim_types (csig (nval c))) as [|t0 pts] eqn:Ept; [cbn in Hl; lia|]. cbn [firstn skipn].
        assert (Hs : skipn num prims = skipn num prims /\ Forall2 (fun p t => issubclass (ntype p) t = true) (skipn num prims) pts /\
                  forall i p, i < num -> nth_error prims i = Some p -> issubclass (ntype p) t0 = true).
        { split; [reflexivity|]. split.
          - specialize (Hi 0 ltac:(lia)). unfold nth_prims in Hi. destruct prims as [|p0 prims]; [cbn in Hn; lia|].
            cbn [skipn firstn app] in Hi. now inversion Hi.
          - intros i p Hlt Hp0. specialize (Hi i Hlt). unfold nth_prims in Hi.
            assert (Hsk : exists r, skipn i prims = p :: r).
            { clear -Hp0. revert i Hp0. induction prims as [|q l IHl]; intros [|i] E; cbn in *; try discriminate; [inversion E; eauto|eauto]. }
            destruct Hsk as [r Hr]. rewrite Hr in Hi. cbn [firstn app] in Hi. now inversion Hi. }
        destruct Hs as (_ & Hs1 & Hs2).
        rewrite <- (firstn_skipn num prims) at 1. apply Forall2_app; [|assumption].
        assert (Hfl : length (firstn num prims) = num) by (rewrite firstn_length; lia).
        assert (Hs3 : Forall (fun p => issubclass (ntype p) t0 = true) (firstn num prims)).
        { apply Forall_forall. intros p Hin. apply In_nth_error in Hin as [i Hi']. 
          assert (i < num) by (rewrite <- Hfl; apply nth_error_Some; congruence).
          apply (Hs2 i p); [assumption|]. rewrite <- (firstn_skipn num prims). now rewrite nth_error_app1 by lia. }
        clear -Hs3 Hfl. clearbody num. revert Hfl Hs3. generalize (firstn num prims) as l. intros l <- H.
        induction l as [|p l IH]; [constructor|]. inversion H; subst. cbn. constructor; auto.
      + unfold mapped. cbn [nval csig nparams]. fold num. rewrite <- Hg. clear -Hgl. induction gs as [|g gs IH]; [reflexivity|].
        inversion Hgl; subst. cbn [List.concat length]. rewrite app_length, IH by assumption. cbn. congruence.
    - apply denote_map; try assumption.
  Qed.

  Lemma fits_map (c : cons) n params : 1 <= length (prim_types (csig (nval c))) <= n ->
    length params = map_num c n * nparams (csig (nval c)) ->
    (forall g, length g = nparams (csig (nval c)) -> fits c g) -> fits (mapped c n) params.
  Proof.
    intros Hl Hp Hf. unfold mapped. set (num := map_num c n) in *. constructor; cbn [csig nparams cpk cparams].
    - assumption.
    - now rewrite !map_length.
    - intros i k c' ks Hi Hk. rewrite nth_error_map in Hi, Hk. destruct (nth_error (seq 0 num) i); [|discriminate].
      cbn in Hi, Hk. inversion Hi; inversion Hk; subst. cbn [length]. rewrite map_length, seq_length. unfold num, map_num. lia.
    - intros cps H. inversion H; subst cps. rewrite !map_length. split; [lia|].
      intros i k c' p Hi Hp'. rewrite nth_error_map in Hi, Hp'. destruct (nth_error (seq 0 num) i) as [j|] eqn:E; [|discriminate].
      cbn in Hi, Hp'. inversion Hi; inversion Hp'; subst. apply Hf. unfold slice. rewrite firstn_length, skipn_length, Hp.
      assert (j < num).
      { apply nth_error_In in E. apply in_seq in E. lia. }
      assert (S j * nparams (csig (nval c')) <= num * nparams (csig (nval c'))) by (apply Nat.mul_le_mono_r; lia). lia.
  Qed.
End Trans2.
