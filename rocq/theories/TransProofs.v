(** The construction transforms against [denote]. *)
From Verif Require Export ConsProofs.

Lemma split_app {A} (a b : list A) : split (length a) (length b) (a ++ b) = (a, b).
Proof.
  unfold split, chunk. rewrite chunk_cut. cbn [cut].
  rewrite firstn_app, firstn_all, Nat.sub_diag, firstn_O, app_nil_r.
  rewrite skipn_app, skipn_all, Nat.sub_diag, skipn_O. cbn [app]. now rewrite firstn_all.
Qed.
Lemma split_app' {A} n m (a b : list A) : length a = n -> length b = m -> split n m (a ++ b) = (a, b).
Proof. intros <- <-. apply split_app. Qed.
Lemma split_nil_r {A} n (a : list A) : length a = n -> split n 0 a = (a, []).
Proof. intros H. rewrite <- (app_nil_r a) at 1. now apply split_app'. Qed.

Section Trans.
  Context {F : Type} {N : Num F}.
  Notation prim := (prim F).
  Notation pyval := (pyval F).
  Notation cons := (cons F).

  Lemma fits_arity (c : cons) : forall params, fits c params -> arity_ok c params.
  Proof.
    induction c as [t v ch IH] using node_ind'. intros params H. inversion H as [? ? ? ? H1 H2 H3 H4]; subst.
    constructor; [assumption|]. intros cps Hc. destruct (H4 _ Hc) as [H5 H6]. split; [assumption|].
    intros i k c p Hi Hp. rewrite Forall_forall in IH.
    apply (IH (k, c)); [now apply nth_error_In in Hi|]. eapply H6; eassumption.
  Qed.
  Lemma fits_nparams (c : cons) params : fits c params -> length params = nparams (csig (nval c)).
  Proof. intros H. inversion H; subst; assumption. Qed.

  (** ** Scalar transforms *)
  Definition sc_node (name : string) (op : pyval -> pyval -> result pyval) (sc m : cons) : cls F * cval F :=
    fst (scalar_node name op m sc).

  Lemma transform_scalar_tmap name op (c sc : cons) : wf c ->
    transform_scalar name op c sc = Ok (tmap (sc_node name op sc) c).
  Proof.
    intros Hw. unfold transform_scalar.
    match goal with |- context [unflatten ?L] => set (l := L) end.
    assert (H : unflatten (l ++ []) = Ok (tmap (sc_node name op sc) c, [])).
    { apply unflatten_spec; [now apply tmap_wf|]. unfold l. rewrite tmap_preorder, map_map.
      rewrite <- (iter_flat_preorder c EmptyString), map_map. reflexivity. }
    rewrite app_nil_r in H. rewrite H. reflexivity.
  Qed.

  (** A scalar operand: no primitives, [length pb] parameters, value [y]. *)
  Record scalar_operand (sc : cons) (pb : list pyval) (y : pyval) : Prop := {
    so_prims : prim_types (csig (nval sc)) = [];
    so_params : nparams (csig (nval sc)) = length pb;
    so_value : cassem (ntype sc) [] pb = Ok y
  }.
  (** [op] acts on every entry as [f]. *)
  Definition entrywise (op : pyval -> pyval -> result pyval) (y : pyval) (f : F -> result F) : Prop :=
    forall x l l', atleast_1d x = Ok l -> mapM f l = Ok l' -> (v <- op x y ;; atleast_1d v) = Ok l'.

  Lemma denote_scalar name op sc pb y f : scalar_operand sc pb y -> entrywise op y f ->
    forall c prims params outs outs', fits c params ->
    length prims = length (prim_types (csig (nval c))) ->
    denote c prims params = Ok outs -> mapM (mapM f) outs = Ok outs' ->
    denote (tmap (sc_node name op sc) c) prims (params ++ pb) = Ok outs'.
  Proof.
    intros [Hs1 Hs2 Hs3] Hop c.
    induction c as [t v ch IH] using node_ind'. intros prims params outs outs' Hfit Hlen Hd Hm.
    inversion Hfit as [? ? ? ? Hnp Hpk Hks Hcp]; subst.
    rewrite denote_unfold in Hd. inv_bind Hd. inv_bind Hd. inv_bind Hd. inv_bind Hd. inversion Hd; subst outs. clear Hd.
    cbn [mapM] in Hm. inv_bind Hm. inv_bind Hm. inversion Hm; subst outs'. clear Hm.
    cbn [tmap]. rewrite denote_unfold. unfold sc_node at 1 2. unfold scalar_node. cbn [fst snd nval ntype cpk cparams].
    cbn [nval] in Hlen.
    assert (Hown : assem1 (fst (sc_node name op sc (Node t v ch))) prims (params ++ pb) = Ok x3).
    { unfold assem1, sc_node, scalar_node. cbn [fst snd cassem nval ntype].
      rewrite Hs1, Hs2. cbn [length]. rewrite (split_nil_r _ prims Hlen). rewrite (split_app' _ _ params pb Hnp eq_refl).
      rewrite Hs3. cbn [bind]. unfold assem1 in E. inv_bind E. rewrite E5. cbn [bind]. apply (Hop _ x); auto. }
    unfold sc_node, scalar_node in Hown. cbn [fst snd nval ntype] in Hown. rewrite Hown. cbn [bind]. rewrite E0. cbn [bind].
    assert (Hcps : cparams (snd (sc_node name op sc (Node t v ch))) (params ++ pb) = Ok (map (fun p => p ++ pb) x1)).
    { unfold sc_node, scalar_node. cbn [fst snd nval cparams].
      rewrite Hs2. rewrite (split_app' _ _ params pb Hnp eq_refl). rewrite E1. reflexivity. }
    rewrite Hcps. cbn [bind].
    destruct (Hcp _ E1) as [Hl Hfits].
    assert (Hlens : forall i k c s, nth_error ch i = Some (k, c) -> nth_error x0 i = Some s ->
              length s = length (prim_types (csig (nval c)))).
    { intros i k c s Hi Hs. apply mapM_Ok_iff in E0. pose proof (Forall2_nth _ _ _ E0 i) as Hn. rewrite Hs in Hn.
      destruct (nth_error (cpk v) i) as [ks|] eqn:Ek; [|contradiction]. apply mapM_length in Hn. rewrite Hn. eapply Hks; eassumption. }
    match goal with |- (rest <- ?D ;; _) = _ => assert (Hrest : D = Ok x4) end.
    { clear Hown Hcps Hks Hcp Hl Hfit Hpk E E0 E1 E3. revert x0 x1 x2 x4 E2 E4 Hfits Hlens.
      induction ch as [|[k c] ch IHch]; intros sels cps outs outs' Hd Hm Hfits Hlens.
      - cbn in Hd. inversion Hd; subst. cbn in *. assumption.
      - cbn [denotes] in Hd. destruct sels as [|s sels]; [discriminate|]. destruct cps as [|p cps]; [discriminate|].
        inv_bind Hd. inv_bind Hd. inversion Hd; subst outs. apply mapM_app_inv in Hm as (o1 & o2 & Ho1 & Ho2 & ->).
        inversion IH as [|? ? Hc IHr]; subst. cbn [snd] in Hc.
        cbn [map fst snd denotes].
        rewrite (Hc s p x0 o1); auto; [|now apply (Hfits 0 k c p)|now apply (Hlens 0 k c s)].
        cbn [bind]. rewrite (IHch IHr sels cps x1 o2); auto.
        + intros i k' c' p' Hi Hp'. now apply (Hfits (S i) k' c' p').
        + intros i k' c' p' Hi Hp'. now apply (Hlens (S i) k' c' p'). }
    rewrite Hrest. reflexivity.
  Qed.

  (** Signature of the result. *)
  Lemma scalar_sig name op (sc c : cons) : csig (nval (tmap (sc_node name op sc) c)) =
    concatenate_signature (csig (nval c)) (csig (nval sc)) (value_size (csig (nval c))).
  Proof. destruct c. reflexivity. Qed.

  Lemma valid_len (c : cons) prims params : valid_args c prims params -> length prims = length (prim_types (csig (nval c))).
  Proof. intros [H _]. now apply Forall2_len in H. Qed.

  Lemma call_scalar name op sc pb y f c prims params v v' :
    wf c -> scalar_operand sc pb y -> entrywise op y f ->
    Forall (fun p => ntype p <> TNode) prims -> fits c params ->
    call c prims params = Ok v -> mapM f v = Ok v' ->
    exists c', transform_scalar name op c sc = Ok c' /\ call c' prims (params ++ pb) = Ok v'.
  Proof.
    intros Hw Hso Hop Hp Hf Hc Hm. exists (tmap (sc_node name op sc) c).
    split; [now apply transform_scalar_tmap|].
    destruct (denote_call c prims params v Hp (fits_arity _ _ Hf) Hc) as (Hv & outs & Hd & ->).
    assert (Hcm : exists outs', mapM (mapM f) outs = Ok outs' /\ List.concat outs' = v').
    { clear -Hm. revert v' Hm. induction outs as [|o outs IH]; intros v' Hm; cbn in *.
      - inversion Hm; subst. exists []. auto.
      - apply mapM_app_inv in Hm as (a & b & Ha & Hb & ->). destruct (IH _ Hb) as (outs' & Ho & <-).
        exists (a :: outs'). rewrite Ha. cbn. rewrite Ho. auto. }
    destruct Hcm as (outs' & Ho & <-).
    apply call_denote; [assumption| |].
    - destruct Hv as [Hv1 Hv2]. destruct Hso as [Hs1 Hs2 _]. unfold valid_args. rewrite scalar_sig. cbn [concatenate_signature prim_types nparams].
      rewrite Hs1, app_nil_r, app_length, Hs2. split; [assumption|lia].
    - eapply denote_scalar; try eassumption. now apply valid_len in Hv.
  Qed.

  Lemma fits_scalar name op sc pb : nparams (csig (nval sc)) = length pb -> prim_types (csig (nval sc)) = [] ->
    forall c params, fits c params -> fits (tmap (sc_node name op sc) c) (params ++ pb).
  Proof.
    intros Hs2 Hs1 c. induction c as [t v ch IH] using node_ind'. intros params Hf.
    inversion Hf as [? ? ? ? Hnp Hpk Hks Hcp]; subst. cbn [tmap]. unfold sc_node at 1 2, scalar_node. cbn [fst snd nval].
    constructor; cbn [csig cpk cparams concatenate_signature nparams snd nval sc_node scalar_node fst].
    - rewrite app_length. lia.
    - now rewrite map_length.
    - intros i k c ks Hi Hk. rewrite nth_error_map in Hi. destruct (nth_error ch i) as [[k' c']|] eqn:Ei; [|discriminate].
      cbn in Hi. inversion Hi; subst. rewrite scalar_sig. cbn [prim_types concatenate_signature]. rewrite Hs1, app_nil_r.
      eapply Hks; eassumption.
    - intros cps. rewrite Hs2, (split_app' _ _ params pb Hnp eq_refl). intros Hc. inv_bind Hc. inversion Hc; subst cps.
      destruct (Hcp _ E) as [Hl Hfits]. rewrite !map_length. split; [assumption|].
      intros i k c p Hi Hp. rewrite nth_error_map in Hi, Hp. destruct (nth_error ch i) as [[k' c']|] eqn:Ei; [|discriminate].
      destruct (nth_error x i) as [p'|] eqn:Ep; [|discriminate]. cbn in Hi, Hp. inversion Hi; inversion Hp; subst.
      rewrite Forall_forall in IH. apply (IH (k, c')); [now apply nth_error_In in Ei|]. eapply Hfits; eassumption.
  Qed.

  (** ** Sums *)
  Definition sum_parts (a b : cons) : cls F * cval F :=
    let va := nval a in let vb := nval b in
    let sa := csig va in let sb := csig vb in
    let split_prims := @split prim (length (prim_types sa)) (length (prim_types sb)) in
    let split_params := @split pyval (nparams sa) (nparams sb) in
    ({| cname := "SumConstruction"; cisa := [];
        cassem := fun prims params =>
          let (prims_a, prims_b) := split_prims prims in
          let (params_a, params_b) := split_params params in
          x <- cassem (ntype a) prims_a params_a ;;
          y <- cassem (ntype b) prims_b params_b ;;
          py_add x y |},
     {| cpk := map (fun ab => fst ab ++ snd ab) (zip (cpk va) (cpk vb));
        cparams := fun params =>
          let (params_a, params_b) := split_params params in
          ca <- cparams va params_a ;;
          cb <- cparams vb params_b ;;
          Ok (map (fun ab => fst ab ++ snd ab) (zip ca cb));
        csig := concatenate_signature sa sb (value_size sa) |}).
  Definition pair_ok (ab : cons * cons) : Prop :=
    nkeys (fst ab) = nkeys (snd ab) /\ value_size (csig (nval (fst ab))) = value_size (csig (nval (snd ab))).
  Lemma sum_node_cases a b : (pair_ok (a, b) /\ sum_node a b = Ok (fst (sum_parts a b), snd (sum_parts a b), nkeys a)) \/
                             (~ pair_ok (a, b) /\ sum_node a b = Err AssertErr).
  Proof.
    unfold sum_node, pair_ok. cbn [fst snd]. destruct (list_eq_dec string_dec (nkeys a) (nkeys b)) as [Hk|Hk]; cbn [negb].
    - destruct (Nat.eqb_spec (value_size (csig (nval a))) (value_size (csig (nval b)))) as [Hs|Hs]; cbn [negb].
      + left. split; [auto|reflexivity].
      + right. split; [tauto|reflexivity].
    - right. split; [tauto|reflexivity].
  Qed.

  Fixpoint tsum (a b : cons) {struct a} : cons :=
    match a with
    | Node ta va cha =>
        Node (fst (sum_parts a b)) (snd (sum_parts a b))
          ((fix go (cha chb : dict cons) : dict cons :=
              match cha, chb with
              | (k, x) :: cha', (_, y) :: chb' => (k, tsum x y) :: go cha' chb'
              | _, _ => []
              end) cha (nch b))
    end.
  Fixpoint tsums (cha chb : dict cons) : dict cons :=
    match cha, chb with
    | (k, x) :: cha', (_, y) :: chb' => (k, tsum x y) :: tsums cha' chb'
    | _, _ => []
    end.
  Lemma tsum_unfold ta va cha tb vb chb : tsum (Node ta va cha) (Node tb vb chb) =
    Node (fst (sum_parts (Node ta va cha) (Node tb vb chb))) (snd (sum_parts (Node ta va cha) (Node tb vb chb))) (tsums cha chb).
  Proof. reflexivity. Qed.
  Lemma tsums_keys cha : forall chb, length cha = length chb -> map fst (tsums cha chb) = map fst cha.
  Proof. induction cha as [|[k x] cha IH]; intros [|[k' y] chb] H; try discriminate; [reflexivity|]. cbn. rewrite IH; auto. Qed.

  Lemma tsum_wf a : forall b, summable a b -> wf a -> wf (tsum a b).
  Proof.
    induction a as [ta va cha IH] using node_ind'. intros b Hs Hw. inversion Hs as [? ? ? tb vb chb Hk Hv Hc]; subst.
    inversion Hw; subst. rewrite tsum_unfold. pose proof (Forall2_len _ _ _ Hc) as Hl. constructor.
    - now rewrite tsums_keys.
    - clear Hs Hw Hk Hv Hl. revert IH. induction Hc as [|[k x] [k' y] cha chb Hxy Hc IHc]; intros IH; cbn; constructor.
      + cbn in *. inversion IH; subst. cbn in *. inversion H3; subst. auto.
      + inversion IH; subst. inversion H3; subst. inversion H1; subst. auto.
  Qed.

  Lemma tsum_preorder a : forall b, summable a b -> 
    length (preorder a) = length (preorder b) /\
    Forall pair_ok (zip (preorder a) (preorder b)) /\
    map skel (preorder (tsum a b)) =
    map (fun ab => (fst (sum_parts (fst ab) (snd ab)), snd (sum_parts (fst ab) (snd ab)), nkeys (fst ab))) (zip (preorder a) (preorder b)).
  Proof.
    induction a as [ta va cha IH] using node_ind'. intros b Hs. inversion Hs as [? ? ? tb vb chb Hk Hv Hc]; subst.
    rewrite tsum_unfold. cbn [preorder zip map length].
    pose proof (Forall2_len _ _ _ Hc) as Hl.
    assert (H : length (flat_map (fun kc : string * cons => preorder (snd kc)) cha) = length (flat_map (fun kc : string * cons => preorder (snd kc)) chb) /\
       Forall pair_ok (zip (flat_map (fun kc : string * cons => preorder (snd kc)) cha) (flat_map (fun kc : string * cons => preorder (snd kc)) chb)) /\
       map skel (flat_map (fun kc : string * cons => preorder (snd kc)) (tsums cha chb)) =
       map (fun ab => (fst (sum_parts (fst ab) (snd ab)), snd (sum_parts (fst ab) (snd ab)), nkeys (fst ab)))
         (zip (flat_map (fun kc : string * cons => preorder (snd kc)) cha) (flat_map (fun kc : string * cons => preorder (snd kc)) chb))).
    { clear Hs Hk Hv Hl. revert IH. induction Hc as [|[k x] [k' y] cha chb Hxy Hc IHc]; intros IH; cbn [tsums flat_map map zip fst snd].
      - cbn. auto.
      - inversion IH; subst. cbn [snd] in *. destruct (H1 y Hxy) as (A1 & A2 & A3). destruct (IHc H2) as (B1 & B2 & B3).
        rewrite !app_length, zip_app by assumption. split; [lia|]. split; [now apply Forall_app|].
        rewrite !map_app, A3, B3. reflexivity. }
    destruct H as (A1 & A2 & A3). split; [now rewrite A1|]. split.
    - constructor; [|assumption]. split; cbn [fst snd]; assumption.
    - rewrite A3. f_equal. unfold skel. cbn [ntype nval fst snd]. f_equal. unfold nkeys, dkeys. cbn [nch]. now rewrite tsums_keys.
  Qed.

  Lemma pairs_summable a : forall b ra rb, Forall pair_ok (zip (preorder a ++ ra) (preorder b ++ rb)) ->
    summable a b /\ Forall pair_ok (zip ra rb).
  Proof.
    induction a as [ta va cha IH] using node_ind'. intros [tb vb chb] ra rb H.
    cbn [preorder app zip] in H. inversion H as [|? ? [Hk Hv] Hr]; subst. cbn [fst snd] in Hk, Hv.
    unfold nkeys, dkeys in Hk. cbn [nch nval] in Hk, Hv. clear H.
    assert (Hc : Forall2 (fun x y => summable (snd x) (snd y)) cha chb /\ Forall pair_ok (zip ra rb)).
    { clear Hv. revert chb Hk Hr. induction cha as [|[k x] cha IHc]; intros [|[k' y] chb] Hk Hr; try discriminate.
      - cbn in Hr. split; [constructor|assumption].
      - inversion IH; subst. cbn [snd] in *. cbn [flat_map snd] in Hr. rewrite <- !app_assoc in Hr.
        apply H1 in Hr as [Hs Hr]. inversion Hk; subst. destruct (IHc H2 chb H3 Hr) as [Hc Hz]. split; [constructor; assumption|assumption]. }
    destruct Hc. split; [constructor; assumption|assumption].
  Qed.

  Lemma mapM_all_or {A B} (f : A -> result B) (g : A -> B) (P : A -> Prop) e l :
    (forall x, (P x /\ f x = Ok (g x)) \/ (~ P x /\ f x = Err e)) ->
    (Forall P l /\ mapM f l = Ok (map g l)) \/ (~ Forall P l /\ mapM f l = Err e).
  Proof.
    intros H. induction l as [|x l IH].
    - left. split; [constructor|reflexivity].
    - cbn [mapM]. destruct (H x) as [[Hp ->]|[Hp ->]]; cbn [bind].
      + destruct IH as [[Hl ->]|[Hl ->]]; cbn.
        * left. split; [now constructor|reflexivity].
        * right. split; [intros Hc; inversion Hc; contradiction|reflexivity].
      + right. split; [intros Hc; inversion Hc; contradiction|reflexivity].
  Qed.

  Lemma Forall_zip_snd (la lb : list (string * cons)) :
    Forall (fun ab => pair_ok (snd (fst ab), snd (snd ab))) (zip la lb) <-> Forall pair_ok (zip (map snd la) (map snd lb)).
  Proof.
    rewrite map_zip, Forall_map. split; apply Forall_impl; auto.
  Qed.

  Lemma transform_sum_cases a b : wf a ->
    (summable a b /\ transform_sum a b = Ok (tsum a b)) \/ (~ summable a b /\ transform_sum a b = Err AssertErr).
  Proof.
    intros Hw. unfold transform_sum.
    set (step := fun ab : (string * cons) * (string * cons) => _).
    destruct (mapM_all_or step
               (fun ab => (fst (fst ab), fst (sum_parts (snd (fst ab)) (snd (snd ab))), snd (sum_parts (snd (fst ab)) (snd (snd ab))), nkeys (snd (fst ab))))
               (fun ab => pair_ok (snd (fst ab), snd (snd ab))) AssertErr
               (zip (iter_flat EmptyString a) (iter_flat EmptyString b))) as [[Hf Hm]|[Hf Hm]].
    { intros ab. unfold step. destruct (sum_node_cases (snd (fst ab)) (snd (snd ab))) as [[H1 H2]|[H1 H2]]; rewrite H2; cbn [bind]; [left|right]; auto. }
    - left. apply Forall_zip_snd in Hf. rewrite !iter_flat_preorder in Hf.
      assert (Hs : summable a b).
      { rewrite <- (app_nil_r (preorder a)), <- (app_nil_r (preorder b)) in Hf. now apply pairs_summable in Hf as [Hs _]. }
      split; [assumption|]. rewrite Hm. cbn [bind].
      match goal with |- context [unflatten ?L] => set (l := L) end.
      assert (H : unflatten (l ++ []) = Ok (tsum a b, [])).
      { apply unflatten_spec; [now apply tsum_wf|]. destruct (tsum_preorder a b Hs) as (_ & _ & ->).
        unfold l. rewrite map_map. rewrite <- (iter_flat_preorder a EmptyString), <- (iter_flat_preorder b EmptyString).
        rewrite map_zip, map_map. reflexivity. }
      rewrite app_nil_r in H. rewrite H. reflexivity.
    - right. split.
      + intros Hs. apply Hf. apply Forall_zip_snd. rewrite !iter_flat_preorder. now apply tsum_preorder.
      + rewrite Hm. reflexivity.
  Qed.

  (** *** Values of sums *)
  (** Lengths that add without changing the left length: equal, or a single number on
      the right. *)
  Definition bcompat (a b : list F) : Prop := length a = length b \/ length b = 1.
  (** Entry-wise sum, with a single number added to every entry. *)
  Definition bplus (a b : list F) : list F :=
    match b with
    | [y] => map (fun x => nadd x y) a
    | _ => vplus a b
    end.
  Lemma bplus_vplus a b : length a = length b -> bplus a b = vplus a b.
  Proof.
    destruct b as [|y [|]]; try reflexivity. destruct a as [|x [|]]; intros H; try discriminate. reflexivity.
  Qed.
  Lemma add_values (Hadd : forall x y, nofZ (x + y) = nadd (nofZ x) (nofZ y)) x y lx ly :
    atleast_1d x = Ok lx -> atleast_1d y = Ok ly -> bcompat lx ly ->
    (v <- py_add x y ;; atleast_1d v) = Ok (bplus lx ly).
  Proof.
    intros Hx Hy Hc.
    assert (Hl : length lx = length ly \/ (length lx <> length ly /\ length ly = 1)).
    { destruct Hc; [auto|]. destruct (Nat.eq_dec (length lx) (length ly)); auto. }
    clear Hc. destruct Hl as [Hl|[Hn Hl]].
    - rewrite bplus_vplus by assumption. unfold vplus.
      destruct x as [z|x|b|x|l|l| | |], y as [z'|y|b'|y|l'|l'| | |]; cbn in Hx, Hy; try discriminate;
        inversion Hx; inversion Hy; subst lx ly; cbn in Hl; try discriminate;
        try (destruct l as [|? [|]]; cbn in Hl; try discriminate);
        try (destruct l' as [|? [|]]; cbn in Hl; try discriminate);
        try (cbn; rewrite ?Hadd; reflexivity).
      cbn [py_add]. unfold arith2. cbn [to_operand bind]. unfold bcast2. rewrite (proj2 (Nat.eqb_eq _ _)) by exact Hl.
      change (fun xy : F * F => Ok (nadd (fst xy) (snd xy))) with (fun xy : F * F => Ok ((fun xy => nadd (fst xy) (snd xy)) xy)).
      rewrite mapM_Ok_map. reflexivity.
    - destruct ly as [|w [|]]; try discriminate. cbn [bplus].
      destruct x as [z|x|b|x|l|l| | |]; cbn in Hx; try discriminate; inversion Hx; subst lx; cbn in Hn; try lia.
      destruct y as [z'|y|b'|y|l'|l'| | |]; cbn in Hy; try discriminate; inversion Hy; subst;
        try (destruct l as [|? ?]; cbn [py_add]; unfold arith2; cbn [to_operand bind];
             rewrite ?(mapM_Ok_map (fun x => nadd x _)); reflexivity).
      destruct l as [|x0 [|x1 l]]; [reflexivity|cbn in Hn; lia|].
      cbn [py_add]. unfold arith2. cbn [to_operand bind]. unfold bcast2. cbn [length Nat.eqb].
      rewrite (mapM_Ok_map (fun x => nadd x w)). reflexivity.
  Qed.

  Lemma select_app_l (pa pb : list prim) k p : select pa k = Ok p -> select (pa ++ pb) k = Ok p.
  Proof.
    unfold select. destruct (split1 k) as [a rest]. intros H. inv_bind H. rewrite E. cbn [bind].
    destruct (nth_error pa x) eqn:En; [|discriminate]. rewrite nth_error_app1; [now rewrite En|].
    apply nth_error_Some. congruence.
  Qed.
  Lemma selects_app_l (pa pb : list prim) ks s : mapM (select pa) ks = Ok s -> mapM (select (pa ++ pb)) ks = Ok s.
  Proof.
    rewrite !mapM_Ok_iff. induction 1; constructor; auto. now apply select_app_l.
  Qed.

  Lemma sum_sels (pa pb : list prim) ksa : forall ksb sa sb,
    (pa = [] \/ Forall (fun ks => ks = []) ksb) ->
    mapM (mapM (select pa)) ksa = Ok sa -> mapM (mapM (select pb)) ksb = Ok sb ->
    mapM (mapM (select (pa ++ pb))) (map (fun ab => fst ab ++ snd ab) (zip ksa ksb)) =
      Ok (map (fun ab => fst ab ++ snd ab) (zip sa sb)).
  Proof.
    induction ksa as [|k ksa IH]; intros [|k' ksb] sa sb Hi Ha Hb.
    - cbn in Ha. inversion Ha; subst. reflexivity.
    - cbn in Ha. inversion Ha; subst. reflexivity.
    - cbn in Hb. inversion Hb; subst. cbn. now destruct sa.
    - cbn [mapM] in Ha, Hb. inv_bind Ha. inv_bind Ha. inversion Ha; subst. inv_bind Hb. inv_bind Hb. inversion Hb; subst.
      cbn [zip map fst snd mapM]. rewrite mapM_app. rewrite (selects_app_l pa pb _ _ E). cbn [bind].
      assert (Hk' : mapM (select (pa ++ pb)) k' = Ok x1).
      { destruct Hi as [->|Hi]; [assumption|]. inversion Hi; subst. assumption. }
      rewrite Hk'. cbn [bind]. rewrite (IH ksb x0 x2); auto. destruct Hi as [?|Hi]; [auto|right; now inversion Hi].
  Qed.

  Definition bpluss (a b : list (list F)) : list (list F) := map (fun xy => bplus (fst xy) (snd xy)) (zip a b).

  Lemma denote_length (c : cons) : forall prims params outs, denote c prims params = Ok outs -> length outs = length (preorder c).
  Proof.
    induction c as [t v ch IH] using node_ind'. intros prims params outs H. rewrite denote_unfold in H.
    inv_bind H. inv_bind H. inv_bind H. inv_bind H. inversion H; subst. cbn [preorder length]. f_equal.
    clear H E E0 E1. revert x0 x1 x2 E2. induction ch as [|[k c] ch IHch]; intros sels cps outs Hd; cbn [denotes] in Hd.
    - inversion Hd; subst. reflexivity.
    - destruct sels; [discriminate|]. destruct cps; [discriminate|]. inv_bind Hd. inv_bind Hd. inversion Hd; subst.
      inversion IH as [|? ? Hc0 Hr0]; subst. cbn [flat_map snd]. rewrite !app_length. f_equal; [eapply Hc0; eassumption|eapply IHch; eassumption].
  Qed.

  Lemma denote_sum (Hadd : forall x y, nofZ (x + y) = nadd (nofZ x) (nofZ y)) a :
    forall b pa pb qa qb oa ob,
    summable a b -> independent a b -> fits a qa -> fits b qb ->
    length pa = length (prim_types (csig (nval a))) -> length pb = length (prim_types (csig (nval b))) ->
    denote a pa qa = Ok oa -> denote b pb qb = Ok ob ->
    Forall2 bcompat oa ob ->
    denote (tsum a b) (pa ++ pb) (qa ++ qb) = Ok (bpluss oa ob).
  Proof.
    induction a as [ta va cha IH] using node_ind'. intros b pa pb qa qb oa ob Hs Hi Hfa Hfb Hla Hlb Ha Hb Hsz.
    inversion Hs as [? ? ? tb vb chb Hk Hv Hc]; subst. inversion Hi as [? ? ? ? ? ? Hin Hic]; subst.
    inversion Hfa as [? ? ? ? A1 A2 A3 A4]; subst. inversion Hfb as [? ? ? ? B1 B2 B3 B4]; subst.
    rewrite denote_unfold in Ha, Hb.
    inv_bind Ha. inv_bind Ha. inv_bind Ha. inv_bind Ha. inversion Ha; subst oa. clear Ha.
    inv_bind Hb. inv_bind Hb. inv_bind Hb. inv_bind Hb. inversion Hb; subst ob. clear Hb.
    inversion Hsz as [|? ? ? ? Hsz0 Hsz']; subst. clear Hsz. rename Hsz' into Hsz. cbn [nval] in Hla, Hlb.
    rewrite tsum_unfold, denote_unfold.
    assert (Hown : assem1 (fst (sum_parts (Node ta va cha) (Node tb vb chb))) (pa ++ pb) (qa ++ qb) = Ok (bplus x x3)).
    { unfold assem1, sum_parts. cbn [fst cassem nval ntype]. rewrite (split_app' _ _ pa pb Hla Hlb), (split_app' _ _ qa qb A1 B1).
      unfold assem1 in E, E3. inv_bind E. inv_bind E3. rewrite E7, E8. cbn [bind].
      exact (add_values Hadd _ _ _ _ E E3 Hsz0). }
    rewrite Hown. cbn [bind].
    unfold sum_parts at 1. cbn [snd cpk nval].
    rewrite (sum_sels pa pb (cpk va) (cpk vb) x0 x4); auto.
    2: { destruct Hin as [Hin|Hin]; [left|auto]. rewrite Hin in Hla. now destruct pa. }
    cbn [bind].
    assert (Hcps : cparams (snd (sum_parts (Node ta va cha) (Node tb vb chb))) (qa ++ qb) = Ok (map (fun ab => fst ab ++ snd ab) (zip x1 x5))).
    { unfold sum_parts. cbn [snd cparams nval]. rewrite (split_app' _ _ qa qb A1 B1), E1. cbn [bind]. rewrite E5. reflexivity. }
    rewrite Hcps. cbn [bind].
    destruct (A4 _ E1) as [Hal Haf]. destruct (B4 _ E5) as [Hbl Hbf].
    assert (HlA : forall i k c s, nth_error cha i = Some (k, c) -> nth_error x0 i = Some s -> length s = length (prim_types (csig (nval c)))).
    { intros i k c s Hi' Hs'. apply mapM_Ok_iff in E0. pose proof (Forall2_nth _ _ _ E0 i) as Hn. rewrite Hs' in Hn.
      destruct (nth_error (cpk va) i) as [ks|] eqn:Ek; [|contradiction]. apply mapM_length in Hn. rewrite Hn. eapply A3; eassumption. }
    assert (HlB : forall i k c s, nth_error chb i = Some (k, c) -> nth_error x4 i = Some s -> length s = length (prim_types (csig (nval c)))).
    { intros i k c s Hi' Hs'. apply mapM_Ok_iff in E4. pose proof (Forall2_nth _ _ _ E4 i) as Hn. rewrite Hs' in Hn.
      destruct (nth_error (cpk vb) i) as [ks|] eqn:Ek; [|contradiction]. apply mapM_length in Hn. rewrite Hn. eapply B3; eassumption. }
    assert (Hrest : denotes (tsums cha chb) (map (fun ab => fst ab ++ snd ab) (zip x0 x4)) (map (fun ab => fst ab ++ snd ab) (zip x1 x5)) = Ok (bpluss x2 x6)).
    { clear Hs Hi Hfa Hfb A2 A3 A4 B2 B3 B4 Hown Hcps E E0 E1 E3 E4 E5 Hal Hbl Hk Hin Hla Hlb A1 B1.
      revert x0 x1 x2 x4 x5 x6 E2 E6 Haf Hbf HlA HlB Hsz Hic IH.
      induction Hc as [|[k ca] [k' cb] cha chb Hcab Hc IHc]; intros sa qas oas sb qbs obs Ha Hb Haf Hbf HlA HlB Hsz Hic IH.
      - cbn in Ha, Hb. inversion Ha; inversion Hb; subst. reflexivity.
      - cbn [denotes] in Ha, Hb.
        destruct sa as [|s sa]; [discriminate|]. destruct qas as [|q qas]; [discriminate|].
        destruct sb as [|s' sb]; [discriminate|]. destruct qbs as [|q' qbs]; [discriminate|].
        apply bind_Ok in Ha as (u0 & D0 & Ha). apply bind_Ok in Ha as (u1 & D1 & Ha). inversion Ha; subst oas.
        apply bind_Ok in Hb as (w0 & D2 & Hb). apply bind_Ok in Hb as (w1 & D3 & Hb). inversion Hb; subst obs.
        inversion Hic as [|? ? ? ? Hic1 Hic2]; subst. inversion IH as [|? ? IH1 IH2]; subst. cbn [snd] in *.
        assert (Hlen : length u0 = length w0).
        { apply denote_length in D0, D2. rewrite D0, D2. now apply tsum_preorder. }
        assert (Hs1 : Forall2 bcompat u0 w0 /\ Forall2 bcompat u1 w1).
        { clear -Hsz Hlen. revert w0 Hlen Hsz. induction u0 as [|x u0 IHu]; intros [|y w0] Hl H; try discriminate.
          - split; [constructor|assumption].
          - cbn in H. inversion H; subst. cbn in Hl. destruct (IHu w0) as [? ?]; [lia|assumption|]. split; [constructor; assumption|assumption]. }
        destruct Hs1 as [Hs1 Hs2].
        cbn [tsums zip map fst snd denotes].
        rewrite (IH1 cb s s' q q' u0 w0); auto;
          [|now apply (Haf 0 k ca q)|now apply (Hbf 0 k' cb q')|now apply (HlA 0 k ca s)|now apply (HlB 0 k' cb s')].
        cbn [bind]. rewrite (IHc sa qas u1 sb qbs w1); auto.
        + cbn [bind]. unfold bpluss. rewrite zip_app by exact Hlen. now rewrite map_app.
        + intros i k1 c1 p1 Hi1 Hp1. now apply (Haf (S i) k1 c1 p1).
        + intros i k1 c1 p1 Hi1 Hp1. now apply (Hbf (S i) k1 c1 p1).
        + intros i k1 c1 p1 Hi1 Hp1. now apply (HlA (S i) k1 c1 p1).
        + intros i k1 c1 p1 Hi1 Hp1. now apply (HlB (S i) k1 c1 p1). }
    rewrite Hrest. reflexivity.
  Qed.

  Lemma bcompat_eq oa : forall ob, map (@length F) oa = map (@length F) ob -> Forall2 bcompat oa ob.
  Proof.
    induction oa as [|a oa IH]; intros [|b ob] H; try discriminate; constructor; cbn in H; inversion H.
    - now left.
    - now apply IH.
  Qed.
  Lemma concat_bpluss oa : forall ob, map (@length F) oa = map (@length F) ob ->
    List.concat (bpluss oa ob) = vplus (List.concat oa) (List.concat ob).
  Proof.
    induction oa as [|a oa IH]; intros [|b ob] H; try discriminate; [reflexivity|].
    cbn [map] in H. injection H as H0 H. unfold bpluss in *. cbn [zip map fst snd List.concat].
    rewrite IH by assumption. rewrite bplus_vplus by assumption. unfold vplus. rewrite zip_app, map_app by assumption. reflexivity.
  Qed.

  Lemma sum_sig a b : csig (nval (tsum a b)) =
    concatenate_signature (csig (nval a)) (csig (nval b)) (value_size (csig (nval a))).
  Proof. destruct a; reflexivity. Qed.

  Lemma fits_sum a : forall b qa qb, summable a b -> fits a qa -> fits b qb -> fits (tsum a b) (qa ++ qb).
  Proof.
    induction a as [ta va cha IH] using node_ind'. intros b qa qb Hs Hfa Hfb.
    inversion Hs as [? ? ? tb vb chb Hk Hv Hc]; subst.
    inversion Hfa as [? ? ? ? A1 A2 A3 A4]; subst. inversion Hfb as [? ? ? ? B1 B2 B3 B4]; subst.
    rewrite tsum_unfold. pose proof (Forall2_len _ _ _ Hc) as Hl.
    assert (Hts : forall i k c, nth_error (tsums cha chb) i = Some (k, c) -> exists ka a0 kb b0,
               nth_error cha i = Some (ka, a0) /\ nth_error chb i = Some (kb, b0) /\ c = tsum a0 b0 /\ summable a0 b0).
    { clear -Hc. induction Hc as [|[ka a0] [kb b0] cha chb Hab Hc IHc]; intros [|i] k c H; try discriminate.
      - cbn in H. inversion H; subst. cbn. exists k, a0, kb, b0. auto.
      - cbn in *. now apply (IHc i k c). }
    assert (Htl : length (tsums cha chb) = length cha).
    { rewrite <- (map_length fst (tsums cha chb)), tsums_keys by assumption. now rewrite map_length. }
    constructor; unfold sum_parts; cbn [snd csig cpk cparams nval concatenate_signature nparams].
    - rewrite app_length. lia.
    - rewrite map_length, zip_length, Htl. lia.
    - intros i k c ks Hi Hks. apply Hts in Hi as (ka & a0 & kb & b0 & Hia & Hib & -> & Hsab).
      rewrite nth_error_map in Hks. destruct (nth_error (zip (cpk va) (cpk vb)) i) as [[x y]|] eqn:Ez; [|discriminate].
      cbn in Hks. inversion Hks; subst ks. rewrite sum_sig. cbn [concatenate_signature prim_types]. rewrite !app_length.
      assert (Hxy : nth_error (cpk va) i = Some x /\ nth_error (cpk vb) i = Some y).
      { clear -Ez. revert Ez. generalize (cpk va) (cpk vb). intros l. revert i. induction l as [|p l IHl]; intros [|i] [|q m] H; cbn in *; try discriminate.
        - inversion H; auto.
        - now apply IHl. }
      destruct Hxy as [Hx Hy]. f_equal; [eapply A3|eapply B3]; eassumption.
    - intros cps. rewrite (split_app' _ _ qa qb A1 B1). intros H. inv_bind H. inv_bind H. inversion H; subst cps.
      destruct (A4 _ E) as [Hla Hfa']. destruct (B4 _ E0) as [Hlb Hfb'].
      rewrite map_length, zip_length, Htl. split; [lia|].
      intros i k c p Hi Hp. apply Hts in Hi as (ka & a0 & kb & b0 & Hia & Hib & -> & Hsab).
      rewrite nth_error_map in Hp. destruct (nth_error (zip x x0) i) as [[y z]|] eqn:Ez; [|discriminate].
      cbn in Hp. inversion Hp; subst p.
      assert (Hxy : nth_error x i = Some y /\ nth_error x0 i = Some z).
      { clear -Ez. revert i x0 Ez. induction x as [|p l IHl]; intros [|i] [|q m] H; cbn in *; try discriminate.
        - inversion H; auto.
        - now apply IHl. }
      destruct Hxy as [Hx Hy]. rewrite Forall_forall in IH. apply (IH (ka, a0)); [now apply nth_error_In in Hia|assumption| |].
      + eapply Hfa'; eassumption.
      + eapply Hfb'; eassumption.
  Qed.

  Lemma summable_sizes (a : cons) : forall b : cons, summable a b -> declared_sizes a = declared_sizes b.
  Proof.
    intros b Hs. destruct (tsum_preorder a b Hs) as (Hl & Hf & _). unfold declared_sizes. revert Hl Hf.
    generalize (preorder a) (preorder b). induction l as [|x l IH]; intros [|y m] Hl Hf; try discriminate; [reflexivity|].
    cbn in *. inversion Hf as [|? ? [_ Hv] Hr]; subst. cbn in Hv. rewrite Hv. f_equal. apply IH; auto.
  Qed.

  Lemma call_sum (Hadd : forall x y, nofZ (x + y) = nadd (nofZ x) (nofZ y)) a b pa pb qa qb va vb oa ob :
    wf a -> summable a b -> independent a b -> fits a qa -> fits b qb ->
    Forall (fun p => ntype p <> TNode) pa -> Forall (fun p => ntype p <> TNode) pb ->
    call a pa qa = Ok va -> call b pb qb = Ok vb ->
    denote a pa qa = Ok oa -> map (@length F) oa = declared_sizes a ->
    denote b pb qb = Ok ob -> map (@length F) ob = declared_sizes b ->
    exists c, transform_sum a b = Ok c /\ call c (pa ++ pb) (qa ++ qb) = Ok (vplus va vb).
  Proof.
    intros Hw Hs Hi Hfa Hfb Hpa Hpb Hca Hcb Hda Hsa Hdb Hsb.
    destruct (transform_sum_cases a b Hw) as [[_ Ht]|[Hn _]]; [|contradiction].
    exists (tsum a b). split; [assumption|].
    destruct (denote_call a pa qa va Hpa (fits_arity _ _ Hfa) Hca) as (Hva & oa' & Hda' & ->).
    destruct (denote_call b pb qb vb Hpb (fits_arity _ _ Hfb) Hcb) as (Hvb & ob' & Hdb' & ->).
    rewrite Hda in Hda'. rewrite Hdb in Hdb'. inversion Hda'; inversion Hdb'; subst oa' ob'.
    assert (Hsz : map (@length F) oa = map (@length F) ob) by (rewrite Hsa, Hsb; now apply summable_sizes).
    rewrite <- (concat_bpluss oa ob Hsz). apply call_denote.
    - now apply Forall_app.
    - destruct Hva as [V1 V2], Hvb as [W1 W2]. unfold valid_args. rewrite sum_sig. cbn [concatenate_signature prim_types nparams].
      split; [now apply Forall2_app|]. rewrite app_length. lia.
    - eapply denote_sum; try eassumption.
      + now apply valid_len in Hva.
      + now apply valid_len in Hvb.
      + now apply bcompat_eq.
  Qed.
End Trans.
