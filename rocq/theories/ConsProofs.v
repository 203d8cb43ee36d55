(** Evaluation of constructions: the code against [denote]. *)
From Verif Require Export PrimProofs ConsSpec.

Lemma split_all_app_gen k s : split_all (k ++ String slash s) = split_all k ++ split_all s.
Proof.
  induction k as [|c k IH]; cbn; [reflexivity|].
  destruct (Ascii.eqb c slash); [now rewrite IH|]. rewrite IH.
  destruct (split_all k) eqn:E; [now apply split_all_nonempty in E|]. reflexivity.
Qed.
Lemma bind_Ok {A B} (r : result A) (k : A -> result B) b : bind r k = Ok b -> exists a, r = Ok a /\ k a = Ok b.
Proof. destruct r; [eauto|discriminate]. Qed.
Ltac inv_bind H :=
  let a := fresh "x" in let Ha := fresh "E" in
  apply bind_Ok in H; destruct H as (a & Ha & H).

Lemma Forall2_len {A B} (R : A -> B -> Prop) a b : Forall2 R a b -> length a = length b.
Proof. induction 1; cbn; congruence. Qed.
Lemma Forall2_imp {A B} (R S : A -> B -> Prop) a b : (forall x y, R x y -> S x y) -> Forall2 R a b -> Forall2 S a b.
Proof. induction 2; constructor; auto. Qed.
Lemma argnum_dec i : argnum_from_key ("arg" ++ dec i) = Ok i.
Proof.
  unfold argnum_from_key.
  assert (Hs : forall s, String.substring 0 3 ("arg" ++ s) = "arg" /\
                         String.substring 3 (String.length ("arg" ++ s) - 3) ("arg" ++ s) = s).
  { intros s. split; [cbn; now destruct s|]. cbn [append String.length Nat.sub]. 
    rewrite Nat.sub_0_r. cbn [String.substring].
    induction s as [|c s IH]; [reflexivity|]. cbn. now rewrite IH. }
  destruct (Hs (dec i)) as [-> ->]. cbn. now rewrite parse_dec.
Qed.

Section ConsP.
  Context {F : Type} {N : Num F}.
  Notation prim := (prim F).
  Notation pyval := (pyval F).
  Notation cons := (cons F).

  Lemma select_spec (prims : list prim) key i path :
    components key (("arg" ++ dec i)%string :: path) ->
    forall p, select prims key = Ok p <->
      exists q, nth_error prims i = Some q /\ walk path q = Some p.
  Proof.
    intros Hc p. apply components_split in Hc. unfold select.
    destruct (split1 key) as [a [r|]] eqn:E.
    - apply split1_Some in E as (_ & _ & Hs). rewrite Hs in Hc.
      assert (Ha : a = ("arg" ++ dec i)%string) by congruence. assert (Hpa : path = split_all r) by congruence. subst a path.
      rewrite argnum_dec. cbn [bind]. destruct (nth_error prims i) as [q|].
      + rewrite get_child_walk. destruct (walk (split_all r) q) eqn:Ew; split.
        * intros H; inversion H; subst; eauto.
        * intros (q' & Hq & Hw). congruence.
        * discriminate.
        * intros (q' & Hq & Hw). congruence.
      + split; [discriminate|]. intros (q & Hq & _). discriminate.
    - apply split1_None in E as (Hk & _ & Hs). rewrite Hs in Hc.
      assert (Ha : key = ("arg" ++ dec i)%string) by congruence. assert (Hpa : path = []) by congruence. subst path a.
      rewrite Ha. rewrite argnum_dec. cbn [bind]. destruct (nth_error prims i) as [q|]; split.
      + intros H; inversion H; subst. eauto.
      + intros (q' & Hq & Hw). cbn in Hw. congruence.
      + discriminate.
      + intros (q & Hq & _). discriminate.
  Qed.

  (** Key substitution agrees with selection. *)
  Definition looks_up (root : prim) (k : string) (p : prim) : Prop := get_child root k = Ok p.

  Lemma get_child_app (root : prim) k r p : get_child root k = Ok p ->
    is_ok (get_child root (k ++ String slash r)) = is_ok (get_child p r) /\
    (forall x, get_child root (k ++ String slash r) = Ok x <-> get_child p r = Ok x).
  Proof.
    rewrite !get_child_walk. rewrite split_all_app_gen, walk_app.
    destruct (walk (split_all k) root) as [q|]; [|discriminate]. intros H; inversion H; subst q.
    destruct (walk (split_all r) p); (split; [reflexivity|intros x; split; congruence]).
  Qed.

  Lemma Forall2_nth {A B} (R : A -> B -> Prop) a b : Forall2 R a b -> forall i,
    match nth_error a i, nth_error b i with
    | Some x, Some y => R x y
    | None, None => True
    | _, _ => False
    end.
  Proof. induction 1; intros [|i]; cbn; auto. apply IHForall2. Qed.

  Lemma subst_select root ks (ps : list prim) key : Forall2 (looks_up root) ks ps ->
    forall p, select ps key = Ok p <->
      exists k', replace_prim_key_prefix ks key = Ok k' /\ get_child root k' = Ok p.
  Proof.
    intros Hf p. unfold select, replace_prim_key_prefix. destruct (split1 key) as [a rest].
    destruct (argnum_from_key a) as [i|e]; cbn [bind].
    2: { split; [discriminate|intros (k' & H & _); discriminate]. }
    pose proof (Forall2_nth _ _ _ Hf i) as Hi.
    destruct (nth_error ks i) as [k|], (nth_error ps i) as [q|]; try contradiction.
    - destruct rest as [r|].
      + destruct (get_child_app root k r q Hi) as [_ Hx]. split.
        * intros H. eexists. split; [reflexivity|]. now apply Hx.
        * intros (k' & Hk & Hg). inversion Hk; subst. now apply Hx.
      + split.
        * intros H; inversion H; subst. eauto.
        * intros (k' & Hk & Hg). inversion Hk; subst. unfold looks_up in Hi. congruence.
    - split; [discriminate|intros (k' & H & _); discriminate].
  Qed.

  Lemma subst_selects root ks (ps : list prim) keys sel : Forall2 (looks_up root) ks ps ->
    mapM (select ps) keys = Ok sel <->
    exists ks', mapM (replace_prim_key_prefix ks) keys = Ok ks' /\ Forall2 (looks_up root) ks' sel.
  Proof.
    intros Hf. rewrite mapM_Ok_iff. split.
    - induction 1 as [|k p keys sel Hk Hs IH].
      + exists []. split; [reflexivity|constructor].
      + apply (subst_select root ks ps k Hf) in Hk as (k' & Hr & Hg).
        destruct IH as (ks' & Hm & Hf'). exists (k' :: ks'). cbn. rewrite Hr. cbn. rewrite Hm. cbn.
        split; [reflexivity|now constructor].
    - intros (ks' & Hm & Hf'). apply mapM_Ok_iff in Hm. revert sel Hf'.
      induction Hm as [|k k' keys ks' Hr Hm IH]; intros sel Hf'; inversion Hf'; subst; constructor; auto.
      apply (subst_select root ks ps k Hf). eauto.
  Qed.

  Lemma subst_selectss root ks (ps : list prim) keyss sels : Forall2 (looks_up root) ks ps ->
    mapM (mapM (select ps)) keyss = Ok sels <->
    exists kss, mapM (mapM (replace_prim_key_prefix ks)) keyss = Ok kss /\ Forall2 (Forall2 (looks_up root)) kss sels.
  Proof.
    intros Hf. rewrite mapM_Ok_iff. split.
    - induction 1 as [|k p keys sel Hk Hs IH].
      + exists []. split; [reflexivity|constructor].
      + apply (subst_selects root ks ps k p Hf) in Hk as (k' & Hr & Hg).
        destruct IH as (ks' & Hm & Hf'). exists (k' :: ks'). cbn [mapM]. rewrite Hr. cbn [bind]. rewrite Hm. cbn.
        split; [reflexivity|now constructor].
    - intros (ks' & Hm & Hf'). apply mapM_Ok_iff in Hm. revert sels Hf'.
      induction Hm as [|k k' keys ks' Hr Hm IH]; intros sel Hf'; inversion Hf'; subst; constructor; auto.
      apply (subst_selects root ks ps k _ Hf). eauto.
  Qed.

  (** ** The key and parameter trees *)
  Fixpoint rpks (ch : dict cons) (cks : list (list string)) : result (dict knode) :=
    match ch, cks with
    | (key, child) :: ch', ck :: cks' =>
        n <- root_prim_keys child ck ;; r <- rpks ch' cks' ;; Ok ((key, n) :: r)
    | _, _ => Ok []
    end.
  Fixpoint rps (ch : dict cons) (cps : list (list pyval)) : result (dict (pnode F)) :=
    match ch, cps with
    | (key, child) :: ch', cp :: cps' =>
        n <- root_params child cp ;; r <- rps ch' cps' ;; Ok ((key, n) :: r)
    | _, _ => Ok []
    end.
  Lemma root_prim_keys_unfold t v ch pk : root_prim_keys (F:=F) (Node t v ch) pk =
    (cks <- mapM (mapM (replace_prim_key_prefix pk)) (cpk v) ;;
     children <- rpks ch cks ;; Ok (Node KPrimKeys pk children)).
  Proof. reflexivity. Qed.
  Lemma root_params_unfold t v ch params : root_params (Node t v ch) params =
    (cps <- cparams v params ;; children <- rps ch cps ;; Ok (Node KParams params children)).
  Proof. reflexivity. Qed.

  Definition eval1 (x : cls F * (list prim * list pyval)) : result (list F) :=
    assem1 (fst x) (fst (snd x)) (snd (snd x)).
  (** Flat evaluation of aligned lists. *)
  Definition flat_eval (c : cons) (fps : list (list prim)) (pt : pnode F) : result (list (list F)) :=
    mapM eval1 (zip (map (@ntype _ _) (preorder c)) (zip fps (map (@nval _ _) (preorder pt)))).
  Definition kvals (kt : knode) : list (list string) := map (@nval _ _) (preorder kt).

  Definition dpre {T A} (ch : dict (node T A)) : list (node T A) := flat_map (fun kc => preorder (snd kc)) ch.

  Definition eval_spec (root : prim) (c : cons) : Prop := forall ks ps params outs,
    Forall2 (looks_up root) ks ps ->
    denote c ps params = Ok outs ->
    exists kt pt fps, root_prim_keys c ks = Ok kt /\ root_params c params = Ok pt /\
      same_shape c kt /\ same_shape c pt /\
      mapM (mapM (get_child root)) (kvals kt) = Ok fps /\
      flat_eval c fps pt = Ok outs.

  Lemma same_shape_length {T A T' A'} (n : node T A) : forall (m : node T' A'), same_shape n m ->
    length (preorder m) = length (preorder n).
  Proof.
    induction n as [t v ch IH] using node_ind'. intros m H. inversion H as [? ? ? t' v' ch' Hk Hc]; subst.
    cbn [preorder length]. f_equal. clear H Hk. revert IH. induction Hc as [|x y ch ch' Hxy Hc IHc]; intros IH; [reflexivity|].
    inversion IH; subst. cbn [flat_map]. rewrite !app_length. auto.
  Qed.

  Lemma eval_children root : forall (ch : dict cons), Forall (fun kc => eval_spec root (snd kc)) ch ->
    forall kss sels cps outs, Forall2 (Forall2 (looks_up root)) kss sels ->
    denotes ch sels cps = Ok outs ->
    exists kts pts fps, rpks ch kss = Ok kts /\ rps ch cps = Ok pts /\
      map fst ch = map fst kts /\ map fst ch = map fst pts /\
      Forall2 (fun x y => same_shape (snd x) (snd y)) ch kts /\
      Forall2 (fun x y => same_shape (snd x) (snd y)) ch pts /\
      mapM (mapM (get_child root)) (map (@nval _ _) (dpre kts)) = Ok fps /\
      length fps = length (dpre ch) /\ length (dpre pts) = length (dpre ch) /\
      mapM eval1 (zip (map (@ntype _ _) (dpre ch)) (zip fps (map (@nval _ _) (dpre pts)))) = Ok outs.
  Proof.
    induction 1 as [|[k c] ch Hc Hch IH]; intros kss sels cps outs Hf Hd.
    - cbn in Hd. inversion Hd; subst. exists [], [], []. cbn.
      destruct kss, cps; cbn; repeat split; constructor.
    - cbn [denotes] in Hd. destruct sels as [|s sels]; [discriminate|]. destruct cps as [|p cps]; [discriminate|].
      inversion Hf as [|ks s' kss' sels' Hks Hkss]; subst.
      inv_bind Hd. inv_bind Hd. inversion Hd; subst outs. cbn [snd] in Hc.
      destruct (Hc _ _ _ _ Hks E) as (kt & pt & fps & H1 & H2 & H3 & H4 & H5 & H6).
      destruct (IH _ _ _ _ Hkss E0) as (kts & pts & fpss & G1 & G2 & G3 & G4 & G5 & G6 & G7 & G8 & G9 & G10).
      exists ((k, kt) :: kts), ((k, pt) :: pts), (fps ++ fpss).
      cbn [rpks rps]. rewrite H1, H2, G1, G2. cbn [bind]. unfold dpre in *. cbn [map fst snd flat_map].
      rewrite G3 at 1. rewrite G4 at 1. 
      assert (Hl1 : length fps = length (preorder c)).
      { apply mapM_length in H5. unfold kvals in H5. rewrite map_length in H5. rewrite H5. now apply same_shape_length. }
      assert (Hl2 : length (preorder pt) = length (preorder c)) by (now apply same_shape_length).
      repeat (split; [first [reflexivity | constructor; assumption | idtac]|]).
      + rewrite map_app, mapM_app. unfold kvals in H5. rewrite H5. cbn [bind]. rewrite G7. reflexivity.
      + rewrite !app_length. lia.
      + rewrite !app_length. lia.
      + rewrite !map_app. unfold flat_eval in H6.
        rewrite (zip_app fps fpss) by (rewrite map_length; lia).
        rewrite zip_app by (rewrite map_length, zip_length, map_length; lia).
        rewrite mapM_app, H6. cbn [bind]. rewrite G10. reflexivity.
  Qed.

  Lemma eval_tree root c : eval_spec root c.
  Proof.
    induction c as [t v ch IH] using node_ind'. intros ks ps params outs Hf Hd.
    rewrite denote_unfold in Hd. inv_bind Hd. inv_bind Hd. inv_bind Hd. inv_bind Hd. inversion Hd; subst outs.
    apply (subst_selectss root ks ps _ _ Hf) in E0 as (kss & Hk & Hkf).
    destruct (eval_children root ch IH _ _ _ _ Hkf E2) as (kts & pts & fpss & G1 & G2 & G3 & G4 & G5 & G6 & G7 & G8 & G9 & G10).
    exists (Node KPrimKeys ks kts), (Node KParams params pts), (ps :: fpss).
    rewrite root_prim_keys_unfold, root_params_unfold, Hk, E1. cbn [bind]. rewrite G1, G2. cbn [bind].
    split; [reflexivity|]. split; [reflexivity|]. split; [now constructor|]. split; [now constructor|]. split.
    - unfold kvals. cbn [preorder map nval mapM].
      assert (Hks : mapM (get_child root) ks = Ok ps).
      { apply mapM_Ok_iff. exact Hf. }
      rewrite Hks. cbn [bind]. unfold dpre in G7. rewrite G7. reflexivity.
    - unfold flat_eval. cbn [preorder map ntype nval zip mapM]. unfold eval1 at 1. cbn [fst snd].
      rewrite E. cbn [bind]. unfold dpre in G10. rewrite G10. reflexivity.
  Qed.

  (** ** The call *)
  Lemma valid_prims_iff (c : cons) prims : cvalidate_prims c prims = Ok tt <->
    Forall2 (fun p t => issubclass (ntype p) t = true) prims (prim_types (csig (nval c))).
  Proof.
    unfold cvalidate_prims. generalize (prim_types (csig (nval c))). intros ts.
    destruct (Nat.eqb_spec (length prims) (length ts)) as [Hl|Hl]; cbn [negb].
    - revert ts Hl. induction prims as [|p prims IH]; intros [|t ts] Hl; try discriminate.
      + cbn. split; [constructor|reflexivity].
      + cbn [zip existsb fst snd]. destruct (issubclass (ntype p) t) eqn:E; cbn [negb orb].
        * rewrite IH by (cbn in Hl; lia). split; [intros H; constructor; assumption|intros H; inversion H; assumption].
        * split; [discriminate|]. intros H. inversion H; congruence.
    - split; [discriminate|]. intros H. apply Forall2_len in H. contradiction.
  Qed.
  Lemma valid_prims_err (c : cons) prims : cvalidate_prims c prims = Ok tt \/ cvalidate_prims c prims = Err TypeErr.
  Proof. unfold cvalidate_prims. destruct (negb _); [auto|]. destruct (existsb _ _); auto. Qed.
  Lemma valid_params_iff (c : cons) params : cvalidate_params c params = Ok tt <-> length params = nparams (csig (nval c)).
  Proof.
    unfold cvalidate_params. destruct (Nat.eqb_spec (length params) (nparams (csig (nval c)))); cbn; split; auto; congruence.
  Qed.
  Lemma valid_params_err (c : cons) params : cvalidate_params c params = Ok tt \/ cvalidate_params c params = Err TypeErr.
  Proof. unfold cvalidate_params. destruct (negb _); auto. Qed.

  Lemma arg_keys_NoDup n : NoDup (arg_keys n).
  Proof.
    unfold arg_keys. apply FinFun.Injective_map_NoDup; [|apply seq_NoDup]. intros x y H. now apply append_dec_inj in H.
  Qed.
  Lemma arg_keys_length n : length (arg_keys n) = n.
  Proof. unfold arg_keys. now rewrite map_length, seq_length. Qed.

  Lemma root_prim_ok (prims : list prim) : Forall (fun p => ntype p <> TNode) prims ->
    exists root, root_prim (arg_keys (length prims)) prims = Ok root /\
      Forall2 (looks_up root) (arg_keys (length prims)) prims.
  Proof.
    intros Hp. exists (Node TPrimNode {| vid := 0; vdata := [] |} (zip (arg_keys (length prims)) prims)).
    assert (Hd : dict_of (zip (arg_keys (length prims)) prims) = zip (arg_keys (length prims)) prims).
    { apply dict_of_nodup. rewrite map_fst_zip by (rewrite arg_keys_length; lia). apply arg_keys_NoDup. }
    split.
    - unfold root_prim. rewrite Hd. unfold mk_primnode.
      assert (Hall : forallb (fun kc : string * prim => issubclass (ntype (snd kc)) TPrimNode) (zip (arg_keys (length prims)) prims) = true).
      { apply forallb_forall. intros [k p] Hin. cbn [snd].
        assert (In p prims).
        { rewrite <- (map_snd_zip (arg_keys (length prims)) prims) by (rewrite arg_keys_length; lia).
          apply (in_map snd) in Hin. exact Hin. }
        rewrite Forall_forall in Hp. apply Hp in H. destruct (ntype p); cbn; congruence. }
      rewrite Hall. cbn [negb signature_of vdata length Nat.eqb].
      assert (Hv : existsb (fun a => is_ok (validate_prims (dvals (zip (arg_keys (length prims)) prims)) a)) [Repeating [None]] = true).
      { cbn [existsb]. apply orb_true_iff. left. unfold dvals.
        rewrite map_snd_zip by (rewrite arg_keys_length; lia).
        unfold validate_prims. cbn [length bind]. rewrite Nat.div_1_r.
        assert (Hrep : map (fun t : option ptype => match t with None => TPrimNode | Some t => t end)
                 (List.concat (List.repeat [None] (length prims))) = List.repeat TPrimNode (length prims)).
        { clear. induction (length prims); cbn; congruence. }
        rewrite Hrep, repeat_length, Nat.eqb_refl. cbn [negb].
        assert (Hfb : forallb (fun pt : prim * ptype => issubclass (ntype (fst pt)) (snd pt)) (zip prims (List.repeat TPrimNode (length prims))) = true).
        { clear -Hp. induction Hp as [|p prims Hp _ IH]; [reflexivity|]. cbn [length List.repeat zip forallb fst snd]. rewrite IH.
          destruct (ntype p); cbn; congruence. }
        now rewrite Hfb. }
      rewrite Hv. reflexivity.
    - pose proof (arg_keys_NoDup (length prims)) as Hnd. pose proof (arg_keys_length (length prims)) as Hlen.
      assert (Hns : Forall (fun k => noslash k = true) (arg_keys (length prims))).
      { apply Forall_forall. intros k Hk. apply in_map_iff in Hk as (i & <- & _). now rewrite noslash_app, noslash_dec. }
      generalize dependent (arg_keys (length prims)). intros ks Hd Hnd Hlen Hns. clear Hd Hp.
      assert (Hall : Forall2 (fun k p => In (k, p) (zip ks prims) /\ noslash k = true) ks prims).
      { clear Hnd. revert prims Hlen. induction Hns as [|k ks Hk Hks IH]; intros [|p prims] Hlen; try discriminate; constructor.
        - split; [now left|assumption].
        - cbn [zip]. assert (Hr : Forall2 (fun k p => In (k, p) (zip ks prims) /\ noslash k = true) ks prims) by (apply IH; cbn in Hlen; lia).
          clear -Hr. revert Hr. generalize (zip ks prims). intros l Hr. induction Hr as [|x y a b [H1 H2] Hr IH]; constructor; [split; [now right|assumption]|assumption]. }
      eapply Forall2_imp; [|exact Hall]. intros k p [Hin Hk]. unfold looks_up. rewrite get_child_walk.
      rewrite split_all_single by assumption. cbn [walk nch].
      rewrite (In_dget k p); [reflexivity| |assumption]. rewrite map_fst_zip by lia. assumption.
  Qed.

  Lemma call_denote (c : cons) prims params outs :
    Forall (fun p => ntype p <> TNode) prims -> valid_args c prims params ->
    denote c prims params = Ok outs -> call c prims params = Ok (List.concat outs).
  Proof.
    intros Hp [Hv Hn] Hd. unfold call.
    apply valid_prims_iff in Hv. rewrite Hv. apply valid_params_iff in Hn. rewrite Hn. cbn [bind].
    destruct (root_prim_ok prims Hp) as (root & -> & Hl). cbn [bind].
    destruct (eval_tree root c _ _ _ _ Hl Hd) as (kt & pt & fps & -> & -> & Hs1 & Hs2 & Hg & He). cbn [bind].
    unfold assem_from_tree.
    assert (Hk : map (fun x : string * knode => nval (snd x)) (iter_flat "" kt) = kvals kt).
    { unfold kvals. rewrite <- (iter_flat_preorder kt ""), map_map. reflexivity. }
    rewrite Hk, Hg. cbn [bind]. rewrite iter_flat_preorder.
    assert (Hpv : map (fun x : string * pnode F => nval (snd x)) (iter_flat "" pt) = map (@nval _ _) (preorder pt)).
    { rewrite <- (iter_flat_preorder pt ""), map_map. reflexivity. }
    rewrite Hpv. unfold flat_eval in He. rewrite zip_map_l, mapM_map in He. unfold eval1 in He. cbn [fst snd] in He.
    rewrite He. cbn [bind].
    destruct outs as [|o outs]; [|reflexivity].
    destruct c as [t v ch]. rewrite denote_unfold in Hd. repeat inv_bind Hd. discriminate.
  Qed.

  (** ** Converse *)
  Definition conv_spec (root : prim) (c : cons) : Prop := forall ks ps params kt pt fps outs,
    Forall2 (looks_up root) ks ps -> arity_ok c params ->
    root_prim_keys c ks = Ok kt -> root_params c params = Ok pt ->
    mapM (mapM (get_child root)) (kvals kt) = Ok fps ->
    flat_eval c fps pt = Ok outs ->
    same_shape c kt /\ same_shape c pt /\ denote c ps params = Ok outs.

  Lemma mapM_app_inv {A B} (f : A -> result B) a b r : mapM f (a ++ b) = Ok r ->
    exists x y, mapM f a = Ok x /\ mapM f b = Ok y /\ r = x ++ y.
  Proof. rewrite mapM_app. intros H. inv_bind H. inv_bind H. inversion H; subst. eauto. Qed.

  Lemma rpk_shape c : forall ks kt (params : list pyval), arity_ok c params -> root_params c params <> Err ValueErr ->
    root_prim_keys c ks = Ok kt -> forall pt, root_params c params = Ok pt -> same_shape c kt /\ same_shape c pt.
  Proof.
    induction c as [t v ch IH] using node_ind'. intros ks kt params Ha _ Hk pt Hp.
    rewrite root_prim_keys_unfold in Hk. rewrite root_params_unfold in Hp.
    inv_bind Hk. inv_bind Hk. inversion Hk; subst kt. inv_bind Hp. inv_bind Hp. inversion Hp; subst pt.
    inversion Ha as [? ? ? ? Hl Hc]; subst. destruct (Hc _ E1) as [Hlc Hci]. apply mapM_length in E. rewrite Hl in E.
    assert (Hgoal : map fst ch = map fst x0 /\ map fst ch = map fst x2 /\
              Forall2 (fun x y => same_shape (snd x) (snd y)) ch x0 /\ Forall2 (fun x y => same_shape (snd x) (snd y)) ch x2).
    { clear Ha Hc Hk Hp E1 Hl. revert x x0 x1 x2 E E0 E2 Hlc Hci.
      induction ch as [|[k c] ch IHch]; intros kss kts cps pts Hl1 H1 H2 Hl2 Hci.
      - cbn in *. inversion H1; inversion H2; subst. repeat split; constructor.
      - destruct kss as [|ck kss]; [discriminate|]. destruct cps as [|cp cps]; [cbn in Hl2; lia|].
        cbn [rpks rps] in H1, H2. inv_bind H1. inv_bind H1. inversion H1; subst. inv_bind H2. inv_bind H2. inversion H2; subst.
        inversion IH as [|? ? Hc IHr]; subst. cbn [snd] in Hc.
        destruct (Hc ck x cp) with (pt := x1) as [S1 S2]; [now apply (Hci 0 k c cp)|congruence|assumption|assumption|].
        destruct (IHch IHr kss x0 cps x2) as (S3 & S4 & S5 & S6); auto.
        { cbn in Hl2. lia. }
        { intros i k' c' p' Hi Hp'. now apply (Hci (S i) k' c' p'). }
        cbn [map fst]. rewrite <- S3, <- S4. repeat split; constructor; auto. }
    destruct Hgoal as (G1 & G2 & G3 & G4). split; now constructor.
  Qed.

  Lemma conv_children root : forall (ch : dict cons), Forall (fun kc => conv_spec root (snd kc)) ch ->
    forall kss cps kts pts fps outs,
    length kss = length ch -> length ch <= length cps ->
    (forall i k c p, nth_error ch i = Some (k, c) -> nth_error cps i = Some p -> arity_ok c p) ->
    rpks ch kss = Ok kts -> rps ch cps = Ok pts ->
    mapM (mapM (get_child root)) (map (@nval _ _) (dpre kts)) = Ok fps ->
    mapM eval1 (zip (map (@ntype _ _) (dpre ch)) (zip fps (map (@nval _ _) (dpre pts)))) = Ok outs ->
    exists sels, Forall2 (Forall2 (looks_up root)) kss sels /\ denotes ch sels cps = Ok outs.
  Proof.
    induction 1 as [|[k c] ch Hc Hch IH]; intros kss cps kts pts fps outs Hl1 Hl2 Har H1 H2 Hg He.
    - destruct kss; [|discriminate]. cbn in *. inversion He; subst. exists []. split; [constructor|reflexivity].
    - destruct kss as [|ck kss]; [discriminate|]. destruct cps as [|cp cps]; [cbn in Hl2; lia|].
      cbn [rpks rps] in H1, H2. inv_bind H1. inv_bind H1. inversion H1; subst kts. inv_bind H2. inv_bind H2. inversion H2; subst pts.
      unfold dpre in *. cbn [flat_map snd] in *. rewrite map_app in Hg.
      apply mapM_app_inv in Hg as (f1 & f2 & Hf1 & Hf2 & ->).
      assert (Har0 : arity_ok c cp) by (now apply (Har 0 k c cp)).
      destruct (rpk_shape c ck x cp Har0 ltac:(congruence) E x1 E1) as [S1 S2].
      apply same_shape_length in S1, S2.
      assert (Hfl : length f1 = length (preorder c)) by (apply mapM_length in Hf1; rewrite map_length in Hf1; lia).
      rewrite !map_app in He. rewrite (zip_app f1 f2) in He by (rewrite map_length; lia).
      rewrite zip_app in He by (rewrite map_length, zip_length, map_length; lia).
      apply mapM_app_inv in He as (o1 & o2 & Ho1 & Ho2 & ->).
      assert (Hroot : nval x = ck).
      { destruct c as [t v cch]. rewrite root_prim_keys_unfold in E. inv_bind E. inv_bind E. inversion E; subst. reflexivity. }
      assert (Hsel : exists s, Forall2 (looks_up root) ck s).
      { destruct x as [tx vx chx]. cbn in Hroot. subst vx. cbn [preorder map nval mapM] in Hf1. inv_bind Hf1.
        apply mapM_Ok_iff in E3. eauto. }
      destruct Hsel as [s Hs].
      cbn [snd] in Hc. destruct (Hc ck s cp x x1 f1 o1 Hs Har0 E E1 Hf1 Ho1) as (_ & _ & Hd).
      destruct (IH kss cps x0 x2 f2 o2) as (sels & Hsels & Hds); auto.
      { cbn in Hl2. lia. }
      { intros i k' c' p' Hi Hp'. now apply (Har (S i) k' c' p'). }
      exists (s :: sels). split; [now constructor|]. cbn [denotes]. rewrite Hd. cbn [bind]. rewrite Hds. reflexivity.
  Qed.

  Lemma conv_tree root c : conv_spec root c.
  Proof.
    induction c as [t v ch IH] using node_ind'. intros ks ps params kt pt fps outs Hf Ha Hk Hp Hg He.
    destruct (rpk_shape _ _ _ _ Ha ltac:(congruence) Hk _ Hp) as [S1 S2]. split; [assumption|]. split; [assumption|].
    rewrite root_prim_keys_unfold in Hk. rewrite root_params_unfold in Hp.
    inv_bind Hk. inv_bind Hk. inversion Hk; subst kt. inv_bind Hp. inv_bind Hp. inversion Hp; subst pt.
    inversion Ha as [? ? ? ? Hl Hc]; subst. destruct (Hc _ E1) as [Hlc Hci].
    unfold kvals in Hg. cbn [preorder map nval mapM] in Hg. inv_bind Hg. inv_bind Hg. inversion Hg; subst fps.
    assert (x3 = ps).
    { assert (Hx : mapM (get_child root) ks = Ok ps) by (apply mapM_Ok_iff; exact Hf). congruence. }
    subst x3.
    unfold flat_eval in He. cbn [preorder map ntype nval zip mapM] in He. inv_bind He. inv_bind He. inversion He; subst outs.
    unfold eval1 in E5. cbn [fst snd] in E5.
    pose proof (mapM_length _ _ _ E) as Hlx.
    destruct (conv_children root ch IH x x1 x0 x2 x4 x5) as (sels & Hsels & Hds); auto; try lia.
    assert (Hsel : mapM (mapM (select ps)) (cpk v) = Ok sels).
    { apply (subst_selectss root ks ps _ _ Hf). eauto. }
    rewrite denote_unfold, E5. cbn [bind]. rewrite Hsel. cbn [bind]. rewrite E1. cbn [bind]. rewrite Hds. reflexivity.
  Qed.

  Lemma denote_call (c : cons) prims params v :
    Forall (fun p => ntype p <> TNode) prims -> arity_ok c params ->
    call c prims params = Ok v ->
    valid_args c prims params /\ exists outs, denote c prims params = Ok outs /\ v = List.concat outs.
  Proof.
    intros Hp Ha H. unfold call in H. inv_bind H. destruct x. inv_bind H. destruct x. cbn zeta in H.
    split; [split; [now apply valid_prims_iff|now apply valid_params_iff]|].
    destruct (root_prim_ok prims Hp) as (root & Hr & Hl). rewrite Hr in H. cbn [bind] in H.
    inv_bind H. inv_bind H. unfold assem_from_tree in H. inv_bind H. inv_bind H.
    rewrite iter_flat_preorder in E4.
    assert (Hk : map (fun x : string * knode => nval (snd x)) (iter_flat "" x) = kvals x).
    { unfold kvals. rewrite <- (iter_flat_preorder x ""), map_map. reflexivity. }
    rewrite Hk in E3.
    assert (Hpv : map (fun x : string * pnode F => nval (snd x)) (iter_flat "" x0) = map (@nval _ _) (preorder x0)).
    { rewrite <- (iter_flat_preorder x0 ""), map_map. reflexivity. }
    rewrite Hpv in E4.
    assert (He : flat_eval c x1 x0 = Ok x2).
    { unfold flat_eval. rewrite zip_map_l, mapM_map. exact E4. }
    destruct (conv_tree root c _ _ _ _ _ _ _ Hl Ha E1 E2 E3 He) as (_ & _ & Hd).
    exists x2. split; [assumption|]. destruct x2; inversion H. reflexivity.
  Qed.
End ConsP.
