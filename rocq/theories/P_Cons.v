(** Properties C20, C22-C29 and C31-C33: evaluating constructions and the construction
    transforms.
    Vocabulary (ConsSpec.v): [denote], the outputs of a construction tree node by node by
    plain recursion; [select], the primitive an 'arg{i}/path' key names; [fits]: at every
    node the derived parameters and named primitives have the declared numbers;
    [summable], [independent]; [declared_sizes]; [valid_args]. *)
From Coq Require Import QArith Reals Lra.
From Verif Require Import CstrR Constr ConsSpec.
Local Open Scope nat_scope.

(** Every argument is a primitive (not a bare [Node]). *)
Notation primitives prims := (Forall (fun p : prim _ => ntype p <> TNode) prims).
(** Every node returns as many numbers as its signature declares. *)
Definition returns_declared {F} {N : Num F} (c : cons F) prims params : Prop :=
  exists outs, denote c prims params = Ok outs /\ map (@length F) outs = declared_sizes c.

Section Props.
Context {F : Type} {N : Num F}.
Notation prim := (prim F).
Notation pyval := (pyval F).
Notation cons := (cons F).

(** ** C20 *)
Theorem C20_call_concatenates_outputs (c : cons) prims params : primitives prims -> arity_ok c params ->
  forall v, call c prims params = Ok v <->
    valid_args c prims params /\ exists outs, denote c prims params = Ok outs /\ v = List.concat outs.
Proof.
  intros Hp Ha v. split.
  - now apply denote_call.
  - intros (Hv & outs & Hd & ->). now apply call_denote.
Qed.
(** Without any assumption on the derived parameter counts, the documented value is
    returned whenever it exists. *)
Theorem C20_call_returns_documented_value (c : cons) prims params outs :
  primitives prims -> valid_args c prims params -> denote c prims params = Ok outs ->
  call c prims params = Ok (List.concat outs).
Proof. apply call_denote. Qed.
(** The outputs of a tree: its own, then those of its children in order, each on the
    primitives named by its keys and the parameters its parent derives. *)
Theorem C20_outputs_of_a_tree t v (ch : dict cons) prims params outs :
  denote (Node t v ch) prims params = Ok outs <->
  exists own sels cps childouts,
    (x <- cassem t prims params ;; atleast_1d x) = Ok own /\
    Forall2 (Forall2 (fun key p => select prims key = Ok p)) (cpk v) sels /\
    cparams v params = Ok cps /\
    length ch <= length sels /\ length ch <= length cps /\
    Forall2 (fun x o => denote (snd (fst x)) (fst (snd x)) (snd (snd x)) = Ok o) (zip ch (zip sels cps)) childouts /\
    outs = own :: List.concat childouts.
Proof.
  rewrite denote_unfold. split.
  - intros H. inv_bind H. inv_bind H. inv_bind H. inv_bind H. inversion H; subst. exists x, x0, x1.
    assert (Hs : exists childouts, length ch <= length x0 /\ length ch <= length x1 /\
      Forall2 (fun x o => denote (snd (fst x)) (fst (snd x)) (snd (snd x)) = Ok o) (zip ch (zip x0 x1)) childouts /\ x2 = List.concat childouts).
    { clear -E2. revert x0 x1 x2 E2. induction ch as [|[k c] ch IH]; intros sels cps outs Hd; cbn [denotes] in Hd.
      - inversion Hd; subst. exists []. cbn. repeat split; try lia. constructor.
      - destruct sels as [|s sels]; [discriminate|]. destruct cps as [|p cps]; [discriminate|]. inv_bind Hd. inv_bind Hd. inversion Hd; subst.
        destruct (IH _ _ _ E0) as (os & H1 & H2 & H3 & ->). exists (x :: os). cbn [length zip List.concat]. repeat split; try lia. constructor; assumption. }
    destruct Hs as (os & H1 & H2 & H3 & ->). exists os. repeat split; auto.
    apply mapM_Ok_iff in E0. eapply Forall2_imp; [|exact E0]. intros a b Hab. now apply mapM_Ok_iff in Hab.
  - intros (own & sels & cps & os & H1 & H2 & H3 & H4 & H5 & H6 & ->). unfold assem1. rewrite H1. cbn [bind].
    assert (Hs : mapM (mapM (select prims)) (cpk v) = Ok sels).
    { apply mapM_Ok_iff. eapply Forall2_imp; [|exact H2]. intros a b Hab. now apply mapM_Ok_iff. }
    rewrite Hs. cbn [bind]. rewrite H3. cbn [bind].
    assert (Hd : denotes ch sels cps = Ok (List.concat os)).
    { clear -H4 H5 H6. revert sels cps os H4 H5 H6. induction ch as [|[k c] ch IH]; intros [|s sels] [|p cps] os H4 H5 H6; cbn in H4, H5; try lia;
        cbn [zip] in H6; inversion H6 as [|? o ? os' Ho Hos]; subst; try reflexivity.
      cbn [denotes]. cbn [fst snd] in Ho. rewrite Ho. cbn [bind]. rewrite (IH sels cps os'); auto; lia. }
    rewrite Hd. reflexivity.
Qed.
Theorem C20_selection (prims : list prim) key i path p : components key (("arg" ++ dec i)%string :: path) ->
  select prims key = Ok p <-> exists q, nth_error prims i = Some q /\ walk path q = Some p.
Proof. intros H. now apply select_spec. Qed.

(** ** C22 *)
Theorem C22_sum_exists_iff (a b : cons) : wf a ->
  (summable a b -> exists c, transform_sum a b = Ok c /\ op_add a (OCons b) = Ok c /\
     csig (nval c) = {| prim_types := prim_types (csig (nval a)) ++ prim_types (csig (nval b));
                        nparams := nparams (csig (nval a)) + nparams (csig (nval b));
                        value_size := value_size (csig (nval a)) |}) /\
  (~ summable a b -> transform_sum a b = Err AssertErr).
Proof.
  intros Hw. destruct (transform_sum_cases a b Hw) as [[H1 H2]|[H1 H2]]; split; intros H; try contradiction.
  - exists (tsum a b). repeat split; [assumption|exact H2|]. apply sum_sig.
  - assumption.
Qed.

(** ** C28 *)
(** [gs] are the parameter groups, [vs] the values of the mapped construction. *)
Theorem C28_map_evaluates_each (c : cons) (ts : list ptype) prims gs vs :
  let M := length (prim_types (csig (nval c))) - 1 in
  let n := length ts - M in
  1 <= length (prim_types (csig (nval c))) <= length ts ->
  length prims = length ts -> primitives prims ->
  length gs = n -> Forall (arity_ok c) gs -> length vs = n ->
  (forall i p g v, nth_error prims i = Some p -> nth_error gs i = Some g -> nth_error vs i = Some v ->
     call c (p :: skipn n prims) g = Ok v) ->
  exists m, transform_map c ts = Ok m /\ call m prims (List.concat gs) = Ok (List.concat vs) /\
            length (nch m) = n.
Proof.
  cbn zeta. intros Hl Hn Hp Hg Ha Hv Hc. exists (mapped c (length ts)). split; [apply transform_map_ok|].
  assert (Hnum : map_num c (length ts) = length ts - (length (prim_types (csig (nval c))) - 1)) by (unfold map_num; lia).
  split.
  - apply call_map; auto; try lia. rewrite Hnum. set (num := length ts - _) in *.
    assert (Hnl : num <= length prims) by lia. clearbody num. clear -Hg Hv Hc Hnl.
    assert (Hgen : forall k gs vs, length gs = length vs -> k + length gs <= length prims ->
      (forall i p g v, nth_error prims (k + i) = Some p -> nth_error gs i = Some g -> nth_error vs i = Some v -> call c (p :: skipn num prims) g = Ok v) ->
      Forall2 (fun ig v => call c (nth_prims prims num (fst ig)) (snd ig) = Ok v) (zip (seq k (length gs)) gs) vs).
    { clear -N. intros k gs. revert k. induction gs as [|g gs IH]; intros k [|v vs] Hl Hk H; try discriminate; [constructor|].
      cbn [length seq zip]. constructor.
      - cbn [fst snd]. destruct (nth_error prims k) as [p|] eqn:E.
        2: { apply nth_error_None in E. cbn in Hk. lia. }
        unfold nth_prims.
        assert (Hs : firstn 1 (skipn k prims) = [p]).
        { clear -E. revert k E. induction prims as [|q l IHl]; intros [|k] E; cbn in *; try discriminate; [now inversion E|now apply IHl]. }
        rewrite Hs. cbn [app]. apply (H 0 p g v); auto. now rewrite Nat.add_0_r.
      - apply IH; [now inversion Hl|cbn in Hk; lia|]. intros i p g' v' H1 H2 H3. apply (H (S i) p g' v'); auto. now rewrite <- Nat.add_succ_comm. }
    replace (seq 0 num) with (seq 0 (length gs)) by now rewrite Hg. apply Hgen; [congruence|cbn; lia|exact Hc].
  - cbn. rewrite map_length, seq_length. exact Hnum.
Qed.

(** ** C31 *)
Theorem C31_invalid_arguments_raise (c : cons) prims params :
  ~ valid_args c prims params -> call c prims params = Err TypeErr.
Proof.
  intros H. unfold call. destruct (valid_prims_err c prims) as [E|E]; rewrite E; [|reflexivity]. cbn [bind].
  destruct (valid_params_err c params) as [E'|E']; rewrite E'; [|reflexivity]. exfalso. apply H.
  split; [now apply valid_prims_iff|now apply valid_params_iff].
Qed.
Theorem C31_valid_arguments_pass (c : cons) prims params :
  valid_args c prims params <-> cvalidate_prims c prims = Ok tt /\ cvalidate_params c params = Ok tt.
Proof. unfold valid_args. now rewrite valid_prims_iff, valid_params_iff. Qed.

(** ** C29 *)
Theorem C29_partial_application (c : cons) frozen prims rest :
  frozen <> [] -> length frozen <= nparams (csig (nval c)) ->
  length (cpk (nval c)) = length (nch c) -> ~ In EmptyString (nkeys c) ->
  exists p, transform_partial c frozen = Ok p /\ call p prims rest = call c prims (rest ++ frozen).
Proof. apply partial_call. Qed.
(** Freezing nothing gives a construction that takes no parameters, so the claim for an
    empty list of frozen parameters holds exactly when none are taken. *)
Theorem C29_nothing_frozen (c : cons) prims rest :
  length (cpk (nval c)) = length (nch c) -> ~ In EmptyString (nkeys c) ->
  exists p, transform_partial c [] = Ok p /\
    (rest <> [] -> call p prims rest = Err TypeErr) /\
    (nparams (csig (nval c)) = 0 -> call p prims rest = call c prims rest).
Proof.
  destruct c as [t v ch]. cbn [nval nch]. intros Hpk Hk. unfold transform_partial. cbn [nval nch ntype].
  rewrite mk_cons_ok; [|assumption|assumption]. eexists. split; [reflexivity|]. split.
  - intros Hr. apply C31_invalid_arguments_raise. intros [_ H]. cbn in H. destruct rest; [contradiction|discriminate].
  - intros H0. destruct rest as [|r rest].
    2: { rewrite !C31_invalid_arguments_raise; [reflexivity| |]; intros [_ H]; cbn in H; [rewrite H0 in H|]; discriminate. }
    unfold call. unfold cvalidate_prims, cvalidate_params. cbn [nval csig prim_types nparams]. rewrite H0.
    repeat match goal with |- bind ?x _ = bind ?x _ => destruct x as [?|?]; [cbn [bind]|reflexivity] end.
    rewrite !root_prim_keys_unfold, !root_params_unfold. unfold child_prim_keys. cbn [nval cpk cparams app].
    destruct (mapM (mapM (replace_prim_key_prefix (arg_keys (length prims)))) (cpk v)) as [cks|]; [cbn [bind]|reflexivity].
    destruct (rpks ch cks) as [ks|]; [cbn [bind]|reflexivity].
    destruct (cparams v []) as [cps|]; [cbn [bind]|reflexivity].
    destruct (rps ch cps) as [ps|]; [cbn [bind]|reflexivity].
    unfold assem_from_tree. rewrite !iter_flat_node.
    rewrite <- !(map_map snd (fun x => nval x)). rewrite !iter_flat_node. cbn [map nval mapM].
    destruct (mapM (get_child a1) (arg_keys (length prims))) as [q|]; [cbn [bind]|reflexivity].
    destruct (mapM (mapM (get_child a1)) (map (fun x : knode => nval x) (dpre ks))) as [qs|]; [cbn [bind]|reflexivity].
    cbn [zip mapM fst snd ntype]. unfold assem1 at 1 4. cbn [cassem]. reflexivity.
Qed.

(** ** C32 *)
(** ** C32 *)
(** A key tuple with a wrong number of keys is not noticed (C32_arity_refuted below). *)
Theorem C32_constructor (t : cls F) v (ch : dict cons) :
  (mk_cons t v ch = Ok (Node t v ch) <-> length (cpk v) = length ch /\ ~ In EmptyString (map fst ch)) /\
  (mk_cons t v ch = Err ValueErr <-> length (cpk v) <> length ch \/ In EmptyString (map fst ch)).
Proof.
  destruct (mk_cons_cases t v ch) as [(H1 & H2 & H3)|[H1 H3]]; rewrite H3; split; split; intros H; auto; try discriminate.
  - destruct H; contradiction.
  - destruct H as [H H']. destruct H1; contradiction.
Qed.

(** ** C33 *)
Theorem C33_adding_numbers_refuted (c : cons) v : op_add c (OVal v) = Err AttrErr /\ op_radd v c = Err AttrErr.
Proof. split; reflexivity. Qed.
(** Sums never accept numbers; products do, from the left always, from the right unless
    [c] is a Scalar. *)
Theorem C33_products (c : cons) v : wf c -> is_number v = true ->
  (exists m, op_rmul v c = Ok m) /\ (is_kind KScalar c = false -> exists m, op_mul c (OVal v) = Ok m).
Proof.
  intros Hw Hv.
  assert (H : exists m, transform_scalar_mul c (OVal v) = Ok m).
  { unfold transform_scalar_mul, to_scalar. rewrite Hv. unfold transform_partial.
    rewrite mk_cons_ok; [|reflexivity|exact (fun x => x)]. cbn [bind]. eexists. now apply transform_scalar_tmap. }
  split; [exact H|]. intros Hk. unfold op_mul. rewrite Hk. exact H.
Qed.
Theorem C33_scalar_times_number_refuted v : op_mul (Scalar (F:=F)) (OVal v) = Err AttrErr.
Proof. reflexivity. Qed.
End Props.

(** ** Properties about values, over the real numbers *)
Section PropsR.
Local Open Scope R_scope.
Notation prim := (prim R).
Notation pyval := (pyval R).
Notation cons := (cons R).

(** ** C23 *)
(** What the sum of any two summable constructions is: node by node, own outputs add up,
    and its parts are the sums of the parts.  Primitive keys of parts, of both summands,
    are read against the joined argument list. *)
Theorem C23_sum_node_by_node (a b : cons) : wf a -> summable a b ->
  exists c, transform_sum a b = Ok c /\ nkeys c = nkeys a /\
    (forall i k x y, nth_error (nch a) i = Some (k, x) -> nth_error (nch b) i = Some (k, y) ->
       exists z, nth_error (nch c) i = Some (k, z) /\ transform_sum x y = Ok z) /\
    cpk (nval c) = map (fun ab => fst ab ++ snd ab) (zip (cpk (nval a)) (cpk (nval b))) /\
    (forall pa pb qa qb,
       length pa = length (prim_types (csig (nval a))) -> length pb = length (prim_types (csig (nval b))) ->
       length qa = nparams (csig (nval a)) -> length qb = nparams (csig (nval b)) ->
       cassem (ntype c) (pa ++ pb) (qa ++ qb) =
         (x <- cassem (ntype a) pa qa ;; y <- cassem (ntype b) pb qb ;; py_add x y) /\
       cparams (nval c) (qa ++ qb) =
         (ca <- cparams (nval a) qa ;; cb <- cparams (nval b) qb ;; Ok (map (fun ab => fst ab ++ snd ab) (zip ca cb)))).
Proof.
  intros Hw Hs. destruct (transform_sum_cases a b Hw) as [[_ E]|[H _]]; [|contradiction]. exists (tsum a b). split; [exact E|].
  clear E. inversion Hs as [ta va cha tb vb chb Hk Hv Hc]; subst. rewrite tsum_unfold. pose proof (Forall2_len _ _ _ Hc) as Hl.
  split; [unfold nkeys, dkeys; cbn [nch]; now apply tsums_keys|]. split; [|split; [reflexivity|]].
  - cbn [nch]. apply wf_children in Hw as [_ Hwc]. clear -Hc Hwc. induction Hc as [|[k1 x1] [k2 y1] cha chb H1 Hc IH]; intros i k x y Hx Hy; [destruct i; discriminate|].
    inversion Hwc as [|? ? W1 W2]; subst. cbn [snd] in *. cbn [tsums].
    destruct i as [|i]; cbn in Hx, Hy |- *.
    + inversion Hx; inversion Hy; subst. eexists. split; [reflexivity|]. destruct (transform_sum_cases x y W1) as [[_ E]|[H _]]; [exact E|contradiction].
    + now apply (IH W2).
  - intros pa pb qa qb L1 L2 L3 L4. cbn [ntype nval] in *. unfold sum_parts. cbn [fst snd cassem cparams nval ntype].
    rewrite (split_app' _ _ pa pb L1 L2), (split_app' _ _ qa qb L3 L4). split; reflexivity.
Qed.
(** Hence values add up when the child keys of the second summand do not refer to its
    primitives or the first summand takes none; otherwise they need not
    (C23_sum_adds_values_refuted below). *)
Theorem C23_sum_adds_values (a b : cons) pa pb qa qb va vb :
  wf a -> summable a b -> independent a b -> fits a qa -> fits b qb -> primitives pa -> primitives pb ->
  returns_declared a pa qa -> returns_declared b pb qb ->
  call a pa qa = Ok va -> call b pb qb = Ok vb ->
  exists c, transform_sum a b = Ok c /\
            call c (pa ++ pb) (qa ++ qb) = Ok (map (fun xy => fst xy + snd xy) (zip va vb)) /\
            length va = length vb.
Proof.
  intros Hw Hs Hi Hfa Hfb Hpa Hpb (oa & Ha1 & Ha2) (ob & Hb1 & Hb2) Ha Hb.
  destruct (call_sum (F:=R) (N:=NumR) plus_IZR a b pa pb qa qb va vb oa ob) as (c & Hc1 & Hc2); auto.
  exists c. split; [assumption|]. split; [exact Hc2|].
  apply denote_call in Ha as (_ & o & Ho & ->); [|assumption|now apply fits_arity].
  apply denote_call in Hb as (_ & o' & Ho' & ->); [|assumption|now apply fits_arity].
  rewrite Ha1 in Ho. rewrite Hb1 in Ho'. inversion Ho; inversion Ho'; subst.
  assert (E : map (@length R) o = map (@length R) o') by (rewrite Ha2, Hb2; now apply summable_sizes).
  clear -E. revert o' E. induction o as [|x o IH]; intros [|y o'] E; try discriminate; [reflexivity|].
  cbn in *. injection E as E1 E2. rewrite !app_length. f_equal; auto.
Qed.

(** ** C24 *)
Lemma partial_scalar_operand (v : pyval) : exists s, transform_partial Scalar [v] = Ok s /\ scalar_operand s [] v /\ wf s /\ is_kind KScalar s = true.
Proof.
  eexists. split; [|split; [|split]].
  - unfold transform_partial. rewrite mk_cons_ok; [reflexivity|reflexivity|exact (fun x => x)].
  - constructor; reflexivity.
  - cbn. constructor; [constructor|constructor].
  - reflexivity.
Qed.
Lemma is_number_num_of (v : pyval) : is_number v = true -> exists k, num_of v = Some k.
Proof. destruct v; cbn; try discriminate; eauto. Qed.

(** [k] is the number the Python value [x] stands for. *)
Theorem C24_scalar_multiple (c : cons) (x : pyval) k prims params v :
  wf c -> fits c params -> primitives prims -> call c prims params = Ok v ->
  is_number x = true -> num_of x = Some k ->
  (exists m, op_rmul x c = Ok m /\ call m prims params = Ok (map (fun y => k * y) v)) /\
  (is_kind KScalar c = false -> exists m, op_mul c (OVal x) = Ok m /\ call m prims params = Ok (map (fun y => k * y) v)).
Proof.
  intros Hw Hf Hp Hc Hx Hk.
  assert (H : exists m, transform_scalar_mul c (OVal x) = Ok m /\ call m prims params = Ok (map (fun y => k * y) v)).
  { destruct (partial_scalar_operand x) as (s & Hs1 & Hs2 & _).
    unfold transform_scalar_mul, to_scalar. rewrite Hx, Hs1. cbn [bind].
    destruct (scalar_mul_R c s [] x k Hw Hs2 Hk prims params v Hp Hf Hc) as (m & Hm1 & Hm2).
    rewrite app_nil_r in Hm2. eauto. }
  split; [exact H|]. intros Hn. unfold op_mul. rewrite Hn. exact H.
Qed.
Theorem C24_negation (c : cons) prims params v :
  wf c -> fits c params -> primitives prims -> call c prims params = Ok v ->
  exists m, op_neg c = Ok m /\ call m prims params = Ok (map Ropp v).
Proof.
  intros Hw Hf Hp Hc.
  destruct (C24_scalar_multiple c (PFlt (-1)) (-1) prims params v Hw Hf Hp Hc eq_refl eq_refl) as ((m & H1 & H2) & _).
  exists m. split; [exact H1|]. rewrite H2. f_equal. apply map_ext. intros y. lra.
Qed.
Theorem C24_scalar_construction (c : cons) (x : pyval) k prims params v :
  wf c -> fits c params -> primitives prims -> call c prims params = Ok v -> num_of x = Some k ->
  (exists m, op_mul Scalar (OCons c) = Ok m /\ call m prims (params ++ [x]) = Ok (map (fun y => k * y) v)) /\
  (is_kind KScalar c = false -> exists m, op_mul c (OCons Scalar) = Ok m /\ call m prims (params ++ [x]) = Ok (map (fun y => k * y) v)).
Proof.
  intros Hw Hf Hp Hc Hk.
  assert (Hso : scalar_operand (Scalar (F:=R)) [x] x) by (constructor; reflexivity).
  assert (H : exists m, transform_scalar_mul c (OCons Scalar) = Ok m /\ call m prims (params ++ [x]) = Ok (map (fun y => k * y) v)).
  { destruct (scalar_mul_R c Scalar [x] x k Hw Hso Hk prims params v Hp Hf Hc) as (m & Hm1 & Hm2). exists m. split; [exact Hm1|exact Hm2]. }
  split; [exact H|]. intros Hn. unfold op_mul. rewrite Hn. exact H.
Qed.

(** ** C25 *)
Lemma Int_part_IZR z : Int_part (IZR z) = z.
Proof.
  unfold Int_part. assert (H : (z + 1)%Z = up (IZR z)) by (apply tech_up; rewrite plus_IZR; lra). rewrite <- H. lia.
Qed.
Lemma Rpow_int x z : (x <> 0 \/ (0 <= z)%Z) -> Rpow_r x (IZR z) = Ok (powerRZ x z).
Proof.
  intros H. unfold Rpow_r. rewrite Int_part_IZR. destruct (Req_EM_T (IZR z) (IZR z)) as [_|n]; [|contradiction].
  destruct (Req_EM_T x 0); [|reflexivity]. destruct (Rlt_dec (IZR z) 0) as [Hz|]; [|reflexivity].
  exfalso. apply lt_IZR in Hz. destruct H; [contradiction|lia].
Qed.
Lemma Rpow_minus1 k : k <> 0 -> npow k (nofZ (-1)) = Ok (/ k).
Proof. intros H. cbn [npow nofZ NumR]. rewrite Rpow_int by auto. change (powerRZ k (-1)) with (/ (k ^ 1)). now rewrite pow_1. Qed.

Lemma recip_operand (s : cons) pb x k : wf s -> is_kind KScalar s = true -> scalar_operand s pb x -> num_of x = Some k -> k <> 0 ->
  exists p y, transform_scalar_pow s (OVal (PInt (-1))) = Ok p /\ is_kind KScalar p = true /\ scalar_operand p pb y /\ num_of y = Some (/ k).
Proof.
  intros Hw Hks [H1 H2 H3] Hk Hz. unfold transform_scalar_pow, to_scalar. cbn [is_number].
  unfold transform_partial. rewrite mk_cons_ok; [|reflexivity|exact (fun x => x)]. cbn [bind].
  rewrite transform_scalar_tmap by assumption.
  assert (Hy : exists y, py_pow x (PInt (-1)) = Ok y /\ num_of y = Some (/ k)).
  { pose proof (Rpow_minus1 k Hz) as Hp. destruct x; cbn in Hk; inversion Hk; subst k; unfold py_pow, arith2; cbn [to_operand bind];
      unfold n0, n1 in *; cbn [npow nofZ NumR] in *; rewrite Hp; cbn [bind andb]; eexists; split; reflexivity. }
  destruct Hy as (y & Hy1 & Hy2). eexists _, y. split; [reflexivity|]. split; [now destruct s|]. split; [|assumption].
  destruct s as [t v ch]. cbn [tmap nval ntype] in *. constructor; cbn [tmap nval ntype sc_node scalar_node fst snd csig concatenate_signature prim_types nparams cassem].
  - now rewrite H1.
  - rewrite H2. cbn. lia.
  - rewrite H1. cbn [length]. rewrite H2. cbn [csig nval nparams length Nat.sub Scalar prim_types]. rewrite (split_nil_r 0 [] eq_refl). rewrite (split_nil_r _ pb eq_refl).
    cbn [cassem ntype Scalar vector_assem app]. cbn [vector_assem bind]. rewrite H3. cbn [bind]. exact Hy1.
Qed.

Theorem C25_scalar_division (c : cons) (x : pyval) k prims params v :
  wf c -> fits c params -> primitives prims -> call c prims params = Ok v ->
  num_of x = Some k -> k <> 0 ->
  (exists m, op_truediv c (OVal x) = Ok m /\ call m prims params = Ok (map (fun y => y / k) v)) /\
  (exists m, op_truediv c (OCons Scalar) = Ok m /\ call m prims (params ++ [x]) = Ok (map (fun y => y / k) v)).
Proof.
  intros Hw Hf Hp Hc Hk Hz.
  assert (Hcore : forall s pb, wf s -> is_kind KScalar s = true -> scalar_operand s pb x ->
    exists m, (p <- transform_scalar_pow s (OVal (PInt (-1))) ;; transform_scalar_mul c (OCons p)) = Ok m /\
              call m prims (params ++ pb) = Ok (map (fun y => y / k) v)).
  { intros s pb Hs1 Hs2 Hs3. destruct (recip_operand s pb x k Hs1 Hs2 Hs3 Hk Hz) as (p & y & P1 & P2 & P3 & P4).
    rewrite P1. cbn [bind]. unfold transform_scalar_mul, to_scalar. rewrite P2. cbn [bind].
    destruct (scalar_mul_R c p pb y (/ k) Hw P3 P4 prims params v Hp Hf Hc) as (m & M1 & M2). exists m. split; [exact M1|].
    rewrite M2. f_equal. apply map_ext. intros z. unfold Rdiv. ring. }
  split.
  - destruct (partial_scalar_operand x) as (s & S1 & S2 & S3 & S4). destruct (Hcore s [] S3 S4 S2) as (m & M1 & M2).
    rewrite app_nil_r in M2. exists m. split; [|exact M2]. unfold op_truediv, transform_scalar_div. rewrite S1. exact M1.
  - destruct (Hcore Scalar [x]) as (m & M1 & M2).
    + constructor; constructor.
    + reflexivity.
    + constructor; reflexivity.
    + exists m. split; [exact M1|exact M2].
Qed.

(** ** C26 *)
Theorem C26_integer_power (c : cons) z prims params v :
  wf c -> fits c params -> primitives prims -> call c prims params = Ok v ->
  ((0 <= z)%Z \/ Forall (fun y => y <> 0) v) ->
  exists m, op_pow c (OVal (PInt z)) = Ok m /\ call m prims params = Ok (map (fun y => powerRZ y z) v).
Proof.
  intros Hw Hf Hp Hc Hz. destruct (partial_scalar_operand (PInt z)) as (s & S1 & S2 & S3 & S4).
  unfold op_pow, transform_scalar_pow, to_scalar. cbn [is_number]. rewrite S1. cbn [bind].
  destruct (call_scalar "ScalarPowerConstruction" py_pow s [] (PInt z) (fun x => npow x (IZR z)) c prims params v (map (fun y => powerRZ y z) v)) as (m & M1 & M2); auto.
  - now apply pow_entrywise.
  - apply mapM_Ok_iff. clear -Hz. induction v as [|y v IH]; [constructor|]. cbn [map]. constructor.
    + cbn [npow NumR]. apply Rpow_int. destruct Hz as [Hz|Hz]; [auto|]. inversion Hz; auto.
    + apply IH. destruct Hz as [Hz|Hz]; [auto|]. inversion Hz; auto.
  - rewrite app_nil_r in M2. eauto.
Qed.
Theorem C26_real_power (c : cons) k prims params v :
  wf c -> fits c params -> primitives prims -> call c prims params = Ok v -> Forall (fun y => 0 < y) v ->
  exists m, op_pow c (OVal (PFlt k)) = Ok m /\ call m prims params = Ok (map (fun y => Rpower y k) v).
Proof.
  intros Hw Hf Hp Hc Hz. destruct (partial_scalar_operand (PFlt k)) as (s & S1 & S2 & S3 & S4).
  unfold op_pow, transform_scalar_pow, to_scalar. cbn [is_number]. rewrite S1. cbn [bind].
  destruct (call_scalar "ScalarPowerConstruction" py_pow s [] (PFlt k) (fun x => npow x k) c prims params v (map (fun y => Rpower y k) v)) as (m & M1 & M2); auto.
  - now apply pow_entrywise.
  - apply mapM_Ok_iff. clear -Hz. induction Hz as [|y v Hy Hz IH]; [constructor|]. cbn [map]. constructor; [|assumption].
    cbn [npow NumR]. unfold Rpow_r. destruct (Req_EM_T k (IZR (Int_part k))) as [E|E].
    + destruct (Req_EM_T y 0); [lra|]. rewrite E at 2. f_equal. now apply powerRZ_Rpower.
    + destruct (Rlt_dec 0 y); [reflexivity|lra].
  - rewrite app_nil_r in M2. eauto.
Qed.
Theorem C26_scalar_construction_power (c : cons) z prims params v :
  wf c -> fits c params -> primitives prims -> call c prims params = Ok v ->
  ((0 <= z)%Z \/ Forall (fun y => y <> 0) v) ->
  exists m, op_pow c (OCons Scalar) = Ok m /\ call m prims (params ++ [PInt z]) = Ok (map (fun y => powerRZ y z) v).
Proof.
  intros Hw Hf Hp Hc Hz.
  destruct (call_scalar "ScalarPowerConstruction" py_pow Scalar [PInt z] (PInt z) (fun x => npow x (IZR z)) c prims params v (map (fun y => powerRZ y z) v)) as (m & M1 & M2); auto.
  - constructor; reflexivity.
  - now apply pow_entrywise.
  - apply mapM_Ok_iff. clear -Hz. induction v as [|y v IH]; [constructor|]. cbn [map]. constructor.
    + cbn [npow NumR]. apply Rpow_int. destruct Hz as [Hz|Hz]; [auto|]. inversion Hz; auto.
    + apply IH. destruct Hz as [Hz|Hz]; [auto|]. inversion Hz; auto.
  - exists m. split; [exact M1|exact M2].
Qed.

(** ** C27 *)
(** Constructions of depth at most one, as all shipped ones are (C27_shipped_depth below):
    number targets.  Deeper ones: C27_depth_two_refuted. *)
Theorem C27_number_target (c : cons) prims params v (x : pyval) k :
  wf c -> named c -> shallow c -> fits c params -> primitives prims ->
  returns_declared c prims params -> call c prims params = Ok v ->
  is_number x = true -> num_of x = Some k ->
  exists m, transform_constraint c = Ok m /\
            call m prims (params ++ [x]) = Ok (map (fun y => y - k) v) /\
            (Forall (fun r => r = 0) (map (fun y => y - k) v) <-> Forall (fun y => y = k) v).
Proof.
  intros Hw Hn Hs Hf Hp (outs & Hd & Hsz) Hc Hx Hk.
  destruct (constraint_number c prims params v outs x k) as (m & M1 & M2); auto. exists m. repeat split; auto.
  - intros H. rewrite Forall_map in H. eapply Forall_impl; [|exact H]. intros y. cbn. lra.
  - intros H. apply Forall_map. eapply Forall_impl; [|exact H]. intros y. cbn. lra.
Qed.
(** Array targets: single-node constructions. *)
Theorem C27_array_target (c : cons) prims params v (x : pyval) l :
  nch c = [] -> fits c params -> primitives prims -> call c prims params = Ok v ->
  atleast_1d x = Ok l -> length l = length v ->
  exists m, transform_constraint c = Ok m /\
            call m prims (params ++ [x]) = Ok (map (fun yx => fst yx - snd yx) (zip v l)) /\
            (Forall (fun r => r = 0) (map (fun yx => fst yx - snd yx) (zip v l)) <-> v = l).
Proof.
  intros Hch Hf Hp Hc Hx Hl. destruct (constraint_leaf c prims params v x l) as (m & M1 & M2); auto. exists m. split; [exact M1|]. split; [exact M2|].
  clear -Hl. revert l Hl. induction v as [|y v IH]; intros [|z l] Hl; try discriminate; [split; [reflexivity|constructor]|].
  cbn [zip map fst snd]. cbn in Hl. split.
  - intros H. inversion H as [|? ? H1 H2]; subst. f_equal; [lra|]. apply IH; [lia|assumption].
  - intros H. inversion H; subst. constructor; [lra|]. apply IH; [lia|reflexivity].
Qed.
(** Array targets: compound constructions, whose root returns nothing.  The root gets the
    whole array to subtract, which numpy accepts for at most one entry. *)
Theorem C27_array_target_compound (c : cons) prims params v l :
  wf c -> named c -> shallow c -> fits c params -> primitives prims ->
  returns_declared c prims params -> call c prims params = Ok v ->
  value_size (csig (nval c)) = 0%nat -> length l = length v ->
  exists m, transform_constraint c = Ok m /\
    ((length l <= 1)%nat -> call m prims (params ++ [PA1 l]) = Ok (map (fun yx => fst yx - snd yx) (zip v l))) /\
    ((1 < length l)%nat -> exists e, call m prims (params ++ [PA1 l]) = Err e).
Proof. intros Hw Hn Hs Hf Hp (outs & Hd & Hsz) Hc. now apply constraint_compound with (outs := outs). Qed.
End PropsR.

(** The constructions of constructions.py. *)
Definition constructions {F} {N : Num F} : list (result (cons F)) :=
  [Ok Coordinate; Ok DirectedDistance; Ok XDistance; Ok YDistance; Ok LineVector; Ok UnitLineVector; Ok Length;
   Ok DirectedLength; Ok XLength; Ok YLength; Ok Midpoint; Ok MidpointDirectedDistance; Ok MidpointXDistance;
   Ok MidpointYDistance; Ok Angle; Ok PointOnLineDistance; Ok PointToLineDistance; Ok RelativePointOnLineDistance;
   Width; Height; Ok AspectRatio; Ok Scalar] ++
  map OuterMargin ["left"; "right"; "bottom"; "top"] ++ map InnerMargin ["left"; "right"; "bottom"; "top"].
(** Each is a single node, or a root returning nothing with single-node parts. *)
Theorem C27_shipped_depth {F} {N : Num F} :
  Forall (fun rc : result (cons F) => exists c, rc = Ok c /\ wf c /\ named c /\ shallow c /\
            (nch c = [] \/ value_size (csig (nval c)) = 0)) constructions.
Proof.
  unfold constructions. cbn [map app].
  repeat (apply Forall_cons; [eexists; split; [first [reflexivity|vm_compute; reflexivity]|]; split; [repeat constructor; cbn; intuition|];
    split; [repeat constructor; cbn; intuition discriminate|]; split; [repeat constructor|]; first [left; reflexivity|right; reflexivity]|]).
  apply Forall_nil.
Qed.

(** ** Refutations and cases *)
Section Cases.
Notation prim := (prim Q).
Definition qpt (i : nat) (x y : Q) : prim := Node TPoint {| vid := i; vdata := [x; y] |} [].
Definition unwrap {A} (d : A) (r : result A) : A := match r with Ok a => a | Err _ => d end.
(** The quadrilateral (0,0), (w,0), (w,h), (0,h). *)
Definition qquad (w h : Q) : prim :=
  fst (unwrap (qpt 0 0 0, 0) (mk_quad 100 VNone (Some [qpt 1 0 0; qpt 2 w 0; qpt 3 w h; qpt 4 0 h]))).
Definition qWidth : cons Q := unwrap Scalar Width.

(** Width + Width evaluates the first quadrilateral twice. *)
Theorem C23_sum_adds_values_refuted :
  exists (a c : cons Q) pa pb va vb r,
    transform_sum a a = Ok c /\ call a pa [] = Ok va /\ call a pb [] = Ok vb /\
    call c (pa ++ pb) [] = Ok r /\ va = [1%Q] /\ vb = [3%Q] /\ r = [2%Q].
Proof.
  exists qWidth, (unwrap Scalar (transform_sum qWidth qWidth)), [qquad 1 5], [qquad 3 7], [1%Q], [3%Q], [2%Q].
  repeat split; vm_compute; reflexivity.
Qed.

(** A construction of depth two: the residual of its constraint has no entry at all. *)
Definition deep : cons Q :=
  Node {| cname := "Deep"; cisa := []; cassem := empty_assem |}
       {| cpk := [["arg0"]]; cparams := fun _ => Ok [[]]; csig := {| prim_types := [TQuad]; nparams := 0; value_size := 0 |} |}
       [("Width", qWidth)].
Theorem C27_depth_two_refuted :
  exists c k prims v, mk_cons (ntype c) (nval c) (nch c) = Ok c /\ transform_constraint c = Ok k /\
    call c prims [] = Ok v /\ v = [1%Q] /\ call k prims [PFlt 5%Q] = Ok [].
Proof.
  exists deep, (unwrap Scalar (transform_constraint deep)), [qquad 1 5], [1%Q].
  repeat split; vm_compute; reflexivity.
Qed.
(** An array target for a compound construction with two outputs raises. *)
Definition two : cons Q :=
  Node {| cname := "Two"; cisa := []; cassem := empty_assem |}
       {| cpk := [["arg0/Line0"]; ["arg0/Line1"]]; cparams := fun _ => Ok [[]; []];
          csig := {| prim_types := [TQuad]; nparams := 0; value_size := 0 |} |}
       [("A", XLength); ("B", YLength)].
Theorem C27_array_target_refuted :
  exists c k prims v, mk_cons (ntype c) (nval c) (nch c) = Ok c /\ transform_constraint c = Ok k /\
    call c prims [] = Ok v /\ v = [1%Q; 5%Q] /\ call k prims [PA1 [1%Q; 5%Q]] = Err ValueErr.
Proof.
  exists two, (unwrap Scalar (transform_constraint two)), [qquad 1 5], [1%Q; 5%Q].
  repeat split; vm_compute; reflexivity.
Qed.

Theorem C29_nothing_frozen_refuted :
  exists (c p : cons Q) prims rest v, transform_partial c [] = Ok p /\
    call c prims (rest ++ []) = Ok v /\ call p prims rest = Err TypeErr.
Proof.
  exists Scalar, (unwrap Scalar (transform_partial Scalar [])), [], [PFlt 2%Q], [2%Q]. repeat split.
Qed.

(** A child taking one primitive given two keys. *)
Theorem C32_arity_refuted :
  exists (t : cls Q) v ch, mk_cons t v ch = Ok (Node t v ch) /\
    exists i k c ks, nth_error ch i = Some (k, c) /\ nth_error (cpk v) i = Some ks /\
                     length ks <> length (prim_types (csig (nval c))).
Proof.
  exists {| cname := "Bad"; cisa := []; cassem := empty_assem |},
         {| cpk := [["arg0/Line0"; "arg0/Line1"]]; cparams := fun _ => Ok [[]];
            csig := {| prim_types := [TQuad]; nparams := 0; value_size := 0 |} |},
         [("A", XLength)].
  split; [reflexivity|]. exists 0, "A", XLength, ["arg0/Line0"; "arg0/Line1"]. repeat split. cbn. lia.
Qed.

(** *** Concrete cases meeting the hypotheses *)
Example C20_case : call two [qquad 3 5] [] = Ok [3; 5]%Q /\ denote two [qquad 3 5] [] = Ok [[]; [3]; [5]]%Q /\
  components "arg0/Line1" ["arg0"; "Line1"] /\ ntype (qquad 3 5) = TQuad.
Proof. repeat split; try (vm_compute; reflexivity); try discriminate; repeat constructor. Qed.
Lemma two_fits : fits two [].
Proof.
  constructor; cbn [csig nparams cpk cparams]; [reflexivity|reflexivity| |].
  - intros [|[|i]] k c ks H1 H2; cbn in H1, H2; inversion H1; inversion H2; subst; try reflexivity. destruct i; discriminate.
  - intros cps H. inversion H; subst. split; [cbn; lia|].
    intros [|[|i]] k c p H1 H2; cbn in H1, H2; inversion H1; inversion H2; subst;
      try (constructor; cbn; try reflexivity; [intros [|?] ? ? ? Hx; discriminate|
        intros cps' Hc; inversion Hc; subst; split; [cbn; lia|intros [|?] ? ? ? Hx; discriminate]]).
    destruct i; discriminate.
Qed.
Example C20_case_arity : arity_ok two [] /\ fits two [].
Proof. split; [apply fits_arity|]; apply two_fits. Qed.
Example C22_case : summable two two /\ ~ summable two deep.
Proof.
  split; [repeat constructor|]. intros H. inversion H as [? ? ? ? ? ? E]; subst. discriminate.
Qed.
Example C28_case : exists m, transform_map Coincident [TPoint; TPoint; TPoint] = Ok m /\
  call m [qpt 1 0 0; qpt 2 1 1; qpt 3 5 7] [] = Ok [5; 7; 4; 6]%Q.
Proof. eexists. split; vm_compute; reflexivity. Qed.
Example C29_case : exists p, transform_partial DirectedLength [PA1 [1; 0]%Q] = Ok p /\
  call p [unwrap (qpt 0 0 0) (get_child (qquad 3 5) "Line0")] [] = Ok [3%Q].
Proof. eexists. split; vm_compute; reflexivity. Qed.
Example C31_case : call two [qpt 0 0 0] [] = Err TypeErr /\ call two [] [] = Err TypeErr /\ call two [qquad 1 1] [PNone] = Err TypeErr.
Proof. repeat split; vm_compute; reflexivity. Qed.
End Cases.

Section CasesR.
Local Open Scope R_scope.
Definition rpt (i : nat) (x y : R) : prim R := Node TPoint {| vid := i; vdata := [x; y] |} [].
Definition rline (x0 y0 x1 y1 : R) : prim R :=
  Node TLine {| vid := 0; vdata := [] |} [("Point0", rpt 1 x0 y0); ("Point1", rpt 2 x1 y1)].
Lemma leaf_fits name s f (params : list (pyval R)) : length params = nparams s -> fits (mk_leaf name s f) params.
Proof.
  intros H. constructor; cbn; auto.
  - intros [|i] k c ks Hx; discriminate.
  - intros cps Hc. inversion Hc; subst. split; [cbn; lia|]. intros [|i] k c ks Hx; discriminate.
Qed.
(** LineVector of the line (0,1)-(3,5): hypotheses of C23-C27. *)
Definition lv_value : list R := [3 - 0; 5 - 1].
Example C24_case : wf (LineVector (F:=R)) /\ fits (LineVector (F:=R)) [] /\ primitives [rline 0 1 3 5] /\
  call LineVector [rline 0 1 3 5] [] = Ok lv_value /\ is_kind KScalar (LineVector (F:=R)) = false.
Proof.
  split; [constructor; constructor|]. split; [now apply leaf_fits|]. split; [repeat constructor; discriminate|].
  split; [reflexivity|reflexivity].
Qed.
Example C23_case : summable (LineVector (F:=R)) Coordinate /\ independent (LineVector (F:=R)) Coordinate /\
  returns_declared (LineVector (F:=R)) [rline 0 1 3 5] [] /\ returns_declared (Coordinate (F:=R)) [rpt 3 1 2] [] /\
  call Coordinate [rpt 3 1 2] [] = Ok [1; 2].
Proof.
  split; [repeat constructor|]. split; [constructor; [right|]; constructor|].
  split; [exists [lv_value]; split; reflexivity|]. split; [exists [[1; 2]]; split; reflexivity|reflexivity].
Qed.
Example C26_case : Forall (fun y => 0 < y) lv_value.
Proof. repeat constructor; lra. Qed.
Example C27_case : named (LineVector (F:=R)) /\ shallow (LineVector (F:=R)) /\
  num_of (PInt 3 : pyval R) = Some 3 /\ atleast_1d (PA1 [3; 4]) = Ok [3; 4].
Proof. split; [constructor; [exact (fun x => x)|constructor]|]. split; [constructor|]. split; reflexivity. Qed.
End CasesR.

Print Assumptions C20_call_concatenates_outputs.
Print Assumptions C20_call_returns_documented_value.
Print Assumptions C20_outputs_of_a_tree.
Print Assumptions C20_selection.
Print Assumptions C22_sum_exists_iff.
Print Assumptions C23_sum_adds_values.
Print Assumptions C23_sum_adds_values_refuted.
Print Assumptions C23_sum_node_by_node.
Print Assumptions C24_scalar_multiple.
Print Assumptions C24_negation.
Print Assumptions C24_scalar_construction.
Print Assumptions C25_scalar_division.
Print Assumptions C26_integer_power.
Print Assumptions C26_real_power.
Print Assumptions C26_scalar_construction_power.
Print Assumptions C27_number_target.
Print Assumptions C27_array_target.
Print Assumptions C27_array_target_compound.
Print Assumptions C27_shipped_depth.
Print Assumptions C27_depth_two_refuted.
Print Assumptions C27_array_target_refuted.
Print Assumptions C28_map_evaluates_each.
Print Assumptions C29_partial_application.
Print Assumptions C29_nothing_frozen.
Print Assumptions C29_nothing_frozen_refuted.
Print Assumptions C31_invalid_arguments_raise.
Print Assumptions C31_valid_arguments_pass.
Print Assumptions C32_constructor.
Print Assumptions C32_arity_refuted.
Print Assumptions C33_adding_numbers_refuted.
Print Assumptions C33_products.
Print Assumptions C33_scalar_times_number_refuted.
