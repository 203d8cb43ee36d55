(** When the residuals of a compound constraint vanish: by recursion on its children. *)
From Coq Require Import Reals Lra.
From Verif Require Import GeomProofs P_Geom.
Local Open Scope R_scope.

Definition zero (x : R) : Prop := x = 0.
(** [c] evaluates on the arguments, and its residuals are all zero exactly if [Z]. *)
Definition zeval (c : cons) (prims : list prim) (params : list pyval) (Z : Prop) : Prop :=
  exists outs, denote c prims params = Ok outs /\ (Forall (Forall zero) outs <-> Z).

Inductive zevals : dict cons -> list (list prim) -> list (list pyval) -> list Prop -> Prop :=
| zevals_nil sels cps : zevals [] sels cps []
| zevals_cons k c ch s sels p cps Z Zs : zeval c s p Z -> zevals ch sels cps Zs ->
    zevals ((k, c) :: ch) (s :: sels) (p :: cps) (Z :: Zs).
Definition all (Zs : list Prop) : Prop := Forall (fun Z : Prop => Z) Zs.

Lemma zeval_iff c prims params Z Z' : zeval c prims params Z -> (Z <-> Z') -> zeval c prims params Z'.
Proof. intros (o & H1 & H2) H. exists o. split; [assumption|]. now rewrite H2. Qed.

Lemma zevals_denotes ch sels cps Zs : zevals ch sels cps Zs ->
  exists outs, denotes ch sels cps = Ok outs /\ (Forall (Forall zero) outs <-> all Zs).
Proof.
  induction 1 as [sels cps|k c ch s sels p cps Z Zs (o & H1 & H2) _ (os & I1 & I2)].
  - exists []. split; [reflexivity|]. split; constructor.
  - exists (o ++ os). cbn [denotes]. rewrite H1. cbn [bind]. rewrite I1. split; [reflexivity|].
    rewrite Forall_app, H2, I2. unfold all. split; [intros []; now constructor|intros H; now inversion H].
Qed.
Lemma zeval_node t v ch prims params sels cps Zs :
  assem1 t prims params = Ok [] -> mapM (mapM (select prims)) (cpk v) = Ok sels -> cparams v params = Ok cps ->
  zevals ch sels cps Zs -> zeval (Node t v ch) prims params (all Zs).
Proof.
  intros H1 H2 H3 H4. destruct (zevals_denotes _ _ _ _ H4) as (os & D & I). exists ([] :: os).
  rewrite denote_unfold, H1. cbn [bind]. rewrite H2. cbn [bind]. rewrite H3. cbn [bind]. rewrite D. split; [reflexivity|].
  split; [intros H; apply I; now inversion H|intros H; constructor; [constructor|now apply I]].
Qed.
Lemma zeval_leaf name s f prims params o : leaf_value f prims params o -> zeval (mk_leaf name s f) prims params (Forall zero o).
Proof.
  intros H. exists [o]. split; [now apply denote_leaf|]. split; [intros F; now inversion F|intros F; constructor; [assumption|constructor]].
Qed.
Lemma zeval_vanishes c prims params Z : zeval c prims params Z -> valid_args c prims params ->
  Forall (fun p => ntype p <> TNode) prims -> (vanishes c prims params <-> Z).
Proof.
  intros (o & H1 & H2) Hv Hp. rewrite (vanishes_call _ _ _ _ (call_denote _ _ _ _ Hp Hv H1)). rewrite <- H2.
  rewrite Forall_concat. reflexivity.
Qed.

(** Children that all have the same kind of condition, given by index. *)
Lemma zevals_map {I} (key : I -> string) (child : I -> cons) (sel : I -> list prim) (par : I -> list pyval) (Z : I -> Prop) is more :
  (forall i, In i is -> zeval (child i) (sel i) (par i) (Z i)) ->
  zevals (map (fun i => (key i, child i)) is) (map sel is) (map par is ++ more) (map Z is).
Proof.
  induction is as [|i is IH]; intros H; cbn; constructor; [apply H; now left|]. apply IH. intros j Hj. apply H. now right.
Qed.
Lemma zevals_app ch sels cps Zs ch' sels' cps' Zs' : length ch = length sels -> length ch = length cps ->
  zevals ch sels cps Zs -> zevals ch' sels' cps' Zs' -> zevals (ch ++ ch') (sels ++ sels') (cps ++ cps') (Zs ++ Zs').
Proof.
  intros H1 H2 H H'. revert H1 H2. induction H as [sels cps|]; intros H1 H2.
  - destruct sels, cps; try discriminate. assumption.
  - cbn. constructor; [assumption|]. apply IHzevals; cbn in *; lia.
Qed.
Lemma all_map {I} (Z : I -> Prop) is : all (map Z is) <-> (forall i, In i is -> Z i).
Proof. unfold all. rewrite Forall_map, Forall_forall. reflexivity. Qed.
Lemma all_app Zs Zs' : all (Zs ++ Zs') <-> all Zs /\ all Zs'.
Proof. apply Forall_app. Qed.
Lemma all_cons Z Zs : all (Z :: Zs) <-> Z /\ all Zs.
Proof. unfold all. split; [intros H; now inversion H|intros []; now constructor]. Qed.
Lemma all_nil : all [] <-> True.
Proof. unfold all. split; constructor. Qed.

(** [Construction.__init__] with distinct non-empty keys. *)
Lemma mk_construction_ok (c : cls R) keys (cs : list cons) pks cps s :
  NoDup keys -> ~ In EmptyString keys -> (length cs <= length keys)%nat -> length pks = length cs ->
  mk_construction c keys cs pks cps s = Ok (Node c {| cpk := pks; cparams := cps; csig := s |} (zip keys cs)).
Proof.
  intros H1 H2 H3 H4.
  assert (Hz : map fst (zip keys cs) = firstn (length cs) keys).
  { clear -H3. revert cs H3. induction keys as [|k keys IH]; intros [|c cs] H; cbn in *; try reflexivity; try lia. f_equal. apply IH. lia. }
  assert (Hd : dict_of (zip keys cs) = zip keys cs).
  { apply dict_of_nodup. rewrite Hz. clear -H1. generalize (length cs). induction H1 as [|k l Hk Hn IH]; intros n; destruct n; cbn; try constructor.
    - intros Hin. apply Hk. rewrite <- (firstn_skipn n l). apply in_or_app. now left.
    - apply IH. }
  unfold mk_construction. rewrite Hd. apply mk_cons_ok.
  - cbn [cpk]. rewrite zip_length. lia.
  - rewrite Hz. intros H. apply H2. rewrite <- (firstn_skipn (length cs) keys). apply in_or_app. now left.
Qed.

(** ** Quadrilaterals *)
Lemma quad_line0 q P0 P1 P2 P3 : quad_at q P0 P1 P2 P3 -> exists l, get_child q "Line0" = Ok l /\ line_at l P0 P1.
Proof. intros (? & l0 & ? & ? & ? & -> & H & _). exists l0. split; [reflexivity|assumption]. Qed.
Lemma quad_line1 q P0 P1 P2 P3 : quad_at q P0 P1 P2 P3 -> exists l, get_child q "Line1" = Ok l /\ line_at l P1 P2.
Proof. intros (? & ? & l0 & ? & ? & -> & _ & H & _). exists l0. split; [reflexivity|assumption]. Qed.
Lemma quad_line2 q P0 P1 P2 P3 : quad_at q P0 P1 P2 P3 -> exists l, get_child q "Line2" = Ok l /\ line_at l P2 P3.
Proof. intros (? & ? & ? & l0 & ? & -> & _ & _ & H & _). exists l0. split; [reflexivity|assumption]. Qed.
Lemma quad_line3 q P0 P1 P2 P3 : quad_at q P0 P1 P2 P3 -> exists l, get_child q "Line3" = Ok l /\ line_at l P3 P0.
Proof. intros (? & ? & ? & ? & l0 & -> & _ & _ & _ & H). exists l0. split; [reflexivity|assumption]. Qed.

(** Key "arg{i}/path". *)
Lemma split1_prefix a r : noslash a = true -> split1 (a ++ String slash r) = (a, Some r).
Proof.
  intros H. induction a as [|c a IH]; cbn in *.
  - unfold slash. cbn. reflexivity.
  - apply andb_prop in H as [H1 H2]. destruct (Ascii.eqb c slash); [discriminate|]. rewrite IH by assumption. reflexivity.
Qed.
Lemma select_path (prims : list prim) i p r : nth_error prims i = Some p -> select prims (argk i ++ String slash r) = get_child p r.
Proof.
  intros H. unfold select. rewrite split1_prefix by apply noslash_arg. unfold argk. rewrite argnum_dec. cbn [bind]. rewrite H. reflexivity.
Qed.

(** ** Constraints of compounds with a single one-output child *)
Definition single name ts key nm s f ks : cons :=
  Node (compound_cls name 0) {| cpk := [ks]; cparams := empties 1; csig := msig ts 0 0 |} [(key, mk_leaf nm s f)].
Lemma single_constraint name ts key nm s f ks prims sel x t k :
  key <> EmptyString -> nparams s = 0%nat -> value_size s = 1%nat -> length ks = length (prim_types s) ->
  length prims = length ts -> mapM (select prims) ks = Ok sel -> leaf_value f sel [] [x] ->
  num_of t = Some k -> is_number t = true ->
  exists c, transform_constraint (single name ts key nm s f ks) = Ok c /\
    csig (nval c) = msig ts 0 1 /\
    denote c prims [t] = Ok [[]; [x - k]].
Proof.
  intros Hk Hn Hs Hl Hp Hsel Hf Ht Hnum. set (c := single name ts key nm s f ks).
  exists (tsum c (neg_vector c)). split; [|split].
  - apply constraint_ok.
    + constructor; [repeat constructor; intros []|]. constructor; [apply wf_leaf|constructor].
    + constructor; [intros [H|[]]; now apply Hk|]. constructor; [apply named_leaf|constructor].
  - rewrite sum_sig. unfold neg_vector. unfold c, single. cbn. unfold concatenate_signature, msig. cbn. rewrite app_nil_r. reflexivity.
  - assert (D : denote c prims [] = Ok [[]; [x]]).
    { unfold c, single. rewrite denote_unfold. unfold assem1. cbn [cassem compound_cls length Nat.eqb bind atleast_1d cpk mapM]. rewrite Hsel. cbn [bind cparams empties List.repeat denotes].
      unfold empties. cbn [bind List.repeat denotes]. rewrite (denote_leaf nm s f sel [] [x] Hf). reflexivity. }
    change [t] with ([] ++ [t]).
    change [[]; [x - k]] with (map (map (fun y => y - k)) [[]; [x]]).
    apply denote_constraint_number; auto.
    + constructor; [reflexivity|constructor].
    + constructor; [reflexivity|reflexivity| |].
      * intros [|[|i]] k0 c0 ks0 H1 H2; inversion H1; inversion H2; subst. exact Hl.
      * intros cps H. inversion H; subst. split; [cbn; lia|]. intros [|[|i]] k0 c0 p H1 H2; inversion H1; inversion H2; subst. now apply fits_leaf.
    + unfold declared_sizes, c, single. cbn. now rewrite Hs.
Qed.
Lemma zeval_single (c : cons) prims t x k : denote c prims [t] = Ok [[]; [x - k]] -> zeval c prims [t] (x = k).
Proof.
  intros H. exists [[]; [x - k]]. split; [exact H|]. split.
  - intros F. inversion F as [|? ? ? F1]; subst. inversion F1 as [|? ? F2]; subst. inversion F2 as [|? ? Hx]; subst. unfold zero in Hx. lra.
  - intros ->. repeat constructor. unfold zero. lra.
Qed.
Lemma call_single (c : cons) prims t r : Forall (fun p => ntype p <> TNode) prims -> valid_args c prims [t] -> denote c prims [t] = Ok [[]; [r]] ->
  call c prims [t] = Ok [r].
Proof. intros H1 H2 H3. apply (call_denote _ _ _ _ H1 H2 H3). Qed.

(** From evaluation by [call] to [zeval]. *)
Lemma zeval_of_call (c : cons) prims params v : Forall (fun p => ntype p <> TNode) prims -> arity_ok c params ->
  call c prims params = Ok v -> zeval c prims params (vanishes c prims params).
Proof.
  intros Hp Ha Hc. destruct (denote_call c prims params v Hp Ha Hc) as (_ & outs & D & ->). exists outs. split; [exact D|].
  rewrite (vanishes_call _ _ _ _ Hc), Forall_concat. reflexivity.
Qed.
Lemma leaf_constraint_zeval (c0 : cons) name s f prims params x t k : c0 = mk_leaf name s f ->
  length prims = length (prim_types s) -> length params = nparams s -> leaf_value f prims params [x] -> num_of t = Some k ->
  exists c, transform_constraint c0 = Ok c /\ csig (nval c) = msig (prim_types s) (value_size s) (nparams s + 1) /\
    denote c prims (params ++ [t]) = Ok [[x - k]] /\ zeval c prims (params ++ [t]) (x = k).
Proof.
  intros -> H1 H2 H3 H4. set (c := mk_leaf name s f). exists (tsum c (neg_vector c)). split; [apply constraint_ok; [apply wf_leaf|apply named_leaf]|].
  assert (D : denote (tsum c (neg_vector c)) prims (params ++ [t]) = Ok [[x - k]]).
  { replace [[x - k]] with [bplus [x] (map (fun x => -1 * x) [k])] by (cbn; do 2 f_equal; lra).
    apply denote_constraint_leaf; [reflexivity|now apply fits_leaf|exact H1|now apply denote_leaf|now apply num_atleast|now left]. }
  split.
  - rewrite sum_sig. unfold neg_vector, c. cbn. unfold concatenate_signature, msig. cbn. rewrite app_nil_r. reflexivity.
  - split; [exact D|]. exists [[x - k]]. split; [exact D|]. split.
    + intros F. inversion F as [|? ? F1]; subst. inversion F1 as [|? ? Hx]; subst. unfold zero in Hx. lra.
    + intros ->. repeat constructor. unfold zero. lra.
Qed.
Lemma dget_get_child (a : prim) key q : noslash key = true -> dget key (nch a) = Some q -> get_child a key = Ok q.
Proof. intros H1 H2. rewrite get_child_walk, split_all_single by assumption. cbn [walk]. rewrite H2. reflexivity. Qed.
