(** C27, targets of other lengths: numpy/jax broadcasting decides what a constraint with a
    target array of the wrong length does.  A construction with one value is compared with
    every entry of the array (so the constraint has more residuals than the construction
    has values), an array of one entry is the target of every value, any other mismatch
    raises. *)
From Coq Require Import Reals Lra Lia.
From Verif Require Import ConsProofs TransProofs CstrProofs CstrR GeomProofs P_Geom P_Affine.

Local Open Scope R_scope.

(** The node a constraint makes of a one-node construction, called with the construction's
    parameters and an array. *)
Lemma leaf_residual (c : cons) (prims : list prim) params (v l : list R) : nch c = [] -> fits c params -> length prims = length (prim_types (csig (nval c))) ->
  denote c prims params = Ok [v] ->
  exists raw, atleast_1d raw = Ok v /\
    denote (tsum c (neg_vector c)) prims (params ++ [PA1 l]) = (w <- (s <- py_add raw (PA1 (map (fun x => -1 * x) l)) ;; atleast_1d s) ;; Ok [w]).
Proof.
  intros Hch Hf Hv Hd. destruct Hf as [t w ch params Hf1 Hf2 _ Hf4]. cbn [nch nval] in *. subst ch.
  rewrite denote_unfold in Hd. apply bind_Ok in Hd as (own & Hown & Hd). apply bind_Ok in Hd as (ks & Hks & Hd). apply bind_Ok in Hd as (cps & Hcps & Hd). cbn in Hd. injection Hd as ->.
  unfold assem1 in Hown. apply bind_Ok in Hown as (raw & Hraw & Hat). exists raw. split; [exact Hat|].
  destruct (cpk w) eqn:Ek; [|discriminate]. 
  unfold neg_vector, size_tree. cbn [tmap vtree fst snd nval map].
  rewrite tsum_unfold, denote_unfold. unfold assem1, sum_parts at 1. cbn [fst cassem nval ntype]. rewrite <- (app_nil_r prims).
  unfold sc_node, scalar_node. cbn [fst snd csig prim_types nparams concatenate_signature minus1 nval ntype cassem app Nat.add length].
  rewrite (split_app' (length (prim_types (csig w))) 0 prims [] Hv eq_refl), (split_app' (nparams (csig w)) 1 params [PA1 l] Hf1 eq_refl).
  rewrite Hraw. cbn [bind]. cbn. rewrite (mapM_Ok_map (fun x => ((-1) * x)%R)). cbn [bind atleast_1d].
  destruct (py_add raw (PA1 (map (fun x : R => -1 * x) l))) as [s|e]; [|reflexivity]. cbn [bind].
  destruct (atleast_1d s) as [own|e]; [|reflexivity]. cbn [bind].
  rewrite Ek. cbn [zip map mapM bind]. rewrite Nat.sub_0_r, <- Hf1, firstn_app, firstn_all, Nat.sub_diag, skipn_app, skipn_all, Nat.sub_diag. cbn [firstn skipn app]. rewrite app_nil_r, Hcps. cbn [bind].
  replace (length params + 1 - length params)%nat with 1%nat by lia. cbn [firstn]. unfold vector_child_params. cbn [is_number bind]. reflexivity.
Qed.

Lemma add_number raw (y : R) (l : list R) : atleast_1d raw = Ok [y] -> (s <- py_add raw (PA1 l) ;; atleast_1d s) = Ok (map (fun x => y + x) l).
Proof.
  intros H. destruct raw as [z|x|b|x|r|r| | |]; cbn in H; try discriminate; injection H as H; subst.
  all: try (cbn [py_add]; unfold arith2; cbn [to_operand bind nadd NumR]; rewrite (mapM_Ok_map (fun x => Rplus _ x)); cbn [bind atleast_1d]; reflexivity).
  all: cbn [py_add]; unfold arith2; cbn [to_operand bind nadd NumR]; unfold bcast2; destruct l as [|a [|b l]]; try reflexivity; cbn [length Nat.eqb]; rewrite (mapM_Ok_map (fun x => Rplus _ x)); reflexivity.
Qed.
Lemma add_mismatch raw (v l : list R) : atleast_1d raw = Ok v -> length v <> length l -> length v <> 1%nat -> length l <> 1%nat ->
  exists e, (s <- py_add raw (PA1 l) ;; atleast_1d s) = Err e.
Proof.
  intros H H1 H2 H3. destruct raw as [z|x|b|x|r|r| | |]; cbn in H; try discriminate; injection H as H; subst; try (cbn in H2; lia).
  all: assert (E : bcast2 (fun x y : R => Ok (x + y)) v l = Err ValueErr) by
    (unfold bcast2; destruct (Nat.eqb_spec (length v) (length l)) as [E|E]; [contradiction|]; destruct v as [|a [|b v]]; try (cbn in H2; lia); destruct l as [|a' [|b' l]]; try (cbn in H3; lia); try reflexivity; cbn in H1; lia).
  all: exists ValueErr; destruct v as [|a v]; cbn [py_add]; unfold arith2; cbn [to_operand bind nadd NumR]; rewrite E; reflexivity.
Qed.

Theorem C27_target_lengths (c : cons) (prims : list prim) params (v l : list R) :
  nch c = [] -> fits c params -> Forall (fun p => ntype p <> TNode) prims -> call c prims params = Ok v ->
  exists m, transform_constraint c = Ok m /\
    (forall y, v = [y] -> call m prims (params ++ [PA1 l]) = Ok (map (fun x => y - x) l)) /\
    (forall x, l = [x] -> call m prims (params ++ [PA1 l]) = Ok (map (fun y => y - x) v)) /\
    (length v <> length l -> length v <> 1%nat -> length l <> 1%nat -> exists e, call m prims (params ++ [PA1 l]) = Err e).
Proof.
  intros Hch Hf Hp Hc. exists (tsum c (neg_vector c)).
  assert (Hw : wf c /\ named c) by (destruct c as [? ? ch]; cbn in Hch; subst; split; constructor; cbn; try constructor; auto).
  split; [now apply constraint_ok|].
  destruct (denote_call c prims params v Hp (fits_arity _ _ Hf) Hc) as (Hv & outs & Hd & ->).
  assert (Ho : exists o, outs = [o]).
  { apply denote_length in Hd. destruct c as [? ? ch]. cbn in Hch. subst. cbn in Hd. destruct outs as [|o [|]]; try discriminate. eauto. }
  destruct Ho as [o ->]. cbn [List.concat] in *. rewrite app_nil_r in *.
  destruct (leaf_residual c prims params o l Hch Hf (valid_len _ _ _ Hv) Hd) as (raw & Hraw & Hden).
  split; [|split].
  - intros y ->. rewrite (add_number _ y) in Hden by assumption. cbn [bind] in Hden. rewrite <- (app_nil_r (map _ l)).
    replace (map (fun x => y - x) l) with (map (fun x => y + x) (map (fun x => -1 * x) l)) by (rewrite map_map; apply map_ext; intros; lra).
    now apply (call_denote _ _ _ [map (fun x => y + x) (map (fun x => -1 * x) l)]); [|apply valid_constraint|].
  - intros x ->. rewrite <- (app_nil_r (map _ o)).
    replace (map (fun y => y - x) o) with (bplus o (map (fun x => -1 * x) [x])) by (cbn [map bplus]; apply map_ext; intros; cbn [nadd NumR]; lra).
    apply (call_denote _ _ _ [bplus o (map (fun x => -1 * x) [x])]); [assumption|now apply valid_constraint|].
    apply denote_constraint_leaf; auto; [now apply valid_len in Hv|now right].
  - intros H1 H2 H3. destruct (add_mismatch raw o (map (fun x => -1 * x) l) Hraw) as [e He]; [rewrite ?map_length; assumption..|].
    rewrite He in Hden. cbn [bind] in Hden.
    destruct (call (tsum c (neg_vector c)) prims (params ++ [PA1 l])) as [r|e'] eqn:Ec; [|eauto]. exfalso.
    assert (Ha : arity_ok (tsum c (neg_vector c)) (params ++ [PA1 l])) by (apply fits_arity, fits_sum; [apply summable_vector|assumption|now apply fits_neg_vector]).
    destruct (denote_call _ _ _ _ Hp Ha Ec) as (_ & outs & Hd' & _). congruence.
Qed.
Print Assumptions C27_target_lengths.
