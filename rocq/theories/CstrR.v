(** The transforms over the real numbers. *)
From Coq Require Import Reals Lra.
From Verif Require Export CstrProofs Inst ConsSpec.
Local Open Scope nat_scope.

Section CstrR.
  Notation prim := (prim R).
  Notation pyval := (pyval R).
  Notation cons := (cons R).

  Lemma bplus_repeat (l : list R) a : bplus l (List.repeat a (length l)) = map (fun y => (y + a)%R) l.
  Proof.
    rewrite bplus_vplus by now rewrite repeat_length. unfold vplus. induction l as [|y l IH]; [reflexivity|].
    cbn. now rewrite <- IH.
  Qed.

  Lemma scalar_mul_R (c : cons) s pb y k : wf c -> scalar_operand s pb y -> num_of y = Some k ->
    forall prims params v, Forall (fun p => ntype p <> TNode) prims -> fits c params -> call c prims params = Ok v ->
    exists c', transform_scalar "ScalarMultipleConstruction" (fun x y => py_mul y x) c s = Ok c' /\
               call c' prims (params ++ pb) = Ok (map (fun x => (k * x)%R) v).
  Proof.
    intros Hw Hso Hk prims params v Hp Hf Hc. eapply call_scalar; try eassumption.
    - apply mul_entrywise; [|eassumption]. exact mult_IZR.
    - exact (mapM_Ok_map (fun x => nmul k x) v).
  Qed.

  Lemma minus1_operand : scalar_operand (minus1 (F:=R)) [] (PInt (-1)).
  Proof. constructor; reflexivity. Qed.

  Lemma denote_neg_vector (c : cons) q outs : length q = 1 -> denote (vtree (size_tree c)) [] q = Ok outs ->
    denote (neg_vector c) [] q = Ok (map (map (fun x => (-1 * x)%R)) outs).
  Proof.
    intros Hq Hd. rewrite <- (app_nil_r q) at 1.
    apply (denote_scalar _ _ _ _ _ _ minus1_operand (mul_entrywise (F:=R) (N:=NumR) mult_IZR (PInt (-1)) (-1)%R eq_refl) _ _ _ outs); auto.
    - now apply fits_vtree.
    - now destruct c.
    - rewrite <- (mapM_Ok_map (map (fun x => (-1 * x)%R)) outs). apply mapM_ext. intros l _. exact (mapM_Ok_map (fun x => (-1 * x)%R) l).
  Qed.

  Lemma fits_neg_vector (c : cons) q : length q = 1 -> fits (neg_vector c) q.
  Proof.
    intros Hq. rewrite <- (app_nil_r q). apply fits_scalar; [reflexivity|reflexivity|]. now apply fits_vtree.
  Qed.

  Lemma neg_vector_prims (c : cons) : prim_types (csig (nval (neg_vector c))) = [].
  Proof. unfold neg_vector. destruct c. reflexivity. Qed.

  Lemma denote_constraint_number (c : cons) prims params outs t x :
    shallow c -> fits c params -> length prims = length (prim_types (csig (nval c))) ->
    denote c prims params = Ok outs -> map (@length R) outs = declared_sizes c ->
    num_of t = Some x -> is_number t = true ->
    denote (tsum c (neg_vector c)) prims (params ++ [t]) = Ok (map (map (fun y => (y - x)%R)) outs).
  Proof.
    intros Hs Hf Hl Hd Hsz Hx Ht.
    pose proof (denote_neg_vector c [t] _ eq_refl (denote_vector_number c t x Hs Hx Ht)) as Hv.
    rewrite <- (app_nil_r prims).
    assert (Hcompat : Forall2 bcompat outs (map (map (fun x => (-1 * x)%R)) ([x] :: map (fun kc => List.repeat (x * 1)%R (value_size (csig (nval (snd kc))))) (nch c)))
       /\ bpluss outs (map (map (fun x => (-1 * x)%R)) ([x] :: map (fun kc => List.repeat (x * 1)%R (value_size (csig (nval (snd kc))))) (nch c)))
          = map (map (fun y => (y - x)%R)) outs).
    { destruct c as [tc v ch]. unfold shallow in Hs. cbn [nch] in *. unfold declared_sizes in Hsz. cbn [preorder map] in Hsz.
      destruct outs as [|o0 outs]; [discriminate|]. cbn [map] in Hsz. injection Hsz as _ Hsz. unfold bpluss. cbn [map zip fst snd].
      assert (Hm : map (@length R) outs = map (fun kc => value_size (csig (nval (snd kc)))) ch).
      { rewrite Hsz. clear -Hs. induction ch as [|[k c] ch IH]; [reflexivity|]. inversion Hs; subst. cbn [snd] in *. destruct c as [? ? ch']. cbn in H1. subst.
        cbn [flat_map snd preorder map app]. rewrite IH by assumption. reflexivity. }
      clear -Hm.
      assert (Hb : forall o, bplus o [(-1 * x)%R] = map (fun y => (y - x)%R) o).
      { intros o. cbn [bplus]. apply map_ext. intros y. cbn. lra. }
      assert (Hr : forall o n, length o = n -> bplus o (map (fun x => (-1 * x)%R) (List.repeat (x * 1)%R n)) = map (fun y => (y - x)%R) o).
      { intros o n <-. replace (map (fun x0 => (-1 * x0)%R) (List.repeat (x * 1)%R (length o))) with (List.repeat (-1 * (x * 1))%R (length o)).
        - rewrite bplus_repeat. apply map_ext. intros y. lra.
        - induction (length o); cbn; congruence. }
      assert (Hrest : Forall2 bcompat outs (map (map (fun x => (-1 * x)%R)) (map (fun kc => List.repeat (x * 1)%R (value_size (csig (nval (snd kc))))) ch)) /\
         map (fun xy => bplus (fst xy) (snd xy)) (zip outs (map (map (fun x => (-1 * x)%R)) (map (fun kc => List.repeat (x * 1)%R (value_size (csig (nval (snd kc))))) ch))) = map (map (fun y => (y - x)%R)) outs).
      { revert ch Hm. induction outs as [|o outs IH]; intros [|[k c] ch] Hm; try discriminate; [split; constructor|].
        cbn [map] in Hm. injection Hm as Hm0 Hm. cbn [snd] in Hm0. destruct (IH _ Hm) as [I1 I2]. cbn [map zip fst snd]. split.
        - constructor; [|assumption]. left. now rewrite map_length, repeat_length.
        - rewrite I2. f_equal. now apply Hr. }
      destruct Hrest as [R1 R2]. split.
      - constructor; [right; reflexivity|assumption].
      - f_equal; [apply Hb|assumption]. }
    destruct Hcompat as [Hc1 Hc2].
    rewrite <- Hc2. eapply denote_sum; try eassumption.
    - exact plus_IZR.
    - apply summable_vector.
    - apply independent_vector.
    - now apply fits_neg_vector.
    - now rewrite neg_vector_prims.
  Qed.

  (** One-node constructions accept any target of matching length. *)
  Lemma denote_constraint_leaf (c : cons) prims params o t l :
    nch c = [] -> fits c params -> length prims = length (prim_types (csig (nval c))) ->
    denote c prims params = Ok [o] ->
    atleast_1d t = Ok l -> bcompat o l ->
    denote (tsum c (neg_vector c)) prims (params ++ [t]) = Ok [bplus o (map (fun x => (-1 * x)%R) l)].
  Proof.
    intros Hch Hf Hl Hd Ht Hc. rewrite <- (app_nil_r prims).
    assert (Hv : denote (vtree (size_tree c)) [] [t] = Ok [l]).
    { destruct c as [tc v ch]. cbn in Hch. subst ch. cbn [size_tree]. unfold size_tree. cbn [tmap map fst snd vtree nval].
      rewrite denote_unfold. unfold assem1. cbn [cassem vector_cls]. unfold vector_assem. cbn [bind]. rewrite Ht. cbn [bind cpk length List.repeat mapM cparams].
      unfold vector_child_params. cbn [map]. destruct (is_number t) eqn:E; [|reflexivity].
      destruct t; try discriminate; unfold arith2; cbn [to_operand bind]; rewrite ?(mapM_Ok_map (fun y => nmul _ y)); reflexivity. }
    pose proof (denote_neg_vector c [t] _ eq_refl Hv) as Hn. cbn [map] in Hn.
    change [bplus o (map (fun x => (-1 * x)%R) l)] with (bpluss [o] [map (fun x => (-1 * x)%R) l]).
    eapply denote_sum; try eassumption.
    - exact plus_IZR.
    - apply summable_vector.
    - apply independent_vector.
    - now apply fits_neg_vector.
    - now rewrite neg_vector_prims.
    - constructor; [|constructor]. unfold bcompat in *. now rewrite map_length.
  Qed.

  Lemma bplus_minus (o l : list R) : length o = length l ->
    bplus o (map (fun x => (-1 * x)%R) l) = map (fun yx => (fst yx - snd yx)%R) (zip o l).
  Proof.
    intros H. rewrite bplus_vplus by now rewrite map_length. unfold vplus. rewrite zip_map_r, map_map. apply map_ext. intros [y x]. cbn. lra.
  Qed.

  Lemma valid_constraint (c : cons) prims params t :
    valid_args c prims params -> valid_args (tsum c (neg_vector c)) prims (params ++ [t]).
  Proof.
    intros [H1 H2]. unfold valid_args. rewrite sum_sig. cbn [concatenate_signature prim_types nparams].
    rewrite neg_vector_prims, app_nil_r, app_length. split; [assumption|]. rewrite H2. now destruct c.
  Qed.

  Lemma constraint_number (c : cons) prims params v outs t x :
    wf c -> named c -> shallow c -> fits c params -> Forall (fun p => ntype p <> TNode) prims ->
    call c prims params = Ok v ->
    denote c prims params = Ok outs -> map (@length R) outs = declared_sizes c ->
    num_of t = Some x -> is_number t = true ->
    exists k, transform_constraint c = Ok k /\ call k prims (params ++ [t]) = Ok (map (fun y => (y - x)%R) v).
  Proof.
    intros Hw Hn Hs Hf Hp Hc Hd Hsz Hx Ht. exists (tsum c (neg_vector c)). split; [now apply constraint_ok|].
    destruct (denote_call c prims params v Hp (fits_arity _ _ Hf) Hc) as (Hv & outs' & Hd' & ->).
    rewrite Hd in Hd'. inversion Hd'; subst outs'.
    rewrite concat_map. apply call_denote; [assumption|now apply valid_constraint|].
    apply denote_constraint_number; auto. now apply valid_len in Hv.
  Qed.

  Lemma constraint_leaf (c : cons) prims params v t l :
    nch c = [] -> fits c params -> Forall (fun p => ntype p <> TNode) prims ->
    call c prims params = Ok v ->
    atleast_1d t = Ok l -> length l = length v ->
    exists k, transform_constraint c = Ok k /\ call k prims (params ++ [t]) = Ok (map (fun yx => (fst yx - snd yx)%R) (zip v l)).
  Proof.
    intros Hch Hf Hp Hc Ht Hl. exists (tsum c (neg_vector c)).
    assert (Hw : wf c /\ named c).
    { destruct c as [? ? ch]. cbn in Hch. subst. split; constructor; cbn; try constructor; auto. }
    split; [now apply constraint_ok|].
    destruct (denote_call c prims params v Hp (fits_arity _ _ Hf) Hc) as (Hv & outs & Hd & ->).
    assert (Ho : exists o, outs = [o]).
    { apply denote_length in Hd. destruct c as [? ? ch]. cbn in Hch. subst. cbn in Hd. destruct outs as [|o [|]]; try discriminate. eauto. }
    destruct Ho as [o ->]. cbn [List.concat] in *. rewrite app_nil_r in *.
    rewrite <- bplus_minus by congruence.
    rewrite <- (app_nil_r (bplus o _)). change (bplus o (map (fun x => (-1 * x)%R) l) ++ []) with (List.concat [bplus o (map (fun x => (-1 * x)%R) l)]).
    apply call_denote; [assumption|now apply valid_constraint|].
    apply denote_constraint_leaf; auto; [now apply valid_len in Hv|]. now left.
  Qed.

  (** Compound constructions whose root returns nothing, with an array target of the
      length of the value: fine for at most one entry, otherwise an exception. *)
  Lemma constraint_compound (c : cons) prims params v outs l :
    wf c -> named c -> shallow c -> fits c params -> Forall (fun p => ntype p <> TNode) prims ->
    call c prims params = Ok v ->
    denote c prims params = Ok outs -> map (@length R) outs = declared_sizes c ->
    value_size (csig (nval c)) = 0 -> length l = length v ->
    exists k, transform_constraint c = Ok k /\
      (length l <= 1 -> call k prims (params ++ [PA1 l]) = Ok (map (fun yx => (fst yx - snd yx)%R) (zip v l))) /\
      (1 < length l -> exists e, call k prims (params ++ [PA1 l]) = Err e).
  Proof.
    intros Hw Hn Hs Hf Hp Hc Hd Hsz Hz Hl. exists (tsum c (neg_vector c)). split; [now apply constraint_ok|].
    destruct (denote_call c prims params v Hp (fits_arity _ _ Hf) Hc) as (Hv & outs' & Hd' & ->).
    rewrite Hd in Hd'. inversion Hd'; subst outs'. clear Hd'.
    pose proof (denote_neg_vector c [PA1 l] _ eq_refl (denote_vector_array c l Hs)) as Hnv.
    assert (Ho : exists os, outs = [] :: os /\ map (@length R) os = map (fun kc => value_size (csig (nval (snd kc)))) (nch c)).
    { destruct c as [t w ch]. unfold declared_sizes in Hsz. cbn [preorder map nval nch] in *. destruct outs as [|o os]; [discriminate|]. cbn [map] in Hsz.
      injection Hsz as Ho Hsz. rewrite Hz in Ho. destruct o; [|discriminate]. exists os. split; [reflexivity|]. rewrite Hsz. clear -Hs. unfold shallow in Hs. cbn [nch] in Hs.
      induction ch as [|[k c] ch IH]; [reflexivity|]. inversion Hs as [|? ? H1 H2]; subst. cbn [snd] in *. destruct c as [? ? ch']. cbn in H1. subst.
      cbn [flat_map snd preorder map app]. rewrite IH by assumption. reflexivity. }
    destruct Ho as (os & -> & Hos). cbn [List.concat app] in *. rewrite <- Hos in Hnv.
    assert (Hlen : length l = list_sum (map (@length R) os)).
    { rewrite Hl. clear. induction os as [|o os IH]; [reflexivity|]. cbn. rewrite app_length, IH. reflexivity. }
    split.
    - intros Hle. set (ob := map (map (fun x => (-1 * x)%R)) (cut l (map (@length R) os))).
      assert (Hob : map (@length R) ob = map (@length R) os).
      { unfold ob. clear -Hlen. revert l Hlen. induction os as [|o os IH]; intros l H; [reflexivity|]. cbn [map list_sum fold_right] in H. change (fold_right Nat.add 0 (map (@length R) os)) with (list_sum (map (@length R) os)) in H.
        cbn [map cut]. rewrite map_length, firstn_length, IH; [f_equal; lia|]. rewrite skipn_length. lia. }
      assert (Hden : denote (tsum c (neg_vector c)) (prims ++ []) (params ++ [PA1 l]) = Ok (bpluss ([] :: os) (map (fun x => (-1 * x)%R) l :: ob))).
      { eapply denote_sum; try eassumption.
        - exact plus_IZR.
        - apply summable_vector.
        - apply independent_vector.
        - now apply fits_neg_vector.
        - now apply valid_len in Hv.
        - now rewrite neg_vector_prims.
        - constructor; [|now apply bcompat_eq]. unfold bcompat. rewrite map_length. cbn. lia. }
      rewrite app_nil_r in Hden.
      replace (map (fun yx => (fst yx - snd yx)%R) (zip (List.concat os) l)) with (List.concat (bpluss ([] :: os) (map (fun x => (-1 * x)%R) l :: ob))).
      + apply call_denote; [assumption|now apply valid_constraint|assumption].
      + unfold bpluss. cbn [zip map fst snd List.concat].
        assert (B0 : bplus [] (map (fun x => (-1 * x)%R) l) = []) by (destruct l as [|? [|]]; reflexivity). rewrite B0. cbn [app].
        change (List.concat (bpluss os ob) = map (fun yx => (fst yx - snd yx)%R) (zip (List.concat os) l)).
        rewrite concat_bpluss by congruence.
        assert (Hcat : List.concat ob = map (fun x => (-1 * x)%R) l).
        { unfold ob. rewrite <- concat_map. f_equal. clear -Hlen. revert l Hlen. induction os as [|o os IH]; intros l H; [destruct l; [reflexivity|discriminate]|]. cbn [map list_sum fold_right] in H. change (fold_right Nat.add 0 (map (@length R) os)) with (list_sum (map (@length R) os)) in H.
          cbn [map cut List.concat]. rewrite IH by (rewrite skipn_length; lia). apply firstn_skipn. }
        rewrite Hcat, <- bplus_vplus by (rewrite map_length; congruence). apply bplus_minus. congruence.
    - intros Hgt. destruct (call (tsum c (neg_vector c)) prims (params ++ [PA1 l])) as [r|e] eqn:Ec; [|eauto]. exfalso.
      assert (Ha : arity_ok (tsum c (neg_vector c)) (params ++ [PA1 l])).
      { apply fits_arity, fits_sum; [apply summable_vector|assumption|now apply fits_neg_vector]. }
      destruct (denote_call _ _ _ _ Hp Ha Ec) as (_ & o & Hden & _).
      apply valid_len in Hv. destruct Hf as [t w ch params Hf1 _ _ _]. unfold neg_vector, size_tree in Hden. cbn [tmap vtree fst snd nval map] in Hden.
      rewrite tsum_unfold, denote_unfold in Hden. apply bind_Ok in Hden as (own & Hown & _).
      unfold assem1, sum_parts in Hown. cbn [fst cassem nval ntype] in Hown. rewrite <- (app_nil_r prims) in Hown.
      cbn [nval] in Hv. unfold sc_node, scalar_node in Hown. cbn [fst snd csig prim_types nparams concatenate_signature minus1 nval ntype cassem app Nat.add length] in Hown.
      rewrite (split_app' (length (prim_types (csig w))) 0 prims [] Hv eq_refl), (split_app' (nparams (csig w)) 1 params [PA1 l] Hf1 eq_refl) in Hown.
      rewrite denote_unfold in Hd. apply bind_Ok in Hd as (own' & Hown' & Hd). inv_bind Hd. inv_bind Hd. inv_bind Hd. assert (own' = []) by congruence. subst own'.
      unfold assem1 in Hown'. apply bind_Ok in Hown' as (raw & Hraw & Hat). rewrite Hraw in Hown. cbn [bind] in Hown.
      destruct raw; try discriminate Hat. cbn in Hat. injection Hat as ->.
      cbn in Hown. rewrite (mapM_Ok_map (fun x => ((-1) * x)%R)) in Hown. cbn [bind atleast_1d] in Hown.
      destruct l as [|r0 [|r1 l]]; cbn in Hgt; try lia. cbn in Hown. discriminate.
  Qed.
End CstrR.
