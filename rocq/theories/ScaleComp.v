(** Compound constraints of scaled primitives. *)
From Coq Require Import Reals Lra.
From Verif Require Export ScaleCons.
Local Open Scope R_scope.

Section ScaleComp.
  Notation prim := (prim R).
  Notation pyval := (pyval R).
  Notation cons := (cons R).
  Notation cls := (cls R).
  Variable k : R.
  Hypothesis Hk : 0 < k.
  Notation scale := (scale k).
  Notation ks := (map (Rmult k)).
  Notation pos := (fun d : R => 0 < d).
  Notation scaling := (scaling k pos).
  Notation scalings := (scalings k pos).
  Notation node_rel := (node_rel k pos).

  Lemma sum_rel d name kinds f v ch (b : cons) ps ps' t t' : 0 < d -> length ps = nparams (csig v) -> length ps' = nparams (csig v) -> nparams (csig (nval b)) = 1%nat ->
    (forall prims q, cassem (ntype b) prims [q] = neg q) -> hom k d f ps ps' -> target d t t' ->
    node_rel (fst (sum_parts (Node {| cname := name; cisa := kinds; cassem := f |} v ch) b)) (ps ++ [t]) (ps' ++ [t']).
  Proof.
    intros Hd L L' Nb Eb H T. unfold sum_parts. cbn [fst nval]. eapply hom_node; [exact Hd|]. intros prims. rewrite Nb. cbn [ntype cassem].
    assert (Sp : forall qs (q : pyval), length qs = nparams (csig v) -> split (nparams (csig v)) 1 (qs ++ [q]) = (qs, [q])).
    { intros qs q Lq. unfold split, chunk, slice. cbn. rewrite Nat.sub_0_r, (firstn_exact qs _ _ Lq), (skipn_exact qs _ _ Lq). replace (nparams (csig v) + 1 - nparams (csig v))%nat with 1%nat by lia. reflexivity. }
    rewrite !Sp by assumption.
    match goal with |- context [split ?n ?m (map scale prims)] => replace (split n m (map scale prims)) with (let (u, v) := split n m prims in (map scale u, map scale v)) by (unfold split, chunk, slice; cbn; now rewrite !skipn_map, !firstn_map); destruct (split n m prims) as [u w] end.
    specialize (H u). destruct (f u ps) as [x|], (f (map scale u) ps') as [x'|]; cbn [rrel] in H; try contradiction; [|now subst]. cbn [bind]. rewrite !Eb.
    exact (add_target d x x' t t' H T).
  Qed.
  (** A number, in the old and in the new unit of length. *)
  Lemma hom_compound d name np ps ps' : length ps = length ps' -> hom k d (cassem (compound_cls name np)) ps ps'.
  Proof. intros L prims. cbn [compound_cls cassem]. rewrite <- L. destruct (Nat.eqb _ _); [|reflexivity]. right. exists []. split; reflexivity. Qed.
  Lemma compound_rel name np ps ps' : length ps = length ps' -> node_rel (compound_cls name np) ps ps'.
  Proof. intros L prims. unfold assem1. cbn [compound_cls cassem]. rewrite <- L. destruct (Nat.eqb _ _); [|reflexivity]. constructor. Qed.
  Lemma empty_rel name kinds ps ps' : node_rel {| cname := name; cisa := kinds; cassem := empty_assem |} ps ps'.
  Proof. intros prims. constructor. Qed.

  Definition single name ts key nm s f pks : cons :=
    Node (compound_cls name 0) {| cpk := [pks]; cparams := empties 1; csig := msig ts 0 0 |} [(key, mk_leaf nm s f)].
  Definition cr_single name ts key nm s f pks : cons := tsum (single name ts key nm s f pks) (neg_vector (single name ts key nm s f pks)).
  Lemma cr_single_ok name ts key nm s f pks : key <> EmptyString -> transform_constraint (single name ts key nm s f pks) = Ok (cr_single name ts key nm s f pks).
  Proof.
    intros Hn. apply constraint_ok.
    - constructor; [repeat constructor; intros []|]. repeat constructor.
    - constructor; [intros [H|[]]; now apply Hn|]. repeat constructor. intros [].
  Qed.
  Lemma number_vector t x : is_number t = true -> num_of t = Some x -> vector_child_params (F:=R) 1 [1%nat] [1%nat] [t] = Ok [[PA1 [x * 1]]].
  Proof. intros N H. destruct t; try discriminate; cbn in H; injection H as <-; reflexivity. Qed.
  Lemma cr_single_scaling name ts key nm s f pks t t' x : nparams s = 0%nat -> value_size s = 1%nat -> hom k k f [] [] ->
    is_number t = true -> is_number t' = true -> num_of t = Some x -> num_of t' = Some (k * x) -> scaling (cr_single name ts key nm s f pks) [t] [t'].
  Proof.
    intros Ns Vs H N N' E E'.
    assert (Child : scaling (cr_leaf nm s f) [PA1 [x * 1]] [PA1 [k * x * 1]]).
    { apply (cr_leaf_scaling k k nm s f [] [] (PA1 [x * 1]) (PA1 [k * x * 1]) Hk); [now rewrite Ns|now rewrite Ns|exact H|]. right. exists [x * 1]. split; [reflexivity|]. cbn. do 2 f_equal. lra. }
    assert (P : forall q y, is_number q = true -> num_of q = Some y -> cparams (nval (cr_single name ts key nm s f pks)) [q] = Ok [[PA1 [y * 1]]]).
    { intros q y Nq Eq. unfold cr_single, single, neg_vector, size_tree. cbn [tmap vtree map]. rewrite tsum_unfold. unfold sum_parts. cbn [nval snd cparams csig msig nparams].
      match goal with |- context [split 0 ?n [q]] => change n with 1%nat end. change (split 0 1 [q]) with (@nil pyval, [q]). cbn [empties List.repeat bind sc_node scalar_node fst snd nval csig nparams cparams].
      change (split 1 (nparams (csig (nval (minus1 (F:=R))))) [q]) with ([q], @nil pyval). cbn [bind]. unfold empties. cbn [bind List.repeat].
      match goal with |- context [vector_child_params ?a ?b ?c [q]] => replace (vector_child_params a b c [q]) with (vector_child_params (F:=R) 1 [1%nat] [1%nat] [q]) end.
      2: { unfold mk_leaf. cbn [tmap map snd nval tree_sum value_size csig]. cbn. rewrite !Vs. reflexivity. }
      rewrite (number_vector q y Nq Eq). reflexivity. }
    assert (R0 : node_rel (ntype (cr_single name ts key nm s f pks)) [t] [t']).
    { unfold cr_single, single, neg_vector, size_tree. cbn [tmap vtree map]. rewrite tsum_unfold. cbn [ntype]. unfold compound_cls.
      apply (sum_rel k _ _ _ _ _ _ [] [] t t' Hk); [reflexivity|reflexivity|reflexivity|intros; reflexivity|exact (hom_compound k name 0 [] [] eq_refl)|]. left. eauto. }
    assert (S : exists t0 v0, cr_single name ts key nm s f pks = Node t0 v0 [(key, cr_leaf nm s f)]) by (eexists _, _; reflexivity).
    destruct S as (t0 & v0 & S). rewrite S in *. cbn [nval ntype] in *.
    eapply scaling_node; [reflexivity|exact (P t x N E)|exact (P t' (k * x) N' E')|exact R0|]. constructor; [exact Child|constructor].
  Qed.
  (** ** RelativeLength *)
  Lemma relative_scaling t x : num_of t = Some x -> exists c, RelativeLength = Ok c /\ csig (nval c) = msig [TLine; TLine] 1 1 /\ scaling c [t] [t].
  Proof.
    intros Ht. set (Len := Length (F:=R)). assert (W : wf Len) by (repeat constructor).
    set (ng := tmap (sc_node "ScalarMultipleConstruction" (fun x y => py_mul y x) minus1) Len).
    assert (E1 : transform_scalar_mul Len (OVal (PInt (-1))) = Ok ng).
    { unfold transform_scalar_mul, to_scalar. cbn [is_number]. unfold transform_partial, Scalar. cbn [nval ntype nch csig cpk cisa cparams prim_types value_size nparams].
      rewrite mk_cons_ok; [|reflexivity|exact (fun H => H)]. cbn [bind]. now apply transform_scalar_tmap. }
    set (sc := tmap (sc_node "ScalarMultipleConstruction" (fun x y => py_mul y x) Scalar) ng).
    assert (E2 : transform_scalar_mul ng (OCons Scalar) = Ok sc).
    { unfold transform_scalar_mul, to_scalar. cbn [is_kind ntype Scalar cisa existsb ckind_eqb orb bind]. apply transform_scalar_tmap. now apply tmap_wf. }
    assert (Su : summable Len sc) by (repeat constructor).
    exists (tsum Len sc). split.
    { unfold RelativeLength. fold Len. rewrite E1. cbn [bind]. rewrite E2. cbn [bind]. destruct (transform_sum_cases Len sc W) as [[_ H]|[H _]]; [exact H|contradiction]. }
    split; [reflexivity|]. unfold sc, ng, Len, Length, mk_leaf. cbn [tmap map]. rewrite tsum_unfold. cbn [tsums].
    eapply scaling_node; [reflexivity|reflexivity|reflexivity| |constructor].
    unfold sum_parts. cbn [fst nval csig nparams msig prim_types sc_node scalar_node ntype cassem snd length concatenate_signature].
    eapply hom_node; [exact Hk|]. intros prims.
    match goal with |- context [split ?a ?b [t]] => change (split a b [t]) with (@nil pyval, [t]) end. cbn [bind].
    match goal with |- context [split ?a ?b [t]] => change (split a b [t]) with (@nil pyval, [t]) end. cbn [bind].
    assert (Sm : forall n m (l : list prim), split n m (map scale l) = let (u, v) := split n m l in (map scale u, map scale v)) by (intros; unfold split, chunk, slice; cbn; now rewrite !skipn_map, !firstn_map).
    rewrite Sm. destruct (split _ _ prims) as [u v]. pose proof (hom_length k Hk u) as Hu. destruct (no_params _ u []) as [a|], (no_params _ (map scale u) []) as [a'|]; cbn [rrel] in Hu; try contradiction; [|now subst]. cbn [bind].
    rewrite Sm. destruct (split _ _ v) as [v1 v2]. rewrite Sm. destruct (split _ _ v1) as [v3 v4]. pose proof (hom_length k Hk v3) as Hv.
    assert (C1 : forall p, cassem (ntype Scalar) p [t] = Ok t) by reflexivity. assert (C2 : forall p, cassem (ntype (minus1 (F:=R))) p [] = Ok (PInt (-1))) by reflexivity. rewrite !C1. cbn [bind].
    match goal with |- context [split ?a ?b []] => change (split a b []) with (@nil pyval, @nil pyval) end. cbn [bind].
    rewrite ?C2. cbn [bind].
    destruct (no_params _ v3 []) as [b|], (no_params _ (map scale v3) []) as [b'|]; cbn [rrel] in Hv; try contradiction; [|now subst]. cbn [bind].
    assert (Z : forall w w', pv k w w' -> rrel (pv k) (z <- py_mul (PInt (-1)) w ;; y <- py_mul t z ;; py_add a y) (z <- py_mul (PInt (-1)) w' ;; y <- py_mul t z ;; py_add a' y)).
    { intros w w' Hw.
      assert (M : forall q y e e', num_of q = Some y -> pv k e e' -> exists g g', py_mul q e = Ok g /\ py_mul q e' = Ok g' /\ pv k g g').
      { intros q y e e' Hq [(z & -> & ->)|(l & -> & ->)].
        - exists (PA0 (y * z)), (PA0 (y * (k * z))). split; [destruct q; try discriminate; cbn in Hq; injection Hq as <-; reflexivity|]. split; [destruct q; try discriminate; cbn in Hq; injection Hq as <-; reflexivity|]. left. eexists. split; [reflexivity|]. f_equal. ring.
        - assert (G : forall m, py_mul q (PA1 m) = Ok (PA1 (map (Rmult y) m))).
          { intros m. destruct q; try discriminate; cbn in Hq; injection Hq as <-; cbn [py_mul]; unfold arith2; cbn [to_operand bind]; now rewrite (mapM_ok (Rmult _)). }
          exists (PA1 (map (Rmult y) l)), (PA1 (map (Rmult y) (map (Rmult k) l))). rewrite !G. split; [reflexivity|]. split; [reflexivity|]. right. eexists. split; [reflexivity|]. f_equal. rewrite !map_map. apply map_ext. intros z. ring. }
      destruct (M (PInt (-1)) _ w w' eq_refl Hw) as (g & g' & -> & -> & Hg). cbn [bind]. destruct (M t _ g g' Ht Hg) as (h & h' & -> & -> & Hh). cbn [bind].
      destruct Hu as [(z & -> & ->)|(l & -> & ->)], Hh as [(z' & -> & ->)|(l' & -> & ->)].
      - left. eexists. split; [reflexivity|]. cbn. f_equal. ring.
      - rewrite !add_arr. unfold arith2. cbn [to_operand bind]. rewrite (mapM_ok (Rplus z)), (mapM_ok (Rplus (k * z))). right. eexists. split; [reflexivity|]. f_equal. rewrite !map_map. apply map_ext. intros y. ring.
      - rewrite (add_num1 l (PA0 z') z' eq_refl), (add_num1 (ks l) (PA0 (k * z')) (k * z') eq_refl). right. eexists. split; [reflexivity|]. f_equal. rewrite !map_map. apply map_ext. intros y. ring.
      - rewrite !add_arr. unfold arith2. cbn [to_operand bind]. rewrite (bcast_scale k (fun x y => Ok (x + y)) (fun x y => Ok (x + y)) (Rmult k)) by (intros; cbn; f_equal; ring). destruct (bcast2 _ l l'); [|reflexivity]. right. eexists. split; reflexivity. }
    specialize (Z b b' Hv). rewrite ?C1, ?C2. cbn [bind]. destruct (py_mul (PInt (-1)) b), (py_mul (PInt (-1)) b'); exact Z.
  Qed.
End ScaleComp.
