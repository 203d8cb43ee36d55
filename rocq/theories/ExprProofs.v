(** Properties of the classes in every expressible construction. *)
From Verif Require Export ExprSpec ShippedSpec NeatProofs.

Section Unflatten.
  Context {T A : Type}.
  Lemma unflatten_types (P : T -> Prop) fuel : forall (l : list (flat_struct T A)) n rest,
    Forall (fun s => P (snd (fst (fst s)))) l -> unflatten_f fuel l = Ok (n, rest) ->
    Forall (fun m => P (ntype m)) (preorder n) /\ Forall (fun s => P (snd (fst (fst s)))) rest.
  Proof.
    induction fuel as [|fuel IH]; intros l n rest Hl E; [discriminate|]. destruct l as [|[[[key t] v] ks] l]; [discriminate|]. cbn [unflatten_f] in E.
    inversion Hl as [|? ? Ht Hl']; subst. cbn [fst snd] in Ht.
    match type of E with context [?g ks l] => set (go := g) in E end.
    assert (G : forall ks l cs rest, Forall (fun s => P (snd (fst (fst s)))) l -> go ks l = Ok (cs, rest) ->
      Forall (fun c => Forall (fun m => P (ntype m)) (preorder c)) cs /\ Forall (fun s => P (snd (fst (fst s)))) rest).
    { clear E Hl Hl'. induction ks0 as [|k ks0 IHk]; intros l0 cs rest0 H0 E0; cbn in E0; [injection E0 as <- <-; split; [constructor|assumption]|].
      destruct (unflatten_f fuel l0) as [[c l1]|] eqn:E1; [|discriminate]. cbn in E0. destruct (IH _ _ _ H0 E1) as [C1 C2].
      destruct (go ks0 l1) as [[cs' l2]|] eqn:E2; [|discriminate]. cbn in E0. injection E0 as <- <-. destruct (IHk _ _ _ C2 E2). split; [now constructor|assumption]. }
    destruct (go ks l) as [[cs l1]|] eqn:E1; [|discriminate]. cbn in E. injection E as <- <-. destruct (G _ _ _ _ Hl' E1) as [G1 G2]. split; [|assumption].
    cbn [preorder]. constructor; [exact Ht|]. apply Forall_flat_map. apply Forall_forall. intros [k c] Hin. apply dict_of_In in Hin. apply zip_In in Hin as [_ Hin].
    rewrite Forall_forall in G1. now apply G1.
  Qed.
End Unflatten.

Section Closed.
  Context {F : Type} {N : Num F}.
  Notation prim := (prim F).
  Notation pyval := (pyval F).
  Notation cons := (cons F).
  Notation cls := (cls F).
  Variable P : cls -> Prop.
  Definition all_cls (c : cons) : Prop := Forall (fun m => P (ntype m)) (preorder c).
  (** Two values combined by [op]. *)
  Definition both (name : string) (kinds : list ckind) (op : pyval -> pyval -> result pyval) (a b : cls) (na nb ma mb : nat) (swap : bool) : cls :=
    {| cname := name; cisa := kinds;
       cassem := fun prims params =>
         let (prims_a, prims_b) := split na nb prims in
         let (params_a, params_b) := split ma mb params in
         if swap then y <- cassem b prims_b params_b ;; x <- cassem a prims_a params_a ;; op x y
         else x <- cassem a prims_a params_a ;; y <- cassem b prims_b params_b ;; op x y |}.
  Definition operator (op : pyval -> pyval -> result pyval) : Prop := op = py_add \/ op = (fun x y => py_mul y x) \/ op = py_pow.
  Hypothesis Hscalar : P (ntype Scalar).
  Hypothesis Hconst : P vector_cls.
  Hypothesis Hempty : forall name kinds, P {| cname := name; cisa := kinds; cassem := empty_assem |}.
  Hypothesis Hcompound : forall name kinds np, P {| cname := name; cisa := kinds; cassem := cassem (compound_cls name np) |}.
  Hypothesis Hpartial : forall c name kinds ps, P c -> P {| cname := name; cisa := kinds; cassem := fun prims params => cassem c prims (params ++ ps) |}.
  Hypothesis Hboth : forall name kinds op a b na nb ma mb swap, operator op -> P a -> P b -> P (both name kinds op a b na nb ma mb swap).

  Lemma mk_cons_all (t : cls) v ch (c : cons) : mk_cons t v ch = Ok c -> P t -> (forall x, In x ch -> all_cls (snd x)) -> all_cls c.
  Proof.
    intros E Ht Hc. destruct (mk_cons_cases t v ch) as [(_ & _ & E')|[_ E']]; rewrite E' in E; [|discriminate]. injection E as <-.
    unfold all_cls. cbn [preorder]. constructor; [exact Ht|]. apply Forall_flat_map, Forall_forall. exact Hc.
  Qed.
  Lemma construction_all (t : cls) keys cs pks cps sg (c : cons) : mk_construction t keys cs pks cps sg = Ok c -> P t -> (forall x, In x cs -> all_cls x) -> all_cls c.
  Proof. intros E Ht Hc. eapply mk_cons_all; [exact E|exact Ht|]. intros [k x] H. apply dict_of_In in H. apply zip_In in H as [_ H]. now apply Hc. Qed.
  Lemma children_all (c : cons) kx : all_cls c -> In kx (nch c) -> all_cls (snd kx).
  Proof.
    destruct c as [t v ch]. unfold all_cls. cbn [preorder nch]. intros H Hin. inversion H as [|? ? _ H']; subst. rewrite Forall_flat_map, Forall_forall in H'. now apply H'.
  Qed.
  Lemma vector_all {T} (n : node T nat) : forall c, mk_vector n = Ok c -> all_cls c.
  Proof.
    induction n as [t v ch IH] using node_ind'. intros c E. cbn [mk_vector] in E.
    match type of E with context [?g ch] => match type of g with dict (node T nat) -> result (dict cons) => set (go := g) in E end end.
    inv_bind E. eapply mk_cons_all; [exact E|exact Hconst|].
    clear E. revert x E0. induction ch as [|[k n] ch IHc]; intros x E0; cbn in E0; [injection E0 as <-; contradiction|].
    inversion IH; subst. inv_bind E0. inv_bind E0. injection E0 as <-. intros y [<-|Hy]; [now apply H1|]. eapply IHc; eauto.
  Qed.
  Lemma partial_all (c : cons) ps d : all_cls c -> transform_partial c ps = Ok d -> all_cls d.
  Proof.
    intros H E. unfold transform_partial in E. eapply mk_cons_all; [exact E| |intros; now apply (children_all c)].
    apply Hpartial. destruct c. now inversion H.
  Qed.
  Lemma sum_all (a b c : cons) : all_cls a -> all_cls b -> transform_sum a b = Ok c -> all_cls c.
  Proof.
    intros Ha Hb E. unfold transform_sum in E. inv_bind E. inv_bind E. injection E as <-. destruct x0 as [n rest]. cbn [fst]. unfold unflatten in E1.
    apply (unflatten_types P) in E1 as [E1 _]; [exact E1|]. clear E1.
    assert (H : Forall (fun ab => P (ntype (snd (fst ab))) /\ P (ntype (snd (snd ab)))) (zip (iter_flat "" a) (iter_flat "" b))).
    { apply Forall_forall. intros [[ka xa] [kb xb]] Hin. apply zip_In in Hin as [H1 H2]. apply (in_map snd) in H1, H2. rewrite iter_flat_preorder in H1, H2. cbn in *. unfold all_cls in *. rewrite Forall_forall in Ha, Hb. auto. }
    revert x E0 H. generalize (zip (iter_flat "" a) (iter_flat "" b)). induction l as [|[[ka xa] [kb xb]] l IH]; intros x E0 H; cbn [mapM] in E0; [injection E0 as <-; constructor|].
    inv_bind E0. inv_bind E0. injection E0 as <-. inversion H as [|? ? [H1 H2] H']; subst. constructor; [|now apply IH]. cbn [fst snd] in *.
    destruct (sum_node xa xb) as [[[t v] ks]|] eqn:Es; [|discriminate]. cbn in E. injection E as <-. cbn [fst snd].
    unfold sum_node in Es. destruct (negb _); [discriminate|]. destruct (negb _); [discriminate|]. injection Es as <- _ _.
    apply (Hboth "SumConstruction" [] py_add (ntype xa) (ntype xb) (length (prim_types (csig (nval xa)))) (length (prim_types (csig (nval xb)))) (nparams (csig (nval xa))) (nparams (csig (nval xb))) false); [now left|assumption|assumption].
  Qed.
  Lemma scalar_all name op (c s d : cons) : operator op -> all_cls c -> P (ntype s) -> transform_scalar name op c s = Ok d -> all_cls d.
  Proof.
    intros Hop Hc Hs E. unfold transform_scalar in E. inv_bind E. injection E as <-. destruct x as [n rest]. cbn [fst]. unfold unflatten in E0.
    apply (unflatten_types P) in E0 as [E0 _]; [exact E0|]. clear E0. apply Forall_map, Forall_forall. intros [k x] Hin. apply (in_map snd) in Hin. rewrite iter_flat_preorder in Hin. cbn in *.
    unfold all_cls in Hc. rewrite Forall_forall in Hc. specialize (Hc _ Hin).
    apply (Hboth name (cisa (ntype x)) op (ntype x) (ntype s) (length (prim_types (csig (nval x)))) (length (prim_types (csig (nval s)))) (nparams (csig (nval x))) (nparams (csig (nval s))) true); assumption.
  Qed.
  Lemma root_cls (c : cons) : all_cls c -> P (ntype c).
  Proof. destruct c. intros H. now inversion H. Qed.
  Lemma Scalar_all : all_cls Scalar.
  Proof. constructor; [exact Hscalar|constructor]. Qed.
  Lemma to_scalar_all (s : opnd F) c : (forall b, s = OCons b -> all_cls b) -> to_scalar s = Ok c -> all_cls c.
  Proof.
    intros H E. destruct s as [b|v]; cbn in E.
    - destruct (is_kind _ _); [|discriminate]. injection E as <-. now apply H.
    - destruct (is_number v); [|discriminate]. eapply partial_all; [apply Scalar_all|exact E].
  Qed.
  Lemma mul_all (c d : cons) s : all_cls c -> (forall b, s = OCons b -> all_cls b) -> transform_scalar_mul c s = Ok d -> all_cls d.
  Proof.
    intros Hc H E. unfold transform_scalar_mul in E. inv_bind E. eapply scalar_all; [|exact Hc|apply root_cls; eapply to_scalar_all; [exact H|exact E0]|exact E]. right. now left.
  Qed.
  Lemma pow_all (c d : cons) s : all_cls c -> (forall b, s = OCons b -> all_cls b) -> transform_scalar_pow c s = Ok d -> all_cls d.
  Proof.
    intros Hc H E. unfold transform_scalar_pow in E. inv_bind E. eapply scalar_all; [|exact Hc|apply root_cls; eapply to_scalar_all; [exact H|exact E0]|exact E]. right. now right.
  Qed.
  Lemma div_all (c d : cons) s : all_cls c -> (forall b, s = OCons b -> all_cls b) -> transform_scalar_div c s = Ok d -> all_cls d.
  Proof.
    intros Hc H E. unfold transform_scalar_div in E. inv_bind E. inv_bind E. eapply mul_all; [exact Hc| |exact E]. intros b Eb. injection Eb as <-.
    eapply pow_all; [| |exact E1]; [|intros ? Hb; discriminate Hb]. destruct s as [b|v]; cbn in E0; [|eapply partial_all; [apply Scalar_all|exact E0]].
    destruct (is_kind _ _); [injection E0 as <-; now apply H|]. eapply partial_all; [apply Scalar_all|exact E0].
  Qed.
  Lemma map_all (c d : cons) ts : all_cls c -> transform_map c ts = Ok d -> all_cls d.
  Proof.
    intros Hc E. unfold transform_map in E. eapply mk_cons_all; [exact E|apply Hempty|]. intros [k x] Hin. apply dict_of_In in Hin. apply in_map_iff in Hin as (i & Ei & _). injection Ei as _ <-. exact Hc.
  Qed.
  Lemma constraint_all (c d : cons) : all_cls c -> transform_constraint c = Ok d -> all_cls d.
  Proof.
    intros Hc E. unfold transform_constraint in E. inv_bind E. inv_bind E. inv_bind E. eapply sum_all; [exact Hc| |exact E].
    eapply mul_all; [| |exact E2]; [|intros ? Hb; discriminate Hb]. eapply vector_all; exact E1.
  Qed.
  Theorem expression_all base (c : cons) : Forall all_cls base -> expression base c -> all_cls c.
  Proof.
    intros Hleaf.
    induction 1 as [c Hc|T n c E|c ps d Hc IH E|a b c Ha IHa Hb IHb E|c s d Hc IH Hs IHs E|c s d Hc IH Hs IHs E|c s d Hc IH Hs IHs E|c ts d Hc IH E|c d Hc IH E|name kinds np keys cs pks cps sg c Hc IH E|name keys cs pks cps sg c Hc IH E].
    - rewrite Forall_forall in Hleaf. exact (Hleaf c Hc).
    - eapply vector_all; exact E.
    - eapply partial_all; eassumption.
    - eapply sum_all; [exact IHa|exact IHb|exact E].
    - eapply mul_all; eassumption.
    - eapply div_all; eassumption.
    - eapply pow_all; eassumption.
    - eapply map_all; eassumption.
    - eapply constraint_all; eassumption.
    - eapply construction_all; [exact E|apply Hcompound|exact IH].
    - eapply construction_all; [exact E|apply Hempty|exact IH].
  Qed.
  Theorem expressible_all (c : cons) : Forall (fun c => P (ntype c)) leaves -> expressible c -> all_cls c.
  Proof.
    intros Hleaf. apply expression_all. apply Forall_forall. intros x Hx. rewrite Forall_forall in Hleaf. specialize (Hleaf x Hx). unfold leaves in Hx. cbn [In] in Hx. unfold all_cls.
    repeat (destruct Hx as [<-|Hx]; [constructor; [exact Hleaf|constructor]|]). contradiction.
  Qed.
  Theorem relative_all (c : cons) : Forall (fun c => P (ntype c)) relative_leaves -> relative c -> all_cls c.
  Proof.
    intros Hleaf. apply expression_all. apply Forall_forall. intros x Hx. rewrite Forall_forall in Hleaf. specialize (Hleaf x Hx). unfold relative_leaves in Hx. cbn [In] in Hx. unfold all_cls.
    repeat (destruct Hx as [<-|Hx]; [constructor; [exact Hleaf|constructor]|]). contradiction.
  Qed.
End Closed.
Section Mono.
  Context {F : Type} {N : Num F}.
  Lemma expression_mono (base base' : list (cons F)) c : (forall x, In x base -> In x base') -> expression base c -> expression base' c.
  Proof.
    intros H. induction 1 as [c Hc|T n c E|c ps d Hc IH E|a b c Ha IHa Hb IHb E|c s d Hc IH Hs IHs E|c s d Hc IH Hs IHs E|c s d Hc IH Hs IHs E|c ts d Hc IH E|c d Hc IH E|name kinds np keys cs pks cps sg c Hc IH E|name keys cs pks cps sg c Hc IH E].
    - apply ex_leaf. auto.
    - eapply ex_vector; exact E.
    - eapply ex_partial; eassumption.
    - eapply ex_sum; [exact IHa|exact IHb|exact E].
    - eapply ex_mul; eassumption.
    - eapply ex_div; eassumption.
    - eapply ex_pow; eassumption.
    - eapply ex_map; eassumption.
    - eapply ex_constraint; eassumption.
    - eapply ex_compound; eassumption.
    - eapply ex_list; eassumption.
  Qed.
  Lemma relative_expressible (c : cons F) : relative c -> expressible c.
  Proof. apply expression_mono. intros x Hx. unfold relative_leaves in Hx. cbn [In] in Hx. unfold leaves. cbn [In]. tauto. Qed.
End Mono.
