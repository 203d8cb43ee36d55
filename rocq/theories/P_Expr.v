(** C80, C81: what the value of a construction, and its number of entries, depend on. *)
From Verif Require Export LikeProofs KindProofs LayoutSpec.

Section Expr.
  Context {F : Type} {N : Num F}.
  Notation prim := (prim F).
  Notation pyval := (pyval F).
  Notation cons := (cons F).

  Lemma lists_forget (ps qs : list prim) : Forall wf ps -> Forall wf qs -> Forall2 same_content ps qs -> map forget ps = map forget qs.
  Proof. intros Hp Hq H. revert Hp Hq. induction H as [|p q ps qs H1 H IH]; intros Hp Hq; [reflexivity|]. inversion Hp; inversion Hq; subst. cbn. now rewrite (content_forget p q), IH. Qed.
  Lemma dset_forget k (p : prim) ch : dset k (forget p) (map (fun kc => (fst kc, forget (snd kc))) ch) = map (fun kc => (fst kc, forget (snd kc))) (dset k p ch).
  Proof. induction ch as [|[k' c] ch IH]; [reflexivity|]. cbn. destruct (String.eqb k k'); [reflexivity|]. cbn. now rewrite IH. Qed.
  Lemma dict_forget (d : dict prim) : dict_of (map (fun kc => (fst kc, forget (snd kc))) d) = map (fun kc => (fst kc, forget (snd kc))) (dict_of d).
  Proof.
    unfold dict_of. change (@nil (string * prim)) with (map (fun kc => (fst kc, forget (snd kc))) (@nil (string * prim))) at 1. generalize (@nil (string * prim)).
    induction d as [|[k p] d IH]; intros acc; [reflexivity|]. cbn. rewrite dset_forget. apply IH.
  Qed.
  Lemma zip_forget (ks : list string) : forall ps : list prim, zip ks (map forget ps) = map (fun kc => (fst kc, forget (snd kc))) (zip ks ps).
  Proof. induction ks as [|k ks IH]; intros [|p ps]; try reflexivity. cbn. now rewrite IH. Qed.
  Lemma root_forget ks (ps : list prim) : root_prim ks (map forget ps) = fwd forget (root_prim ks ps).
  Proof.
    unfold root_prim, mk_primnode. rewrite zip_forget, dict_forget.
    assert (Hb : forallb (fun kc : string * prim => issubclass (ntype (snd kc)) TPrimNode) (map (fun kc => (fst kc, forget (snd kc))) (dict_of (zip ks ps))) = forallb (fun kc : string * prim => issubclass (ntype (snd kc)) TPrimNode) (dict_of (zip ks ps))).
    { induction (dict_of (zip ks ps)) as [|[k p] d IH]; [reflexivity|]. cbn [map forallb fst snd]. now rewrite IH, forget_type. }
    rewrite Hb. destruct (negb _); [reflexivity|]. cbn [signature_of vdata length Nat.eqb negb].
    assert (Hd : dvals (map (fun kc => (fst kc, forget (snd kc))) (dict_of (zip ks ps))) = map forget (dvals (dict_of (zip ks ps)))) by (unfold dvals; now rewrite !map_map).
    rewrite Hd. cbn [existsb]. rewrite forget_validate. destruct (_ || _)%bool; reflexivity.
  Qed.
  Lemma call_forget (c : cons) ps params : Forall (fun m => pure (ntype m)) (preorder c) -> call c (map forget ps) params = call c ps params.
  Proof.
    intros Hc. unfold call.
    assert (V : cvalidate_prims c (map forget ps) = cvalidate_prims c ps).
    { unfold cvalidate_prims. rewrite map_length. replace (existsb _ (zip (map forget ps) _)) with (existsb (fun pt : prim * ptype => negb (issubclass (ntype (fst pt)) (snd pt))) (zip ps (prim_types (csig (nval c))))); [reflexivity|].
      generalize (prim_types (csig (nval c))). induction ps as [|p ps IH]; intros [|t ts]; try reflexivity. cbn. now rewrite forget_type, IH. }
    rewrite V, map_length, root_forget. destruct (cvalidate_prims c ps); [|reflexivity]. cbn [bind]. destruct (cvalidate_params c params); [|reflexivity]. cbn [bind].
    destruct (root_prim _ ps) as [root|]; [|reflexivity]. cbn [fwd bind]. destruct (root_prim_keys _ _) as [kt|]; [|reflexivity]. cbn [bind]. destruct (root_params c params) as [pt|]; [|reflexivity]. cbn [bind].
    unfold assem_from_tree.
    assert (L : forall kss, mapM (mapM (get_child (forget root))) kss = fwd (map (map forget)) (mapM (mapM (get_child root)) kss)).
    { induction kss as [|ks kss IH]; [reflexivity|]. cbn [mapM]. rewrite IH, lookups_forget. destruct (mapM (get_child root) ks); [|reflexivity]. cbn [fwd bind]. destruct (mapM (mapM (get_child root)) kss); reflexivity. }
    rewrite L. destruct (mapM (mapM (get_child root)) _) as [fl|]; [|reflexivity]. cbn [fwd bind].
    match goal with |- bind ?x _ = bind ?y _ => assert (E : x = y); [|now rewrite E] end.
    rewrite iter_flat_preorder. generalize (map (fun x : string * pnode F => nval (snd x)) (iter_flat "" pt)). revert fl.
    induction Hc as [|m ms Hm Hc IH]; intros fl pl; [reflexivity|]. destruct fl as [|f fl]; [reflexivity|]. destruct pl as [|p pl]; [reflexivity|]. cbn [map zip mapM fst snd].
    rewrite IH. unfold assem1. now rewrite Hm.
  Qed.

  (** C80.  The value of a construction made of the shipped ones with the operators,
      transforms and compound classes depends on the classes, keys and numbers of the
      primitives handed in, not on which array objects hold the numbers or which are
      shared: primitives with the same content give the same value or the same error. *)
  Theorem C80_value (c : cons) ps qs params : expressible c -> Forall wf ps -> Forall wf qs -> Forall2 same_content ps qs ->
    call c ps params = call c qs params.
  Proof.
    intros Hc Hp Hq H. apply expressible_pure in Hc. rewrite <- (call_forget c ps), <- (call_forget c qs) by assumption. now rewrite (lists_forget ps qs).
  Qed.
  (** So with the residual of a layout, at any two trees of primitives with the same content. *)
  Theorem C80_residual i (acts : list (action F)) (p q : prim) : Forall (fun c => expressible c) (flat_map given_cons acts) -> wf p -> wf q -> same_content p q ->
    layout_residual (after (empty_layout i) acts) p = layout_residual (after (empty_layout i) acts) q.
  Proof.
    intros Hc Hp Hq H. set (l := after (empty_layout i) acts).
    assert (K : Forall pure (map (@ntype _ _) (preorder (l_cons l)))).
    { apply Forall_forall. intros t Ht. destruct (after_kinds acts t (empty_layout i) Ht) as [H0|(a & c & H1 & H2 & H3)].
      - cbn in H0. destruct H0 as [<-|[]]. intros ps params. reflexivity.
      - rewrite Forall_flat_map, Forall_forall in Hc. specialize (Hc a H1). rewrite Forall_forall in Hc. specialize (Hc c H2). apply expressible_pure in Hc. rewrite <- Forall_map, Forall_forall in Hc. now apply Hc. }
    unfold layout_residual. rewrite flat_constraints_dpre.
    assert (K' : Forall pure (map (@ntype _ _) (dpre (nch (l_cons l))))) by (destruct (l_cons l) as [t v ch]; cbn [preorder map] in K; now inversion K).
    rewrite <- (assem_forget p), <- (assem_forget q) by assumption. now rewrite (content_forget p q).
  Qed.
  (** Every constraint of constraints.py is expressible. *)
  Theorem C80_shipped tw (c : cons) ps : shipped tw c ps -> expressible c.
  Proof. apply shipped_expressible. Qed.

  (** C81.  The number of entries of the value depends on the classes, keys and array sizes
      of the primitives (and the parameters) only, not on the numbers. *)
  Theorem C81_value_size (c : cons) ps qs params v w : expressible c -> Forall wf ps -> Forall wf qs -> Forall2 same_sizes ps qs ->
    call c ps params = Ok v -> call c qs params = Ok w -> length v = length w.
  Proof.
    intros Hc Hp Hq H. apply expressible_sized in Hc. apply (call_like c ps qs params Hc). revert Hp Hq.
    induction H as [|p q ps qs H1 H IH]; intros Hp Hq; [constructor|]. inversion Hp; inversion Hq; subst. constructor; [now apply sizes_like|now apply IH].
  Qed.
  (** So with the number of equations of a layout, and with each constraint's share of them:
      residuals at trees of the same sizes have the same length. *)
  Theorem C81_residual_size i (acts : list (action F)) (p q : prim) v w : Forall (fun c => expressible c) (flat_map given_cons acts) -> wf p -> wf q -> same_sizes p q ->
    layout_residual (after (empty_layout i) acts) p = Ok v -> layout_residual (after (empty_layout i) acts) q = Ok w -> length v = length w.
  Proof.
    intros Hc Hp Hq H. set (l := after (empty_layout i) acts).
    assert (K : Forall sized (map (@ntype _ _) (preorder (l_cons l)))).
    { apply Forall_forall. intros t Ht. destruct (after_kinds acts t (empty_layout i) Ht) as [H0|(a & c & H1 & H2 & H3)].
      - cbn in H0. destruct H0 as [<-|[]]. intros ps qs params Hl. apply rv_eq. constructor.
      - rewrite Forall_flat_map, Forall_forall in Hc. specialize (Hc a H1). rewrite Forall_forall in Hc. specialize (Hc c H2). apply expressible_sized in Hc. rewrite <- Forall_map, Forall_forall in Hc. now apply Hc. }
    unfold layout_residual. rewrite flat_constraints_dpre.
    assert (K' : Forall sized (map (@ntype _ _) (dpre (nch (l_cons l))))) by (destruct (l_cons l) as [t x ch]; cbn [preorder map] in K; now inversion K).
    apply sizes_like in H; [|assumption..]. revert v w. apply (rv_bind (Forall2 samelen)); [now apply assem_like|].
    intros rs rs' Hrs. destruct Hrs as [|r r' rs rs' Hr1 Hrs]; [apply rv_err1|]. apply rv_Ok. apply (concat_len (r :: rs) (r' :: rs')). now constructor.
  Qed.
End Expr.

(** Two lines with the same content, different arrays: in one the end points share an
    array, in the other they have one each. *)
From Coq Require Import Reals Lra.
From Verif Require Import Inst Cons.
Notation cons := (cons R).
Section Case.
  Definition pt80 (i : nat) : prim R := Node TPoint {| vid := i; vdata := [1; 2]%R |} [].
  Definition line80 (i j : nat) : prim R := Node TLine {| vid := 0; vdata := [] |} [("Point0", pt80 i); ("Point1", pt80 j)].
  Definition relative80 : result cons := c <- transform_scalar_mul Length (OVal (PInt 3)) ;; transform_sum c LineVector.
  Example C80_content : same_content (line80 1 1) (line80 1 2) /\ wf (line80 1 1) /\ wf (line80 1 2) /\ line80 1 1 <> line80 1 2.
  Proof.
    split; [|split; [|split; [|discriminate]]].
    - intros [|k [|k' ks]]; try reflexivity; cbn [walk line80 nch dget]; (destruct (String.eqb k "Point0"); [reflexivity|]); (destruct (String.eqb k "Point1"); reflexivity).
    - repeat (apply wf_node || constructor; cbn; try (intros [H|H]; [discriminate|exact H])); auto.
    - repeat (apply wf_node || constructor; cbn; try (intros [H|H]; [discriminate|exact H])); auto.
  Qed.
  (** Lines of the same sizes, with other numbers. *)
  Definition far80 (i : nat) : prim R := Node TLine {| vid := 0; vdata := [] |} [("Point0", pt80 i); ("Point1", Node TPoint {| vid := 7; vdata := [8; 9]%R |} [])].
  Example C81_sizes : same_sizes (line80 1 1) (far80 1) /\ wf (far80 1) /\ ~ same_content (line80 1 1) (far80 1).
  Proof.
    split; [|split].
    - intros [|k [|k' ks]]; try reflexivity; cbn [walk line80 far80 nch dget]; (destruct (String.eqb k "Point0"); [reflexivity|]); (destruct (String.eqb k "Point1"); reflexivity).
    - repeat (apply wf_node || constructor; cbn; try (intros [H|H]; [discriminate|exact H])); auto.
    - intros H. specialize (H ["Point1"%string]). cbn in H. injection H as H _. lra.
  Qed.
  Example C80_expression : exists c, relative80 = Err AssertErr /\ (x <- transform_scalar_mul Length (OVal (PInt 3)) ;; transform_sum x XLength) = Ok c /\ expressible c.
  Proof.
    destruct (x <- transform_scalar_mul Length (OVal (PInt 3)) ;; transform_sum x XLength) as [c|] eqn:E; [|vm_compute in E; discriminate].
    exists c. split; [vm_compute; reflexivity|]. split; [reflexivity|]. inv_bind E. eapply ex_sum; [| |exact E]; [|apply ex_leaf; unfold leaves; cbn [In]; tauto].
    eapply ex_mul; [| |exact E0]; [apply ex_leaf; unfold leaves; cbn [In]; tauto|]. intros b Eb. discriminate Eb.
  Qed.
End Case.

Print Assumptions C81_value_size.
Print Assumptions C81_residual_size.
Print Assumptions C80_value.
Print Assumptions C80_residual.
Print Assumptions C80_shipped.
