(** [Vector], number values, and [transform_constraint] against [denote]. *)
From Verif Require Export Trans2Proofs ConsSpec.

Section Num1.
  Context {F : Type} {N : Num F}.
  Notation pyval := (pyval F).
  (** The number a Python number or 0-d array stands for. *)
  Definition num_of (v : pyval) : option F :=
    match v with
    | PInt z => Some (nofZ z)
    | PFlt x | PA0 x => Some x
    | PBool b => Some (if b then n1 else n0)
    | _ => None
    end.

  Lemma num_atleast v x : num_of v = Some x -> atleast_1d v = Ok [x].
  Proof. destruct v; cbn; intros H; inversion H; reflexivity. Qed.

  Lemma mul_entrywise (Hmul : forall x y, nofZ (x * y) = nmul (nofZ x) (nofZ y)) y c :
    num_of y = Some c -> entrywise (fun x y => py_mul y x) y (fun x => Ok (nmul c x)).
  Proof.
    intros Hy x l l' Hx Hm. rewrite (mapM_Ok_map (fun x => nmul c x)) in Hm. inversion Hm; subst l'. clear Hm.
    destruct y; cbn in Hy; inversion Hy; subst c; clear Hy; destruct x as [?|?|?|?|?|l0| | |]; cbn in Hx; inversion Hx; subst l;
      cbn [py_mul bind atleast_1d map]; unfold arith2; cbn [to_operand bind]; rewrite ?Hmul;
      rewrite ?(mapM_Ok_map (fun x => nmul _ x)); try reflexivity.
  Qed.

  Lemma pow_entrywise y c : num_of y = Some c -> entrywise py_pow y (fun x => npow x c).
  Proof.
    intros Hy x l l' Hx Hm.
    destruct y; cbn in Hy; inversion Hy; subst c; clear Hy; destruct x as [?|?|?|?|?|l0| | |]; cbn in Hx; inversion Hx; subst l;
      unfold py_pow, arith2; cbn [to_operand bind]; cbn [mapM] in Hm; try rewrite Hm; try reflexivity;
      repeat match goal with |- context [npow ?x ?y] => destruct (npow x y); cbn in *; [|discriminate] end;
      inversion Hm; reflexivity.
  Qed.
End Num1.

Section Cstr.
  Context {F : Type} {N : Num F}.
  Notation prim := (prim F).
  Notation pyval := (pyval F).
  Notation cons := (cons F).

  (** No child key is the empty string. *)
  Inductive named {T A} : node T A -> Prop :=
  | named_node t v ch : ~ In EmptyString (map fst ch) -> Forall (fun kc => named (snd kc)) ch -> named (Node t v ch).

  Fixpoint vtree {T} (s : node T nat) : cons :=
    match s with
    | Node t size ch =>
        Node vector_cls
          {| cpk := List.repeat [] (length ch);
             cparams := vector_child_params (tree_sum s) (map (fun kn => tree_sum (snd kn)) ch) (map (fun kn => nval (snd kn)) ch);
             csig := {| prim_types := []; nparams := 1; value_size := size |} |}
          (map (fun kn => (fst kn, vtree (snd kn))) ch)
    end.

  Lemma mk_vector_ok {T} (s : node T nat) : named s -> mk_vector s = Ok (vtree s).
  Proof.
    induction s as [t size ch IH] using node_ind'. intros Hn. inversion Hn as [? ? ? Hk Hc]; subst.
    assert (Hch : forall l : dict (node T nat), Forall (fun kc => named (snd kc) -> mk_vector (snd kc) = Ok (vtree (snd kc))) l -> Forall (fun kc => named (snd kc)) l ->
        (fix go (ch : dict (node T nat)) : result (dict cons) :=
             match ch with
             | [] => Ok []
             | (k, n) :: r => c <- mk_vector n ;; cs <- go r ;; Ok ((k, c) :: cs)
             end) l = Ok (map (fun kn => (fst kn, vtree (snd kn))) l)).
    { induction l as [|[k n] l IHl]; intros H1 H2; [reflexivity|]. inversion H1; inversion H2; subst. cbn [snd] in *.
      rewrite H3 by assumption. cbn [bind]. rewrite IHl by assumption. reflexivity. }
    cbn [mk_vector]. rewrite (Hch ch IH Hc). cbn [bind].
    rewrite mk_cons_ok.
    - cbn [vtree]. f_equal. f_equal. f_equal.
      destruct (accumulate_effect t (Node t size ch)) as [_ Hacc]. rewrite Hacc.
      f_equal. cbn [accumulate nvalues nch]. unfold nvalues. cbn [nch]. unfold dvals. rewrite !map_map. cbn [snd].
      apply map_ext. intros [k c]. cbn [snd]. apply (accumulate_effect t c).
    - cbn [cpk]. now rewrite repeat_length, map_length.
    - rewrite map_map. cbn [fst]. rewrite <- (map_map fst (fun x => x)), map_id. assumption.
  Qed.

  Lemma named_tmap {T A T' A'} (g : node T A -> T' * A') n : named n -> named (tmap g n).
  Proof.
    induction n as [t v ch IH] using node_ind'. intros H. inversion H as [? ? ? Hk Hc]; subst. cbn [tmap]. constructor.
    - rewrite map_map. cbn [fst]. rewrite <- (map_map fst (fun x => x)), map_id. assumption.
    - clear H Hk. induction ch as [|[k c] ch IHch]; [constructor|]. inversion IH; inversion Hc; subst. cbn. constructor; auto.
  Qed.

  (** The declared sizes as a tree, and the negated vector of the constraint. *)
  Definition size_tree (c : cons) : node (cls F) nat := tmap (fun m => (vector_cls, value_size (csig (nval m)))) c.
  Definition minus1 : cons :=
    Node {| cname := "Partial"; cisa := [KScalar]; cassem := fun prims params => vector_assem prims (params ++ [PInt (-1)]) |}
         {| cpk := []; cparams := fun params => Ok []; csig := {| prim_types := []; nparams := 0; value_size := 1 |} |} [].
  Definition neg_vector (c : cons) : cons :=
    tmap (sc_node "ScalarMultipleConstruction" (fun x y => py_mul y x) minus1) (vtree (size_tree c)).

  Lemma vtree_wf {T} (s : node T nat) : wf s -> wf (vtree s).
  Proof.
    induction s as [t v ch IH] using node_ind'. intros H. apply wf_children in H as [H1 H2]. cbn [vtree]. constructor.
    - rewrite map_map. cbn [fst]. rewrite <- (map_map fst (fun x => x)), map_id. assumption.
    - induction ch as [|[k c] ch IHch]; [constructor|]. inversion IH; inversion H2; inversion H1; subst. cbn. constructor; auto.
  Qed.

  Lemma summable_vector (c : cons) : summable c (neg_vector c).
  Proof.
    unfold neg_vector, size_tree. induction c as [t v ch IH] using node_ind'. cbn [tmap fst snd nval]. cbn [vtree tmap].
    constructor.
    - rewrite !map_map. reflexivity.
    - reflexivity.
    - clear t v. induction ch as [|[k c] ch IHch]; [constructor|]. inversion IH; subst. constructor; [assumption|]. now apply IHch.
  Qed.

  Lemma independent_vector (c : cons) : independent c (neg_vector c).
  Proof.
    unfold neg_vector, size_tree. induction c as [t v ch IH] using node_ind'. cbn [tmap fst snd nval]. cbn [vtree tmap].
    constructor.
    - right. cbn [sc_node scalar_node fst snd cpk nval]. rewrite map_length. clear. induction (length ch); constructor; auto.
    - clear t v. induction ch as [|[k c] ch IHch]; [constructor|]. inversion IH; subst. constructor; [assumption|]. now apply IHch.
  Qed.

  Lemma constraint_ok (c : cons) : wf c -> named c -> transform_constraint c = Ok (tsum c (neg_vector c)).
  Proof.
    intros Hw Hn. unfold transform_constraint. rewrite node_map_tmap by assumption. cbn [bind]. fold (size_tree c).
    rewrite mk_vector_ok by now apply named_tmap. cbn [bind].
    unfold transform_scalar_mul, to_scalar. cbn [is_number]. unfold transform_partial, Scalar. cbn [nval ntype nch csig cpk cisa cparams prim_types value_size nparams].
    cbn [mk_cons length cpk]. rewrite mk_cons_ok; [|reflexivity|exact (fun H => H)]. cbn [bind].
    rewrite transform_scalar_tmap by (apply vtree_wf; now apply tmap_wf). cbn [bind].
    destruct (transform_sum_cases c (neg_vector c) Hw) as [[_ H]|[H _]]; [exact H|]. exfalso. apply H, summable_vector.
  Qed.

  Lemma fits_vtree {T} (s : node T nat) : forall q, length q = 1 -> fits (vtree s) q.
  Proof.
    induction s as [t size ch IH] using node_ind'. intros q Hq. cbn [vtree]. constructor; cbn [csig nparams cpk cparams].
    - assumption.
    - now rewrite repeat_length, map_length.
    - intros i k c ks Hi Hk. rewrite nth_error_map in Hi. destruct (nth_error ch i) as [[k' c']|]; [|discriminate].
      cbn in Hi. inversion Hi; subst. apply nth_error_In, repeat_spec in Hk. subst. destruct c'; reflexivity.
    - intros cps Hc.
      assert (Hcs : length ch = length cps /\ Forall (fun p => length p = 1) cps).
      { unfold vector_child_params in Hc. destruct q as [|v [|]]; try discriminate. inv_bind Hc.
        destruct ch as [|[k0 c0] ch]; [cbn in Hc; inversion Hc; subst; auto|]. cbn [map] in Hc.
        set (cums := tree_sum (snd (k0, c0)) :: map (fun kn : string * node T nat => tree_sum (snd kn)) ch) in Hc.
        assert (HL : forall X (l : list X), length (chunk l cums) = S (length ch)).
        { intros X l. unfold chunk. rewrite chunk_cut, cut_length. unfold cums. cbn. now rewrite map_length. }
        destruct x; try discriminate; inversion Hc; subst cps; rewrite map_length, zip_length, HL; cbn [length];
          rewrite map_length, Nat.min_id; (split; [reflexivity|]); apply Forall_map, Forall_forall; reflexivity. }
      destruct Hcs as [Hl Hp]. rewrite map_length. split; [lia|].
      intros i k c p Hi Hpi. rewrite nth_error_map in Hi. destruct (nth_error ch i) as [[k' c']|] eqn:E; [|discriminate].
      cbn in Hi. inversion Hi; subst. rewrite Forall_forall in IH, Hp. apply (IH (k, c')); [now apply nth_error_In in E|].
      apply Hp. now apply nth_error_In in Hpi.
  Qed.

  Lemma cut_repeat {A} (x : A) sizes : forall m, fold_right Nat.add 0 sizes <= m ->
    cut (List.repeat x m) sizes = map (fun k => List.repeat x k) sizes.
  Proof.
    induction sizes as [|k sizes IH]; intros m H; [reflexivity|]. cbn [fold_right] in H. cbn [cut map].
    assert (E : m = k + (m - k)) by lia. rewrite E. rewrite repeat_app.
    rewrite firstn_app, skipn_app, !repeat_length, Nat.sub_diag, firstn_O, skipn_O, app_nil_r.
    rewrite firstn_all2, skipn_all2 by (rewrite repeat_length; lia). cbn [app]. f_equal. apply IH. lia.
  Qed.

  (** All children are leaves. *)
  Definition shallow (c : cons) : Prop := Forall (fun kc => nch (snd kc) = []) (nch c).

  Lemma denote_vector_number (c : cons) t x : shallow c -> num_of t = Some x -> is_number t = true ->
    denote (vtree (size_tree c)) [] [t] =
      Ok ([x] :: map (fun kc => List.repeat (nmul x n1) (value_size (csig (nval (snd kc))))) (nch c)).
  Proof.
    destruct c as [tc v ch]. unfold shallow. cbn [nch]. intros Hs Ht Hn. unfold size_tree. cbn [tmap fst snd nval vtree].
    rewrite denote_unfold. cbn [cpk cparams]. unfold assem1. cbn [cassem vector_cls]. unfold vector_assem. cbn [bind].
    rewrite (num_atleast _ _ Ht). cbn [bind].
    assert (Hsel : forall n, mapM (mapM (@select F [])) (List.repeat [] n) = Ok (List.repeat [] n)).
    { induction n as [|n IH]; [reflexivity|]. cbn [List.repeat mapM bind]. rewrite IH. reflexivity. }
    rewrite Hsel. cbn [bind]. unfold vector_child_params. rewrite Hn.
    assert (Ha : forall n, arith2 (fun x y => Ok (nmul x y)) t (PA1 (List.repeat n1 n)) = Ok (PA1 (List.repeat (nmul x n1) n))).
    { intros n. assert (Hr : mapM (fun y => Ok (nmul x y)) (List.repeat n1 n) = Ok (List.repeat (nmul x n1) n)).
      { rewrite (mapM_Ok_map (fun y => nmul x y)). f_equal. induction n as [|n IH]; cbn; [reflexivity|now rewrite IH]. }
      destruct t; cbn in Ht; inversion Ht; subst; unfold arith2; cbn [to_operand bind]; rewrite Hr; reflexivity. }
    rewrite Ha. cbn [bind]. rewrite !map_length.
    destruct ch as [|kc0 ch0] eqn:Ech; [reflexivity|]. rewrite <- Ech in *. 
    assert (Hne : map (fun kn : string * node (cls F) nat => tree_sum (snd kn)) (map (fun kc : string * cons => (fst kc, tmap (fun m : cons => (vector_cls, value_size (csig (nval m)))) (snd kc))) ch) = map (fun kc => value_size (csig (nval (snd kc)))) ch).
    { rewrite map_map. apply map_ext_in. intros [k c] Hin. cbn [snd]. rewrite Forall_forall in Hs. specialize (Hs _ Hin). cbn in Hs.
      destruct c as [? ? ch']. cbn in Hs. subst ch'. cbn. lia. }
    rewrite Hne. clear kc0 ch0 Ech.
    set (sizes := map (fun kc : string * cons => value_size (csig (nval (snd kc)))) ch) in *.
    assert (Hsz : map (fun kn : string * node (cls F) nat => nval (snd kn)) (map (fun kc : string * cons => (fst kc, tmap (fun m : cons => (vector_cls, value_size (csig (nval m)))) (snd kc))) ch) = sizes).
    { rewrite map_map. apply map_ext. intros [k []]. reflexivity. }
    rewrite Hsz. cbn [tree_sum].
    change (fun kc : string * node (cls F) nat => tree_sum (snd kc)) with (fun kn : string * node (cls F) nat => tree_sum (snd kn)). rewrite Hne.
    unfold chunk. rewrite chunk_cut, cut_repeat by lia. fold (dict cons) in *.
    assert (Hz : map (fun cs : list F * nat => [PA1 (firstn (snd cs) (fst cs))]) (zip (map (fun k => List.repeat (nmul x n1) k) sizes) sizes) = map (fun k => [PA1 (List.repeat (nmul x n1) k)]) sizes).
    { clear. induction sizes as [|k s IH]; [reflexivity|]. cbn. rewrite firstn_all2 by (rewrite repeat_length; lia). now rewrite IH. }
    match goal with |- (cps <- ?M ;; _) = _ => assert (HM : M = Ok (map (fun k => [PA1 (List.repeat (nmul x n1) k)]) sizes)) end.
    { destruct sizes eqn:Es; [reflexivity|]. rewrite <- Es in *. rewrite Hz. reflexivity. }
    rewrite HM. cbn [bind]. clear HM Hz Hsz Hne Hsel Ha.
    match goal with |- (rest <- ?M ;; _) = _ => assert (HM : M = Ok (map (fun kc => List.repeat (nmul x n1) (value_size (csig (nval (snd kc))))) ch)) end.
    { unfold sizes. clear -Hs. induction ch as [|[k c] ch IH]; [reflexivity|]. inversion Hs as [|? ? H1 H2]; subst.
      cbn [map length List.repeat denotes fst snd]. destruct c as [t0 v0 ch']. cbn in H1. subst ch'.
      cbn [tmap fst snd map vtree nval]. rewrite denote_unfold. cbn [cpk length List.repeat mapM bind cparams vector_child_params is_number denotes map].
      unfold assem1. cbn [cassem vector_cls]. unfold vector_assem. cbn [bind atleast_1d denotes]. rewrite IH by assumption. reflexivity. }
    rewrite HM. reflexivity.
  Qed.

  (** Vectors of arrays: the root gets the whole array, every part its slice. *)
  Lemma denote_vector_array (c : cons) l : shallow c ->
    denote (vtree (size_tree c)) [] [PA1 l] =
      Ok (l :: cut l (map (fun kc => value_size (csig (nval (snd kc)))) (nch c))).
  Proof.
    destruct c as [tc v ch]. unfold shallow. cbn [nch]. intros Hs. unfold size_tree. cbn [tmap fst snd nval vtree].
    rewrite denote_unfold. cbn [cpk cparams]. unfold assem1. cbn [cassem vector_cls]. unfold vector_assem. cbn [bind atleast_1d].
    assert (Hsel : forall n, mapM (mapM (@select F [])) (List.repeat [] n) = Ok (List.repeat [] n)).
    { induction n as [|n IH]; [reflexivity|]. cbn [List.repeat mapM bind]. rewrite IH. reflexivity. }
    rewrite Hsel. cbn [bind]. unfold vector_child_params. cbn [is_number bind]. rewrite !map_length.
    destruct ch as [|kc0 ch0] eqn:Ech; [reflexivity|]. rewrite <- Ech in *. 
    assert (Hne : map (fun kn : string * node (cls F) nat => tree_sum (snd kn)) (map (fun kc : string * cons => (fst kc, tmap (fun m : cons => (vector_cls, value_size (csig (nval m)))) (snd kc))) ch) = map (fun kc => value_size (csig (nval (snd kc)))) ch).
    { rewrite map_map. apply map_ext_in. intros [k c] Hin. cbn [snd]. rewrite Forall_forall in Hs. specialize (Hs _ Hin). cbn in Hs.
      destruct c as [? ? ch']. cbn in Hs. subst ch'. cbn. lia. }
    rewrite Hne. clear kc0 ch0 Ech.
    set (sizes := map (fun kc : string * cons => value_size (csig (nval (snd kc)))) ch) in *.
    assert (Hsz : map (fun kn : string * node (cls F) nat => nval (snd kn)) (map (fun kc : string * cons => (fst kc, tmap (fun m : cons => (vector_cls, value_size (csig (nval m)))) (snd kc))) ch) = sizes).
    { rewrite map_map. apply map_ext. intros [k []]. reflexivity. }
    rewrite Hsz.
    unfold chunk. rewrite chunk_cut.
    assert (Hz : map (fun cs : list F * nat => [PA1 (firstn (snd cs) (fst cs))]) (zip (cut l sizes) sizes) = map (fun o => [PA1 o]) (cut l sizes)).
    { clear. revert l. induction sizes as [|k s IH]; intros l; [reflexivity|]. cbn. rewrite firstn_firstn, Nat.min_id. now rewrite IH. }
    match goal with |- (cps <- ?M ;; _) = _ => assert (HM : M = Ok (map (fun o => [PA1 o]) (cut l sizes))) end.
    { destruct sizes eqn:Es; [reflexivity|]. rewrite <- Es in *. rewrite Hz. reflexivity. }
    rewrite HM. cbn [bind]. clear HM Hz Hsz Hne Hsel.
    match goal with |- (rest <- ?M ;; _) = _ => assert (HM : M = Ok (cut l sizes)) end.
    { unfold sizes. clear -Hs. revert l. induction ch as [|[k c] ch IH]; intros l; [reflexivity|]. inversion Hs as [|? ? H1 H2]; subst.
      cbn [map length List.repeat denotes fst snd cut]. destruct c as [t0 v0 ch']. cbn in H1. subst ch'.
      cbn [tmap fst snd map vtree nval]. rewrite denote_unfold. cbn [cpk length List.repeat mapM bind cparams vector_child_params is_number denotes map].
      unfold assem1. cbn [cassem vector_cls]. unfold vector_assem. cbn [bind atleast_1d denotes]. rewrite IH by assumption. reflexivity. }
    rewrite HM. reflexivity.
  Qed.
End Cstr.
