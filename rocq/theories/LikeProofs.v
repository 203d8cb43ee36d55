(** The number of entries of a value depends on the shape of the primitives only. *)
From Verif Require Export PureProofs.

Section Like.
  Context {F : Type} {N : Num F}.
  Notation prim := (prim F).
  Notation pyval := (pyval F).
  Notation cons := (cons F).
  Notation cls := (cls F).

  (** Classes, keys and array sizes. *)
  Fixpoint shape (p : prim) : node ptype nat :=
    match p with Node t v ch => Node t (length (vdata v)) (map (fun kc => (fst kc, shape (snd kc))) ch) end.
  Lemma shape_type p : ntype (shape p) = ntype p.
  Proof. destruct p. reflexivity. Qed.
  Lemma shape_nch p : nch (shape p) = map (fun kc => (fst kc, shape (snd kc))) (nch p).
  Proof. destruct p. reflexivity. Qed.
  Lemma shape_nvalues p : nvalues (shape p) = map shape (nvalues p).
  Proof. unfold nvalues, dvals. rewrite shape_nch, !map_map. reflexivity. Qed.
  Lemma dget_shape k (ch : dict prim) : dget k (map (fun kc => (fst kc, shape (snd kc))) ch) = option_map shape (dget k ch).
  Proof. induction ch as [|[k' c] ch IH]; [reflexivity|]. cbn. destruct (String.eqb k k'); [reflexivity|exact IH]. Qed.
  Lemma shape_get k p : get_child (shape p) k = fwd shape (get_child p k).
  Proof.
    unfold get_child. generalize (S (String.length k)). intros fuel. revert p k. induction fuel as [|fuel IH]; intros p k; [reflexivity|].
    cbn [get_child_f]. destruct (split1 k) as [k1 [rest|]]; rewrite shape_nch, dget_shape; destruct (dget k1 (nch p)) as [c|]; try reflexivity. cbn [option_map].
    rewrite IH. destruct (get_child_f fuel c rest) as [x|[]]; reflexivity.
  Qed.
  Definition like (p q : prim) : Prop := shape p = shape q.
  Lemma like_coord p q : like p q -> length (coord p) = length (coord q).
  Proof. intros H. apply (f_equal (@nval _ _)) in H. destruct p, q. exact H. Qed.

  (** Related whenever both are there. *)
  Definition rv {A B} (R : A -> B -> Prop) (r : result A) (s : result B) : Prop := forall v w, r = Ok v -> s = Ok w -> R v w.
  Lemma rv_bind {A B A' B'} (R : A -> B -> Prop) (S : A' -> B' -> Prop) r s (k : A -> result A') (k' : B -> result B') :
    rv R r s -> (forall v w, R v w -> rv S (k v) (k' w)) -> rv S (bind r k) (bind s k').
  Proof. intros H K v w Ev Ew. destruct r as [x|]; [|discriminate]. destruct s as [y|]; [|discriminate]. cbn in *. eapply K; eauto. Qed.
  Lemma rv_Ok {A B} (R : A -> B -> Prop) v w : R v w -> rv R (Ok v) (Ok w).
  Proof. intros H x y Ex Ey. injection Ex as <-. injection Ey as <-. exact H. Qed.
  Lemma rv_err1 {A B} (R : A -> B -> Prop) e s : rv R (Err e) s.
  Proof. intros x y Ex. discriminate. Qed.
  Lemma rv_err2 {A B} (R : A -> B -> Prop) e r : rv R r (Err e).
  Proof. intros x y _ Ey. discriminate. Qed.
  Lemma rv_eq {A} (R : A -> A -> Prop) (r : result A) : (forall v, R v v) -> rv R r r.
  Proof. intros H v w E1 E2. rewrite E1 in E2. injection E2 as <-. apply H. Qed.
  Definition any {A} (x y : A) : Prop := True.
  Definition samelen (a b : list F) : Prop := length a = length b.
  Lemma rv_any {A} (r s : result A) : rv any r s.
  Proof. intros v w _ _. exact I. Qed.

  Inductive vlike : pyval -> pyval -> Prop :=
  | vl_same v : vlike v v
  | vl_0 x y : vlike (PA0 x) (PA0 y)
  | vl_f x y : vlike (PFlt x) (PFlt y)
  | vl_1 a b : samelen a b -> vlike (PA1 a) (PA1 b).

  Lemma get_like k p q : like p q -> rv like (get_child p k) (get_child q k).
  Proof.
    intros H x y Ex Ey. unfold like in *. pose proof (shape_get k p) as Hp. pose proof (shape_get k q) as Hq. rewrite H, Hq, Ex, Ey in Hp. cbn in Hp. now injection Hp as ->.
  Qed.
  Lemma int_like i p q : like p q -> rv like (get_int p i) (get_int q i).
  Proof.
    intros H x y. unfold get_int, like in *. apply (f_equal (@nvalues _ _)) in H. rewrite !shape_nvalues in H. apply (f_equal (fun l => nth_error l i)) in H. rewrite !nth_error_map in H.
    destruct (nth_error (nvalues p) i), (nth_error (nvalues q) i); try discriminate. cbn in H. intros Ex Ey. injection Ex as <-. injection Ey as <-. now injection H.
  Qed.
  Lemma mapM_len {A B} (f : A -> result B) l : forall r, mapM f l = Ok r -> length r = length l.
  Proof. induction l as [|x l IH]; intros r E; cbn in E; [injection E as <-; reflexivity|]. inv_bind E. inv_bind E. injection E as <-. cbn. f_equal. now apply IH. Qed.
  Lemma bcast_len f (a b r : list F) : bcast2 f a b = Ok r -> length r = if Nat.eqb (length a) (length b) then length a else if Nat.eqb (length a) 1 then length b else length a.
  Proof.
    unfold bcast2. destruct (Nat.eqb_spec (length a) (length b)) as [H|H].
    - intros E. apply mapM_len in E. rewrite zip_length in E. lia.
    - destruct a as [|x [|x2 a]].
      + destruct b as [|y [|]]; intros E; [now contradict H|apply mapM_len in E; exact E|discriminate].
      + intros E. apply mapM_len in E. exact E.
      + destruct b as [|y [|]]; intros E; [discriminate|apply mapM_len in E; exact E|discriminate].
  Qed.
  Lemma bcast_like f a b a' b' : samelen a a' -> samelen b b' -> rv samelen (bcast2 f a b) (bcast2 f a' b').
  Proof. unfold samelen. intros Ha Hb v w Ev Ew. apply bcast_len in Ev, Ew. rewrite Ev, Ew, Ha, Hb. reflexivity. Qed.
  Lemma map_like {A B} (f : A -> result F) (g : B -> result F) a b : length a = length b -> rv samelen (mapM f a) (mapM g b).
  Proof. intros H v w Ev Ew. apply mapM_len in Ev, Ew. unfold samelen. lia. Qed.
  Lemma arith_like f a b a' b' : vlike a a' -> vlike b b' -> rv vlike (arith2 f a b) (arith2 f a' b').
  Proof.
    intros Ha Hb. unfold arith2. 
    assert (O : forall v w, vlike v w -> rv (fun x y => match x, y with Num.N0 p _, Num.N0 q _ => p = q | N1 l, N1 m => samelen l m | _, _ => False end) (to_operand v) (to_operand w)).
    { intros v w [u|x y|x y|l m H]; [apply rv_eq; intros [p x|l]; reflexivity|now apply rv_Ok..]. }
    eapply rv_bind; [now apply O|]. intros oa oa' Hoa. eapply rv_bind; [now apply O|]. intros ob ob' Hob.
    destruct oa as [p x|l], oa' as [p' x'|l']; try contradiction; destruct ob as [q y|m], ob' as [q' y'|m']; try contradiction.
    - eapply rv_bind; [apply rv_any|]. intros z z' _. subst. apply rv_Ok. destruct (p' && q'); constructor.
    - eapply rv_bind; [now apply (map_like _ _ m m')|]. intros r r' H. apply rv_Ok. now constructor.
    - eapply rv_bind; [now apply (map_like _ _ l l')|]. intros r r' H. apply rv_Ok. now constructor.
    - eapply rv_bind; [now apply bcast_like|]. intros r r' H. apply rv_Ok. now constructor.
  Qed.
  Lemma op_like op a b a' b' : operator op -> vlike a a' -> vlike b b' -> rv vlike (op a b) (op a' b').
  Proof.
    intros [->|[->| ->]] Ha Hb.
    - pose proof (arith_like (fun x y => Ok (nadd x y)) a b a' b' Ha Hb) as G. unfold py_add.
      destruct Ha as [v|x y|x y|l m H]; [|exact G|exact G|].
      + destruct Hb as [w|x y|x y|l m H]; [apply rv_eq; constructor|destruct v as [| | | |[]| | | |]; exact G|destruct v as [| | | |[]| | | |]; exact G|destruct v as [| | | |[]| | | |]; exact G].
      + unfold samelen in H. destruct l as [|x l], m as [|y m]; try discriminate H; [|exact G]. destruct Hb as [w|x y|x y|l m H']; [apply rv_eq; constructor|exact G..].
    - pose proof (arith_like (fun x y => Ok (nmul x y)) b a b' a' Hb Ha) as G. cbv beta. unfold py_mul.
      destruct Hb as [w|x y|x y|l m H]; [|exact G|exact G|exact G]. destruct Ha as [v|x y|x y|l m H]; [apply rv_eq; constructor|destruct w; exact G..].
    - now apply arith_like.
  Qed.
  Lemma atleast_like v w : vlike v w -> rv samelen (atleast_1d v) (atleast_1d w).
  Proof. intros [u|x y|x y|l m H]; [apply rv_eq; reflexivity|now apply rv_Ok..]. Qed.

  (** ** Parts of the leaves *)
  Lemma line_like p q : like p q -> rv samelen (line_vector p) (line_vector q).
  Proof.
    intros H. unfold line_vector, like in *. apply (f_equal (@nvalues _ _)) in H. rewrite !shape_nvalues in H.
    destruct (nvalues p) as [|a [|b [|]]], (nvalues q) as [|c [|d [|]]]; try discriminate; try apply rv_err1. cbn in H. injection H as H1 H2. apply bcast_like; now apply like_coord.
  Qed.
  Lemma unit_like p q : like p q -> rv samelen (unit_line_vector p) (unit_line_vector q).
  Proof. intros H. unfold unit_line_vector. eapply rv_bind; [now apply line_like|]. intros v w Hv. eapply rv_bind; [apply rv_any|]. intros. now apply map_like. Qed.
  Lemma midpoint_like p q : like p q -> rv samelen (midpoint p) (midpoint q).
  Proof.
    intros H. unfold midpoint. eapply rv_bind; [apply rv_any|]. intros h h' _. eapply rv_bind; [now apply get_like|]. intros a a' Ha. eapply rv_bind; [now apply get_like|]. intros b b' Hb.
    eapply rv_bind; [apply bcast_like; now apply like_coord|]. intros r r' Hr. apply rv_Ok. unfold samelen, vscale. now rewrite !map_length.
  Qed.
  Lemma dot_like a b d : samelen a b -> rv vlike (dot a d) (dot b d).
  Proof.
    intros H. unfold dot. destruct d; try apply rv_err1; try (apply arith_like; now constructor).
    eapply rv_bind; [apply rv_any|]. intros. apply rv_Ok. constructor.
  Qed.
  Lemma coincident_like p q p' q' : like p p' -> like q q' -> rv samelen (coincident p q) (coincident p' q').
  Proof. intros H H'. apply bcast_like; now apply like_coord. Qed.
  Definition sized (c : cls) : Prop := forall ps qs params, Forall2 like ps qs -> rv vlike (cassem c ps params) (cassem c qs params).
  Lemma no_params_sized name (f : list prim -> result pyval) : (forall ps qs, Forall2 like ps qs -> rv vlike (f ps) (f qs)) -> sized {| cname := name; cisa := []; cassem := no_params f |}.
  Proof. intros H ps qs params Hp. cbn. unfold no_params. destruct params; [now apply H|apply rv_err1]. Qed.
  Lemma dd_like d ps qs : Forall2 like ps qs -> rv vlike (directed_distance ps d) (directed_distance qs d).
  Proof.
    intros H. destruct H as [|p p' ps qs Hp H]; [apply rv_err1|]. destruct H as [|q q' ps qs Hq H]; [apply rv_err1|]. destruct H; [|apply rv_err1]. cbn [directed_distance].
    eapply rv_bind; [apply bcast_like; now apply like_coord|]. intros. now apply dot_like.
  Qed.
  Lemma dl_like d ps qs : Forall2 like ps qs -> rv vlike (directed_length ps d) (directed_length qs d).
  Proof.
    intros H. destruct H as [|p p' ps qs Hp H]; [apply rv_err1|]. destruct H; [|apply rv_err1]. cbn [directed_length].
    eapply rv_bind; [now apply line_like|]. intros. now apply dot_like.
  Qed.
  Lemma md_like d ps qs : Forall2 like ps qs -> rv vlike (midpoint_directed_distance ps d) (midpoint_directed_distance qs d).
  Proof.
    intros H. destruct H as [|p p' ps qs Hp H]; [apply rv_err1|]. destruct H as [|q q' ps qs Hq H]; [apply rv_err1|]. destruct H; [|apply rv_err1]. cbn [midpoint_directed_distance].
    eapply rv_bind; [now apply midpoint_like|]. intros. eapply rv_bind; [now apply midpoint_like|]. intros. eapply rv_bind; [now apply bcast_like|]. intros. now apply dot_like.
  Qed.
  Ltac one H := destruct H as [|p p' ps qs Hp H]; [apply rv_err1|]; destruct H; [|apply rv_err1].
  Ltac two H := destruct H as [|p p' ps qs Hp H]; [apply rv_err1|]; destruct H as [|q q' ps qs Hq H]; [apply rv_err1|]; destruct H; [|apply rv_err1].
  Ltac scalar := eapply rv_bind; [apply rv_any|]; intros; apply rv_Ok; constructor.
  Lemma leaves_sized : Forall (fun c => sized (ntype c)) leaves.
  Proof.
    unfold leaves. repeat (apply Forall_cons; [|]); [..|apply Forall_nil].
    all: try (apply no_params_sized; intros ps qs H).
    all: try (intros ps qs params H; unfold Scalar, Coordinate, DirectedDistance, DirectedLength, MidpointDirectedDistance, PointOnLineDistance, PointToLineDistance, RelativePointOnLineDistance, CoincidentLines, mk_leaf; cbn [ntype cassem]).
    - apply rv_eq. constructor.
    - unfold coordinate_assem. destruct H as [|p p' ps qs Hp H]; [apply rv_err1|]. destruct H; [|apply rv_err1]. destruct params; [|apply rv_err1]. apply rv_Ok. constructor. now apply like_coord.
    - destruct params as [|d [|]]; try apply rv_err1. now apply dd_like.
    - now apply dd_like.
    - now apply dd_like.
    - unfold line_vector_assem. one H. eapply rv_bind; [now apply line_like|]. intros. apply rv_Ok. now constructor.
    - one H. eapply rv_bind; [now apply unit_like|]. intros. apply rv_Ok. now constructor.
    - one H. scalar.
    - destruct params as [|d [|]]; try apply rv_err1. now apply dl_like.
    - now apply dl_like.
    - now apply dl_like.
    - one H. eapply rv_bind; [now apply midpoint_like|]. intros. apply rv_Ok. now constructor.
    - destruct params as [|d [|]]; try apply rv_err1. now apply md_like.
    - now apply md_like.
    - now apply md_like.
    - unfold angle_assem. two H. eapply rv_bind; [apply rv_any|]. intros. scalar.
    - two H. destruct params as [|d [|]]; try apply rv_err1. scalar.
    - two H. destruct params as [|d [|]]; try apply rv_err1. scalar.
    - two H. destruct params as [|d [|]]; try apply rv_err1. eapply rv_bind; [apply rv_any|]. intros. eapply rv_bind; [apply rv_any|]. intros. eapply rv_bind; [apply rv_any|]. intros. apply rv_Ok. now constructor.
    - one H. eapply rv_bind; [apply rv_any|]. intros. eapply rv_bind; [apply rv_any|]. intros. eapply rv_bind; [apply rv_any|]. intros. eapply rv_bind; [apply rv_any|]. intros. scalar.
    - two H. eapply rv_bind; [now apply coincident_like|]. intros. apply rv_Ok. now constructor.
    - now apply dl_like.
    - now apply dl_like.
    - two H. eapply rv_bind; [now apply line_like|]. intros a a' Ha. eapply rv_bind; [now apply line_like|]. intros b b' Hb. cbn [dot]. scalar.
    - two H. scalar.
    - two H. eapply rv_bind; [apply rv_any|]. intros. eapply rv_bind; [apply rv_any|]. intros. eapply rv_bind; [apply rv_any|]. intros [x n] [y m] _. eapply rv_bind; [apply rv_any|]. intros. eapply rv_bind; [apply rv_any|]. intros. apply rv_Ok. now constructor.
    - two H. destruct params as [|r [|]]; try apply rv_err1. unfold coincident_lines. destruct (truthy r) as [b|]; [|apply rv_err1]. cbn [bind].
      do 4 (eapply rv_bind; [now apply get_like|]; intros ? ? ?). 
      destruct b; (eapply rv_bind; [now apply coincident_like|]; intros ? ? X; eapply rv_bind; [now apply coincident_like|]; intros ? ? Y; apply rv_Ok; constructor; unfold samelen in *; rewrite !app_length; lia).
  Qed.
  Lemma split_like na nb ps qs a b c d : Forall2 like ps qs -> split na nb ps = (a, b) -> split na nb qs = (c, d) -> Forall2 like a c /\ Forall2 like b d.
  Proof.
    assert (S : forall i ps qs, Forall2 like ps qs -> Forall2 like (skipn i ps) (skipn i qs)).
    { induction i as [|i IH]; intros p q H; [exact H|]. destruct H; [constructor|]. now apply IH. }
    assert (T : forall i ps qs, Forall2 like ps qs -> Forall2 like (firstn i ps) (firstn i qs)).
    { induction i as [|i IH]; intros p q H; [constructor|]. destruct H; [constructor|]. constructor; auto. }
    unfold split, chunk, slice. cbn. intros H E1 E2. injection E1 as <- <-. injection E2 as <- <-. split; apply T; first [exact H|apply S; exact H].
  Qed.
  Lemma expressible_sized (c : cons) : expressible c -> Forall (fun m => sized (ntype m)) (preorder c).
  Proof.
    apply (expressible_all sized); [..|apply leaves_sized].
    - pose proof leaves_sized as L. unfold leaves in L. now inversion L.
    - intros ps qs params H. apply rv_eq. constructor.
    - intros name kinds ps qs params H. apply rv_eq. constructor.
    - intros name kinds np ps qs params H. apply rv_eq. constructor.
    - intros d name kinds fr H ps qs params Hp. cbn. now apply H.
    - intros name kinds op a b na nb ma mb swap Ho Ha Hb ps qs params H. cbn [both cassem]. destruct (split na nb ps) as [pa pb] eqn:E1, (split na nb qs) as [qa qb] eqn:E2, (split ma mb params) as [ra rb].
      destruct (split_like _ _ _ _ _ _ _ _ H E1 E2) as [H1 H2].
      destruct swap; (eapply rv_bind; [first [now apply Ha|now apply Hb]|]; intros x x' Hx; eapply rv_bind; [first [now apply Ha|now apply Hb]|]; intros y y' Hy; now apply op_like).
  Qed.

  (** ** Calls and residuals *)
  Lemma sizes_like (p : prim) : forall q : prim, wf p -> wf q -> same_sizes p q -> like p q.
  Proof.
    unfold like. induction p as [t v ch IH] using node_ind'. intros [t' v' ch'] Hp Hq H. pose proof (H []) as H0. cbn in H0. injection H0 as Ht Hk Hv.
    apply wf_children in Hp as [Hn Hf], Hq as [Hn' Hf']. unfold nkeys, dkeys in Hk. cbn [nch] in Hk. cbn [shape]. rewrite Ht, Hv. f_equal.
    assert (Hc : forall k x y, In (k, x) ch -> In (k, y) ch' -> shape x = shape y).
    { intros k x y Hx Hy. rewrite Forall_forall in IH, Hf, Hf'. apply (IH _ Hx); [apply (Hf _ Hx)|apply (Hf' _ Hy)|]. intros path. specialize (H (k :: path)). cbn [walk nch] in H.
      rewrite (In_dget _ _ _ Hn Hx), (In_dget _ _ _ Hn' Hy) in H. exact H. }
    clear -Hk Hc. revert ch' Hk Hc. induction ch as [|[k x] ch IH]; intros [|[k' y] ch'] Hk Hc; try discriminate; [reflexivity|]. cbn in Hk. injection Hk as <- Hk. cbn.
    rewrite (Hc k x y) by now left. f_equal. apply IH; [exact Hk|]. intros. eapply Hc; right; eassumption.
  Qed.
  Lemma lookups_like (p q : prim) ks : like p q -> rv (Forall2 like) (mapM (get_child p) ks) (mapM (get_child q) ks).
  Proof.
    intros H. induction ks as [|k ks IH]; cbn [mapM]; [apply rv_Ok; constructor|]. eapply rv_bind; [now apply get_like|]. intros x y Hx. eapply rv_bind; [exact IH|]. intros xs ys Hxs. apply rv_Ok. now constructor.
  Qed.
  Lemma assem1_like (c : cls) ps qs params : sized c -> Forall2 like ps qs -> rv samelen (assem1 c ps params) (assem1 c qs params).
  Proof. intros Hc H. unfold assem1. eapply rv_bind; [now apply Hc|]. intros. now apply atleast_like. Qed.
  Lemma assem_like (p q : prim) (cs : list cls) : like p q -> Forall sized cs -> forall ks params,
    rv (Forall2 samelen) (assem_constraint_residual p cs ks params) (assem_constraint_residual q cs ks params).
  Proof.
    intros H Hs. unfold assem_constraint_residual. induction Hs as [|c cs Hc Hs IH]; intros [|k ks] [|r params]; cbn [zip mapM fst snd]; try (apply rv_Ok; constructor).
    eapply (rv_bind samelen); [|intros x y Hx; eapply rv_bind; [apply IH|]; intros xs ys Hxs; apply rv_Ok; now constructor].
    eapply rv_bind; [now apply lookups_like|]. intros. now apply assem1_like.
  Qed.
  Lemma concat_len (xs ys : list (list F)) : Forall2 samelen xs ys -> samelen (List.concat xs) (List.concat ys).
  Proof. unfold samelen. induction 1; cbn; [reflexivity|]. rewrite !app_length. lia. Qed.
  Lemma dset_like k (p q : prim) ch ch' : shape p = shape q -> map (fun kc => (fst kc, shape (snd kc))) ch = map (fun kc => (fst kc, shape (snd kc))) ch' ->
    map (fun kc => (fst kc, shape (snd kc))) (dset k p ch) = map (fun kc => (fst kc, shape (snd kc))) (dset k q ch').
  Proof.
    intros H. revert ch'. induction ch as [|[a x] ch IH]; intros [|[b y] ch'] E; try discriminate; cbn in *; [now rewrite H|]. injection E as <- Exy E. destruct (String.eqb k a); cbn; [now rewrite H, E|]. now rewrite Exy, (IH _ E).
  Qed.
  Lemma dict_like (ks : list string) ps qs : Forall2 like ps qs -> map (fun kc => (fst kc, shape (snd kc))) (dict_of (zip ks ps)) = map (fun kc => (fst kc, shape (snd kc))) (dict_of (zip ks qs)).
  Proof.
    unfold dict_of. intros H. assert (G : forall d d' : dict prim, map (fun kc => (fst kc, shape (snd kc))) d = map (fun kc => (fst kc, shape (snd kc))) d' ->
      map (fun kc => (fst kc, shape (snd kc))) (fold_left (fun d kv => dset (fst kv) (snd kv) d) (zip ks ps) d) = map (fun kc => (fst kc, shape (snd kc))) (fold_left (fun d kv => dset (fst kv) (snd kv) d) (zip ks qs) d'));
      [|now apply G].
    revert ks. induction H as [|p q ps qs H1 H IH]; intros [|k ks] d d' E; try exact E. cbn. apply IH. now apply dset_like.
  Qed.
  Lemma root_like ks ps qs : Forall2 like ps qs -> rv like (root_prim ks ps) (root_prim ks qs).
  Proof.
    intros H v w Ev Ew. apply (dict_like ks) in H. unfold root_prim, mk_primnode in *. destruct (negb _); [discriminate|]. cbn [signature_of vdata length Nat.eqb negb] in *.
    destruct (existsb _ _); [|discriminate]. destruct (negb _); [discriminate|]. destruct (existsb _ _); [|discriminate]. injection Ev as <-. injection Ew as <-. unfold like. cbn [shape vdata length]. now rewrite H.
  Qed.
  Lemma call_like (c : cons) ps qs params : Forall (fun m => sized (ntype m)) (preorder c) -> Forall2 like ps qs -> rv samelen (call c ps params) (call c qs params).
  Proof.
    intros Hc H. unfold call. assert (HL : length ps = length qs) by (clear -H; induction H; cbn; congruence). rewrite HL. eapply rv_bind; [apply rv_any|]. intros _ _ _. eapply rv_bind; [apply rv_any|]. intros _ _ _.
    eapply rv_bind; [now apply root_like|]. intros root root' Hr. eapply (rv_bind eq); [apply rv_eq; reflexivity|]. intros kt ? <-. eapply (rv_bind eq); [apply rv_eq; reflexivity|]. intros pt ? <-.
    unfold assem_from_tree. eapply (rv_bind (Forall2 (Forall2 like))).
    { generalize (map (fun x : string * knode => nval (snd x)) (iter_flat "" kt)). induction l as [|k l IH]; cbn [mapM]; [apply rv_Ok; constructor|].
      eapply rv_bind; [now apply lookups_like|]. intros x y Hx. eapply rv_bind; [exact IH|]. intros xs ys Hxs. apply rv_Ok. now constructor. }
    intros fl fl' Hfl. eapply (rv_bind (Forall2 samelen)).
    { rewrite iter_flat_preorder. generalize (map (fun x : string * pnode F => nval (snd x)) (iter_flat "" pt)). revert fl fl' Hfl.
      induction Hc as [|m ms Hm Hc IH]; intros fl fl' Hfl pl; [apply rv_Ok; constructor|]. destruct Hfl as [|f f' fl fl' Hf Hfl]; [apply rv_Ok; constructor|]. destruct pl as [|p pl]; [apply rv_Ok; constructor|].
      cbn [zip mapM fst snd]. eapply rv_bind; [now apply assem1_like|]. intros x y Hx. eapply rv_bind; [now apply IH|]. intros xs ys Hxs. apply rv_Ok. now constructor. }
    intros rs rs' Hrs. destruct Hrs as [|r r' rs rs' Hr1 Hrs]; [apply rv_err1|]. apply rv_Ok. apply (concat_len (r :: rs) (r' :: rs')). now constructor.
  Qed.
End Like.
