(** Output sizes of the shipped constructions. *)
From Verif Require Export SizeSpec CstrProofs ConsSpec.

Section Size.
  Context {F : Type} {N : Num F}.
  Notation prim := (prim F).
  Notation pyval := (pyval F).
  Notation cons := (cons F).
  Notation typed prims ts := (Forall2 (fun (p : prim) t => issubclass (ntype p) t = true) prims ts).
  Notation named_type := (named_type false).

  Lemma well_made_walk p : forall (q c : prim), walk p q = Some c -> well_made q -> well_made c.
  Proof.
    induction p as [|k p IH]; intros q c H Hw; cbn [walk] in H; [inversion H; subst; assumption|].
    destruct (dget k (nch q)) as [d|] eqn:E; [|discriminate]. apply (IH d c H). destruct q as [t v ch]. cbn [nch] in E. unfold well_made in *. cbn [preorder] in Hw.
    inversion Hw; subst. apply Forall_forall. intros m Hm. rewrite Forall_forall in H3. apply H3. apply in_flat_map. exists (k, d). split; [now apply dget_In|assumption].
  Qed.
  Lemma well_made_child (q c : prim) k : In (k, c) (nch q) -> well_made q -> well_made c.
  Proof.
    intros E Hw. destruct q as [t v ch]. cbn [nch] in E. unfold well_made in *. cbn [preorder] in Hw.
    inversion Hw; subst. apply Forall_forall. intros m Hm. rewrite Forall_forall in H2. apply H2. apply in_flat_map. exists (k, c). auto.
  Qed.
  Lemma well_made_conforms (q : prim) : well_made q -> conforms q.
  Proof. destruct q. intros H. inversion H; subst; assumption. Qed.
  Lemma well_made_get (q c : prim) k : get_child q k = Ok c -> well_made q -> well_made c.
  Proof.
    rewrite (lookup_walks q k (split_all k) (components_total k)). destruct (walk (split_all k) q) as [d|] eqn:E; [|discriminate].
    intros H. inversion H; subst. now apply (well_made_walk (split_all k)).
  Qed.
  Lemma well_made_select (prims : list prim) key q : select prims key = Ok q -> Forall well_made prims -> well_made q.
  Proof.
    unfold select. destruct (split1 key) as [a rest]. intros H Hw. inv_bind H. destruct (nth_error prims x) as [p|] eqn:En; [|discriminate].
    rewrite Forall_forall in Hw. apply nth_error_In, Hw in En. destruct rest as [r|]; [now apply (well_made_get p q r)|]. inversion H; subst; assumption.
  Qed.

  Inductive sized : cons -> list pyval -> Prop :=
  | sized_node t v ch params :
      length params = nparams (csig v) ->
      length (cpk v) = length ch ->
      (forall prims o, typed prims (prim_types (csig v)) -> Forall well_made prims ->
         assem1 t prims params = Ok o -> length o = value_size (csig v)) ->
      (forall cps, cparams v params = Ok cps -> sizeds (prim_types (csig v)) ch (cpk v) cps) ->
      sized (Node t v ch) params
  with sizeds : list ptype -> dict cons -> list (list string) -> list (list pyval) -> Prop :=
  | sizeds_nil ts pks cps : sizeds ts [] pks cps
  | sizeds_cons ts k c ch ks pks p cps :
      Forall2 (named_type ts) ks (prim_types (csig (nval c))) -> sized c p -> sizeds ts ch pks cps ->
      sizeds ts ((k, c) :: ch) (ks :: pks) (p :: cps).
  Scheme sized_mut := Minimality for sized Sort Prop
  with sizeds_mut := Minimality for sizeds Sort Prop.

  Lemma sized_sizes c ps : sized c ps -> forall prims outs,
    typed prims (prim_types (csig (nval c))) -> Forall (whole false) prims -> Forall well_made prims ->
    denote c prims ps = Ok outs -> map (@length F) outs = declared_sizes c.
  Proof.
    intros H. refine (sized_mut (fun c ps => forall prims outs,
      typed prims (prim_types (csig (nval c))) -> Forall (whole false) prims -> Forall well_made prims ->
      denote c prims ps = Ok outs -> map (@length F) outs = declared_sizes c)
      (fun ts ch pks cps => forall prims sels outs, typed prims ts -> Forall (whole false) prims -> Forall well_made prims ->
        mapM (mapM (select prims)) pks = Ok sels -> denotes ch sels cps = Ok outs ->
        map (@length F) outs = flat_map (fun kc => declared_sizes (snd kc)) ch) _ _ _ c ps H).
    - intros t v ch params Hl _ Ho _ Hc prims outs Ht Hw Hm E. rewrite denote_unfold in E. inv_bind E. inv_bind E. inv_bind E. inv_bind E. inversion E; subst outs.
      cbn [map]. unfold declared_sizes. cbn [preorder map nval]. rewrite (Ho prims x Ht Hm E0). f_equal.
      specialize (Hc _ E2 prims x0 x2 Ht Hw Hm E1 E3). rewrite Hc. clear. induction ch as [|kc ch IH]; [reflexivity|]. cbn [flat_map]. rewrite map_app, IH. reflexivity.
    - intros ts pks cps prims sels outs _ _ _ _ E. cbn in E. inversion E; reflexivity.
    - intros ts k c0 ch ks pks p cps Hn _ Hc _ Hr prims sels outs Ht Hw Hm E1 E2. cbn [mapM] in E1. inv_bind E1. inv_bind E1. inversion E1; subst sels.
      cbn [denotes] in E2. inv_bind E2. inv_bind E2. inversion E2; subst outs. rewrite map_app. cbn [flat_map snd]. f_equal.
      + assert (Hx : typed x (prim_types (csig (nval c0))) /\ Forall (whole false) x /\ Forall well_made x).
        { clear -Hn Ht Hw Hm E. revert x E. induction Hn as [|key t ks ts0 Hk Hn IH]; intros x E; cbn [mapM] in E; [inversion E; repeat constructor|].
          inv_bind E. inv_bind E. inversion E; subst. destruct (IH _ E1) as (A & B & C). destruct (named_select false ts prims key t Ht Hw Hk) as (q & Q1 & Q2 & Q3).
          rewrite Q1 in E0. inversion E0; subst. repeat split; constructor; auto. eapply well_made_select; eassumption. }
        destruct Hx as (A & B & C). eapply Hc; eassumption.
      + eapply Hr; eassumption.
  Qed.

  Lemma sized_arity c ps : sized c ps -> arity_ok c ps.
  Proof.
    intros H. refine (sized_mut arity_ok (fun ts ch pks cps => length ch <= length cps /\
      forall i k c p, nth_error ch i = Some (k, c) -> nth_error cps i = Some p -> arity_ok c p) _ _ _ c ps H).
    - intros t v ch params _ Hpk _ _ Hc. constructor; assumption.
    - intros ts pks cps. split; [cbn; lia|]. intros [|i]; discriminate.
    - intros ts k c0 ch ks pks p cps _ _ Hc _ [Hl Hr]. split; [cbn; lia|]. intros [|i] k' c' p' E1 E2; cbn in E1, E2.
      + inversion E1; inversion E2; subst. assumption.
      + eapply Hr; eassumption.
  Qed.

  (** ** Leaves *)
  Definition own (t : cls F) (ts : list ptype) (params : list pyval) (n : nat) : Prop :=
    forall prims o, typed prims ts -> Forall well_made prims -> assem1 t prims params = Ok o -> length o = n.
  Lemma sized_leaf name s f params : length params = nparams s -> own {| cname := name; cisa := []; cassem := f |} (prim_types s) params (value_size s) ->
    sized (mk_leaf name s f) params.
  Proof. intros H1 H2. constructor; [exact H1|reflexivity|exact H2|]. intros cps _. constructor. Qed.

  Lemma bcast2_length f (a b r : list F) n : bcast2 f a b = Ok r -> length a = n -> length b = n -> length r = n.
  Proof.
    unfold bcast2. intros H Ha Hb. rewrite Ha, Hb, Nat.eqb_refl in H. apply mapM_length in H. rewrite zip_length in H. lia.
  Qed.
  Lemma coord_length (p : prim) : issubclass (ntype p) TPoint = true -> well_made p -> length (coord p) = 2.
  Proof.
    intros Ht Hw. apply well_made_conforms in Hw. unfold conforms in Hw. destruct (ntype p); try discriminate. apply Hw.
  Qed.
  Lemma line_children (p : prim) : issubclass (ntype p) TLine = true -> well_made p ->
    exists k a k' b, nch p = [(k, a); (k', b)] /\ length (coord a) = 2 /\ length (coord b) = 2.
  Proof.
    intros Ht Hw. pose proof (well_made_conforms _ Hw) as H. unfold conforms in H. destruct (ntype p); try discriminate. destruct H as [_ H].
    unfold child_types in H. destruct (nch p) as [|[k a] [|[k' b] [|]]] eqn:E; try discriminate. injection H as Ta Tb. cbn [snd] in Ta, Tb. exists k, a, k', b. split; [reflexivity|].
    split; (apply coord_length; [first [rewrite Ta; reflexivity|rewrite Tb; reflexivity]|]); eapply well_made_child; rewrite ?E; try eassumption; cbn; eauto.
  Qed.
  Lemma line_vector_length (p : prim) v : issubclass (ntype p) TLine = true -> well_made p -> line_vector p = Ok v -> length v = 2.
  Proof.
    intros Ht Hw. destruct (line_children p Ht Hw) as (k & a & k' & b & E & Ha & Hb). unfold line_vector, nvalues. rewrite E. cbn. intros H.
    eapply bcast2_length; eassumption.
  Qed.
  Lemma line_point (p a : prim) k : issubclass (ntype p) TLine = true -> well_made p -> In k ["Point0"; "Point1"] -> get_child p k = Ok a -> length (coord a) = 2.
  Proof.
    intros Ht Hw Hk H. destruct (line_children p Ht Hw) as (k0 & x & k' & b & E & Ha & Hb).
    assert (Hs : split_all k = [k]) by (destruct Hk as [<-|[<-|[]]]; reflexivity).
    rewrite (lookup_walks p k (split_all k) (components_total k)), Hs in H. cbn [walk] in H. rewrite E in H. cbn [dget] in H.
    destruct (String.eqb k k0); [inversion H; subst; assumption|]. destruct (String.eqb k k'); [inversion H; subst; assumption|]. discriminate.
  Qed.
  Lemma unit_length (p : prim) v : issubclass (ntype p) TLine = true -> well_made p -> unit_line_vector p = Ok v -> length v = 2.
  Proof.
    unfold unit_line_vector. intros Ht Hw H. inv_bind H. inv_bind H. apply mapM_length in H. rewrite H. eapply line_vector_length; eassumption.
  Qed.
  Lemma midpoint_length (p : prim) v : issubclass (ntype p) TLine = true -> well_made p -> midpoint p = Ok v -> length v = 2.
  Proof.
    unfold midpoint. intros Ht Hw H. repeat inv_bind H. inversion H; subst. unfold vscale. rewrite map_length.
    eapply bcast2_length; [eassumption| |]; eapply line_point; try eassumption; cbn; auto.
  Qed.
  Lemma dot_number d l v : dot d (PA1 l) = Ok v -> exists x : F, v = PA0 x.
  Proof. cbn. intros H. inv_bind H. inversion H. eauto. Qed.

  Ltac prims1 := match goal with
    | H : Forall2 _ _ (_ :: _) |- _ => inversion H; clear H; subst
    | H : Forall2 _ _ [] |- _ => inversion H; clear H; subst
    | H : Forall well_made (_ :: _) |- _ => inversion H; clear H; subst
    | H : Forall well_made [] |- _ => clear H
    end.
  Ltac unbind := repeat match goal with H : bind _ _ = Ok _ |- _ => inv_bind H end.
  Ltac opened := intros prims o Ht Hw H; cbn [prim_types msig] in Ht; repeat prims1; unfold assem1 in H; cbn [cassem] in H; unbind;
    repeat match goal with H : no_params _ _ _ = Ok _ |- _ => cbn [no_params] in H end; unbind.
  Ltac closed := repeat match goal with H : Ok _ = Ok _ |- _ => inversion H; clear H; subst end; cbn [atleast_1d] in *;
    repeat match goal with H : Ok _ = Ok _ |- _ => inversion H; clear H; subst end; try reflexivity.
  Ltac by_dot := repeat match goal with
    | H : dot _ (PA1 _) = Ok _ |- _ => apply dot_number in H as [? ->]
    end; closed.
  Definition leaves : list (result cons * list form) :=
     [(Ok Coordinate, []); (Ok DirectedDistance, [Direction]); (Ok XDistance, []); (Ok YDistance, []);
     (Ok LineVector, []); (Ok UnitLineVector, []); (Ok Length, []); (Ok DirectedLength, [Direction]);
     (Ok XLength, []); (Ok YLength, []); (Ok Midpoint, []); (Ok MidpointDirectedDistance, [Direction]);
     (Ok MidpointXDistance, []); (Ok MidpointYDistance, []); (Ok Angle, []);
     (Ok PointOnLineDistance, [Anything]); (Ok PointToLineDistance, [Anything]);
     (Ok RelativePointOnLineDistance, [Anything]); (Ok AspectRatio, []); (Ok Coincident, []); (Ok Vertical, []); (Ok Horizontal, []);
     (Ok Orthogonal, []); (Ok Parallel, []); (Ok Collinear, [])].
  Lemma leaf_sized : forall (c : cons) fs, In (Ok c, fs) leaves ->
    forall ps, Forall2 has_form fs ps -> sized c ps.
  Proof.
    intros c fs H ps Hf. cbn [In leaves] in H.
    repeat (destruct H as [H|H]; [injection H as <- <-; repeat match goal with H : Forall2 _ (_ :: _) _ |- _ => inversion H; clear H; subst | H : Forall2 _ [] _ |- _ => inversion H; clear H; subst end;
      repeat match goal with H : has_form _ _ |- _ => cbn [has_form] in H; try match type of H with @Logic.ex _ _ => destruct H as [? ->] end end; apply sized_leaf; [reflexivity|]; opened|]); [..|destruct H].
    all: try solve [by_dot].
    all: try solve [unfold directed_distance, directed_length, midpoint_directed_distance in *; unbind; by_dot].
    - cbn [coordinate_assem] in *. closed. now apply coord_length.
    - cbn [line_vector_assem] in *. unbind. closed. eapply line_vector_length; eassumption.
    - closed. eapply unit_length; eassumption.
    - closed. eapply midpoint_length; eassumption.
    - unfold angle_assem in *. unbind. closed.
    - closed. eapply bcast2_length; [eassumption| |]; now apply coord_length.
    - match goal with H : (let (_, _) := ?q in _) = Ok _ |- _ => destruct q end. unbind. closed.
  Qed.

  (** ** Sums *)
  Definition addend (n : nat) (y : pyval) : Prop := (exists x, atleast_1d y = Ok [x]) \/ (exists l, atleast_1d y = Ok l /\ length l = n).
  Ltac sizes := repeat match goal with
    | H : Ok _ = Ok _ |- _ => inversion H; clear H; subst
    | H : bind _ _ = Ok _ |- _ => inv_bind H
    | H : mapM _ _ = Ok _ |- _ => apply mapM_length in H
    | H : Err _ = Ok _ |- _ => discriminate H
    end.
  Lemma bcast2_size f (a b r : list F) : bcast2 f a b = Ok r -> length b = 1 \/ length b = length a -> length r = length a.
  Proof.
    unfold bcast2. destruct (Nat.eqb_spec (length a) (length b)) as [E|E].
    - intros H _. apply mapM_length in H. rewrite zip_length in H. lia.
    - intros H [Hb|Hb]; [|congruence]. destruct b as [|y [|]]; try discriminate. destruct a as [|x [|x' a]]; cbn [length] in *; try lia.
      + now inversion H.
      + apply mapM_length in H. exact H.
  Qed.
  Lemma add_size n x y z o : addend n y -> py_add x y = Ok z -> atleast_1d z = Ok o -> (forall l, atleast_1d x = Ok l -> length l = n) -> length o = n.
  Proof.
    intros Hy Hz Ho Hx.
    assert (Hl : forall l, y <> PList l) by (intros l ->; destruct Hy as [[w Hy]|[w [Hy _]]]; discriminate).
    assert (Hxl : forall l, x = PList l -> False).
    { intros l ->. destruct y; cbn in Hz; try discriminate. now apply (Hl l0). }
    assert (G : py_add x y = Ok z -> exists lx ly, atleast_1d x = Ok lx /\ atleast_1d y = Ok ly /\ (length ly = 1 \/ length ly = length lx -> length o = length lx)).
    { clear Hz. intros Hz. destruct x as [zx|x|bx|x|lx|lx| |bx|ax].
      6: { now destruct (Hxl lx). }
      all: destruct y as [zy|y|b|y|ly|ly| |b|a]; try (cbn in Hz; discriminate Hz); try now destruct (Hl ly).
      all: try (cbn in Hz; destruct lx; discriminate Hz).
      all: eexists; eexists; split; [reflexivity|]; split; [reflexivity|]; intros Hlen.
      all: try solve [cbn in Hz; sizes; cbn in Ho; sizes; reflexivity].
      all: try solve [cbn in Hz; destruct lx; cbn in Hz; sizes; cbn in Ho; sizes; cbn in *; sizes; cbn in *; lia].
      - cbn in Hz; sizes; cbn in Ho; sizes. cbn [length] in *. destruct Hlen; lia.
      - cbn in Hz; sizes; cbn in Ho; sizes. cbn [length] in *. destruct Hlen; lia.
      - cbn in Hz; sizes; cbn in Ho; sizes. cbn [length] in *. destruct Hlen; lia.
      - cbn in Hz; sizes; cbn in Ho; sizes. cbn [length] in *. destruct Hlen; lia.
      - assert (Hz' : arith2 (fun x y => Ok (nadd x y)) (PA1 lx) (PA1 ly) = Ok z) by (destruct lx; exact Hz).
        cbn in Hz'. inv_bind Hz'. inversion Hz'; subst. cbn in Ho. inversion Ho; subst. eapply bcast2_size; eassumption. }
    destruct (G Hz) as (lx & ly & Ex & Ey & Hlen). specialize (Hx _ Ex). rewrite <- Hx. apply Hlen. rewrite Hx.
    destruct Hy as [[w Hy]|[w [Hy Hw]]]; rewrite Hy in Ey; inversion Ey; subst; auto.
  Qed.
  Lemma typed_app ta : forall tb (prims : list prim), typed prims (ta ++ tb) -> exists a b, prims = a ++ b /\ typed a ta /\ typed b tb.
  Proof. intros tb prims H. apply Forall2_app_inv_r in H as (a & b & H1 & H2 & ->). eauto. Qed.
  Lemma sum_own (a b : cons) pa pb n : value_size (csig (nval a)) = n -> length pa = nparams (csig (nval a)) -> length pb = nparams (csig (nval b)) ->
    own (ntype a) (prim_types (csig (nval a))) pa n ->
    (forall prims y, typed prims (prim_types (csig (nval b))) -> Forall well_made prims -> cassem (ntype b) prims pb = Ok y -> addend n y) ->
    own (fst (sum_parts a b)) (prim_types (csig (snd (sum_parts a b)))) (pa ++ pb) n.
  Proof.
    intros Hn Ha Hb Ho Hy prims o Ht Hw H. unfold sum_parts in Ht, H. cbn [fst snd csig concatenate_signature prim_types] in Ht.
    apply typed_app in Ht as (qa & qb & -> & Ta & Tb). unfold assem1 in H. cbn [fst cassem] in H.
    rewrite (split_app' _ _ qa qb (Forall2_len _ _ _ Ta) (Forall2_len _ _ _ Tb)), (split_app' _ _ pa pb Ha Hb) in H. inv_bind H. inv_bind E. inv_bind E.
    apply Forall_app in Hw as [Wa Wb].
    eapply add_size; [eapply (Hy qb); eassumption|eassumption|eassumption|]. intros l El. apply (Ho qa l Ta Wa). unfold assem1. rewrite E0. exact El.
  Qed.

  Lemma neg_addend n v y : addend n v -> py_mul (PInt (-1)) v = Ok y -> addend n y.
  Proof.
    intros H E. destruct v; cbn in E; try discriminate; inv_bind E || idtac; inversion E; subst; try (left; eexists; reflexivity).
    - destruct H as [[w H]|[w [H Hw]]]; cbn in H; inversion H; subst.
      + apply mapM_length in E0. cbn in E0. destruct x as [|a [|]]; try discriminate. left. eexists. reflexivity.
      + right. eexists. split; [reflexivity|]. apply mapM_length in E0. exact E0.
    - destruct H as [[w H]|[w [H Hw]]]; discriminate.
  Qed.
  Lemma neg_value (c : cons) v y : cassem (ntype (neg_vector c)) [] [v] = Ok y -> py_mul (PInt (-1)) v = Ok y.
  Proof. destruct c. unfold neg_vector, size_tree. cbn [tmap vtree ntype sc_node scalar_node fst cassem]. intros H. exact H. Qed.
  Lemma neg_sig (c : cons) : prim_types (csig (nval (neg_vector c))) = [] /\ nparams (csig (nval (neg_vector c))) = 1.
  Proof. destruct c. unfold neg_vector, size_tree. cbn. auto. Qed.
  Lemma constraint_own (c : cons) ps v n : value_size (csig (nval c)) = n -> length ps = nparams (csig (nval c)) -> addend n v ->
    own (ntype c) (prim_types (csig (nval c))) ps n ->
    own (fst (sum_parts c (neg_vector c))) (prim_types (csig (snd (sum_parts c (neg_vector c))))) (ps ++ [v]) n.
  Proof.
    intros Hn Hl Hv Ho. destruct (neg_sig c) as [S1 S2]. apply sum_own; [assumption|assumption|now rewrite S2|assumption|].
    rewrite S1. intros prims y Ht _ E. inversion Ht; subst. apply neg_value in E. eapply neg_addend; eassumption.
  Qed.
  Lemma sized_own (c : cons) ps : sized c ps -> length ps = nparams (csig (nval c)) /\ own (ntype c) (prim_types (csig (nval c))) ps (value_size (csig (nval c))).
  Proof. intros H. inversion H; subst. cbn [nval ntype]. auto. Qed.
  (** The constraint of a construction without parts, and with one part. *)
  Lemma sized_constraint_leaf t v ps x : sized (Node t v []) ps -> addend (value_size (csig v)) x ->
    exists c, transform_constraint (Node t v []) = Ok c /\ sized c (ps ++ [x]).
  Proof.
    intros Hs Hx. destruct (sized_own _ _ Hs) as [Hl Ho]. rewrite constraint_ok; [|repeat constructor|repeat constructor; exact (fun H => H)].
    eexists. split; [reflexivity|]. constructor.
    - unfold sum_parts. cbn [snd csig concatenate_signature nparams]. rewrite app_length, Hl. destruct (neg_sig (Node t v [])) as [_ ->]. reflexivity.
    - inversion Hs; subst. unfold sum_parts. cbn [snd cpk]. destruct (cpk (nval (Node t v []))) eqn:Q; [reflexivity|]. cbn [nval] in Q. rewrite Q in *. discriminate.
    - apply constraint_own; auto.
    - intros cps _. constructor.
  Qed.
  Lemma sized_constraint_part (t : cls F) v k tl vl ps x : k <> EmptyString -> value_size (csig v) = 0 -> value_size (csig vl) = 1 ->
    sized (Node t v [(k, Node tl vl [])]) ps -> (exists y, atleast_1d x = Ok [y]) ->
    exists c, transform_constraint (Node t v [(k, Node tl vl [])]) = Ok c /\ sized c (ps ++ [x]).
  Proof.
    intros Hk Z0 Z1 Hs Hx. destruct (sized_own _ _ Hs) as [Hl Ho]. cbn [nval ntype] in Hl, Ho.
    rewrite constraint_ok; [|repeat (constructor; cbn; auto)|].
    2: { constructor; [cbn; intros [H|[]]; congruence|]. constructor; [|constructor]. constructor; [exact (fun H => H)|constructor]. }
    eexists. split; [reflexivity|]. 
    assert (Hsum : tsum (Node t v [(k, Node tl vl [])]) (neg_vector (Node t v [(k, Node tl vl [])])) =
      Node (fst (sum_parts (Node t v [(k, Node tl vl [])]) (neg_vector (Node t v [(k, Node tl vl [])])))) (snd (sum_parts (Node t v [(k, Node tl vl [])]) (neg_vector (Node t v [(k, Node tl vl [])]))))
           [(k, tsum (Node tl vl []) (neg_vector (Node tl vl [])))]) by reflexivity.
    rewrite Hsum. clear Hsum. inversion Hs as [? ? ? ? _ Hpk _ Hc]; subst. constructor.
    - unfold sum_parts. cbn [snd csig concatenate_signature nparams nval]. rewrite app_length, Hl. reflexivity.
    - unfold sum_parts. cbn [snd cpk nval]. rewrite map_length, zip_length, Hpk. reflexivity.
    - change (csig (snd (sum_parts (Node t v [(k, Node tl vl [])]) (neg_vector (Node t v [(k, Node tl vl [])]))))) with
        (concatenate_signature (csig v) (csig (nval (neg_vector (Node t v [(k, Node tl vl [])])))) (value_size (csig v))).
      cbn [concatenate_signature value_size]. apply (constraint_own (Node t v [(k, Node tl vl [])])); auto. left. exact Hx.
    - unfold sum_parts. cbn [snd csig cparams cpk nval concatenate_signature prim_types].
      intros cps E. rewrite (split_app' _ (nparams (csig (nval (neg_vector (Node t v [(k, Node tl vl [])]))))) ps [x] Hl eq_refl) in E. inv_bind E. inv_bind E. inversion E; subst cps. clear E.
      specialize (Hc _ E0). inversion Hc as [|? ? ? ? ks pks p cps Hn Hp Hr Q1 Q2]; subst.
      unfold neg_vector, size_tree in E1. cbn in E1. 
      rewrite Z0, Z1 in E1. cbn in E1.
      assert (Hy : exists y, addend 1 y /\ x1 = [[y]]).
      { destruct Hx as [y Hx]. destruct x; cbn in Hx; try discriminate; cbn in E1; try discriminate; inversion E1; subst x1; eexists; (split; [|reflexivity]); left; eexists; try reflexivity.
        inversion Hx; subst. reflexivity. }
      destruct Hy as (y & Hy & ->). destruct (neg_sig (Node t v [(k, Node tl vl [])])) as [-> _]. rewrite app_nil_r.
      change (cpk (nval (neg_vector (Node t v [(k, Node tl vl [])])))) with [@nil string]. cbn [zip map fst snd]. rewrite app_nil_r. constructor.
      + rewrite sum_sig. cbn [concatenate_signature prim_types]. destruct (neg_sig (Node tl vl [])) as [-> _]. rewrite app_nil_r. exact Hn.
      + rewrite <- Z1 in Hy. destruct (sized_constraint_leaf tl vl p y Hp Hy) as (c & Ec & Hc'). rewrite constraint_ok in Ec; [|repeat constructor|repeat constructor; exact (fun H => H)].
        inversion Ec; subst. exact Hc'.
      + constructor.
  Qed.

  (** ** Compounds *)
  Lemma compound_own name np ts ps : own (compound_cls name np) ts ps 0.
  Proof. intros prims o _ _ H. unfold assem1 in H. cbn [cassem compound_cls] in H. destruct (Nat.eqb (length ps) np); cbn in H; [|discriminate]. now inversion H. Qed.
  Lemma sized_construct t keys (cs : list cons) pks cps s ps : NoDup keys -> ~ In EmptyString keys -> length cs <= length keys -> length pks = length cs ->
    length ps = nparams s -> own t (prim_types s) ps (value_size s) ->
    (forall x, cps ps = Ok x -> sizeds (prim_types s) (zip keys cs) pks x) ->
    sized (Node t {| cpk := pks; cparams := cps; csig := s |} (zip keys cs)) ps.
  Proof. intros. constructor; try assumption. cbn [cpk]. rewrite zip_length. lia. Qed.
End Size.
