(** A static condition on constructions under which evaluation serves every part. *)
From Verif Require Export NodeProofs ConsProofs TransProofs Trans2Proofs ReadySpec ConsSpec.

Section Ready.
  Context {F : Type} {N : Num F}.
  Notation prim := (prim F).
  Notation pyval := (pyval F).
  Notation cons := (cons F).
  Variable tw : bool.

  Fixpoint parts (t : ptype) (p : list string) : option ptype :=
    match p with
    | [] => Some t
    | k :: r => match part tw t k with Some t' => parts t' r | None => None end
    end.
  Definition key_type (ts : list ptype) (key : string) : option ptype :=
    let (a, rest) := split1 key in
    match argnum_from_key a with
    | Ok i => match nth_error ts i with
              | Some t => match rest with None => Some t | Some r => parts t (split_all r) end
              | None => None
              end
    | Err _ => None
    end.
  Definition named_type (ts : list ptype) (key : string) (t : ptype) : Prop :=
    exists t', key_type ts key = Some t' /\ issubclass t' t = true.

  Inductive ready : cons -> list pyval -> Prop :=
  | ready_node t v ch params cps :
      length params = nparams (csig v) -> cparams v params = Ok cps ->
      readys (prim_types (csig v)) ch (cpk v) cps -> ready (Node t v ch) params
  with readys : list ptype -> dict cons -> list (list string) -> list (list pyval) -> Prop :=
  | readys_nil ts cps : readys ts [] [] cps
  | readys_cons ts k c ch ks pks p cps :
      Forall2 (named_type ts) ks (prim_types (csig (nval c))) -> ready c p -> readys ts ch pks cps ->
      readys ts ((k, c) :: ch) (ks :: pks) (p :: cps).
  Scheme ready_mut := Minimality for ready Sort Prop
  with readys_mut := Minimality for readys Sort Prop.

  Lemma ready_leaf name s f ps : length ps = nparams s -> ready (mk_leaf name s f) ps.
  Proof. intros H. eapply ready_node; [exact H|reflexivity|constructor]. Qed.

  Lemma readys_nth ts ch pks cps : length ch = length pks -> length ch <= length cps ->
    (forall i k c ks p, nth_error ch i = Some (k, c) -> nth_error pks i = Some ks -> nth_error cps i = Some p ->
       Forall2 (named_type ts) ks (prim_types (csig (nval c))) /\ ready c p) ->
    readys ts ch pks cps.
  Proof.
    revert pks cps. induction ch as [|[k c] ch IH]; intros [|ks pks] [|p cps] H1 H2 H; cbn in H1, H2; try lia; try constructor.
    - now apply (H 0 k c ks p).
    - now apply (H 0 k c ks p).
    - apply IH; [lia|lia|]. intros i k' c' ks' p' E1 E2 E3. now apply (H (S i) k' c' ks' p').
  Qed.
  Lemma readys_app ts ch ch' pks pks' cps cps' : length ch = length cps -> readys ts ch pks cps -> readys ts ch' pks' cps' ->
    readys ts (ch ++ ch') (pks ++ pks') (cps ++ cps').
  Proof.
    intros Hl H H'. revert Hl. induction H as [ts cps|ts k c ch ks pks p cps H1 H2 H3 IH]; intros Hl.
    - destruct cps; [exact H'|discriminate].
    - cbn. constructor; auto.
  Qed.

  Lemma ready_arity c ps : ready c ps -> arity_ok c ps.
  Proof.
    intros H. refine (ready_mut arity_ok (fun ts ch pks cps => length pks = length ch /\ length ch <= length cps /\
       (forall i k c p, nth_error ch i = Some (k, c) -> nth_error cps i = Some p -> arity_ok c p)) _ _ _ c ps H).
    - intros t v ch params cps _ E _ (H1 & H2 & H3). constructor; [assumption|]. intros cps' E'. assert (cps' = cps) by congruence. subst. auto.
    - intros ts cps. split; [reflexivity|]. split; [cbn; lia|]. intros [|i]; discriminate.
    - intros ts k c0 ch ks pks p cps _ _ Hc _ (H1 & H2 & H3). cbn. split; [lia|]. split; [lia|].
      intros [|i] k' c' p' E1 E2; cbn in *; [inversion E1; inversion E2; subst; assumption|]. now apply (H3 i k' c' p').
  Qed.
  Lemma ready_params c ps : ready c ps -> exists pt, root_params c ps = Ok pt.
  Proof.
    intros H. refine (ready_mut (fun c ps => exists pt, root_params c ps = Ok pt) (fun ts ch pks cps =>
       exists pts, (fix go (ch : dict cons) (cps : list (list pyval)) : result (dict (pnode F)) :=
             match ch, cps with
             | (key, child) :: ch', cp :: cps' =>
                 n <- root_params child cp ;; r <- go ch' cps' ;; Ok ((key, n) :: r)
             | _, _ => Ok []
             end) ch cps = Ok pts) _ _ _ c ps H).
    - intros t v ch params cps _ E _ [pts Hp]. cbn [root_params]. rewrite E. cbn [bind]. rewrite Hp. cbn [bind]. eauto.
    - eauto.
    - intros ts k c0 ch ks pks p cps _ _ [pt Hc] _ [pts Hr]. rewrite Hc. cbn [bind]. rewrite Hr. cbn [bind]. eauto.
  Qed.
  Lemma named_replace ts ks key t : length ks = length ts -> named_type ts key t -> exists r, replace_prim_key_prefix ks key = Ok r.
  Proof.
    intros Hl (t' & H & _). unfold key_type in H. unfold replace_prim_key_prefix. destruct (split1 key) as [a rest]. destruct (argnum_from_key a) as [i|]; [|discriminate]. cbn [bind].
    destruct (nth_error ts i) eqn:E; [|discriminate]. assert (i < length ts) by (apply nth_error_Some; congruence).
    destruct (nth_error ks i) eqn:E'; [eauto|]. apply nth_error_None in E'. lia.
  Qed.
  Lemma ready_keys c ps : ready c ps -> forall ks, length ks = length (prim_types (csig (nval c))) -> exists kt, root_prim_keys c ks = Ok kt.
  Proof.
    intros H. refine (ready_mut (fun c ps => forall ks, length ks = length (prim_types (csig (nval c))) -> exists kt, root_prim_keys c ks = Ok kt)
      (fun ts ch pks cps => forall ks, length ks = length ts -> exists cks kts, mapM (mapM (replace_prim_key_prefix ks)) pks = Ok cks /\ rpks ch cks = Ok kts) _ _ _ c ps H).
    - intros t v ch params cps _ _ _ Hr ks Hk. destruct (Hr ks Hk) as (cks & kts & E1 & E2). rewrite root_prim_keys_unfold, E1. cbn [bind]. rewrite E2. cbn [bind]. eauto.
    - intros ts cps ks Hk. exists [], []. auto.
    - intros ts k c0 ch ks0 pks p cps Hn _ Hc _ Hr ks Hk. destruct (Hr ks Hk) as (cks & kts & E1 & E2).
      assert (Hx : exists x, mapM (replace_prim_key_prefix ks) ks0 = Ok x /\ length x = length ks0).
      { clear -Hn Hk. induction Hn as [|key t ks0 ts0 Hkey _ (x & IH & IHl)]; [exists []; auto|]. destruct (named_replace ts ks key t Hk Hkey) as [r Hr].
        cbn [mapM]. rewrite Hr. cbn [bind]. rewrite IH. cbn [bind]. eexists. split; [reflexivity|]. cbn. lia. }
      destruct Hx as (x & Ex & Hx). apply Forall2_len in Hn. destruct (Hc x ltac:(lia)) as [kt Hkt].
      exists (x :: cks), ((k, kt) :: kts). cbn [mapM rpks]. rewrite Ex. cbn [bind]. rewrite E1. cbn [bind]. rewrite Hkt. cbn [bind]. rewrite E2. auto.
  Qed.

  (** Lookups. *)
  Lemma whole_parts p : forall (q : prim) t, whole tw q -> issubclass (ntype q) t = true -> (p <> [] -> parts t p <> None) -> forall t', parts t p = Some t' ->
    exists c, walk p q = Some c /\ whole tw c /\ issubclass (ntype c) t' = true.
  Proof.
    induction p as [|k p IH]; intros q t Hw Hs _ t' H; cbn [parts walk] in *.
    - inversion H; subst. eauto.
    - destruct (part tw t k) as [t1|] eqn:Ep; [|discriminate]. inversion Hw as [tq v ch Hp Hf]; subst. cbn [ntype] in Hs.
      assert (tq = t) by (destruct t; cbn in Ep; try discriminate; destruct tq; cbn in Hs; congruence). subst tq.
      destruct (Hp k t1 Ep) as (c & Hc & Ht). cbn [nch]. rewrite Hc.
      assert (Hwc : whole tw c).
      { rewrite Forall_forall in Hf. apply dget_In in Hc. apply (Hf _ Hc). }
      apply (IH c t1 Hwc); [rewrite Ht; destruct t1; reflexivity|congruence|assumption].
  Qed.
  Lemma named_select ts (prims : list prim) key t : Forall2 (fun p t => issubclass (ntype p) t = true) prims ts -> Forall (whole tw) prims ->
    named_type ts key t -> exists q, select prims key = Ok q /\ whole tw q /\ issubclass (ntype q) t = true.
  Proof.
    intros Hf Hw (t' & H & Hs). unfold key_type in H. unfold select. destruct (split1 key) as [a rest]. destruct (argnum_from_key a) as [i|]; [|discriminate]. cbn [bind].
    destruct (nth_error ts i) as [t0|] eqn:E; [|discriminate].
    assert (Hq : exists q, nth_error prims i = Some q /\ issubclass (ntype q) t0 = true /\ whole tw q).
    { clear -Hf Hw E. revert i E. induction Hf as [|p t1 prims ts H1 Hf IH]; intros [|i] E; cbn in *; try discriminate.
      - inversion E; subst. inversion Hw; subst. eauto.
      - inversion Hw; subst. now apply IH. }
    destruct Hq as (q & -> & Hq & Hwq).
    assert (Htr : forall a b c : ptype, issubclass a b = true -> issubclass b c = true -> issubclass a c = true) by (intros [] [] []; cbn; congruence).
    destruct rest as [r|].
    - destruct (whole_parts (split_all r) q t0 Hwq Hq ltac:(congruence) t' H) as (c & Hc & Hwc & Hsc).
      exists c. split; [|split; [assumption|eauto]]. rewrite (lookup_walks q r (split_all r) (components_total r)), Hc. reflexivity.
    - inversion H; subst. eauto.
  Qed.
  Lemma ready_served c ps : ready c ps -> forall prims,
    Forall2 (fun p t => issubclass (ntype p) t = true) prims (prim_types (csig (nval c))) -> Forall (whole tw) prims -> served c prims ps.
  Proof.
    intros H. refine (ready_mut (fun c ps => forall prims, Forall2 (fun p t => issubclass (ntype p) t = true) prims (prim_types (csig (nval c))) -> Forall (whole tw) prims -> served c prims ps)
      (fun ts ch pks cps => forall prims, Forall2 (fun p t => issubclass (ntype p) t = true) prims ts -> Forall (whole tw) prims ->
         length pks = length ch /\ length ch <= length cps /\ exists sels, mapM (mapM (select prims)) pks = Ok sels /\
         (forall i k c s p, nth_error ch i = Some (k, c) -> nth_error sels i = Some s -> nth_error cps i = Some p -> served c s p)) _ _ _ c ps H).
    - intros t v ch params cps Hl E _ Hr prims Hf Hw. destruct (Hr prims Hf Hw) as (L1 & L2 & sels & E1 & Hs). eapply served_node; eauto. split; assumption.
    - intros ts cps prims _ _. split; [reflexivity|]. split; [cbn; lia|]. exists []. split; [reflexivity|]. intros [|i]; discriminate.
    - intros ts k c0 ch ks pks p cps Hn _ Hc _ Hr prims Hf Hw. destruct (Hr prims Hf Hw) as (L1 & L2 & sels & E1 & Hs).
      assert (Hx : exists x, mapM (select prims) ks = Ok x /\ Forall2 (fun p t => issubclass (ntype p) t = true) x (prim_types (csig (nval c0))) /\ Forall (whole tw) x).
      { clear -Hn Hf Hw. induction Hn as [|key t ks0 ts0 Hkey _ (x & IH1 & IH2 & IH3)]; [exists []; split; [reflexivity|]; split; constructor|].
        destruct (named_select ts prims key t Hf Hw Hkey) as (q & Q1 & Q2 & Q3). exists (q :: x). cbn [mapM]. rewrite Q1. cbn [bind]. rewrite IH1. split; [reflexivity|]. split; constructor; assumption. }
      destruct Hx as (x & Ex & X1 & X2). cbn [length]. split; [lia|]. split; [lia|]. exists (x :: sels). cbn [mapM]. rewrite Ex. cbn [bind]. rewrite E1. split; [reflexivity|].
      intros [|i] k' c' s p' N1 N2 N3; cbn in *; [inversion N1; inversion N2; inversion N3; subst; now apply Hc|]. now apply (Hs i k' c' s p').
  Qed.
End Ready.
