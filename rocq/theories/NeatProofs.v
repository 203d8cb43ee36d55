(** Constraint trees with proper keys, in which only the root can be an axis-thickness
    constraint: all shipped constraints, and the layouts made of them. *)
From Verif Require Export ShippedSpec UpdateProofs GrowProofs ConsSpec.

Section Neat.
  Context {F : Type} {N : Num F}.
  Notation cons := (cons F).
  Notation layout := (layout F).

  Lemma snoc_NoDup {A} (l : list A) x : NoDup l -> ~ In x l -> NoDup (l ++ [x]).
  Proof.
    intros H Hx. induction H as [|y l Hy _ IH]; cbn; [constructor; [easy|constructor]|]. constructor.
    - intros Hi. apply in_app_or in Hi as [Hi|[->|[]]]; [contradiction|apply Hx; now left].
    - apply IH. intros Hi. apply Hx. now right.
  Qed.
  Definition thin (c : cons) : Prop := forall p m, walk p c = Some m -> thick m = false.
  Definition neat (c : cons) : Prop := tidy c /\ Forall (fun kc => thin (snd kc)) (nch c).
  Definition good_key (k : string) : Prop := noslash k = true /\ k <> EmptyString.

  Lemma tidy_node t v (ch : dict cons) : NoDup (map fst ch) -> Forall (fun kc => good_key (fst kc) /\ tidy (snd kc)) ch -> tidy (Node t v ch).
  Proof.
    intros Hn H. split; [|split]; constructor; try assumption.
    - eapply Forall_impl; [|exact H]. intros kc (_ & ? & _). assumption.
    - eapply Forall_impl; [|exact H]. intros kc ((? & _) & _). assumption.
    - eapply Forall_impl; [|exact H]. intros kc (_ & _ & ? & _). assumption.
    - intros Hi. apply in_map_iff in Hi as (kc & E & Hi). rewrite Forall_forall in H. destruct (H _ Hi) as ((_ & Hk) & _). contradiction.
    - eapply Forall_impl; [|exact H]. intros kc (_ & _ & _ & ?). assumption.
  Qed.
  Lemma thin_node t v (ch : dict cons) : thick (Node t v ch) = false -> Forall (fun kc => thin (snd kc)) ch -> thin (Node t v ch).
  Proof.
    intros Ht H [|k p] m E; cbn [walk nch] in E; [inversion E; subst; exact Ht|].
    destruct (dget k ch) as [c|] eqn:Ed; [|discriminate]. apply dget_In in Ed. rewrite Forall_forall in H. exact (H _ Ed p m E).
  Qed.
  Lemma thin_neat c : tidy c -> thin c -> neat c.
  Proof.
    intros Ht Hn. split; [exact Ht|]. destruct c as [t v ch]. cbn [nch]. destruct Ht as (Hw & _). apply wf_children in Hw as [Hnd _].
    apply Forall_forall. intros [k c] Hi p m Hp. apply (Hn (k :: p) m). cbn [walk nch].
    rewrite (In_dget _ _ _ Hnd Hi). exact Hp.
  Qed.

  Fixpoint nodupb (l : list string) : bool :=
    match l with [] => true | k :: l => negb (existsb (String.eqb k) l) && nodupb l end.
  Lemma nodupb_ok l : nodupb l = true -> NoDup l.
  Proof.
    induction l as [|k l IH]; cbn; [constructor|]. intros H. apply andb_prop in H as [H1 H2]. constructor; [|now apply IH].
    intros Hi. assert (existsb (String.eqb k) l = true) as E by (apply existsb_exists; exists k; split; [assumption|apply String.eqb_refl]). rewrite E in H1. discriminate.
  Qed.
  Fixpoint tidyb (c : cons) : bool :=
    match c with Node _ _ ch =>
      nodupb (map fst ch) &&
      forallb (fun kc => noslash (fst kc) && negb (String.eqb (fst kc) EmptyString) && tidyb (snd kc)) ch end.
  Fixpoint thinb (c : cons) : bool :=
    match c with Node t v ch => negb (thick (Node t v ch)) && forallb (fun kc => thinb (snd kc)) ch end.
  Lemma tidyb_ok c : tidyb c = true -> tidy c.
  Proof.
    induction c as [t v ch IH] using node_ind'. cbn [tidyb]. intros H. apply andb_prop in H as [H1 H2].
    apply tidy_node; [now apply nodupb_ok|].
    rewrite forallb_forall in H2. rewrite Forall_forall in *. intros kc Hi. specialize (H2 kc Hi). apply andb_prop in H2 as [H2 H3]. apply andb_prop in H2 as [H2 H4].
    split; [split; [assumption|]|now apply IH]. intros E. rewrite E in H4. discriminate.
  Qed.
  Lemma thinb_ok c : thinb c = true -> thin c.
  Proof.
    induction c as [t v ch IH] using node_ind'. cbn [thinb]. intros H. apply andb_prop in H as [H1 H2].
    apply thin_node; [destruct (thick (Node t v ch)); [discriminate|reflexivity]|]. rewrite forallb_forall in H2. rewrite Forall_forall in *. auto.
  Qed.
  Definition neatb (rc : result cons) : bool :=
    match rc with Ok c => tidyb c && forallb (fun kc => thinb (snd kc)) (nch c) | Err _ => false end.
  Definition slimb (rc : result cons) : bool := match rc with Ok c => tidyb c && thinb c | Err _ => false end.
  Lemma neatb_ok c : neatb (Ok c) = true -> neat c.
  Proof.
    cbn [neatb]. intros H. apply andb_prop in H as [H1 H2]. split; [now apply tidyb_ok|]. rewrite forallb_forall in H2. apply Forall_forall. intros kc Hi. now apply thinb_ok, H2.
  Qed.
  Lemma slimb_ok c : slimb (Ok c) = true -> tidy c /\ thin c.
  Proof. cbn [slimb]. intros H. apply andb_prop in H as [H1 H2]. split; [now apply tidyb_ok|now apply thinb_ok]. Qed.

  Lemma lists_neat : forallb neatb (plain ++ twins ++ dimensions ++ margins ++ [XAxisThickness; YAxisThickness]) = true.
  Proof. vm_compute. reflexivity. Qed.
  Lemma outer_slim side c : In side ["left"; "right"; "bottom"; "top"] -> crOuterMargin side = Ok c -> tidy c /\ thin c.
  Proof.
    intros Hs E. apply slimb_ok. rewrite <- E.
    assert (H : forallb slimb (map (@crOuterMargin F N) ["left"; "right"; "bottom"; "top"]) = true) by (vm_compute; reflexivity).
    rewrite forallb_forall in H. apply H. now apply in_map.
  Qed.
  Lemma align_slim : forallb slimb [AlignRow (F:=F); AlignColumn; RelativeLength] = true.
  Proof. vm_compute. reflexivity. Qed.
  Lemma slim_of rc c : In rc [AlignRow (F:=F); AlignColumn; RelativeLength] -> rc = Ok c -> tidy c /\ thin c.
  Proof. intros Hi E. apply slimb_ok. rewrite <- E. pose proof align_slim as H. rewrite forallb_forall in H. now apply H. Qed.

  Lemma numbered_good s i : noslash s = true -> good_key (s ++ dec i).
  Proof.
    intros H. split; [now rewrite noslash_app, noslash_dec, H|]. destruct s; [now apply dec_nonempty|discriminate].
  Qed.
  Lemma dict_of_In {V} (d : dict V) kc : In kc (dict_of d) -> In kc d.
  Proof.
    unfold dict_of. intros H. destruct kc as [k v].
    assert (G : forall (l acc : dict V) x, In x (fold_left (fun a kv => dset (fst kv) (snd kv) a) l acc) -> In x l \/ In x acc).
    { clear. induction l as [|[k v] l IH]; intros acc x H; cbn in H; [auto|]. apply IH in H as [H|H]; [left; now right|].
      assert (Hd : In x (dset k v acc) -> x = (k, v) \/ In x acc).
      { clear. induction acc as [|[a b] acc IHa]; cbn; [intros [<-|[]]; auto|]. destruct (String.eqb_spec k a); cbn; intuition (subst; auto). }
      apply Hd in H as [->|H]; [left; now left|now right]. }
    apply G in H as [H|[]]. exact H.
  Qed.
  Lemma zip_In {A B} (a : list A) (b : list B) x y : In (x, y) (zip a b) -> In x a /\ In y b.
  Proof. revert b. induction a as [|u a IH]; intros [|w b] H; cbn in *; try tauto. destruct H as [E|H]; [inversion E; auto|]. apply IH in H. tauto. Qed.
  Lemma construction_slim (t : cls F) keys cs pks cps s (c : cons) : mk_construction t keys cs pks cps s = Ok c ->
    existsb (ckind_eqb KXAxisThickness) (cisa t) = false -> existsb (ckind_eqb KYAxisThickness) (cisa t) = false ->
    Forall good_key keys -> Forall (fun c => tidy c /\ thin c) cs -> tidy c /\ thin c.
  Proof.
    intros E Hx Hy Hk Hc. unfold mk_construction in E.
    destruct (mk_cons_cases t {| cpk := pks; cparams := cps; csig := s |} (dict_of (zip keys cs))) as [(_ & _ & H)|[_ H]]; rewrite H in E; [|discriminate].
    injection E as <-.
    assert (G : Forall (fun kc => good_key (fst kc) /\ tidy (snd kc) /\ thin (snd kc)) (dict_of (zip keys cs))).
    { apply Forall_forall. intros [k c] Hi. apply dict_of_In, zip_In in Hi as [H1 H2]. rewrite Forall_forall in *. cbn. auto. }
    split.
    - apply tidy_node; [apply dict_of_NoDup|]. eapply Forall_impl; [|exact G]. intros kc (? & ? & ?). auto.
    - apply thin_node; [unfold thick, is_kind; cbn [ntype]; now rewrite Hx, Hy|]. eapply Forall_impl; [|exact G]. intros kc (? & ? & ?). auto.
  Qed.
  Lemma mapped_slim (c : cons) n : noslash (cname (ntype c)) = true -> tidy c -> thin c -> tidy (mapped c n) /\ thin (mapped c n).
  Proof.
    intros Hn Ht Hc. unfold mapped. split.
    - apply tidy_node; [rewrite map_map; apply numbered_NoDup|]. apply Forall_forall. intros kc Hi. apply in_map_iff in Hi as (i & <- & _). cbn. split; [now apply numbered_good|assumption].
    - apply thin_node; [reflexivity|]. apply Forall_forall. intros kc Hi. apply in_map_iff in Hi as (i & <- & _). exact Hc.
  Qed.
  Lemma array_slim n side c : In side ["left"; "right"; "bottom"; "top"] -> OuterMarginArray n side = Ok c -> tidy c /\ thin c.
  Proof.
    intros Hs E. unfold OuterMarginArray in E. inv_bind E. eapply construction_slim; [exact E|reflexivity|reflexivity| |].
    - apply Forall_forall. intros k Hi. apply in_map_iff in Hi as (i & <- & _). now apply numbered_good.
    - apply mapM_Ok_iff in E0. clear E. revert E0. generalize (seq 0 (n - 1)). intros l H. induction H as [|i m l cs Hm _ IH]; constructor; [now apply (outer_slim side)|exact IH].
  Qed.
  Lemma rectilinear_slim r k c : RectilinearGrid r k = Ok c -> tidy c /\ thin c.
  Proof.
    intros E. unfold RectilinearGrid in E. inv_bind E. inv_bind E. rewrite !transform_map_ok in E. cbn [bind] in E.
    assert (N1 : noslash (cname (ntype x)) = true /\ noslash (cname (ntype x0)) = true).
    { assert (H : match AlignRow (F:=F), AlignColumn (F:=F) with Ok a, Ok b => noslash (cname (ntype a)) && noslash (cname (ntype b)) | _, _ => false end = true) by (vm_compute; reflexivity).
      rewrite E0, E1 in H. now apply andb_prop in H. }
    destruct (slim_of _ _ (or_introl eq_refl) E0) as [R1 R2]. destruct (slim_of _ _ (or_intror (or_introl eq_refl)) E1) as [C1 C2].
    eapply construction_slim; [exact E|reflexivity|reflexivity| |].
    - apply Forall_app. split; apply Forall_forall; intros a Hi; apply in_map_iff in Hi as (i & <- & _); now apply numbered_good.
    - apply Forall_app. split; apply Forall_forall; intros a Hi; apply repeat_spec in Hi; subst; apply mapped_slim; tauto.
  Qed.
  Lemma grid_slim r k c : Grid r k = Ok c -> tidy c /\ thin c.
  Proof.
    intros E. unfold Grid in E. inv_bind E. inv_bind E. rewrite !transform_map_ok in E. cbn [bind] in E. inv_bind E. inv_bind E.
    assert (N1 : noslash (cname (ntype x0)) = true).
    { assert (H : match RelativeLength (F:=F) with Ok a => noslash (cname (ntype a)) | _ => false end = true) by (vm_compute; reflexivity). now rewrite E1 in H. }
    destruct (slim_of _ _ (or_intror (or_intror (or_introl eq_refl))) E1) as [R1 R2].
    eapply construction_slim; [exact E|reflexivity|reflexivity| |].
    - repeat constructor; discriminate.
    - repeat (apply Forall_cons || apply Forall_nil).
      + eapply rectilinear_slim, E0.
      + now apply mapped_slim.
      + now apply mapped_slim.
      + eapply array_slim; [|exact E2]. cbn; tauto.
      + eapply array_slim; [|exact E3]. cbn; tauto.
  Qed.
  Lemma shipped_neat tw c ps : shipped tw c ps -> neat c.
  Proof.
    pose proof lists_neat as M. rewrite forallb_forall in M.
    intros [c' ps' H Hl|c' ps' _ H Hl|c' v H Hv|c' v H Hv|n side c' ps' Hs E Hl Hd|r k c' Hr Hk E|r k c' vcw vrh vcm vrm cw rh cm rm Hr Hk E T1 T2 T3 T4 L1 L2 L3 L4].
    - apply neatb_ok, M. apply in_or_app. now left.
    - apply neatb_ok, M. apply in_or_app. right. apply in_or_app. now left.
    - apply neatb_ok, M. do 2 (apply in_or_app; right). rewrite app_assoc. apply in_or_app. now left.
    - apply neatb_ok, M. do 4 (apply in_or_app; right). exact H.
    - destruct (array_slim n side c' Hs E). now apply thin_neat.
    - destruct (rectilinear_slim r k c' E). now apply thin_neat.
    - destruct (grid_slim r k c' E). now apply thin_neat.
  Qed.

  (** ** Layouts *)
  Definition neat_root (c : cons) : Prop :=
    thick c = false /\ NoDup (map fst (nch c)) /\ Forall (fun kc => good_key (fst kc) /\ neat (snd kc)) (nch c).
  Lemma neat_root_ok c : neat_root c -> tidy c /\ unnested c /\ thick c = false.
  Proof.
    intros (H1 & H2 & H3). split; [|split; [|assumption]].
    - destruct c as [t v ch]. cbn [nch] in *. apply tidy_node; [assumption|]. eapply Forall_impl; [|exact H3]. intros kc (? & ? & ?). auto.
    - assert (G : forall p m, walk p c = Some m -> thick m = true -> length p = 1).
      { intros [|k [|k' p]] m E Ht; [inversion E; subst; congruence|reflexivity|]. exfalso. cbn [walk] in E.
        destruct (dget k (nch c)) as [a|] eqn:Ea; [|discriminate]. apply dget_In in Ea. rewrite Forall_forall in H3. destruct (H3 _ Ea) as (_ & _ & Hn). cbn [snd] in Hn.
        destruct (dget k' (nch a)) as [b|] eqn:Eb; [|discriminate]. apply dget_In in Eb. rewrite Forall_forall in Hn. specialize (Hn _ Eb p m E). congruence. }
      intros p q a b Ea Eb Ha Hb [r ->]. pose proof (G _ _ Ea Ha). pose proof (G _ _ Eb Hb) as H'. rewrite app_length in H'. destruct r; [now rewrite app_nil_r|cbn in H'; lia].
  Qed.
  Definition shipped_act (tw : bool) (a : action F) : Prop :=
    match a with AddConstraint c _ ps _ => shipped tw c ps | _ => True end.
  (** The keys of added constraints contain no slash. *)
  Definition top_key (a : action F) : Prop :=
    match a with AddConstraint _ _ _ key => noslash key = true | _ => True end.

  Lemma shipped_complete tw a : shipped_act tw a -> complete a.
  Proof. destruct a; cbn; auto. intros H. eapply ready_arity, shipped_ready, H. Qed.
  Lemma shipped_sound tw a : shipped_act tw a -> sound a.
  Proof. destruct a; cbn; auto. intros H. apply shipped_ready in H. split; [eapply ready_keys, H|eapply ready_params, H]. Qed.
  Lemma shipped_toplevel tw a : shipped_act tw a -> top_key a -> toplevel a.
  Proof. destruct a; cbn; auto. intros H Hk. split; [assumption|]. eapply shipped_declared, H. Qed.
  Lemma shipped_classes tw a : shipped_act tw a -> classes a.
  Proof. destruct a; cbn; auto. intros H. eapply shipped_declared, H. Qed.

  Lemma neat_act tw (l : layout) a : shipped_act tw a -> top_key a -> lockstep l -> neat_root (l_cons l) -> neat_root (l_cons (fst (act l a))).
  Proof.
    intros Hs Hk Hl Hn. destruct a as [p key|d|c ks ps key]; cbn [act].
    - destruct (add_prim l p key) as [l' r] eqn:E. apply add_prim_trees in E as (E1 & _). cbn [fst]. now rewrite E1.
    - destruct (add_prims l d) as [l' r] eqn:E. apply add_prims_trees in E as (E1 & _). cbn [fst]. now rewrite E1.
    - destruct (add_constraint l c ks ps key) as [l' r] eqn:E. cbn [fst].
      destruct (add_constraint_cases _ _ _ _ _ _ _ Hl (shipped_sound tw (AddConstraint c ks ps key) Hs) E) as [(e & -> & _ & E1 & _)|(k & kt & pt & -> & _ & Ke & Kn & _ & _ & _ & _ & E1 & _)].
      + now rewrite E1.
      + specialize (Kn Hk (proj2 (shipped_declared _ _ _ Hs))). apply add_child_top in E1 as [-> Hi]; [|assumption]. destruct Hn as (N1 & N2 & N3). split; [|split]; cbn [nch].
        * destruct (l_cons l). exact N1.
        * rewrite map_app. cbn. apply snoc_NoDup; assumption.
        * apply Forall_app. split; [assumption|]. constructor; [|constructor]. cbn. split; [split; assumption|eapply shipped_neat, Hs].
  Qed.
  Lemma neat_after tw acts : forall l : layout, Forall (shipped_act tw) acts -> Forall top_key acts -> lockstep l -> neat_root (l_cons l) -> neat_root (l_cons (after l acts)).
  Proof.
    induction acts as [|a acts IH]; intros l Hs Hk Hl Hn; [exact Hn|]. inversion Hs; inversion Hk; subst. cbn [after fold_left]. apply IH; auto.
    - apply lockstep_act; auto; [eapply shipped_complete|eapply shipped_sound]; eassumption.
    - eapply neat_act; eassumption.
  Qed.
  Lemma neat_empty rid : neat_root (l_cons (empty_layout (F:=F) rid)).
  Proof. split; [reflexivity|]. split; constructor. Qed.
End Neat.
