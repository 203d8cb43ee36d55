(** Reading and making trees of objects; adding at a slash-free key (proofs only). *)
From Verif Require Export HistWf HeapLayout.
From Verif Require Export HeapCopy.

Section HT.
  Context {T A : Type}.
  Notation nd := (node T A).
  Implicit Types (h : heap T A) (t : nd).

  (** ** A tree is not higher than the number of objects. *)
  Lemma hwalk_prefix h p r x i : hwalk h p r = Some x -> exists y, hwalk h (firstn i p) r = Some y /\ hwalk h (skipn i p) y = Some x.
  Proof.
    intros H. rewrite <- (firstn_skipn i p), hwalk_app in H.
    destruct (hwalk h (firstn i p) r) as [y|]; [eauto|discriminate].
  Qed.
  Lemma chain_objects h p : forall r t x, dicts h -> shows h r t -> hwalk h p r = Some x ->
    exists xs, length xs = S (length p) /\ NoDup xs /\ Forall (fun y => y < length h) xs /\ Forall (fun y => holds h r y) xs.
  Proof.
    induction p as [|k p IH]; intros r t x Hd Hs H.
    - exists [r]. pose proof (hwalk_bound h [] r t r Hs eq_refl) as B.
      split; [reflexivity|]. split; [constructor; [tauto|constructor]|]. split; constructor; auto. now exists [].
    - cbn in H. destruct (nth_error h r) as [o|] eqn:E; [|discriminate]. destruct (dget k (och o)) as [c|] eqn:D; [|discriminate].
      pose proof (shows_inv _ _ _ Hs) as (o' & E' & _ & _ & Fo). rewrite E in E'. injection E' as <-.
      apply (dget_F2 _ k) in Fo. rewrite D in Fo. destruct (dget k (nch t)) as [tc|] eqn:Dt; [|contradiction].
      destruct (IH c tc x Hd Fo H) as (xs & L & Nd & B & Ho). exists (r :: xs).
      split; [cbn; now rewrite L|]. split; [|split].
      + constructor; [|exact Nd]. intros Hin. rewrite Forall_forall in Ho. destruct (Ho _ Hin) as [q Hq].
        assert (W : hwalk h (k :: q) r = Some r) by (cbn; now rewrite E, D).
        apply (shows_acyclic h r t) in W; [discriminate|exact Hs].
      + constructor; [|exact B]. apply (hwalk_bound h [] r t r Hs eq_refl).
      + constructor; [now exists []|]. eapply Forall_impl; [|exact Ho]. intros y Hy. eapply holds_child; eauto.
  Qed.
  Lemma height_bound h r t : dicts h -> shows h r t -> node_height t < length h.
  Proof.
    intros Hd Hs. destruct (node_height_reached t (shows_wf _ _ _ Hd Hs)) as (p & Hp & Hl).
    pose proof (hwalk_shows h p r t Hs) as W. destruct (hwalk h p r) as [x|] eqn:E; [|destruct (walk p t); [contradiction|congruence]].
    destruct (chain_objects h p r t x Hd Hs E) as (xs & L & Nd & B & _).
    assert (I : incl xs (seq 0 (length h))). { intros y Hy. rewrite Forall_forall in B. apply in_seq. specialize (B y Hy). lia. }
    pose proof (NoDup_incl_length Nd I) as Q. rewrite seq_length in Q. lia.
  Qed.

  (** ** Reading *)
  Lemma child_height (ty : T) (v : A) ch kc : In kc ch -> node_height (snd kc) < node_height (Node ty v ch).
  Proof.
    intros D. cbn. destruct ch as [|kc0 ch]; [destruct D|]. apply le_n_S. revert D. generalize (kc0 :: ch). intros l D.
    induction l as [|x l IHl]; [destruct D|]. cbn. destruct D as [->|D]; [cbn; lia|]. specialize (IHl D). lia.
  Qed.
  Lemma read_shows h : forall fuel t r, shows h r t -> node_height t < fuel -> read fuel h r = Ok t.
  Proof.
    induction fuel as [|f IH]; intros t r Hs Hf; [lia|].
    pose proof (shows_inv _ _ _ Hs) as (o & E & Ht & Hv & Fo). cbn [read]. unfold deref, look. rewrite E. cbn [bind].
    destruct t as [ty v ch]. cbn [ntype nval nch] in *. subst ty v.
    assert (M : mapM (fun kc : string * nat => c <- read f h (snd kc) ;; Ok (fst kc, c)) (och o) = Ok ch).
    { assert (Hh : forall kc, In kc ch -> node_height (snd kc) < f). { intros kc Hin. pose proof (child_height (otype o) (oval o) ch kc Hin). lia. }
      clear E Hs Hf. induction Fo as [|kr kc d e [Ek Hk] Fo IHF]; [reflexivity|]. cbn [mapM].
      rewrite (IH (snd kc) (snd kr) Hk) by (apply Hh; now left). cbn [bind]. rewrite IHF by (intros; apply Hh; now right).
      cbn [bind]. rewrite Ek. now destruct kc. }
    rewrite M. reflexivity.
  Qed.
  Lemma read_sound h : forall fuel t r, read fuel h r = Ok t -> shows h r t.
  Proof.
    induction fuel as [|f IH]; intros t r H; cbn [read] in H; [discriminate|].
    unfold deref, look in H. destruct (nth_error h r) as [o|] eqn:E; [|discriminate]. cbn [bind] in H.
    destruct (mapM _ (och o)) as [ch|] eqn:M; [|discriminate]. cbn [bind] in H. injection H as <-.
    apply shows_intro; [exact E|]. clear E. revert ch M. induction (och o) as [|kr d IHd]; intros ch M; cbn [mapM] in M.
    - injection M as <-. constructor.
    - destruct (read f h (snd kr)) as [c|] eqn:R; [|discriminate]. cbn [bind] in M.
      destruct (mapM _ d) as [ch'|] eqn:M'; [|discriminate]. cbn [bind] in M. injection M as <-.
      constructor; [cbn; auto|]. now apply IHd.
  Qed.
  Lemma tree_at_shows h r t : dicts h -> shows h r t -> tree_at h r = Ok t.
  Proof. intros Hd Hs. apply read_shows; [exact Hs|]. now apply (height_bound h r). Qed.

  (** ** Making a tree *)
  Fixpoint plants (h : heap T A) (ch : dict nd) : heap T A * dict nat :=
    match ch with
    | [] => (h, [])
    | (k, c) :: r => let (h1, x) := plant h c in let (h2, xs) := plants h1 r in (h2, (k, x) :: xs)
    end.
  Lemma plant_unfold h ty v ch : plant h (Node ty v ch) = let (h', cs) := plants h ch in alloc h' (Obj ty v cs).
  Proof.
    cbn [plant]. match goal with |- (let (_, _) := ?G h ch in _) = _ => assert (E : forall ch h, G h ch = plants h ch) end.
    { clear. induction ch as [|[k c] ch IH]; intros h; [reflexivity|]. cbn [plants]. destruct (plant h c) as [h1 x]. now rewrite IH. }
    now rewrite E.
  Qed.
  (** Everything found below [r] in the heap is new. *)
  Definition new_below h0 h r : Prop := forall p x, hwalk h p r = Some x -> length h0 <= x < length h.
  Lemma plant_spec t : wf t -> forall h, exists new r, plant h t = (h ++ new, r) /\ shows (h ++ new) r t /\
    Forall (fun o => NoDup (map fst (och o))) new /\ new_below h (h ++ new) r.
  Proof.
    induction t as [ty v ch IH] using node_ind'. intros Hw h. apply wf_children in Hw as [Hnd Hwf].
    rewrite plant_unfold.
    assert (G : forall ch h, Forall (fun kc => forall h, exists new r, plant h (snd kc) = (h ++ new, r) /\ shows (h ++ new) r (snd kc) /\
        Forall (fun o => NoDup (map fst (och o))) new /\ new_below h (h ++ new) r) ch ->
      exists new cs, plants h ch = (h ++ new, cs) /\
        Forall2 (fun kr kc => fst kr = fst kc /\ shows (h ++ new) (snd kr) (snd kc)) cs ch /\
        Forall (fun o => NoDup (map fst (och o))) new /\ Forall (fun kr => new_below h (h ++ new) (snd kr)) cs).
    { clear. induction ch as [|[k c] ch IHc]; intros h Hf.
      - exists [], []. cbn. rewrite app_nil_r. repeat split; constructor.
      - inversion Hf as [|? ? H1 H2]; subst. cbn [snd] in H1. destruct (H1 h) as (n1 & r1 & E1 & S1 & D1 & B1).
        destruct (IHc (h ++ n1) H2) as (n2 & cs & E2 & S2 & D2 & B2).
        exists (n1 ++ n2), ((k, r1) :: cs). cbn [plants]. rewrite E1, E2. rewrite !app_assoc. split; [reflexivity|].
        split; [|split].
        + constructor; [cbn; split; [reflexivity|now apply shows_ext]|exact S2].
        + apply Forall_app. now split.
        + constructor.
          * cbn [snd]. intros p x Hx. apply (hwalk_ext_inv _ _ _ _ _ _ S1) in Hx. specialize (B1 p x Hx). rewrite !app_length in *. lia.
          * eapply Forall_impl; [|exact B2]. intros kr Hk p x Hx. specialize (Hk p x Hx). rewrite !app_length in *. lia. }
    destruct (G ch h) as (new & cs & -> & S & D & B).
    { rewrite Forall_forall in *. intros kc Hin. apply IH; auto. }
    unfold alloc. exists (new ++ [Obj ty v cs]), (length (h ++ new)). rewrite app_assoc. split; [reflexivity|].
    assert (E0 : nth_error ((h ++ new) ++ [Obj ty v cs]) (length (h ++ new)) = Some (Obj ty v cs)).
    { rewrite nth_error_app2 by lia. now rewrite Nat.sub_diag. }
    split; [|split].
    - apply (shows_intro _ _ (Obj ty v cs)); [exact E0|]. cbn [och]. eapply F2_impl; [|exact S]. intros kr kc [Ek Hk]. split; [exact Ek|now apply shows_ext].
    - apply Forall_app. split; [exact D|]. constructor; [|constructor]. cbn [och]. now rewrite (dkeys_F2 _ _ _ S).
    - intros [|k p] x Hx; cbn in Hx.
      + injection Hx as <-. rewrite !app_length. cbn. lia.
      + rewrite E0 in Hx. cbn [och] in Hx. destruct (dget k cs) as [c|] eqn:Dk; [|discriminate].
        apply dget_In in Dk. rewrite Forall_forall in B. pose proof (B _ Dk) as Bc. cbn [snd] in Bc.
        assert (Sc : exists tc, shows (h ++ new) c tc).
        { clear -S Dk. induction S as [|kr kc d e [Ek Hk] S IHS]; [destruct Dk|]. destruct Dk as [->|Dk]; [cbn in *; eauto|auto]. }
        destruct Sc as [tc Sc]. apply (hwalk_ext_inv _ _ _ _ _ _ Sc) in Hx. specialize (Bc p x Hx). rewrite !app_length in *. cbn. lia.
  Qed.
  Lemma dicts_app h new : dicts h -> Forall (fun o => NoDup (map fst (och o))) new -> dicts (h ++ new).
  Proof. intros H1 H2. now apply Forall_app. Qed.

  (** ** What an addition can do at all, for any structure whatever. *)
  Lemma hadd_child_effect h c : forall fuel r key h' res, hadd_child_f fuel h r key c = (h', res) ->
    h' = h \/ exists p k, holds h r p /\ h' = put_child h p k c /\ res = Ok tt.
  Proof.
    induction fuel as [|f IH]; intros r key h' res H; cbn [hadd_child_f] in H; [injection H as <- _; now left|].
    unfold deref, look in H. destruct (nth_error h r) as [o|] eqn:E; [|injection H as <- _; now left].
    destruct (split1 key) as [k0 [rest|]].
    - destruct (dget k0 (och o)) as [x|] eqn:D; [|injection H as <- _; now left].
      destruct (hadd_child_f f h x rest c) as [h1 res1] eqn:H1. injection H as <- Hres.
      destruct (IH x rest h1 res1 H1) as [->|(p & k & Hp & -> & ->)]; [now left|]. right. exists p, k.
      split; [eapply holds_child; eauto|]. split; [reflexivity|now symmetry].
    - destruct (dmem k0 (och o)); injection H as <- <-; [now left|]. right. exists r, k0. split; [now exists []|auto].
  Qed.
  Lemma put_child_length h p k c : length (put_child h p k c) = length h.
  Proof. unfold put_child. destruct (look h p); [apply put_length|reflexivity]. Qed.
  Lemma put_child_other h p k c x : x <> p -> nth_error (put_child h p k c) x = nth_error h x.
  Proof. intros H. unfold put_child. destruct (look h p); [now apply put_other|reflexivity]. Qed.

  (** ** Walks that do not meet the changed object *)
  Lemma hwalk_frame h h' p : (forall x, x <> p -> nth_error h' x = nth_error h x) ->
    forall q r, ~ holds h r p -> hwalk h' q r = hwalk h q r.
  Proof.
    intros Ho. induction q as [|k q IH]; intros r Hn; cbn; [reflexivity|].
    rewrite Ho. 2:{ intros ->. apply Hn. now exists []. }
    destruct (nth_error h r) as [o|] eqn:E; [|reflexivity]. destruct (dget k (och o)) as [c|] eqn:D; [|reflexivity].
    apply IH. intros Hc. apply Hn. eapply holds_child; eauto.
  Qed.
  Lemma holds_frame h h' p r y : (forall x, x <> p -> nth_error h' x = nth_error h x) -> ~ holds h r p -> holds h' r y -> holds h r y.
  Proof. intros Ho Hn [q Hq]. rewrite (hwalk_frame h h' p Ho q r Hn) in Hq. now exists q. Qed.

  (** ** Adding at a slash-free key changes the root object only. *)
  Lemma add_top h r t key c tc : dicts h -> shows h r t -> noslash key = true -> shows h c tc -> ~ holds h c r ->
    let h' := fst (hadd_child h r key c) in
    snd (hadd_child h r key c) = snd (add_child t key tc) /\
    shows h' r (fst (add_child t key tc)) /\ dicts h' /\ length h' = length h /\
    (forall x, x <> r -> nth_error h' x = nth_error h x).
  Proof.
    intros Hd Hs Hk Hc Hn. cbv zeta.
    assert (Hcomp : components key [key]). { split; [discriminate|]. split; [constructor; [exact Hk|constructor]|reflexivity]. }
    destruct (hadd_child_outcome h r t key [key] c tc Hs Hcomp) as (E1 & E2 & E3).
    split; [exact E1|]. destruct E2 as [E2|E2].
    - rewrite E2. split; [|repeat split; auto].
      pose proof (add_child_cases t key [key] tc Hcomp) as EA. cbv zeta in EA. cbn [removelast last walk] in EA.
      rewrite EA. destruct (dget key (nch t)) eqn:D; [exact Hs|].
      exfalso. rewrite EA in E1. cbn [snd] in E1. destruct (E3 E1) as (p & o & Wp & Eo & Dk & Hl & _ & o2 & Eo2 & Ep).
      rewrite E2 in Ep. rewrite Eo in Eo2. injection Eo2 as <-. rewrite Eo in Ep. injection Ep as Ep.
      apply (f_equal och) in Ep. cbn in Ep. apply (f_equal (@length _)) in Ep. rewrite app_length in Ep. cbn in Ep. lia.
    - destruct (E3 E2) as (p & o & Wp & Eo & Dk & Ho). cbn [removelast hwalk] in Wp. injection Wp as <-.
      split; [|split; [|split]].
      + apply (hadd_child_unshared h r t key [key] c tc r Hd Hs Hcomp E2 eq_refl); auto. intros q Hq. cbn [removelast]. exact (shows_acyclic h r t q Hs Hq).
      + eapply only_dicts; eauto. rewrite map_app. cbn [map fst]. apply NoDup_app_intro.
        * apply nth_error_In in Eo. unfold dicts in Hd. rewrite Forall_forall in Hd. auto.
        * constructor; [tauto|constructor].
        * intros k0 Hin [<-|[]]. apply in_map_iff in Hin as ([k1 v1] & E & Hin). cbn in E. subst k1.
          cbn [last] in Dk. assert (Q : dget key (och o) <> None); [|congruence].
          clear -Hin. induction (och o) as [|[k2 v2] d IHd]; [destruct Hin|]. cbn. destruct (String.eqb_spec key k2); [congruence|].
          destruct Hin as [Hin|Hin]; [congruence|auto].
      + apply Ho.
      + apply Ho.
  Qed.
End HT.
