(** Lemmas about [update_layout_constraints]. *)
From Verif Require Export LayoutProofs CstrProofs ConsSpec.

(** Keys usable in paths: a dict at every level, no slash, no empty key. *)
Definition tidy {T A} (n : node T A) : Prop := wf n /\ slashfree n /\ named n.

Section Update.
  Context {F : Type} {N : Num F}.
  Notation prim := (prim F).
  Notation pyval := (pyval F).
  Notation cons := (cons F).
  Notation layout := (layout F).

  Definition thick (c : cons) : bool := is_kind KXAxisThickness c || is_kind KYAxisThickness c.
  (** The matplotlib axis to be measured for the constraint at path [p]: the x (y) axis
      of the axes named by the first component of the constraint's primitive key. *)
  Definition measures (l : layout) (axs : dict (mpl_axes F)) (p : list string) (c : cons) (a : mpl_axis F) : Prop :=
    exists m axis_key ax ay, walk p (l_keys l) = Some m /\ nval m = [axis_key] /\
      dget (hd EmptyString (split_all axis_key)) axs = Some (ax, ay) /\
      a = (if is_kind KYAxisThickness c then ay else ax).

  Lemma split1_hd s : fst (split1 s) = hd EmptyString (split_all s).
  Proof.
    destruct (split1 s) as [p [r|]] eqn:E; cbn [fst].
    - apply split1_Some in E as (_ & _ & ->). reflexivity.
    - apply split1_None in E as (<- & _ & ->). reflexivity.
  Qed.

  Definition upd := (list string * cons * mpl_axis F)%type.
  Definition upath (u : upd) := fst (fst u).
  Definition ucons (u : upd) := snd (fst u).
  Definition uaxis (u : upd) := snd u.
  Definition udict (us : list upd) : dict (list pyval) := map (fun u => (join (upath u), [PAxis (uaxis u)])) us.

  Definition collect (l : layout) axs its (d : dict (list pyval)) :=
    fold_left (fun acc kc => d <- acc ;; thickness_entry l axs d kc) its (Ok d).
  Lemma collect_err (l : layout) axs its e :
    fold_left (fun acc kc => d <- acc ;; thickness_entry l axs d kc) its (Err e) = Err e.
  Proof. induction its as [|kc its IH]; cbn; auto. Qed.

  Lemma dget_dset_last {V} (d : dict V) k v w : ~ In k (map fst d) -> dset k w (d ++ [(k, v)]) = d ++ [(k, w)].
  Proof.
    induction d as [|[k' v'] d IH]; cbn; intros H; [now rewrite String.eqb_refl|].
    destruct (String.eqb_spec k k'); [subst; exfalso; auto|]. rewrite IH by auto. reflexivity.
  Qed.

  Lemma entry_result (l : layout) axs d p c d' : p <> [] -> Forall (fun k => noslash k = true) p -> ~ In (join p) (map fst d) -> join p <> EmptyString ->
    thickness_entry l axs d (path_key EmptyString p, c) = Ok d' ->
    if thick c then exists a, measures l axs p c a /\ d' = d ++ [(join p, [PAxis a])] else d' = d.
  Proof.
    intros Hp Hs Hn Hj H. unfold thickness_entry in H. cbn [fst snd] in H. rewrite path_key_join in H by assumption. cbn [append drop1] in H.
    change (String.eqb (drop1 (String slash (join p))) "") with (String.eqb (join p) "") in H.
    destruct (String.eqb_spec (join p) ""); [congruence|]. cbn [drop1] in H.
    inv_bind H. inv_bind H. rewrite (lookup_walks _ _ p) in E by (split; [assumption|split; [assumption|reflexivity]]).
    destruct (walk p (l_keys l)) as [m|] eqn:Em; [|discriminate]. inversion E; subst x. clear E E0 x0. cbn zeta in H.
    unfold thick. destruct (is_kind KXAxisThickness c) eqn:Kx, (is_kind KYAxisThickness c) eqn:Ky; cbn [orb] in *.
    - inv_bind H. inv_bind E. inversion E; subst x; clear E. inv_bind H. inversion H; subst d'; clear H.
      rewrite (dset_new _ _ d) by now apply dget_None_iff. rewrite dget_dset_last by assumption.
      destruct (nval m) as [|ak [|]] eqn:Ev; try discriminate. rewrite split1_hd in E.
      destruct (dget (hd EmptyString (split_all ak)) axs) as [[ax ay]|] eqn:Ed; [|discriminate]. inversion E; subst x.
      exists ay. split; [|reflexivity]. exists m, ak, ax, ay. rewrite Ky. auto.
    - inv_bind H. inv_bind E. inversion E; subst x; clear E. inversion H; subst d'; clear H.
      rewrite (dset_new _ _ d) by now apply dget_None_iff.
      destruct (nval m) as [|ak [|]] eqn:Ev; try discriminate. rewrite split1_hd in E0.
      destruct (dget (hd EmptyString (split_all ak)) axs) as [[ax ay]|] eqn:Ed; [|discriminate]. inversion E0; subst x0.
      exists ax. split; [|reflexivity]. exists m, ak, ax, ay. rewrite Ky. auto.
    - cbn [bind] in H. inv_bind H. inversion H; subst d'; clear H. rewrite (dset_new _ _ d) by now apply dget_None_iff.
      destruct (nval m) as [|ak [|]] eqn:Ev; try discriminate. rewrite split1_hd in E.
      destruct (dget (hd EmptyString (split_all ak)) axs) as [[ax ay]|] eqn:Ed; [|discriminate]. inversion E; subst x.
      exists ay. split; [|reflexivity]. exists m, ak, ax, ay. rewrite Ky. auto.
    - inversion H. reflexivity.
  Qed.

  Definition keyed (ps : list (list string * cons)) : list (string * cons) := map (fun pc => (path_key EmptyString (fst pc), snd pc)) ps.
  Lemma collect_result (l : layout) axs ps : forall us d',
    Forall (fun pc => fst pc <> [] /\ Forall (fun k => noslash k = true) (fst pc) /\ join (fst pc) <> EmptyString) ps ->
    NoDup (map upath us ++ map fst ps) -> Forall (fun u => upath u <> [] /\ Forall (fun k => noslash k = true) (upath u)) us ->
    collect l axs (keyed ps) (udict us) = Ok d' ->
    exists us', d' = udict (us ++ us') /\
      Forall (fun u => In (upath u, ucons u) ps /\ thick (ucons u) = true /\ measures l axs (upath u) (ucons u) (uaxis u)) us' /\
      (forall pc, In pc ps -> thick (snd pc) = true -> exists u, In u us' /\ upath u = fst pc /\ ucons u = snd pc) /\
      NoDup (map upath (us ++ us')).
  Proof.
    induction ps as [|[p c] ps IH]; intros us d' Hps Hnd Hus H.
    - cbn in H. inversion H. exists []. rewrite app_nil_r. split; [reflexivity|]. split; [constructor|]. split; [intros ? []|]. now rewrite app_nil_r in Hnd.
    - inversion Hps as [|? ? (P1 & P2 & P3) Hps']; subst. cbn [fst] in *. unfold collect in H. cbn [keyed map fst snd fold_left bind] in H.
      destruct (thickness_entry l axs (udict us) (path_key EmptyString p, c)) as [d1|e] eqn:E; [|rewrite collect_err in H; discriminate].
      assert (Hni : ~ In (join p) (map fst (udict us))).
      { unfold udict. rewrite map_map. cbn [fst]. intros Hi. apply in_map_iff in Hi as (u & Hj & Hu). rewrite Forall_forall in Hus. destruct (Hus u Hu) as [U1 U2].
        apply join_inj in Hj; try assumption. cbn [map fst] in Hnd. apply NoDup_remove_2 in Hnd. apply Hnd. apply in_or_app. left. rewrite <- Hj. now apply in_map. }
      pose proof (entry_result l axs _ p c d1 P1 P2 Hni P3 E) as He. destruct (thick c) eqn:Ht.
      + destruct He as (a & Ma & ->).
        change (udict us ++ [(join p, [PAxis a])]) with (udict us ++ udict [(p, c, a)]) in H. unfold udict in H. rewrite <- map_app in H. fold (udict (us ++ [(p, c, a)])) in H.
        destruct (IH (us ++ [(p, c, a)]) d' Hps') as (us' & -> & F1 & F2 & F3).
        * rewrite map_app, <- app_assoc. exact Hnd.
        * apply Forall_app. split; [assumption|]. repeat constructor; assumption.
        * exact H.
        * exists ((p, c, a) :: us'). rewrite <- app_assoc in F3 |- *. split; [reflexivity|]. split; [|split; [|exact F3]].
          -- constructor; [split; [now left|auto]|]. eapply Forall_impl; [|exact F1]. intros u (? & ? & ?). split; [now right|auto].
          -- intros pc [<-|Hin] Hth; [exists (p, c, a); split; [now left|auto]|]. destruct (F2 pc Hin Hth) as (u & ? & ? & ?). exists u. split; [now right|auto].
      + subst d1. destruct (IH us d' Hps') as (us' & -> & F1 & F2 & F3); try assumption.
        { cbn [map fst] in Hnd. now apply NoDup_remove_1 in Hnd. }
        exists us'. split; [reflexivity|]. split; [|split; [|exact F3]].
        * eapply Forall_impl; [|exact F1]. intros u (? & ? & ?). split; [now right|auto].
        * intros pc [<-|Hin] Hth; [cbn in Hth; congruence|]. now apply F2.
  Qed.

  (** The pairs (path, node) of a tree. *)
  Lemma iter_flat_pairs {T A} (n : node T A) : wf n ->
    exists ps, iter_flat EmptyString n = map (fun pc => (path_key EmptyString (fst pc), snd pc)) ps /\ map fst ps = paths n /\
      Forall (fun pc => walk (fst pc) n = Some (snd pc)) ps.
  Proof.
    intros Hw. exists (zip (paths n) (preorder n)).
    assert (Hl : length (paths n) = length (preorder n)).
    { pose proof (preorder_paths n Hw) as H. apply (f_equal (@length _)) in H. now rewrite !map_length in H. }
    split; [|split].
    - rewrite <- (zip_map_fst_snd (iter_flat EmptyString n)), iter_flat_keys, iter_flat_preorder.
      rewrite <- (map_id (preorder n)) at 1. now rewrite map_zip.
    - apply map_fst_zip. lia.
    - pose proof (preorder_paths n Hw) as H. clear -H. revert H. generalize (paths n) at 1 2. generalize (preorder n).
      intros ns ps. revert ns. induction ps as [|p ps IH]; intros [|m ns] H; cbn in *; try constructor; try discriminate; inversion H; cbn; auto.
  Qed.

  (** Replacing the parameters of pairwise unrelated constraints. *)
  Definition comparable (p q : list string) : Prop := prefix_of p q \/ prefix_of q p.
  Lemma prefix_common (p q r : list string) : prefix_of p r -> prefix_of q r -> comparable p q.
  Proof.
    intros [a Ha] [b Hb]. subst r. revert q b Hb. induction p as [|x p IH]; intros [|y q] b H.
    - left. now exists [].
    - left. now exists (y :: q).
    - right. now exists (x :: p).
    - cbn in H. inversion H; subst. destruct (IH q b H2) as [[r ->]|[r ->]]; [left|right]; now exists r.
  Qed.
  Lemma prefix_trans (p q r : list string) : prefix_of p q -> prefix_of q r -> prefix_of p r.
  Proof. intros [a ->] [b ->]. exists (a ++ b). now rewrite app_assoc. Qed.

  Definition same_entry {T A} (x y : option (node T A)) : Prop :=
    match x, y with
    | Some m, Some m' => nval m' = nval m /\ map fst (nch m') = map fst (nch m)
    | None, None => True
    | _, _ => False
    end.
  Definition updated (orig tree : pnode F) (us : list upd) : Prop :=
    (forall u, In u us -> exists pt, root_params (ucons u) [PAxis (uaxis u)] = Ok pt /\ forall r, walk (upath u ++ r) tree = walk r pt) /\
    (forall q, (forall u, In u us -> ~ prefix_of (upath u) q) -> same_entry (walk q orig) (walk q tree)).
  Inductive apart : list upd -> Prop :=
  | apart_nil : apart []
  | apart_cons u us : (forall u', In u' us -> ~ comparable (upath u) (upath u')) -> apart us -> apart (u :: us).
  Lemma same_entry_trans {T A} (x y z : option (node T A)) : same_entry x y -> same_entry y z -> same_entry x z.
  Proof. destruct x, y, z; cbn; try tauto. intros [] []. split; congruence. Qed.
  Lemma same_entry_refl {T A} (x : option (node T A)) : same_entry x x.
  Proof. destruct x; cbn; auto. Qed.

  Definition ustep (root : cons) (acc : result (pnode F)) (kp : string * list pyval) : result (pnode F) :=
    acc <- acc ;; c <- get_child root (fst kp) ;; pp <- root_params c (snd kp) ;;
    match setitem acc (fst kp) pp with (t, Ok _) => Ok t | (_, Err e) => Err e end.
  Lemma ustep_err root e d : fold_left (ustep root) d (Err e) = Err e.
  Proof. induction d; cbn; auto. Qed.

  Definition good_path (p : list string) : Prop := p <> [] /\ Forall (fun k => noslash k = true /\ k <> EmptyString) p.
  Lemma good_components p : good_path p -> components (join p) p.
  Proof. intros [H1 H2]. split; [assumption|]. split; [|reflexivity]. eapply Forall_impl; [|exact H2]. intros a []; assumption. Qed.

  Lemma update_result root orig us : forall us0 tree r,
    updated orig tree us0 -> apart us -> (forall u u', In u us -> In u' us0 -> ~ comparable (upath u) (upath u')) ->
    Forall (fun u => good_path (upath u) /\ walk (upath u) root = Some (ucons u)) us ->
    fold_left (ustep root) (udict us) (Ok tree) = Ok r -> updated orig r (us0 ++ us).
  Proof.
    induction us as [|u us IH]; intros us0 tree r Hu Ha Hc Hw H.
    - cbn in H. inversion H; subst. now rewrite app_nil_r.
    - inversion Hw as [|? ? [Hg Hwu] Hw']; inversion Ha as [|? ? Ha1 Ha2]; subst.
      cbn [udict map fold_left] in H. fold (udict us) in H.
      assert (Hs : exists pt t', root_params (ucons u) [PAxis (uaxis u)] = Ok pt /\ setitem tree (join (upath u)) pt = (t', Ok tt) /\ ustep root (Ok tree) (join (upath u), [PAxis (uaxis u)]) = Ok t').
      { destruct (ustep root (Ok tree) (join (upath u), [PAxis (uaxis u)])) as [t'|e] eqn:Es; [|rewrite ustep_err in H; discriminate].
        unfold ustep in Es. cbn [bind fst snd] in Es. rewrite (lookup_walks _ _ _ (good_components _ Hg)), Hwu in Es. cbn [bind] in Es.
        destruct (root_params (ucons u) [PAxis (uaxis u)]) as [pt|e]; cbn [bind] in Es; [|discriminate].
        destruct (setitem tree (join (upath u)) pt) as [t1 [[]|e]] eqn:Et; [|discriminate]. inversion Es; subst. exists pt, t'. auto. }
      destruct Hs as (pt & t' & Hpt & Hset & Hst). rewrite Hst in H.
      assert (Hne : length (upath u) = 1 \/ last (upath u) EmptyString <> EmptyString).
      { right. destruct Hg as [G1 G2]. rewrite Forall_forall in G2. destruct (exists_last G1) as (pp & k & E). rewrite E, last_last. apply (G2 k). rewrite E. apply in_or_app. right. now left. }
      assert (Hne2 : forall k, upath u <> [EmptyString; k]).
      { intros k E. destruct Hg as [_ G2]. rewrite E in G2. inversion G2 as [|? ? [_ G] _]. congruence. }
      pose proof (setitem_effect tree (join (upath u)) (upath u) pt (good_components _ Hg) Hne Hne2) as He. cbv zeta in He.
      destruct (walk (upath u) tree) as [old|] eqn:Eo.
      2: { destruct He as [e He]. rewrite He in Hset. discriminate. }
      destruct He as (n' & Hn' & _ & E1 & E2 & E3). rewrite Hset in Hn'. inversion Hn'; subst n'. clear Hn'.
      replace (us0 ++ u :: us) with ((us0 ++ [u]) ++ us) by now rewrite <- app_assoc.
      apply (IH (us0 ++ [u]) t' r); try assumption.
      + destruct Hu as [U1 U2]. split.
        * intros v Hv. apply in_app_or in Hv as [Hv|[<-|[]]]; [|exists pt; auto].
          destruct (U1 v Hv) as (pt' & P1 & P2). exists pt'. split; [assumption|]. intros rr. rewrite <- P2. apply E2.
          -- intros Hp. apply (Hc u v (or_introl eq_refl) Hv). apply (prefix_common _ _ _ Hp). now exists rr.
          -- intros Hp. apply (Hc u v (or_introl eq_refl) Hv). right. apply (prefix_trans _ (upath v ++ rr)); [now exists rr|assumption].
        * intros q Hq. assert (Hq0 : forall v, In v us0 -> ~ prefix_of (upath v) q) by (intros v Hv; apply Hq, in_or_app; now left).
          assert (Hqu : ~ prefix_of (upath u) q) by (apply Hq, in_or_app; right; now left).
          apply (same_entry_trans _ (walk q tree)); [now apply U2|].
          assert (Hdec : prefix_of q (upath u) \/ ~ prefix_of q (upath u)).
          { clear. unfold prefix_of. revert q. induction (upath u) as [|x p IH]; intros [|y q].
            - left. now exists [].
            - right. intros [r H]. discriminate.
            - left. now exists (x :: p).
            - destruct (string_dec x y) as [->|Hxy]; [|right; intros [r H]; inversion H; congruence].
              destruct (IH q) as [[r ->]|Hn]; [left; now exists r|right]. intros [r H]. inversion H; subst. apply Hn. now exists r. }
          destruct Hdec as [[rr Hrr]|Hnp]; [|rewrite E2 by assumption; apply same_entry_refl].
          destruct (walk q tree) as [m|] eqn:Eq.
          -- destruct (E3 q rr m Hrr) as (m' & -> & _ & S2 & S3); [|exact Eq|].
             ++ intros ->. apply Hqu. rewrite Hrr, app_nil_r. exists []. now rewrite app_nil_r.
             ++ cbn. auto.
          -- rewrite Hrr, walk_app, Eq in Eo. discriminate.
      + intros v v' Hv Hv'. apply in_app_or in Hv' as [Hv'|[<-|[]]]; [apply Hc; [now right|assumption]|].
        intros [C|C]; apply (Ha1 v Hv); [now right|now left].
  Qed.

  Lemma tidy_path {T A} (n : node T A) p : slashfree n -> named n -> walk p n <> None -> Forall (fun k => noslash k = true /\ k <> EmptyString) p.
  Proof.
    revert n. induction p as [|k p IH]; intros n Hs Hn Hw; constructor; inversion Hs as [t v ch Hk Hc E]; subst; inversion Hn as [? ? ? Hk' Hc']; subst; cbn [walk nch] in Hw;
      destruct (dget k ch) as [c|] eqn:Ed; try congruence; apply dget_In in Ed; rewrite Forall_forall in Hk, Hc, Hc'.
    - split; [apply (Hk _ Ed)|]. intros ->. apply Hk'. now apply (in_map fst) in Ed.
    - apply (IH c); auto; [apply (Hc _ Ed)|apply (Hc' _ Ed)].
  Qed.
  Lemma shape_wf {T A T' A'} (n : node T A) : forall (m : node T' A'), same_shape n m -> wf n -> wf m.
  Proof.
    induction n as [t v ch IH] using node_ind'. intros m H Hw. inversion H as [? ? ? t' v' ch' Hk Hf]; subst. apply wf_children in Hw as [W1 W2].
    constructor; [now rewrite <- Hk|]. clear -IH Hf W2. induction Hf as [|x y ch ch' Hxy Hf IHf]; constructor; inversion IH; inversion W2; subst; auto.
  Qed.

  (** No thickness constraint inside another. *)
  Definition unnested (root : cons) : Prop := forall p q c c', walk p root = Some c -> walk q root = Some c' ->
    thick c = true -> thick c' = true -> prefix_of p q -> p = q.

  Lemma apart_of us (root : cons) : unnested root -> NoDup (map upath us) ->
    Forall (fun u => walk (upath u) root = Some (ucons u) /\ thick (ucons u) = true) us -> apart us.
  Proof.
    intros Hu Hn Hw. induction us as [|u us IH]; constructor; inversion Hn as [|? ? N1 N2]; inversion Hw as [|? ? [W1 W2] W3]; subst; auto.
    intros u' Hin. assert (Hu' : walk (upath u') root = Some (ucons u') /\ thick (ucons u') = true) by (rewrite Forall_forall in W3; now apply W3). destruct Hu' as [V1 V2].
    intros [C|C]; apply N1; [rewrite (Hu _ _ _ _ W1 V1 W2 V2 C)|rewrite <- (Hu _ _ _ _ V1 W1 V2 W2 C)]; now apply in_map.
  Qed.

  Lemma update_layout_result (l l' : layout) axs : lockstep l -> tidy (l_cons l) -> unnested (l_cons l) -> thick (l_cons l) = false ->
    update_layout_constraints l axs = Ok l' ->
    l_prim l' = l_prim l /\ l_cons l' = l_cons l /\ l_keys l' = l_keys l /\
    (forall p c, walk p (l_cons l) = Some c -> thick c = true ->
       exists a pt, measures l axs p c a /\ root_params c [PAxis a] = Ok pt /\ forall r, walk (p ++ r) (l_params l') = walk r pt) /\
    (forall q, (forall p c, prefix_of p q -> walk p (l_cons l) = Some c -> thick c = false) ->
       same_entry (walk q (l_params l)) (walk q (l_params l'))).
  Proof.
    intros [L1 L2] (Tw & Ts & Tn) Hun Hroot H. unfold update_layout_constraints in H. inv_bind H. inv_bind H. inversion H; subst l'; clear H. cbn [l_prim l_cons l_keys l_params].
    split; [reflexivity|]. split; [reflexivity|]. split; [reflexivity|].
    destruct (iter_flat_pairs (l_cons l) Tw) as (ps & Hps & Hpp & Hpw). fold (keyed ps) in Hps.
    assert (Hps1 : exists ps', ps = ([], l_cons l) :: ps' /\ Forall (fun pc => fst pc <> []) ps').
    { pose proof (NoDup_paths (l_cons l) Tw) as Hnd. rewrite <- Hpp in Hnd. destruct (l_cons l) as [t v ch] eqn:Ec. rewrite <- Ec in *. clear -Hpp Hpw Hnd Ec. rewrite Ec in Hpp. cbn [paths] in Hpp.
      destruct ps as [|[p c] ps]; [discriminate|]. cbn in Hpp. inversion Hpp; subst p. inversion Hpw as [|? ? Hw _]; subst. cbn in Hw. inversion Hw; subst. exists ps. split; [reflexivity|].
      cbn in Hnd. inversion Hnd as [|? ? Hni _]; subst. apply Forall_forall. intros pc Hin E. apply Hni. rewrite <- E. now apply in_map. }
    destruct Hps1 as (ps' & -> & Hne). rewrite Hps in E. cbn [keyed map fst snd path_key fold_left bind] in E.
    assert (E0' : thickness_entry l axs [] (EmptyString, l_cons l) = Ok []) by reflexivity. rewrite E0' in E. clear E0'. inversion Hpw as [|? ? _ Hpw']; subst.
    assert (Hgood : Forall (fun pc => good_path (fst pc)) ps').
    { rewrite Forall_forall in *. intros pc Hin. split; [now apply Hne|]. apply (tidy_path (l_cons l)); try assumption. rewrite (Hpw' _ Hin). discriminate. }
    change (fold_left _ (keyed ps') (Ok [])) with (collect l axs (keyed ps') (udict [])) in E.
    destruct (collect_result l axs ps' [] x) as (us & -> & F1 & F2 & F3).
    - rewrite Forall_forall in *. intros pc Hin. destruct (Hgood pc Hin) as [G1 G2]. split; [assumption|]. split; [eapply Forall_impl; [|exact G2]; intros ? []; assumption|].
      destruct (fst pc) as [|k p]; [congruence|]. inversion G2 as [|? ? [_ Gk] _]; subst. destruct p; cbn; [assumption|]. destruct k; [congruence|discriminate].
    - cbn [map app]. pose proof (NoDup_paths (l_cons l) Tw) as Hnd. rewrite <- Hpp in Hnd. cbn in Hnd. now inversion Hnd.
    - constructor.
    - exact E.
    - cbn [app] in *. unfold update_root_param, node_copy in E0. rewrite node_map_tmap in E0 by (apply (shape_wf _ _ L2); assumption). cbn [bind] in E0.
      change (fold_left _ (udict us) ?a) with (fold_left (ustep (l_cons l)) (udict us) a) in E0.
      assert (Hus : Forall (fun u => walk (upath u) (l_cons l) = Some (ucons u) /\ thick (ucons u) = true) us).
      { rewrite Forall_forall in *. intros u Hin. destruct (F1 u Hin) as (I1 & I2 & _). split; [apply (Hpw' _ I1)|assumption]. }
      destruct (update_result (l_cons l) (l_params l) us [] (tmap (fun m : pnode F => (KNode, nval m)) (l_params l)) x0) as [U1 U2]; [| | | |exact E0|].
      + split; [intros ? []|]. intros q _. rewrite walk_tmap. destruct (walk q (l_params l)) as [m|]; cbn; [|exact I].
        destruct m as [tm vm cm]. cbn. split; [reflexivity|]. now rewrite map_map.
      + now apply (apart_of us (l_cons l)).
      + intros ? ? _ [].
      + rewrite Forall_forall in *. intros u Hin. destruct (F1 u Hin) as (I1 & _). split; [apply (Hgood _ I1)|]. now apply Hus.
      + cbn [app] in *. split.
        * intros p c Hp Hc.
          assert (Hin : In (p, c) ps').
          { assert (Hin : In p (paths (l_cons l))) by (apply in_paths_iff; [assumption|congruence]). rewrite <- Hpp in Hin. apply in_map_iff in Hin as ([p' c'] & <- & Hin).
            cbn [fst] in *. destruct Hin as [E1|Hin]; [inversion E1; subst; cbn in Hp; inversion Hp; subst; congruence|].
            rewrite Forall_forall in Hpw'. pose proof (Hpw' _ Hin) as Hw. cbn in Hw. assert (c' = c) by congruence. now subst. }
          destruct (F2 _ Hin Hc) as (u & Hu & Eu & Ec). cbn [fst snd] in *. destruct (U1 u Hu) as (pt & P1 & P2). rewrite Forall_forall in F1. destruct (F1 u Hu) as (_ & _ & M).
          exists (uaxis u), pt. rewrite <- Eu, <- Ec. auto.
        * intros q Hq. apply U2. intros u Hu Hpre. rewrite Forall_forall in Hus. destruct (Hus u Hu) as [W1 W2]. rewrite (Hq _ _ Hpre W1) in W2. discriminate.
  Qed.
End Update.
