(** Lemmas about trees, strings and dicts (proofs only). *)
From Coq Require Import Permutation.
From Verif Require Export Spec.

Section Ind.
  Context {T A : Type} (P : node T A -> Prop).
  Hypothesis H : forall t v ch, Forall (fun kc => P (snd kc)) ch -> P (Node t v ch).
  Fixpoint node_ind' (n : node T A) : P n :=
    match n with
    | Node t v ch =>
        H t v ch ((fix go (ch : list (string * node T A)) : Forall (fun kc => P (snd kc)) ch :=
                     match ch with
                     | [] => Forall_nil _
                     | kc :: r => Forall_cons kc (node_ind' (snd kc)) (go r)
                     end) ch)
    end.
End Ind.

(** ** Dicts *)
Section Dict.
  Context {V : Type}.
  Implicit Types (d : dict V) (k : string).

  Lemma dget_dset_same k v d : dget k (dset k v d) = Some v.
  Proof.
    induction d as [|[k' v'] d IH]; cbn.
    - now rewrite String.eqb_refl.
    - destruct (String.eqb k k') eqn:E; cbn; rewrite E; auto.
  Qed.
  Lemma dget_dset_other k k' v d : k <> k' -> dget k (dset k' v d) = dget k d.
  Proof.
    intros Hn. induction d as [|[k1 v1] d IH]; cbn.
    - destruct (String.eqb_spec k k'); congruence.
    - destruct (String.eqb_spec k' k1); cbn; destruct (String.eqb_spec k k1); subst; congruence.
  Qed.
  Lemma dset_same k v d : dget k d = Some v -> dset k v d = d.
  Proof.
    induction d as [|[k' v'] d IH]; cbn; [discriminate|].
    destruct (String.eqb k k') eqn:E; intros Hd; [congruence|now rewrite IH].
  Qed.
  Lemma dget_In k v d : dget k d = Some v -> In (k, v) d.
  Proof.
    induction d as [|[k' v'] d IH]; cbn; [discriminate|].
    destruct (String.eqb_spec k k'); intros Hd; [left; congruence|right; auto].
  Qed.
  Lemma In_dget k v d : NoDup (map fst d) -> In (k, v) d -> dget k d = Some v.
  Proof.
    induction d as [|[k' v'] d IH]; cbn; [tauto|].
    intros Hn [E|Hi]; inversion Hn as [|? ? Hni Hnd]; subst.
    - inversion E; subst. now rewrite String.eqb_refl.
    - destruct (String.eqb_spec k k').
      + subst. exfalso. apply Hni. now apply (in_map fst) in Hi.
      + auto.
  Qed.
  Lemma dget_None_iff k d : dget k d = None <-> ~ In k (map fst d).
  Proof.
    induction d as [|[k' v'] d IH]; cbn; [tauto|].
    destruct (String.eqb_spec k k'); split; intros H1; try congruence.
    - exfalso. apply H1. now left.
    - intros [H2|H2]; [congruence|]. now apply IH in H1.
    - apply IH. tauto.
  Qed.
  Lemma dmem_true_iff k d : dmem k d = true <-> In k (map fst d).
  Proof.
    unfold dmem. destruct (dget k d) eqn:E.
    - split; [intros _|auto]. apply dget_In in E. now apply (in_map fst) in E.
    - apply dget_None_iff in E. split; [discriminate|contradiction].
  Qed.
  Lemma dset_new k v d : dget k d = None -> dset k v d = d ++ [(k, v)].
  Proof.
    induction d as [|[k' v'] d IH]; cbn; [reflexivity|].
    destruct (String.eqb k k'); [discriminate|]. intros Hd. now rewrite IH.
  Qed.
  Lemma dset_keys k v d : dget k d <> None -> map fst (dset k v d) = map fst d.
  Proof.
    induction d as [|[k' v'] d IH]; cbn; [congruence|].
    destruct (String.eqb_spec k k'); cbn; [reflexivity|]. intros Hd. now rewrite IH.
  Qed.
  Lemma dset_NoDup k v d : NoDup (map fst d) -> NoDup (map fst (dset k v d)).
  Proof.
    intros Hn. destruct (dget k d) eqn:E.
    - rewrite dset_keys; congruence.
    - rewrite dset_new by assumption. rewrite map_app; cbn.
      apply dget_None_iff in E.
      apply (Permutation_NoDup (l := k :: map fst d)); [apply Permutation_cons_append|].
      now constructor.
  Qed.
  Lemma dset_Forall (P : string * V -> Prop) k v d :
    Forall P d -> P (k, v) -> Forall P (dset k v d).
  Proof.
    induction d as [|[k' v'] d IH]; cbn; intros Hf Hp; [auto|].
    inversion Hf; subst. destruct (String.eqb_spec k k'); subst; constructor; auto.
  Qed.

  Lemma dict_of_gen l acc :
    NoDup (map fst acc ++ map fst l) ->
    fold_left (fun d kv => dset (fst kv) (snd kv) d) l acc = acc ++ l :> dict V.
  Proof.
    revert acc. induction l as [|[k v] l IH]; cbn; intros acc Hn.
    - now rewrite app_nil_r.
    - rewrite dset_new.
      + rewrite IH.
        * now rewrite <- app_assoc.
        * rewrite map_app; cbn. rewrite <- app_assoc. exact Hn.
      + apply dget_None_iff. intros Hi.
        apply NoDup_remove_2 in Hn. apply Hn. apply in_or_app. now left.
  Qed.
  Lemma dict_of_nodup l : NoDup (map fst l) -> dict_of l = l :> dict V.
  Proof. intros Hn. unfold dict_of. now rewrite dict_of_gen. Qed.
  Lemma dict_of_NoDup l : NoDup (map fst (dict_of l : dict V)).
  Proof.
    unfold dict_of. assert (H : NoDup (map fst ([] : dict V))) by constructor.
    revert H. generalize ([] : dict V). induction l as [|[k v] l IH]; cbn; intros acc Hn; auto.
    apply IH. now apply dset_NoDup.
  Qed.
End Dict.

Lemma zip_map_fst_snd {A B} (l : list (A * B)) : zip (map fst l) (map snd l) = l.
Proof. induction l as [|[a b] l IH]; cbn; congruence. Qed.

Lemma zip_length {A B} (a : list A) (b : list B) : length (zip a b) = Nat.min (length a) (length b).
Proof. revert b. induction a as [|x a IH]; intros [|y b]; cbn; auto. Qed.

Lemma map_fst_zip {A B} (a : list A) (b : list B) : length a <= length b -> map fst (zip a b) = a.
Proof.
  revert b. induction a as [|x a IH]; intros [|y b]; cbn; intros H; auto; try lia. rewrite IH; auto; lia.
Qed.
Lemma map_snd_zip {A B} (a : list A) (b : list B) : length b <= length a -> map snd (zip a b) = b.
Proof.
  revert b. induction a as [|x a IH]; intros [|y b]; cbn; intros H; auto; try lia. rewrite IH; auto; lia.
Qed.
Lemma map_zip {A B C D} (f : A -> C) (g : B -> D) a b :
  zip (map f a) (map g b) = map (fun ab => (f (fst ab), g (snd ab))) (zip a b).
Proof. revert b. induction a as [|x a IH]; intros [|y b]; cbn; auto. now rewrite IH. Qed.
Fixpoint nodupb (l : list string) : bool :=
  match l with [] => true | x :: r => negb (existsb (String.eqb x) r) && nodupb r end.
Lemma nodupb_NoDup l : nodupb l = true -> NoDup l.
Proof.
  induction l as [|x l IH]; cbn; intros H; constructor; apply andb_true_iff in H as [H1 H2]; auto.
  intros Hi. apply negb_true_iff in H1. assert (existsb (String.eqb x) l = true); [|congruence].
  apply existsb_exists. exists x. split; [assumption|apply String.eqb_refl].
Qed.
Lemma zip_map_l {A B C} (f : A -> C) (a : list A) (b : list B) :
  zip (map f a) b = map (fun ab => (f (fst ab), snd ab)) (zip a b).
Proof. revert b. induction a as [|x a IH]; intros [|y b]; cbn; congruence. Qed.
Lemma zip_map_r {A B C} (f : B -> C) (a : list A) (b : list B) :
  zip a (map f b) = map (fun ab => (fst ab, f (snd ab))) (zip a b).
Proof. revert b. induction a as [|x a IH]; intros [|y b]; cbn; congruence. Qed.
Lemma zip_app {A B} (a1 a2 : list A) (b1 b2 : list B) :
  length a1 = length b1 -> zip (a1 ++ a2) (b1 ++ b2) = zip a1 b1 ++ zip a2 b2.
Proof. revert b1. induction a1 as [|x a IH]; intros [|y b]; cbn; intros H; auto; try lia. now rewrite IH by lia. Qed.

(** ** mapM *)
Lemma mapM_app {A B} (f : A -> result B) l1 l2 :
  mapM f (l1 ++ l2) = (x <- mapM f l1 ;; y <- mapM f l2 ;; Ok (x ++ y)).
Proof.
  induction l1 as [|a l1 IH]; cbn.
  - now destruct (mapM f l2).
  - destruct (f a); cbn; [|reflexivity]. rewrite IH. destruct (mapM f l1); cbn; [|reflexivity].
    now destruct (mapM f l2).
Qed.
Lemma mapM_length {A B} (f : A -> result B) l r : mapM f l = Ok r -> length r = length l.
Proof.
  revert r. induction l as [|a l IH]; cbn; intros r H.
  - now inversion H.
  - destruct (f a); cbn in H; [|discriminate]. destruct (mapM f l); cbn in H; [|discriminate].
    inversion H; cbn. f_equal. auto.
Qed.
Lemma mapM_Ok_map {A B} (f : A -> B) l : mapM (fun x => Ok (f x)) l = Ok (map f l).
Proof. induction l as [|a l IH]; cbn; [reflexivity|]. now rewrite IH. Qed.
Lemma mapM_ext {A B} (f g : A -> result B) l : (forall x, In x l -> f x = g x) -> mapM f l = mapM g l.
Proof.
  induction l as [|a l IH]; cbn; intros H; [reflexivity|].
  rewrite (H a) by now left. rewrite IH by (intros; apply H; now right). reflexivity.
Qed.
Lemma mapM_map {A B C} (f : B -> result C) (g : A -> B) l : mapM f (map g l) = mapM (fun x => f (g x)) l.
Proof. induction l as [|a l IH]; cbn; [reflexivity|]. now rewrite IH. Qed.
Lemma mapM_Ok_iff {A B} (f : A -> result B) l r :
  mapM f l = Ok r <-> Forall2 (fun x y => f x = Ok y) l r.
Proof.
  revert r. induction l as [|a l IH]; cbn; intros r.
  - split; intros H; inversion H; subst; auto.
  - split.
    + destruct (f a) eqn:E; cbn; [|discriminate]. destruct (mapM f l) eqn:E'; cbn; [|discriminate].
      intros H; inversion H; subst. constructor; auto. now apply IH.
    + intros H; inversion H as [|? y ? ys Hy Hys]; subst. rewrite Hy; cbn.
      apply IH in Hys. now rewrite Hys.
Qed.

(** ** Strings *)
Lemma append_assoc (a b c : string) : ((a ++ b) ++ c = a ++ (b ++ c))%string.
Proof. induction a; cbn; congruence. Qed.
Lemma append_nil_r (a : string) : (a ++ "" = a)%string.
Proof. induction a; cbn; congruence. Qed.
Lemma append_inj_l (a b c : string) : (a ++ b = a ++ c)%string -> b = c.
Proof. induction a; cbn; intros H; [auto|inversion H; auto]. Qed.
Lemma length_append (a b : string) : String.length (a ++ b) = String.length a + String.length b.
Proof. induction a; cbn; auto. Qed.

Lemma split1_None s p : split1 s = (p, None) -> s = p /\ noslash p = true /\ split_all s = [s].
Proof.
  revert p. induction s as [|c s IH]; cbn; intros p H.
  - inversion H; subst; auto.
  - destruct (Ascii.eqb c slash) eqn:E; [discriminate|].
    destruct (split1 s) as [p' q] eqn:Es. inversion H; subst.
    destruct (IH p' eq_refl) as (-> & Hn & Hs). cbn. rewrite E, Hs. cbn. auto.
Qed.
Lemma split1_Some s p r : split1 s = (p, Some r) ->
  s = (p ++ String slash r)%string /\ noslash p = true /\ split_all s = p :: split_all r.
Proof.
  revert p. induction s as [|c s IH]; cbn; intros p H; [discriminate|].
  destruct (Ascii.eqb c slash) eqn:E.
  - inversion H; subst. apply Ascii.eqb_eq in E; subst. auto.
  - destruct (split1 s) as [p' q] eqn:Es. inversion H; subst.
    destruct (IH p' eq_refl) as (-> & Hn & Hs). cbn. rewrite E, Hs. cbn. auto.
Qed.
Lemma split1_Some_length s p r : split1 s = (p, Some r) -> String.length r < String.length s.
Proof.
  intros H. apply split1_Some in H as (-> & _). rewrite length_append; cbn. lia.
Qed.
Lemma split_all_nonempty s : split_all s <> [].
Proof. destruct s as [|c s]; cbn; [discriminate|]. destruct (Ascii.eqb c slash); [discriminate|]. destruct (split_all s); discriminate. Qed.
Lemma split_all_noslash s : Forall (fun k => noslash k = true) (split_all s).
Proof.
  induction s as [|c s IH]; cbn; [auto|].
  destruct (Ascii.eqb c slash) eqn:E; [auto|].
  destruct (split_all s) as [|p ps]; inversion IH; subst; constructor; cbn; auto.
  - now rewrite E.
  - rewrite E. auto.
Qed.
Lemma join_split s : join (split_all s) = s.
Proof.
  induction s as [|c s IH]; cbn; [reflexivity|].
  destruct (Ascii.eqb c slash) eqn:E.
  - apply Ascii.eqb_eq in E; subst c.
    destruct (split_all s) as [|p ps] eqn:Es; [now destruct (split_all_nonempty s)|].
    cbn in *. now rewrite IH.
  - destruct (split_all s) as [|p ps] eqn:Es; [now destruct (split_all_nonempty s)|].
    destruct ps as [|p2 ps]; cbn in *; congruence.
Qed.
Lemma split_all_app k s : noslash k = true -> split_all (k ++ String slash s) = k :: split_all s.
Proof.
  induction k as [|c k IH]; cbn; intros H; [reflexivity|].
  apply andb_true_iff in H as [H1 H2]. apply negb_true_iff in H1. rewrite H1, IH by assumption. reflexivity.
Qed.
Lemma split_all_single k : noslash k = true -> split_all k = [k].
Proof.
  induction k as [|c k IH]; cbn; intros H; [reflexivity|].
  apply andb_true_iff in H as [H1 H2]. apply negb_true_iff in H1. rewrite H1, IH by assumption. reflexivity.
Qed.
Lemma split_join ks : ks <> [] -> Forall (fun k => noslash k = true) ks -> split_all (join ks) = ks.
Proof.
  induction ks as [|k ks IH]; intros Hn Hf; [congruence|].
  inversion Hf; subst. destruct ks as [|k2 ks].
  - cbn. now apply split_all_single.
  - change (join (k :: k2 :: ks)) with (k ++ String slash (join (k2 :: ks)))%string.
    rewrite split_all_app by assumption. rewrite IH; auto. discriminate.
Qed.
Lemma join_inj a b : a <> [] -> b <> [] -> Forall (fun k => noslash k = true) a ->
  Forall (fun k => noslash k = true) b -> join a = join b -> a = b.
Proof. intros Ha Hb Fa Fb H. rewrite <- (split_join a), <- (split_join b) by assumption. now rewrite H. Qed.

(** ** Paths *)
Section Walk.
  Context {T A : Type}.
  Implicit Types (n c : node T A).

  Lemma walk_app p q n : walk (p ++ q) n = match walk p n with Some c => walk q c | None => None end.
  Proof.
    revert n. induction p as [|k p IH]; cbn; intros n; [reflexivity|].
    destruct (dget k (nch n)); auto.
  Qed.

  Lemma get_child_f_walk fuel n key : String.length key < fuel ->
    get_child_f fuel n key = match walk (split_all key) n with
                             | Some c => Ok c
                             | None => Err (KeyError key)
                             end.
  Proof.
    revert n key. induction fuel as [|f IH]; intros n key Hf; [lia|].
    cbn [get_child_f]. destruct (split1 key) as [p [r|]] eqn:E.
    - pose proof (split1_Some_length _ _ _ E) as Hl.
      apply split1_Some in E as (Hk & _ & Hs). rewrite Hs. cbn [walk].
      destruct (dget p (nch n)) as [c|]; [|reflexivity].
      rewrite IH by lia. destruct (walk (split_all r) c); reflexivity.
    - apply split1_None in E as (-> & _ & Hs). rewrite Hs. cbn [walk].
      destruct (dget p (nch n)); reflexivity.
  Qed.
  Lemma get_child_walk n key :
    get_child n key = match walk (split_all key) n with
                      | Some c => Ok c
                      | None => Err (KeyError key)
                      end.
  Proof. apply get_child_f_walk. lia. Qed.

  (** Path-level update. *)
  Fixpoint pupd (p : list string) (f : node T A -> node T A) n : node T A :=
    match p with
    | [] => f n
    | k :: ks =>
        match dget k (nch n) with
        | None => n
        | Some c => Node (ntype n) (nval n) (dset k (pupd ks f c) (nch n))
        end
    end.

  Lemma walk_pupd p q f n c : walk p n = Some c -> walk (p ++ q) (pupd p f n) = walk q (f c).
  Proof.
    revert n. induction p as [|k p IH]; cbn; intros n H; [congruence|].
    destruct (dget k (nch n)) as [c'|] eqn:E; [|discriminate]. cbn.
    rewrite dget_dset_same. auto.
  Qed.
  Lemma walk_pupd_prefix q r f n c :
    walk q n = Some c -> walk r c <> None -> walk q (pupd (q ++ r) f n) = Some (pupd r f c).
  Proof.
    revert n. induction q as [|k q IH]; cbn; intros n H Hr; [congruence|].
    destruct (dget k (nch n)) as [c'|] eqn:E; [|discriminate]. cbn.
    rewrite dget_dset_same. auto.
  Qed.
  Lemma walk_pupd_other p q f n :
    ~ prefix_of p q -> ~ prefix_of q p -> walk q (pupd p f n) = walk q n.
  Proof.
    revert q n. induction p as [|k p IH]; intros q n H1 H2.
    - exfalso. apply H1. now exists q.
    - destruct q as [|k' q]; [exfalso; apply H2; now exists (k :: p)|].
      cbn. destruct (dget k (nch n)) as [c|] eqn:E; [|reflexivity]. cbn.
      destruct (string_dec k' k) as [->|Hn].
      + rewrite dget_dset_same, E. apply IH.
        * intros [r ->]. apply H1. now exists r.
        * intros [r ->]. apply H2. now exists r.
      + now rewrite dget_dset_other by assumption.
  Qed.
  Lemma pupd_same_node r f c : r <> [] -> ntype (pupd r f c) = ntype c /\ nval (pupd r f c) = nval c /\ nkeys (pupd r f c) = nkeys c.
  Proof.
    destruct r as [|k r]; [congruence|]. intros _. cbn.
    destruct (dget k (nch c)) eqn:E; [|auto]. unfold nkeys, dkeys; cbn.
    rewrite dset_keys by congruence. auto.
  Qed.
  Lemma node_eta n : Node (ntype n) (nval n) (nch n) = n.
  Proof. now destruct n. Qed.

  Lemma update_at_pupd fuel n key f : String.length key < fuel ->
    update_at_f fuel n key f = pupd (split_all key) f n.
  Proof.
    revert n key. induction fuel as [|fu IH]; intros n key Hf; [lia|].
    cbn [update_at_f]. destruct (split1 key) as [p [r|]] eqn:E.
    - pose proof (split1_Some_length _ _ _ E) as Hl.
      apply split1_Some in E as (_ & _ & Hs). rewrite Hs. cbn [pupd].
      destruct (dget p (nch n)); [|reflexivity]. now rewrite IH by lia.
    - apply split1_None in E as (-> & _ & Hs). rewrite Hs. cbn [pupd].
      destruct (dget p (nch n)); reflexivity.
  Qed.

  (** add_child on paths *)
  Lemma add_child_f_spec fuel n key child : String.length key < fuel ->
    let path := split_all key in
    let parents := removelast path in let k := last path EmptyString in
    add_child_f fuel n key child =
      match walk parents n with
      | None => (n, Err (KeyError key))
      | Some par =>
          if dmem k (nch par) then (n, Err (KeyError key))
          else (pupd parents (set_key k child) n, Ok tt)
      end.
  Proof.
    revert n key. induction fuel as [|f IH]; intros n key Hf; [lia|].
    cbn [add_child_f]. destruct (split1 key) as [p [r|]] eqn:E; cbv zeta.
    - pose proof (split1_Some_length _ _ _ E) as Hl.
      apply split1_Some in E as (_ & _ & Hs). rewrite Hs.
      assert (Hr : removelast (p :: split_all r) = p :: removelast (split_all r)).
      { cbn. destruct (split_all r) eqn:Er; [now destruct (split_all_nonempty r)|reflexivity]. }
      assert (Hla : last (p :: split_all r) EmptyString = last (split_all r) EmptyString).
      { cbn. destruct (split_all r) eqn:Er; [now destruct (split_all_nonempty r)|reflexivity]. }
      rewrite Hr, Hla. cbn [walk pupd].
      destruct (dget p (nch n)) as [c|] eqn:Ed; [|reflexivity].
      rewrite IH by lia. cbv zeta.
      destruct (walk (removelast (split_all r)) c) as [par|].
      + destruct (dmem _ _).
        * rewrite dset_same by assumption. now rewrite node_eta.
        * reflexivity.
      + rewrite dset_same by assumption. now rewrite node_eta.
    - apply split1_None in E as (-> & _ & Hs). rewrite Hs. cbn [removelast last walk pupd].
      reflexivity.
  Qed.
  Lemma add_child_spec n key child :
    let path := split_all key in
    let parents := removelast path in let k := last path EmptyString in
    add_child n key child =
      match walk parents n with
      | None => (n, Err (KeyError key))
      | Some par =>
          if dmem k (nch par) then (n, Err (KeyError key))
          else (pupd parents (set_key k child) n, Ok tt)
      end.
  Proof. apply add_child_f_spec. lia. Qed.

  Lemma split_all_parents key : split_all key = removelast (split_all key) ++ [last (split_all key) EmptyString].
  Proof. apply app_removelast_last. apply split_all_nonempty. Qed.

  (** contains on paths *)
  Lemma contains_f_spec fuel n key : String.length key < fuel ->
    let path := split_all key in
    let path' := match path with
                 | _ :: _ :: _ => if String.eqb (last path EmptyString) EmptyString then removelast path else path
                 | _ => path
                 end in
    let parents := removelast path' in let k := last path' EmptyString in
    match walk parents n with
    | Some par => contains_f fuel n key = Ok (dmem k (nch par))
    | None => exists e, contains_f fuel n key = Err (KeyError e)
    end.
  Proof.
    revert n key. induction fuel as [|f IH]; intros n key Hf; [lia|].
    cbn [contains_f]. destruct (split1 key) as [p [r|]] eqn:E; cbv zeta.
    - pose proof (split1_Some_length _ _ _ E) as Hl.
      apply split1_Some in E as (_ & Hp & Hs). rewrite Hs.
      destruct (String.eqb_spec r EmptyString) as [->|Hr].
      + cbn. reflexivity.
      + pose proof (IH) as IH'.
        destruct (split_all r) as [|p2 ps] eqn:Er; [now destruct (split_all_nonempty r)|].
        rewrite get_child_walk. rewrite split_all_single by assumption. cbn [walk].
        assert (Hlast : last (p :: p2 :: ps) EmptyString = last (p2 :: ps) EmptyString) by reflexivity.
        rewrite Hlast.
        assert (Hrm : forall l, l <> [] -> removelast (p :: l) = p :: removelast l).
        { intros [|a l] Hl'; [congruence|reflexivity]. }
        assert (Hlst : forall l, l <> [] -> last (p :: l) EmptyString = last l EmptyString).
        { intros [|a l] Hl'; [congruence|reflexivity]. }
        set (X := if String.eqb (last (p2 :: ps) EmptyString) EmptyString
                  then removelast (p :: p2 :: ps) else p :: p2 :: ps).
        set (Y := match p2 :: ps with
                 | _ :: _ :: _ => if String.eqb (last (p2 :: ps) EmptyString) EmptyString then removelast (p2 :: ps) else p2 :: ps
                 | _ => p2 :: ps
                 end).
        assert (HXY : X = p :: Y /\ Y <> []).
        { unfold X, Y. destruct ps as [|p3 ps].
          - cbn [last]. destruct (String.eqb_spec p2 EmptyString) as [->|Hp2].
            + exfalso. apply Hr. rewrite <- (join_split r), Er. reflexivity.
            + split; [reflexivity|discriminate].
          - destruct (String.eqb (last (p2 :: p3 :: ps) EmptyString) EmptyString).
            + split; [apply Hrm|]; discriminate.
            + split; [reflexivity|discriminate]. }
        destruct HXY as [HX HY]. rewrite HX, Hrm, Hlst by assumption. cbn [walk].
        destruct (dget p (nch n)) as [c|].
        * specialize (IH c r ltac:(lia)). cbv zeta in IH. rewrite Er in IH. fold Y in IH. exact IH.
        * eauto.
    - apply split1_None in E as (-> & _ & Hs). rewrite Hs. cbn. reflexivity.
  Qed.
End Walk.
