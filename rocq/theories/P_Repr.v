(** C93: the text of a tree. *)
From Verif Require Import ReprSpec Prim P_Node TreeLemmas NodeProofs.
Local Open Scope string_scope.

Lemma sapp_assoc (a b c : string) : (a ++ b) ++ c = a ++ (b ++ c).
Proof. induction a as [|x a IH]; [reflexivity|]. cbn. now rewrite IH. Qed.
Definition special (c : ascii) : Prop := c = "("%char \/ c = ")"%char \/ c = ","%char.
(** A clean text ends at the first special character. *)
Lemma cancel a : forall b c d x y, clean a -> clean b -> special c -> special d ->
  a ++ String c x = b ++ String d y -> a = b /\ c = d /\ x = y.
Proof.
  induction a as [|p a IH]; intros [|q b] c d x y Ha Hb Hc Hd E; cbn in E.
  - now injection E.
  - injection E as E _. subst q. cbn in Hb. exfalso. unfold special in Hc. intuition.
  - injection E as E _. subst p. cbn in Ha. exfalso. unfold special in Hd. intuition.
  - injection E as E1 E2. subst q. destruct Ha as (_ & _ & _ & Ha). destruct Hb as (_ & _ & _ & Hb). destruct (IH b c d x y Ha Hb Hc Hd E2) as (-> & -> & ->). auto.
Qed.
Lemma comma_join_cons a l : l <> nil -> comma_join (a :: l) = a ++ ", " ++ comma_join l.
Proof. destruct l; [congruence|reflexivity]. Qed.
Lemma keys_cancel l : forall m x y, length l = length m -> Forall clean l -> Forall clean m ->
  comma_join l ++ String ")" x = comma_join m ++ String ")" y -> l = m /\ x = y.
Proof.
  induction l as [|a l IH]; intros [|b m] x y Hlen Hl Hm E; try discriminate Hlen; cbn in Hlen.
  - cbn in E. injection E as E. auto.
  - injection Hlen as Hlen. inversion_clear Hl as [|? ? Ha Hl']. inversion_clear Hm as [|? ? Hb Hm']. destruct l as [|a' l].
    + destruct m; [|discriminate Hlen]. cbn in E. destruct (cancel a b _ _ x y Ha Hb (or_intror (or_introl eq_refl)) (or_intror (or_introl eq_refl)) E) as (-> & _ & ->). auto.
    + destruct m as [|b' m]; [discriminate Hlen|]. rewrite (comma_join_cons a), (comma_join_cons b) in E by discriminate. rewrite !sapp_assoc in E.
      destruct (cancel a b _ _ _ _ Ha Hb (or_intror (or_intror eq_refl)) (or_intror (or_intror eq_refl)) E) as (-> & _ & E').
      cbn [append] in E'. injection E' as E'. destruct (IH (b' :: m) x y Hlen Hl' Hm' E') as [-> ->]. auto.
Qed.

Section Text.
  Context {T A : Type} (name : T -> string) (show : A -> string).
  Notation repr := (repr name show).
  Notation tidy := (tidy name show).
  Notation look_alike := (look_alike name show).
  Implicit Types n m : node T A.

  Lemma repr_eq t v (ch : dict (node T A)) x : repr (Node t v ch) ++ x =
    name t ++ String "(" (show v ++ String "," (String " " (String "(" (comma_join (map (fun kc => repr (snd kc)) ch)
      ++ String ")" (String "," (String " " (String "(" (comma_join (dkeys ch) ++ String ")" (String ")" x))))))))).
  Proof. cbn [Repr.repr]. now rewrite !sapp_assoc. Qed.
  Definition starts (s : string) : Prop := match s with String c _ => c <> ")"%char | EmptyString => False end.
  Lemma repr_starts n x : tidy n -> starts (repr n ++ x).
  Proof.
    intros H. destruct n as [t v ch]. rewrite repr_eq. inversion_clear H as [? ? ? Hn _ _]. destruct (name t) as [|c s]; cbn; [discriminate|]. cbn in Hn. tauto.
  Qed.
  Lemma children_starts (c : string * node T A) ch x : tidy (snd c) -> starts (comma_join (map (fun kc => repr (snd kc)) (c :: ch)) ++ x).
  Proof.
    intros H. cbn [map]. destruct ch; [now apply repr_starts|]. cbn [map]. rewrite comma_join_cons by discriminate. rewrite sapp_assoc. now apply repr_starts.
  Qed.
  Definition readable n : Prop := forall m x y, tidy n -> tidy m -> repr n ++ x = repr m ++ y -> look_alike n m /\ x = y.
  Lemma children_cancel (ch : dict (node T A)) : Forall (fun kc : string * node T A => readable (snd kc)) ch -> forall dh x y,
    Forall (fun kc : string * node T A => tidy (snd kc)) ch -> Forall (fun kc : string * node T A => tidy (snd kc)) dh ->
    comma_join (map (fun kc : string * node T A => repr (snd kc)) ch) ++ String ")" x = comma_join (map (fun kc : string * node T A => repr (snd kc)) dh) ++ String ")" y ->
    Forall2 (fun kc kd : string * node T A => look_alike (snd kc) (snd kd)) ch dh /\ x = y.
  Proof.
    induction 1 as [|c ch Hc _ IH]; intros dh x y Ht Hu E.
    - destruct dh as [|d dh]; [cbn in E; injection E as E; auto|]. exfalso. inversion_clear Hu as [|? ? Hd _]. pose proof (children_starts d dh (String ")" y) Hd) as H. rewrite <- E in H. now apply H.
    - inversion_clear Ht as [|? ? Hct Ht']. destruct dh as [|d dh]; [exfalso; pose proof (children_starts c ch (String ")" x) Hct) as H; rewrite E in H; now apply H|].
      inversion_clear Hu as [|? ? Hdt Hu']. destruct ch as [|c' ch], dh as [|d' dh].
      + cbn in E. destruct (Hc _ _ _ Hct Hdt E) as [H1 H2]. injection H2 as H2. auto.
      + cbn [map] in E. rewrite (comma_join_cons (repr (snd d))) in E by discriminate. rewrite sapp_assoc in E. cbn [comma_join] in E. destruct (Hc _ _ _ Hct Hdt E) as [_ H]. discriminate H.
      + cbn [map] in E. rewrite (comma_join_cons (repr (snd c))) in E by discriminate. rewrite sapp_assoc in E. cbn [comma_join] in E. destruct (Hc _ _ _ Hct Hdt E) as [_ H]. discriminate H.
      + cbn [map] in E. rewrite (comma_join_cons (repr (snd c))), (comma_join_cons (repr (snd d))) in E by discriminate. rewrite !sapp_assoc in E. destruct (Hc _ _ _ Hct Hdt E) as [H1 H2].
        cbn [append] in H2. injection H2 as H2. destruct (IH (d' :: dh) x y Ht' Hu' H2) as [H3 ->]. auto.
  Qed.
  Lemma all_readable n : readable n.
  Proof.
    induction n as [t v ch IH] using node_ind'. intros [u w dh] x y Hn Hm E. rewrite !repr_eq in E.
    inversion_clear Hn as [? ? ? Hnt Hvt Hch]. inversion_clear Hm as [? ? ? Hnu Hvu Hdh].
    destruct (cancel _ _ _ _ _ _ Hnt Hnu (or_introl eq_refl) (or_introl eq_refl) E) as (E1 & _ & E2).
    destruct (cancel _ _ _ _ _ _ Hvt Hvu (or_intror (or_intror eq_refl)) (or_intror (or_intror eq_refl)) E2) as (E3 & _ & E4).
    injection E4 as E4. destruct (children_cancel ch) with (dh := dh) (2 := Forall_impl _ (fun kc H => proj2 H) Hch) (3 := Forall_impl _ (fun kc H => proj2 H) Hdh) (4 := E4) as [H5 E6]; [exact IH|].
    injection E6 as E6. assert (Hlen : length ch = length dh) by (clear - H5; induction H5; cbn; congruence).
    destruct (keys_cancel (dkeys ch) (dkeys dh) (String ")" x) (String ")" y)) as [E7 E8].
    - unfold dkeys. now rewrite !map_length.
    - unfold dkeys. apply Forall_map. exact (Forall_impl _ (fun kc H => proj1 H) Hch).
    - unfold dkeys. apply Forall_map. exact (Forall_impl _ (fun kc H => proj1 H) Hdh).
    - exact E6.
    - injection E8 as E8. split; [|exact E8]. constructor; [exact E1|exact E3|]. clear - H5 E7. induction H5 as [|c d ch dh H _ IH]; [constructor|]. unfold dkeys in *. cbn in E7. injection E7 as E7 E8. auto.
  Qed.

  (** Trees print the same if and only if they look alike: same shape, same keys in the
      same order, same class names, same texts of the values. *)
  Theorem C93_same_text n m : tidy n -> tidy m -> (str name show n = str name show m <-> look_alike n m).
  Proof.
    intros Hn Hm. unfold str. split.
    - intros E. refine (proj1 (all_readable n m "" "" Hn Hm _)). now rewrite E.
    - clear Hn Hm. revert m. induction n as [t v ch IH] using node_ind'. intros m H. inversion H as [? u ? w ? dh E1 E2 F]; subst. cbn [Repr.repr]. rewrite E1, E2. clear - IH F.
      assert (E : map (fun kc : string * node T A => repr (snd kc)) ch = map (fun kc : string * node T A => repr (snd kc)) dh /\ dkeys ch = dkeys dh); [|destruct E as [-> ->]; reflexivity].
      induction F as [|c d ch dh [Hk Hd] _ IHF]; [auto|]. inversion_clear IH as [|? ? Hc Hch]. destruct (IHF Hch) as [E1 E2]. unfold dkeys in *. cbn [map]. rewrite E1, E2, Hk, (Hc _ Hd). auto.
  Qed.

  (** If different classes have different names and different values print differently,
      equal texts mean equal trees. *)
  Theorem C93_equal n m : (forall t u, name t = name u -> t = u) -> (forall v w, show v = show w -> v = w) ->
    tidy n -> tidy m -> (str name show n = str name show m <-> n = m).
  Proof.
    intros Hname Hshow Hn Hm. split; [|now intros ->]. intros E. apply C93_same_text in E; [|assumption..]. clear Hn Hm. revert m E. induction n as [t v ch IH] using node_ind'. intros m H. inversion H as [? u ? w ? dh E1 E2 F]; subst. apply Hname in E1. apply Hshow in E2. subst. f_equal. clear - IH F.
    induction F as [|[k c] [k' d] ch dh [Hk Hd] _ IHF]; [auto|]. inversion_clear IH as [|? ? Hc Hch]. cbn in *. rewrite (IHF Hch), Hk, (Hc _ Hd). reflexivity.
  Qed.
End Text.

Section Copy.
  Context {T A : Type} (name : T -> string) (show : A -> string) (base : T).
  Implicit Types n m : node T A.
  Lemma tidy_copy n : clean (name base) -> tidy name show n -> tidy name show (tmap (fun m => (base, nval m)) n).
  Proof.
    intros Hb. induction n as [t v ch IH] using node_ind'. intros H. inversion_clear H as [? ? ? _ Hv Hch]. constructor; [exact Hb|exact Hv|]. clear - IH Hch. induction Hch as [|[k c] ch [Hk Hc] _ IHch]; [constructor|]. inversion_clear IH as [|? ? H1 H2]. constructor; [|now apply IHch]. cbn in *. auto.
  Qed.
  Lemma alike_copy n : look_alike name show n (tmap (fun m => (base, nval m)) n) <-> Forall (fun c => name (ntype c) = name base) (preorder n).
  Proof.
    induction n as [t v ch IH] using node_ind'. split.
    - intros H. cbn [tmap] in H. inversion H as [? ? ? ? ? ? E1 E2 F]; subst. constructor; [exact E1|]. clear H. induction ch as [|[k c] ch IHch]; [constructor|]. inversion_clear IH as [|? ? H1 H2]. cbn in F. inversion_clear F as [|? ? ? ? [_ F1] F2]. cbn [flat_map]. apply Forall_app. split; [now apply H1|now apply IHch].
    - intros H. inversion_clear H as [|? ? E F]. cbn [tmap]. constructor; [exact E|reflexivity|]. clear E. induction ch as [|[k c] ch IHch]; [constructor|]. inversion_clear IH as [|? ? H1 H2]. cbn [flat_map] in F. apply Forall_app in F as [F1 F2]. cbn [map]. constructor; [split; [reflexivity|now apply H1]|now apply IHch].
  Qed.
  (** A copy prints like the original only if all classes of the original are called like
      the base class (all nodes of a copy are of the base class, C08). *)
  Theorem C93_copy n : wf n -> clean (name base) -> tidy name show n ->
    exists m, node_copy base n = Ok m /\
      (str name show n = str name show m <-> Forall (fun c => name (ntype c) = name base) (preorder n)).
  Proof.
    intros Hw Hb Hn. eexists. split; [now apply node_map_tmap|]. rewrite <- alike_copy. apply C93_same_text; [exact Hn|now apply tidy_copy].
  Qed.
End Copy.

(** A number printed as a text. *)
Definition show_nat (n : nat) : string := dec n.
Definition class_name (t : nat) : string := match t with 0 => "Node" | 1 => "Point" | _ => "Line" end.
Example C93_case : str class_name show_nat ex_tree =
  "Node(1, (Point(2, (Line(3, (), ()), Line(4, (), ())), (b, c)), Point(5, (), ())), (a, d))".
Proof. reflexivity. Qed.
Example C93_case_tidy : tidy class_name show_nat ex_tree.
Proof. unfold ex_tree. repeat (constructor; cbn; try (intuition discriminate)). Qed.
(** Nothing keeps keys free of commas, and then the text does not tell the tree. *)
Theorem C93_commas_refuted : exists n m : node nat nat, wf n /\ wf m /\ n <> m /\ nkeys n <> nkeys m /\
  str class_name show_nat n = str class_name show_nat m.
Proof.
  exists (Node 0 1 [("a, b", Node 0 2 []); ("c", Node 0 2 [])]), (Node 0 1 [("a", Node 0 2 []); ("b, c", Node 0 2 [])]).
  repeat split; try discriminate; repeat (constructor; cbn; try (intuition discriminate)).
Qed.
(** Equal texts do not mean the same sharing of arrays: two lines, one whose points share
    their array (so that the solver moves them together, C16) and one whose points do not. *)
Definition show_pv (v : pv nat) : string := "[" ++ String.concat " " (map dec (vdata v)) ++ "]".
Definition ptype_name (t : ptype) : string :=
  match t with
  | TNode => "Node" | TPrimNode => "PrimitiveNode" | TPoint => "Point" | TLine => "Line"
  | TPolygon => "Polygon" | TQuad => "Quadrilateral" | TAxes => "Axes"
  end.
Definition point_at (i : nat) : prim nat := Node TPoint {| vid := i; vdata := [1; 2] |} [].
Definition line_of (i j : nat) : prim nat :=
  Node TLine {| vid := 0; vdata := [] |} [("Point0", point_at i); ("Point1", point_at j)].
Theorem C93_sharing_refuted : str ptype_name show_pv (line_of 1 1) = str ptype_name show_pv (line_of 1 2) /\
  tidy ptype_name show_pv (line_of 1 1) /\ tidy ptype_name show_pv (line_of 1 2) /\
  length (snd (filter_unique (line_of 1 1))) <> length (snd (filter_unique (line_of 1 2))).
Proof.
  split; [reflexivity|]. split; [|split; [|discriminate]]; unfold line_of, point_at; repeat (constructor; cbn; try (intuition discriminate)).
Qed.
Example C93_line : str ptype_name show_pv (line_of 1 2) =
  "Line([], (Point([1 2], (), ()), Point([1 2], (), ())), (Point0, Point1))".
Proof. reflexivity. Qed.

Print Assumptions C93_same_text.
Print Assumptions C93_equal.
Print Assumptions C93_copy.
Print Assumptions C93_commas_refuted.
Print Assumptions C93_sharing_refuted.
