(** C110: a part of the figure that no constraint ties to the rest is solved as if its
    constraints were the only ones. *)
From Coq Require Import Reals Lra.
From Verif Require Export P_Pinned.
From Coq Require Import Permutation.
From Verif Require Import BackendLocal BackendOrder.
From Verif Require Import P_Affine EndProofs.
Local Open Scope R_scope.

(** The numbers of [a] where the mask says true, those of [c] elsewhere. *)
Fixpoint merge (m : list bool) (a c : list R) : list R :=
  match m, a, c with b :: m, x :: a, y :: c => (if b then x else y) :: merge m a c | _, _, _ => [] end.
Lemma merge_length : forall m a c, length a = length m -> length c = length m -> length (merge m a c) = length m.
Proof. induction m as [|b m IH]; intros [|x a] [|y c] H1 H2; try discriminate; cbn; [reflexivity|]. injection H1 as H1. injection H2 as H2. now rewrite IH. Qed.
Lemma merge_nth : forall m a c j, length a = length m -> length c = length m -> nth j (merge m a c) 0 = if nth j m false then nth j a 0 else nth j c 0.
Proof.
  induction m as [|b m IH]; intros [|x a] [|y c] j H1 H2; try discriminate; [destruct j; reflexivity|]. injection H1 as H1. injection H2 as H2. destruct j as [|j]; [reflexivity|]. cbn. now apply IH.
Qed.
Lemma merge_distance : forall m a c s, length a = length m -> length c = length m -> length s = length m ->
  distance2 (merge m a c) s + distance2 (merge m c a) s = distance2 a s + distance2 c s.
Proof.
  unfold distance2, sumsq, minus, dotp. induction m as [|b m IH]; intros [|x a] [|y c] [|u s] H1 H2 H3; try discriminate; cbn; [lra|]. injection H1 as H1. injection H2 as H2. injection H3 as H3.
  specialize (IH a c s H1 H2 H3). cbn in IH. destruct b; lra.
Qed.

Section Parts.
  Variable root : prim.
  Hypotheses (Hw : wf root) (Hs : slashfree root) (Hi : ids_consistent root).
  Notation n := (length (initial_global root)).
  Variable part : nat -> bool.
  Definition mask_of (vs : list (pv R)) : list bool := flat_map (fun v => repeat (part (vid v)) (length (vdata v))) vs.
  Definition mask := mask_of (snd (filter_unique root)).
  Lemma mask_length : length mask = n.
  Proof.
    unfold mask, mask_of, initial_global, global_of. generalize (snd (filter_unique root)). intros vs. induction vs as [|v vs IH]; [reflexivity|]. cbn. now rewrite !app_length, repeat_length, IH.
  Qed.
  Lemma nth_repeat_lt {A} (x d : A) : forall k j, (j < k)%nat -> nth j (repeat x k) d = x.
  Proof. induction k as [|k IH]; intros [|j] H; cbn; [lia|lia|reflexivity|]. apply IH. lia. Qed.
  Lemma mask_nth : forall (vs : list (pv R)) u j v, nth_error vs u = Some v -> block (sizes_of vs) u j -> nth j (mask_of vs) false = part (vid v).
  Proof.
    induction vs as [|w vs IH]; intros [|u] j v E B; try discriminate; cbn in E, B.
    - injection E as ->. unfold mask_of. cbn [flat_map]. rewrite app_nth1 by (now rewrite repeat_length). now apply nth_repeat_lt.
    - destruct B as [B1 B2]. unfold mask_of. cbn [flat_map]. rewrite app_nth2 by (now rewrite repeat_length). rewrite repeat_length. now apply (IH u).
  Qed.
  Lemma mask_block v j : in_block root v j -> nth j mask false = part (vid v).
  Proof. intros (u & Hu & B). apply pos_Some in Hu as (x & Hx & Ex). rewrite <- Ex. unfold mask. now apply mask_nth with u. Qed.
  Lemma renew_merge a c v : length a = n -> length c = n -> In v (node_values root) ->
    vdata (renew root (merge mask a c) v) = vdata (renew root (if part (vid v) then a else c) v).
  Proof.
    intros Ha Hc Hv. pose proof mask_length as Hm. apply renew_block; try assumption.
    - rewrite merge_length by congruence. destruct (part (vid v)); congruence.
    - intros j Hj. rewrite merge_nth by congruence. rewrite (mask_block v j Hj). now destruct (part (vid v)).
  Qed.
  (** All arrays below the primitives that these keys name are in the part, or none is. *)
  Definition within (b : bool) (ks : list string) : Prop :=
    forall key q below y, In key ks -> get_child root key = Ok q -> walk below q = Some y -> part (vid (nval y)) = b.
  Lemma value_merge a c b (cs : cons) ks ps r : length a = n -> length c = n -> within b ks -> expressible cs ->
    value_at (new_tree root (if b then a else c)) (cs, ks, ps) r -> value_at (new_tree root (merge mask a c)) (cs, ks, ps) r.
  Proof.
    intros Ha Hc Hin Hx (prims & E1 & E2).
    assert (G : exists prims', mapM (get_child (new_tree root (merge mask a c))) ks = Ok prims' /\ Forall wf prims /\ Forall wf prims' /\ Forall2 same_content prims prims').
    { clear E2. revert prims E1 Hin. induction ks as [|key ks IH]; intros prims E Hin; cbn [mapM] in *.
      - injection E as <-. exists []. repeat constructor.
      - inv_bind E. inv_bind E. injection E as <-. destruct (IH _ E1) as (ps' & E' & W1 & W2 & W3); [intros k' q below y Hk'; apply (Hin k' q below y); now right|].
        assert (G : exists q, get_child root key = Ok q).
        { rewrite get_child_walk in *. destruct (walk (split_all key) root) as [q|] eqn:W; [now exists q|]. apply (new_walk_none root (if b then a else c)) in W. rewrite W in E0. discriminate. }
        destruct G as [q Eq]. destruct (get_new root (if b then a else c) key q Eq) as (q1 & Eq1 & S1). destruct (get_new root (merge mask a c) key q Eq) as (q2 & Eq2 & S2).
        assert (x = q1) by congruence. subst q1. rewrite Eq2. cbn [bind]. rewrite E'. cbn [bind]. eexists. split; [reflexivity|].
        assert (Wq : wf q) by (eapply get_wf; eassumption).
        split; [|split]; constructor; try assumption; try (eapply get_wf; [eassumption|]; now apply new_wf).
        intros k. rewrite S1, S2. destruct (walk k q) as [m|] eqn:Wn; [|reflexivity]. cbn [option_map]. rewrite renew_merge; [|assumption|assumption|].
        + rewrite (Hin key q k m); [reflexivity|now left|exact Eq|exact Wn].
        + rewrite get_child_walk in Eq. destruct (walk (split_all key) root) as [q0|] eqn:W; [|discriminate]. assert (q0 = q) by congruence. subst q0. apply (node_values_In root (split_all key ++ k)); [exact Hw|]. rewrite walk_app, W. exact Wn. }
    destruct G as (prims' & E1' & W1 & W2 & W3). exists prims'. split; [exact E1'|]. rewrite <- E2. symmetry. now apply C80_value.
  Qed.
End Parts.

Theorem C110_parts (part : nat -> bool) acts acts' (l l' : layout) bk bk' r r' abs_tol rel_tol max_iter abs_tol' rel_tol' max_iter' p info p' info' path x :
  shipped_layout acts l -> shipped_layout acts' l' -> reached affine_constraint l -> reached affine_constraint l' -> l_prim l' = l_prim l ->
  (** [l'] has the constraints of [l] that concern the part; the others do not concern it *)
  (forall y, In y (LayoutSpec.added acts') -> In y (LayoutSpec.added acts)) ->
  (forall c ks ps, In (c, ks, ps) (LayoutSpec.added acts') -> within (l_prim l) part true ks) ->
  (forall c ks ps, In (c, ks, ps) (LayoutSpec.added acts) -> In (c, ks, ps) (LayoutSpec.added acts') \/ within (l_prim l) part false ks) ->
  exact_on bk l -> exact_on bk' l' -> layout_residual l (l_prim l) = Ok r -> layout_residual l' (l_prim l') = Ok r' ->
  (exists q, same_structure (l_prim l) q /\ ids_consistent q /\ satisfied l q) -> (1 <= max_iter)%nat -> (1 <= max_iter')%nat ->
  newton_solve bk l abs_tol rel_tol max_iter = Ok (p, info) -> newton_solve bk' l' abs_tol' rel_tol' max_iter' = Ok (p', info') ->
  walk path (l_prim l) = Some x -> part (vid (nval x)) = true ->
  exists y y', walk path p = Some y /\ walk path p' = Some y' /\ vdata (nval y) = vdata (nval y').
Proof.
  intros Hsh Hsh' Hl Hl' Hp Hadd Hin Hout Hbk Hbk' Er Er' (q & Q1 & Q2 & Q3) Hm Hm' E E' Hx Hpart.
  destruct (reached_sane _ l affine_constraint_tidy Hl) as (Hw & Hs & Hi). set (root := l_prim l) in *.
  destruct (C83_least_squares l bk r abs_tol rel_tol max_iter Hl Hbk Er Hm) as (p0 & info0 & z & E0 & S & Ez & M).
  rewrite E in E0. assert (p0 = p) as -> by congruence. clear E0 info0.
  destruct (C83_least_squares l' bk' r' abs_tol' rel_tol' max_iter' Hl' Hbk' Er' Hm') as (p0 & info0 & z' & E0 & S' & Ez' & M').
  rewrite E' in E0. assert (p0 = p') as -> by congruence. clear E0 info0. rewrite Hp in S', M'.
  destruct (solved_tree l bk _ _ _ _ _ Hw Hs Hbk E) as (g & -> & Lg). assert (Hw' := Hw). assert (Hs' := Hs). rewrite <- Hp in Hw', Hs'.
  destruct (solved_tree l' bk' _ _ _ _ _ Hw' Hs' Hbk' E') as (g' & -> & Lg'). rewrite Hp in S', Ez', M', Lg' |- *. change (l_prim l) with root in S, Ez, M, Lg |- *.
  assert (Lm : length (mask root part) = length (initial_global root)) by apply mask_length.
  (* both solutions satisfy their constraints *)
  assert (Hz : zeros z). { destruct Q3 as (y & Ey & Hy). apply sumsq_zero. rewrite <- (zeros_sumsq y Hy). now apply (M q). }
  assert (Q4 : satisfied l' q). { apply (more_satisfied acts' acts l' l r' r q); try assumption; [now symmetry|now rewrite Hp]. }
  assert (Hz' : zeros z'). { destruct Q4 as (y & Ey & Hy). apply sumsq_zero. rewrite <- (zeros_sumsq y Hy). now apply (M' q). }
  assert (T : forall h, length h = length (initial_global root) -> same_structure root (new_tree root h) /\ ids_consistent (new_tree root h)) by (intros h Lh; split; [now apply new_structure|now apply new_ids]).
  assert (A : forall h, length h = length (initial_global root) -> (satisfied l (new_tree root h) <-> forall c ks ps, In (c, ks, ps) (LayoutSpec.added acts) -> exists prims, mapM (get_child (new_tree root h)) ks = Ok prims /\ vanishes c prims ps)).
  { intros h Lh. destruct (T h Lh) as [T1 T2]. now apply (all_satisfied acts l r). }
  assert (A' : forall h, length h = length (initial_global root) -> (satisfied l' (new_tree root h) <-> forall c ks ps, In (c, ks, ps) (LayoutSpec.added acts') -> exists prims, mapM (get_child (new_tree root h)) ks = Ok prims /\ vanishes c prims ps)).
  { intros h Lh. destruct (T h Lh) as [T1 T2]. apply (all_satisfied acts' l' r'); try assumption. now rewrite Hp. }
  assert (Ex : forall c ks ps, In (c, ks, ps) (LayoutSpec.added acts) -> expressible c).
  { intros c ks ps. destruct Hsh as (rid & tw & L & k & R1 & R2 & _). now apply (added_expressible tw acts R2). }
  assert (V : forall a c b cs ks ps, length a = length (initial_global root) -> length c = length (initial_global root) -> In (cs, ks, ps) (LayoutSpec.added acts) -> within root part b ks ->
    (exists prims, mapM (get_child (new_tree root (if b then a else c))) ks = Ok prims /\ vanishes cs prims ps) ->
    exists prims, mapM (get_child (new_tree root (merge (mask root part) a c))) ks = Ok prims /\ vanishes cs prims ps).
  { intros a c b cs ks ps La Lc Hi1 Hi2 (prims & P1 & v & P2 & P3). destruct (value_merge root Hw Hs part a c b cs ks ps v La Lc Hi2 (Ex _ _ _ Hi1)) as (prims' & P4 & P5); [exists prims; auto|].
    exists prims'. split; [exact P4|]. exists v. auto. }
  assert (Sg : satisfied l (new_tree root g)) by (exists z; auto). assert (Sg' : satisfied l' (new_tree root g')) by (exists z'; auto).
  pose proof (proj1 (A g Lg) Sg) as Gg. pose proof (proj1 (A' g' Lg') Sg') as Gg'.
  set (h := merge (mask root part) g' g). set (h' := merge (mask root part) g g').
  assert (Lh : length h = length (initial_global root)) by (unfold h; rewrite merge_length; congruence). assert (Lh' : length h' = length (initial_global root)) by (unfold h'; rewrite merge_length; congruence).
  assert (Sh : satisfied l (new_tree root h)).
  { apply (A h Lh). intros c ks ps Hc. destruct (Hout c ks ps Hc) as [Hc'|Hc']; [apply (V g' g true)|apply (V g' g false)]; auto. eapply Hin; eassumption. }
  assert (Sh' : satisfied l' (new_tree root h')).
  { apply (A' h' Lh'). intros c ks ps Hc. apply (V g g' true); auto. eapply Hin; eassumption. }
  destruct Sh as (u & Eu & Hu). destruct Sh' as (u' & Eu' & Hu'). destruct (T h Lh) as [T1 T2]. destruct (T h' Lh') as [T1' T2'].
  destruct (M _ u T1 T2 Eu) as [_ N]. destruct (M' _ u' T1' T2' Eu') as [_ N']. rewrite (zeros_sumsq u Hu), (zeros_sumsq z Hz) in N. rewrite (zeros_sumsq u' Hu'), (zeros_sumsq z' Hz') in N'.
  destruct (N eq_refl) as [N1 N2]. destruct (N' eq_refl) as [N1' _]. rewrite !new_global in N1, N2, N1' by assumption.
  pose proof (merge_distance (mask root part) g' g (initial_global root)) as D. fold h h' in D. specialize (D ltac:(congruence) ltac:(congruence) ltac:(congruence)).
  assert (Eh : h = g) by (apply N2; lra).
  destruct (new_walk root g _ _ Hx) as (y & Y1 & _ & Y2 & _). destruct (new_walk root g' _ _ Hx) as (y' & Y1' & _ & Y2' & _). exists y, y'. split; [exact Y1|]. split; [exact Y1'|].
  rewrite Y2, Y2', <- Eh. unfold h. rewrite renew_merge; try assumption; [now rewrite Hpart|]. exact (node_values_In _ _ _ Hw Hx).
Qed.

(** The same when the constraints contradict each other, so that the solution is the best
    compromise: [others] are the constraints that do not concern the part. *)
Definition sum (a : list R) : R := fold_right Rplus 0 a.
Lemma sum_app a b : sum (a ++ b) = sum a + sum b.
Proof. unfold sum. induction a as [|x a IH]; cbn; [lra|]. rewrite IH. lra. Qed.
Lemma sum_permutation a b : Permutation a b -> sum a = sum b.
Proof. unfold sum. induction 1; cbn; lra. Qed.
Lemma sumsq_concat vs : sumsq (List.concat vs) = sum (map sumsq vs).
Proof.
  unfold sum. induction vs as [|v vs IH]; [reflexivity|]. cbn [List.concat map fold_right]. rewrite <- IH. clear. induction v as [|x v IH]; cbn [app]; [change (sumsq []) with 0; lra|]. rewrite !sumsq_cons, IH. lra.
Qed.
Definition squares (p : prim) (xs : list (cons * list string * list (pyval R))) : R := sum (map (fun x => sumsq (val p x)) xs).
Lemma squares_of acts (l : layout) r p z : shipped_layout acts l -> layout_residual l (l_prim l) = Ok r -> same_structure (l_prim l) p -> layout_residual l p = Ok z ->
  sumsq z = squares p (LayoutSpec.added acts) /\ forall x, In x (LayoutSpec.added acts) -> value_at p x (val p x).
Proof.
  intros (rid & tw & L & n & R1 & R2 & R3 & _) Er Hp Ez.
  assert (Hne : LayoutSpec.added acts <> []). { intros Ea. rewrite (C53_no_constraints rid acts l (l_prim l) R1 Ea) in Er. discriminate. }
  apply (residual_split rid tw acts l R1 R2 R3 p z Hp Hne) in Ez as (vs & Hv & ->). split.
  - rewrite sumsq_concat, (values_val _ _ _ Hv), map_map. reflexivity.
  - clear -Hv. induction Hv as [|x v xs vs H Hv IH]; intros y []; [subst; now rewrite (val_value _ _ _ H)|auto].
Qed.
Lemma squares_same p q xs : (forall x, In x xs -> val p x = val q x) -> squares p xs = squares q xs.
Proof. intros H. unfold squares. f_equal. apply map_ext_in. intros x Hx. now rewrite H. Qed.
Lemma squares_permutation p xs ys : Permutation xs ys -> squares p xs = squares p ys.
Proof. intros H. unfold squares. apply sum_permutation. now apply Permutation_map. Qed.
Theorem C110_compromise (part : nat -> bool) acts acts' others (l l' : layout) bk bk' r r' abs_tol rel_tol max_iter abs_tol' rel_tol' max_iter' p info p' info' path x :
  shipped_layout acts l -> shipped_layout acts' l' -> reached affine_constraint l -> reached affine_constraint l' -> l_prim l' = l_prim l ->
  Permutation (LayoutSpec.added acts) (LayoutSpec.added acts' ++ others) ->
  (forall c ks ps, In (c, ks, ps) (LayoutSpec.added acts') -> within (l_prim l) part true ks) ->
  (forall c ks ps, In (c, ks, ps) others -> within (l_prim l) part false ks) ->
  exact_on bk l -> exact_on bk' l' -> layout_residual l (l_prim l) = Ok r -> layout_residual l' (l_prim l') = Ok r' ->
  (1 <= max_iter)%nat -> (1 <= max_iter')%nat ->
  newton_solve bk l abs_tol rel_tol max_iter = Ok (p, info) -> newton_solve bk' l' abs_tol' rel_tol' max_iter' = Ok (p', info') ->
  walk path (l_prim l) = Some x -> part (vid (nval x)) = true ->
  exists y y', walk path p = Some y /\ walk path p' = Some y' /\ vdata (nval y) = vdata (nval y').
Proof.
  intros Hsh Hsh' Hl Hl' Hp Hadd Hin Hout Hbk Hbk' Er Er' Hm Hm' E E' Hx Hpart.
  destruct (reached_sane _ l affine_constraint_tidy Hl) as (Hw & Hs & Hi). set (root := l_prim l) in *.
  destruct (C83_least_squares l bk r abs_tol rel_tol max_iter Hl Hbk Er Hm) as (p0 & info0 & z & E0 & S & Ez & M).
  rewrite E in E0. assert (p0 = p) as -> by congruence. clear E0 info0.
  destruct (C83_least_squares l' bk' r' abs_tol' rel_tol' max_iter' Hl' Hbk' Er' Hm') as (p0 & info0 & z' & E0 & S' & Ez' & M').
  rewrite E' in E0. assert (p0 = p') as -> by congruence. clear E0 info0. rewrite Hp in S', M'.
  destruct (solved_tree l bk _ _ _ _ _ Hw Hs Hbk E) as (g & -> & Lg). assert (Hw' := Hw). assert (Hs' := Hs). rewrite <- Hp in Hw', Hs'.
  destruct (solved_tree l' bk' _ _ _ _ _ Hw' Hs' Hbk' E') as (g' & -> & Lg'). rewrite Hp in S', Ez', M', Lg' |- *. change (l_prim l) with root in S, Ez, M, Lg |- *.
  assert (Lm : length (mask root part) = length (initial_global root)) by apply mask_length.
  assert (T : forall h, length h = length (initial_global root) -> same_structure root (new_tree root h) /\ ids_consistent (new_tree root h)) by (intros h Lh; split; [now apply new_structure|now apply new_ids]).
  (* every tree has a residual; its squares add up over the constraints *)
  assert (A : forall h, length h = length (initial_global root) -> exists z, layout_residual l (new_tree root h) = Ok z /\ sumsq z = squares (new_tree root h) (LayoutSpec.added acts') + squares (new_tree root h) others /\
    forall x, In x (LayoutSpec.added acts) -> value_at (new_tree root h) x (val (new_tree root h) x)).
  { intros h Lh. destruct (T h Lh) as [T1 T2]. destruct (affine_defined l r _ Hl Er T1 T2) as [y Ey]. destruct (squares_of acts l r _ y Hsh Er T1 Ey) as [Y1 Y2]. exists y. split; [exact Ey|]. split; [|exact Y2].
    rewrite Y1, (squares_permutation _ _ _ Hadd). unfold squares. now rewrite map_app, sum_app. }
  assert (A' : forall h, length h = length (initial_global root) -> exists z, layout_residual l' (new_tree root h) = Ok z /\ sumsq z = squares (new_tree root h) (LayoutSpec.added acts')).
  { intros h Lh. destruct (T h Lh) as [T1 T2]. assert (T1' : same_structure (l_prim l') (new_tree root h)) by (rewrite Hp; exact T1). destruct (affine_defined l' r' _ Hl' Er' T1' T2) as [y Ey]. exists y. split; [exact Ey|]. apply (squares_of acts' l' r' _ y Hsh' Er' T1' Ey). }
  assert (Ex : forall c ks ps, In (c, ks, ps) (LayoutSpec.added acts) -> expressible c).
  { intros c ks ps. destruct Hsh as (rid & tw & L & k & R1 & R2 & _). now apply (added_expressible tw acts R2). }
  assert (In1 : forall x, In x (LayoutSpec.added acts') -> In x (LayoutSpec.added acts)) by (intros y Hy; apply (Permutation_in _ (Permutation_sym Hadd)), in_or_app; now left).
  assert (In2 : forall x, In x others -> In x (LayoutSpec.added acts)) by (intros y Hy; apply (Permutation_in _ (Permutation_sym Hadd)), in_or_app; now right).
  assert (V : forall a c b y, length a = length (initial_global root) -> length c = length (initial_global root) -> In y (LayoutSpec.added acts) -> within root part b (snd (fst y)) ->
    val (new_tree root (merge (mask root part) a c)) y = val (new_tree root (if b then a else c)) y).
  { intros a c b [[cs ks] ps] La Lc Hi1 Hi2. cbn [fst snd] in Hi2. assert (Lb : length (if b then a else c) = length (initial_global root)) by (destruct b; assumption).
    destruct (A _ Lb) as (_ & _ & _ & Y). specialize (Y _ Hi1). apply val_value. exact (value_merge root Hw Hs part a c b cs ks ps _ La Lc Hi2 (Ex _ _ _ Hi1) Y). }
  assert (VA : forall a c, length a = length (initial_global root) -> length c = length (initial_global root) -> squares (new_tree root (merge (mask root part) a c)) (LayoutSpec.added acts') = squares (new_tree root a) (LayoutSpec.added acts')).
  { intros a c La Lc. apply squares_same. intros [[cs ks] ps] Hy. apply (V a c true); auto. eapply Hin; exact Hy. }
  assert (VB : forall a c, length a = length (initial_global root) -> length c = length (initial_global root) -> squares (new_tree root (merge (mask root part) a c)) others = squares (new_tree root c) others).
  { intros a c La Lc. apply squares_same. intros [[cs ks] ps] Hy. apply (V a c false); auto. eapply Hout; exact Hy. }
  set (h := merge (mask root part) g' g). set (h' := merge (mask root part) g g').
  assert (Lh : length h = length (initial_global root)) by (unfold h; rewrite merge_length; congruence). assert (Lh' : length h' = length (initial_global root)) by (unfold h'; rewrite merge_length; congruence).
  destruct (A h Lh) as (u & Eu & Hu & _). destruct (A' h' Lh') as (u' & Eu' & Hu'). destruct (A g Lg) as (z0 & Ez0 & Hz & _). assert (z0 = z) as -> by congruence. destruct (A' g' Lg') as (z0 & Ez0' & Hz'). assert (z0 = z') as -> by congruence.
  unfold h in Hu. rewrite VA, VB in Hu by assumption. unfold h' in Hu'. rewrite VA in Hu' by assumption.
  destruct (T h Lh) as [T1 T2]. destruct (T h' Lh') as [T1' T2'].
  destruct (M _ u T1 T2 Eu) as [N0 N]. destruct (M' _ u' T1' T2' Eu') as [N0' N']. destruct N as [N1 N2]; [lra|]. destruct N' as [N1' _]; [lra|]. rewrite !new_global in N1, N2, N1' by assumption.
  pose proof (merge_distance (mask root part) g' g (initial_global root)) as D. fold h h' in D. specialize (D ltac:(congruence) ltac:(congruence) ltac:(congruence)).
  assert (Eh : h = g) by (apply N2; lra).
  destruct (new_walk root g _ _ Hx) as (y & Y1 & _ & Y2 & _). destruct (new_walk root g' _ _ Hx) as (y' & Y1' & _ & Y2' & _). exists y, y'. split; [exact Y1|]. split; [exact Y1'|].
  rewrite Y2, Y2', <- Eh. unfold h. rewrite renew_merge; try assumption; [now rewrite Hpart|]. exact (node_values_In _ _ _ Hw Hx).
Qed.

(** Two quadrilaterals: the one of C60, and a second Box 3 inches wide anywhere.  The first
    comes out as if the second were not there. *)
Definition acts110 : list (action R) :=
  (acts84 ++ [AddConstraint (ok_cons Box) ["P"%string] [] "B2"; AddConstraint (ok_cons crWidth) ["P"%string] [PFlt 3%R] "W2"])%list.
Definition l110 : layout := after (empty_layout 0) acts110.
Definition part110 (id : nat) : bool := Nat.ltb id 10.
Lemma shipped_layout110 : shipped_layout acts110 l110.
Proof.
  destruct pool84 as (L & n & P1 & P2 & P3 & P4). exists 0%nat, false, L, n. split; [apply all_ok_runs; vm_compute; reflexivity|].
  split; [|split; [|split; [exact P1|split; [exact P2|]]]]; unfold acts110, acts84, acts60; cbn [List.app].
  - repeat (apply Forall_cons; [first [exact I | apply shipped60; [cbn [In]; tauto|reflexivity|cbn [In]; tauto]]|]). apply Forall_nil.
  - repeat (apply Forall_cons; [first [exact I | reflexivity]|]). apply Forall_nil.
  - repeat (apply Forall_cons; [cbn [given_prims]; repeat (apply Forall_cons; [first [exact P3|exact P4]|]); apply Forall_nil|]). apply Forall_nil.
Qed.
Lemma reached110 : reached affine_constraint l110.
Proof.
  destruct pool84 as (L & n & P1 & P2 & P3 & P4). exists 0%nat, acts110, L, n. split; [reflexivity|]. split; [exact P1|]. split; [exact P2|].
  unfold acts110, acts84, acts60; cbn [List.app]; repeat (apply Forall_cons; [split; cbn [given_prims given_cons]; [first [apply Forall_nil|apply Forall_cons; [first [exact P3|exact P4]|apply Forall_nil]]|first [apply Forall_nil|apply Forall_cons; [apply affine60; cbn [In]; tauto|apply Forall_nil]]]|]); apply Forall_nil.
Qed.
Lemma residual110 : exists r, layout_residual l110 (l_prim l110) = Ok r.
Proof. eexists; lazy -[IZR Rplus Rminus Rmult Ropp Rlt_dec Req_EM_T Rdiv sqrt]; reflexivity. Qed.
Definition goal110 : prim := new_tree (l_prim l110) [0; 0; 3; 0; 3; 1; 0; 1; 0; 0; 3; 0; 3; 4; 0; 4].
Lemma start110 : initial_global (l_prim l110) = [0; 0; 1; 0; 1; 1; 0; 1; 0; 0; 1; 0; 1; 1; 0; 1].
Proof. lazy -[IZR Rplus Rminus Rmult Ropp Rlt_dec Req_EM_T Rdiv sqrt]. reflexivity. Qed.
Lemma satisfied110 : satisfied l110 goal110.
Proof. eexists. split; [lazy -[IZR Rplus Rminus Rmult Ropp Rlt_dec Req_EM_T Rdiv sqrt]; reflexivity|]. repeat (apply Forall_cons; [lra|]). apply Forall_nil. Qed.
Definition within_ok (root : prim) (part : nat -> bool) (b : bool) (ks : list string) : bool :=
  forallb (fun key => match get_child root key with Ok q => forallb (fun w => Bool.eqb (part (vid w)) b) (node_values q) | Err _ => true end) ks.
Lemma within_ok_sound (root : prim) part b ks : wf root -> within_ok root part b ks = true -> within root part b ks.
Proof.
  intros Hw H key q below y Hkey Eq Ey. unfold within_ok in H. rewrite forallb_forall in H. specialize (H key Hkey). rewrite Eq, forallb_forall in H.
  specialize (H (nval y) (node_values_In q below y (get_wf _ _ _ Eq Hw) Ey)). now apply Bool.eqb_prop in H.
Qed.
Lemma within_true : forallb (within_ok (l_prim l110) part110 true) [["Q"]; ["Q/Line0/Point0"]]%string = true.
Proof. lazy -[IZR]. reflexivity. Qed.
Lemma within_false : within_ok (l_prim l110) part110 false ["P"%string] = true.
Proof. lazy -[IZR]. reflexivity. Qed.
Lemma given84 c ks ps : In (c, ks, ps) (LayoutSpec.added acts84) -> In ks [["Q"]; ["Q/Line0/Point0"]]%string.
Proof.
  unfold LayoutSpec.added, acts84, acts60. cbn [flat_map List.app]. intros H. repeat (destruct H as [H|H]; [apply pair_equal_spec in H as [H _]; apply pair_equal_spec in H as [_ H]; subst ks; cbn [In]; tauto|]). destruct H.
Qed.
Lemma given110 c ks ps : In (c, ks, ps) (LayoutSpec.added acts110) -> In (c, ks, ps) (LayoutSpec.added acts84) \/ ks = ["P"%string].
Proof.
  unfold acts110, LayoutSpec.added. rewrite flat_map_app, in_app_iff. intros [H|H]; [now left|right]. cbn [flat_map List.app] in H.
  repeat (destruct H as [H|H]; [apply pair_equal_spec in H as [H _]; apply pair_equal_spec in H as [_ H]; now symmetry|]). destruct H.
Qed.
Example C110_case : exists r r' p info p' info' x, shipped_layout acts110 l110 /\ shipped_layout acts84 l84 /\ reached affine_constraint l110 /\ reached affine_constraint l84 /\ l_prim l84 = l_prim l110 /\
  (forall y, In y (LayoutSpec.added acts84) -> In y (LayoutSpec.added acts110)) /\ length (LayoutSpec.added acts84) <> length (LayoutSpec.added acts110) /\
  (forall c ks ps, In (c, ks, ps) (LayoutSpec.added acts84) -> within (l_prim l110) part110 true ks) /\
  (forall c ks ps, In (c, ks, ps) (LayoutSpec.added acts110) -> In (c, ks, ps) (LayoutSpec.added acts84) \/ within (l_prim l110) part110 false ks) /\
  exact_on bk83 l110 /\ exact_on bk83 l84 /\ layout_residual l110 (l_prim l110) = Ok r /\ layout_residual l84 (l_prim l84) = Ok r' /\
  (exists q, same_structure (l_prim l110) q /\ ids_consistent q /\ satisfied l110 q) /\
  newton_solve bk83 l110 0 0 1 = Ok (p, info) /\ newton_solve bk83 l84 0 0 1 = Ok (p', info') /\
  walk ["Q"; "Line2"; "Point0"]%string (l_prim l110) = Some x /\ part110 (vid (nval x)) = true.
Proof.
  pose proof reached110 as Q. pose proof (proj1 reached84) as Q'. destruct residual110 as (r & Er). destruct (proj1 residual84) as (r' & Er'). pose proof (exact83 _ _ Q Er) as X. pose proof (exact83 _ _ Q' Er') as X'.
  destruct (C83_least_squares l110 bk83 r 0 0 1 Q X Er (Nat.le_refl 1)) as (p & info & z & E & _). destruct (C83_least_squares l84 bk83 r' 0 0 1 Q' X' Er' (Nat.le_refl 1)) as (p' & info' & z' & E' & _).
  destruct (reached_sane _ l110 affine_constraint_tidy Q) as (Hw & Hs & Hi).
  assert (W : exists x, walk ["Q"; "Line2"; "Point0"]%string (l_prim l110) = Some x /\ part110 (vid (nval x)) = true) by (eexists; split; lazy -[IZR]; reflexivity). destruct W as (x & W1 & W2).
  exists r, r', p, info, p', info', x. split; [exact shipped_layout110|]. split; [exact shipped_layout84|]. split; [exact Q|]. split; [exact Q'|]. split; [lazy -[IZR]; reflexivity|].
  split; [|split; [|split; [|split; [|split; [exact X|split; [exact X'|split; [exact Er|split; [exact Er'|split; [|auto]]]]]]]]].
  - intros y Hy. unfold acts110, LayoutSpec.added. rewrite flat_map_app, in_app_iff. now left.
  - unfold acts110, acts84, acts60, LayoutSpec.added. cbn [flat_map List.app length]. discriminate.
  - intros c ks ps H. apply given84 in H. apply within_ok_sound; [exact Hw|]. pose proof within_true as T. rewrite forallb_forall in T. now apply T.
  - intros c ks ps H. apply given110 in H as [H| ->]; [now left|right]. apply within_ok_sound; [exact Hw|exact within_false].
  - assert (Lg : length [0; 0; 3; 0; 3; 1; 0; 1; 0; 0; 3; 0; 3; 4; 0; 4] = length (initial_global (l_prim l110))) by (rewrite start110; reflexivity).
    exists goal110. split; [now apply new_structure|]. split; [now apply new_ids|exact satisfied110].
Qed.

(** The second quadrilateral asked to be 3 and 4 inches wide at once. *)
Definition others110 : list (cons * list string * list (pyval R)) :=
  [(ok_cons Box, ["P"%string], []); (ok_cons crWidth, ["P"%string], [PFlt 3%R]); (ok_cons crWidth, ["P"%string], [PFlt 4%R])].
Definition acts110' : list (action R) :=
  (acts84 ++ [AddConstraint (ok_cons Box) ["P"%string] [] "B2"; AddConstraint (ok_cons crWidth) ["P"%string] [PFlt 3%R] "W2"; AddConstraint (ok_cons crWidth) ["P"%string] [PFlt 4%R] "W3"])%list.
Definition l110' : layout := after (empty_layout 0) acts110'.
Lemma shipped_width ks v key : shipped_act false (AddConstraint (ok_cons crWidth) ks [PFlt v] key).
Proof.
  enough (A : forall rc, In rc [Box; crFix; crWidth; crHeight] -> In rc (dimensions ++ margins) -> shipped_act false (AddConstraint (ok_cons rc) ks [PFlt v] key)) by (apply A; [cbn [In]; tauto|unfold dimensions; cbn [In List.app]; tauto]).
  intros rc H M. assert (G : forallb (fun rc : result cons => if rc then true else false) [Box; crFix; crWidth; crHeight] = true) by (vm_compute; reflexivity). rewrite forallb_forall in G. pose proof (ok_of _ (G rc H)) as E.
  unfold shipped_act. rewrite E in M. apply sh_dimension; [exact M|]. now left.
Qed.
Lemma shipped_layout110' : shipped_layout acts110' l110'.
Proof.
  destruct pool84 as (L & n & P1 & P2 & P3 & P4). exists 0%nat, false, L, n. split; [apply all_ok_runs; vm_compute; reflexivity|].
  split; [|split; [|split; [exact P1|split; [exact P2|]]]]; unfold acts110', acts84, acts60; cbn [List.app].
  - repeat (apply Forall_cons; [first [exact I | apply shipped60; [cbn [In]; tauto|reflexivity|cbn [In]; tauto; fail] | apply shipped_width]|]). apply Forall_nil.
  - repeat (apply Forall_cons; [first [exact I | reflexivity]|]). apply Forall_nil.
  - repeat (apply Forall_cons; [cbn [given_prims]; repeat (apply Forall_cons; [first [exact P3|exact P4]|]); apply Forall_nil|]). apply Forall_nil.
Qed.
Lemma reached110' : reached affine_constraint l110'.
Proof.
  destruct pool84 as (L & n & P1 & P2 & P3 & P4). exists 0%nat, acts110', L, n. split; [reflexivity|]. split; [exact P1|]. split; [exact P2|].
  unfold acts110', acts84, acts60; cbn [List.app]; repeat (apply Forall_cons; [split; cbn [given_prims given_cons]; [first [apply Forall_nil|apply Forall_cons; [first [exact P3|exact P4]|apply Forall_nil]]|first [apply Forall_nil|apply Forall_cons; [apply affine60; cbn [In]; tauto|apply Forall_nil]]]|]); apply Forall_nil.
Qed.
Lemma residual110' : exists r, layout_residual l110' (l_prim l110') = Ok r.
Proof. eexists; lazy -[IZR Rplus Rminus Rmult Ropp Rlt_dec Req_EM_T Rdiv sqrt]; reflexivity. Qed.
Lemma prim110' : l_prim l110' = l_prim l110.
Proof. lazy -[IZR]. reflexivity. Qed.
Example C110_compromise_case : exists r r' p info p' info' x, shipped_layout acts110' l110' /\ shipped_layout acts84 l84 /\ reached affine_constraint l110' /\ reached affine_constraint l84 /\ l_prim l84 = l_prim l110' /\
  Permutation (LayoutSpec.added acts110') (LayoutSpec.added acts84 ++ others110) /\
  (forall c ks ps, In (c, ks, ps) (LayoutSpec.added acts84) -> within (l_prim l110') part110 true ks) /\
  (forall c ks ps, In (c, ks, ps) others110 -> within (l_prim l110') part110 false ks) /\
  exact_on bk83 l110' /\ exact_on bk83 l84 /\ layout_residual l110' (l_prim l110') = Ok r /\ layout_residual l84 (l_prim l84) = Ok r' /\
  newton_solve bk83 l110' 0 0 1 = Ok (p, info) /\ newton_solve bk83 l84 0 0 1 = Ok (p', info') /\
  walk ["Q"; "Line2"; "Point0"]%string (l_prim l110') = Some x /\ part110 (vid (nval x)) = true.
Proof.
  pose proof reached110' as Q. pose proof (proj1 reached84) as Q'. destruct residual110' as (r & Er). destruct (proj1 residual84) as (r' & Er'). pose proof (exact83 _ _ Q Er) as X. pose proof (exact83 _ _ Q' Er') as X'.
  destruct (C83_least_squares l110' bk83 r 0 0 1 Q X Er (Nat.le_refl 1)) as (p & info & z & E & _). destruct (C83_least_squares l84 bk83 r' 0 0 1 Q' X' Er' (Nat.le_refl 1)) as (p' & info' & z' & E' & _).
  destruct (reached_sane _ l110' affine_constraint_tidy Q) as (Hw & Hs & Hi).
  assert (W : exists x, walk ["Q"; "Line2"; "Point0"]%string (l_prim l110') = Some x /\ part110 (vid (nval x)) = true) by (rewrite prim110'; eexists; split; lazy -[IZR]; reflexivity). destruct W as (x & W1 & W2).
  exists r, r', p, info, p', info', x. split; [exact shipped_layout110'|]. split; [exact shipped_layout84|]. split; [exact Q|]. split; [exact Q'|]. split; [rewrite prim110'; lazy -[IZR]; reflexivity|].
  split; [|split; [|split; [|split; [exact X|split; [exact X'|split; [exact Er|split; [exact Er'|auto]]]]]]].
  - unfold acts110', LayoutSpec.added. rewrite flat_map_app. apply Permutation_refl.
  - intros c ks ps H. apply given84 in H. apply within_ok_sound; [exact Hw|]. rewrite prim110'. pose proof within_true as T. rewrite forallb_forall in T. now apply T.
  - intros c ks ps H. assert (ks = ["P"%string]) as -> by (unfold others110 in H; repeat (destruct H as [H|H]; [apply pair_equal_spec in H as [H _]; apply pair_equal_spec in H as [_ H]; now symmetry|]); destruct H).
    apply within_ok_sound; [exact Hw|]. rewrite prim110'. exact within_false.
Qed.

Print Assumptions C110_parts.
Print Assumptions C110_compromise.
