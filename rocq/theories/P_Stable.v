(** C109: the solved figure depends on the starting figure without jumps: two starts that are
    close give solutions at most as far apart, and starting from a solution returns it. *)
From Coq Require Import Reals Lra.
From Verif Require Export P_Pinned.
From Verif Require Import UnitSolve.
From Verif Require Import P_Affine EndProofs.
Local Open Scope R_scope.

Lemma distance_mix t : forall a b s, length a = length b -> length s = length b ->
  distance2 (mix t a b) s = distance2 a s + 2 * t * dotp (minus a s) (minus b a) + t * t * distance2 b a.
Proof.
  unfold distance2, sumsq, minus, mix, dotp. induction a as [|x a IH]; intros [|y b] [|u s] H1 H2; try discriminate; cbn; [lra|]. injection H1 as H1. injection H2 as H2.
  cbn in IH. rewrite (IH b s H1 H2). lra.
Qed.
Lemma apart : forall p p' s s', length p = length p' -> length s = length p' -> length s' = length p' ->
  distance2 p' p + 2 * (dotp (minus p s) (minus p' p) + dotp (minus p' s') (minus p p')) <= distance2 s' s.
Proof.
  unfold distance2, sumsq, minus, dotp. induction p as [|x p IH]; intros [|x' p'] [|u s] [|u' s'] H1 H2 H3; try discriminate; cbn; [lra|].
  specialize (IH p' s s'). cbn in IH. assert (0 <= (u' - u - (x' - x)) * (u' - u - (x' - x))) by apply Rle_0_sqr. injection H1 as H1. injection H2 as H2. injection H3 as H3. specialize (IH H1 H2 H3). lra.
Qed.
Lemma sumsq_convex t : 0 <= t <= 1 -> forall a b, length a = length b -> sumsq (mix t a b) <= (1 - t) * sumsq a + t * sumsq b.
Proof.
  intros Ht. unfold sumsq, mix, dotp. induction a as [|x a IH]; intros [|y b] H; try discriminate; cbn; [lra|]. injection H as H. specialize (IH b H). cbn in IH.
  assert (0 <= t * (1 - t) * ((x - y) * (x - y))) by (apply Rmult_le_pos; [nra|apply Rle_0_sqr]). nra.
Qed.
Lemma never_shorter D X Y : 0 <= Y -> (forall t, 0 <= t <= 1 -> D <= D + 2 * t * X + t * t * Y) -> 0 <= X.
Proof.
  intros HY H. destruct (Rle_dec 0 X) as [G|G]; [exact G|]. exfalso. assert (HX : X < 0) by lra. set (t := - X / (Y - X + 1)).
  assert (Hd : 0 < Y - X + 1) by lra. assert (Ht : t * (Y - X + 1) = - X) by (unfold t; field; lra).
  assert (H0 : 0 < t) by (unfold t; apply Rdiv_lt_0_compat; lra). assert (H1 : t <= 1) by nra. specialize (H t (conj (Rlt_le _ _ H0) H1)). nra.
Qed.
Lemma distance_nonneg a b : 0 <= distance2 a b.
Proof. apply sumsq_nonneg. Qed.

(** A solution [p] seen from another tree [w] at which the squares add up to no more. *)
Lemma obtuse (l : layout) bk r abs_tol rel_tol max_iter p info z w zw :
  reached affine_constraint l -> exact_on bk l -> layout_residual l (l_prim l) = Ok r -> (1 <= max_iter)%nat ->
  newton_solve bk l abs_tol rel_tol max_iter = Ok (p, info) -> layout_residual l p = Ok z ->
  same_structure (l_prim l) w -> ids_consistent w -> layout_residual l w = Ok zw -> sumsq zw <= sumsq z ->
  length (initial_global w) = length (initial_global p) /\ length (initial_global (l_prim l)) = length (initial_global p) /\
  0 <= dotp (minus (initial_global p) (initial_global (l_prim l))) (minus (initial_global w) (initial_global p)).
Proof.
  intros Hl Hbk Er Hm E Ez Hw1 Hw2 Ew Hle. destruct (reached_sane _ l affine_constraint_tidy Hl) as (Hw & Hs & Hi). pose proof (affine_kinds l Hl) as Hc.
  destruct (C83_least_squares l bk r abs_tol rel_tol max_iter Hl Hbk Er Hm) as (p0 & info0 & z0 & E0 & S & Ez0 & M).
  rewrite E in E0. assert (p0 = p) as -> by congruence. assert (z0 = z) as -> by congruence. clear E0 Ez0 info0.
  destruct (solved_tree l bk _ _ _ _ _ Hw Hs Hbk E) as (g & -> & Lg). rewrite new_global by assumption.
  destruct (vector_of l w Hw Hs Hi Hc Hw1 Hw2) as [Lw Rw]. specialize (Rw zw Ew). set (h := initial_global w) in *.
  destruct (affine_layout l (l_prim l) r Hw Hs Hi Hc (same_structure_refl _) Hi Er) as [Haff _].
  rewrite <- global_residual in Ez by assumption. split; [congruence|]. split; [congruence|].
  apply (never_shorter (distance2 g (initial_global (l_prim l))) _ (distance2 h g)); [apply distance_nonneg|]. intros t Ht.
  rewrite <- distance_mix by congruence.
  destruct (Haff t g h) as (a & b & Ea & Eb & Lab & Em); [congruence|congruence|]. rewrite Ez in Ea. rewrite Rw in Eb. injection Ea as <-. injection Eb as <-.
  assert (Lm : length (mix t g h) = length (initial_global (l_prim l))) by (rewrite mix_length; congruence).
  rewrite global_residual in Em by assumption.
  destruct (M (new_tree (l_prim l) (mix t g h)) (mix t z zw)) as [M1 M2]; [now apply new_structure|now apply new_ids|exact Em|].
  assert (Eq : sumsq (mix t z zw) = sumsq z). { pose proof (sumsq_convex t Ht z zw Lab). apply Rle_antisym; [|exact M1]. nra. }
  destruct (M2 Eq) as [M3 _]. rewrite !new_global in M3 by assumption. exact M3.
Qed.
(** Two layouts that agree except for the numbers in the primitives one starts from. *)
Definition same_constraints (l l' : layout) : Prop :=
  l_cons l' = l_cons l /\ l_keys l' = l_keys l /\ l_params l' = l_params l /\ same_structure (l_prim l) (l_prim l').
Lemma same_residual (l l' : layout) q : same_constraints l l' -> layout_residual l' q = layout_residual l q.
Proof. intros (E1 & E2 & E3 & _). unfold layout_residual, flat_constraints. now rewrite E1, E2, E3. Qed.
Theorem C109_stable (l l' : layout) bk bk' r r' abs_tol rel_tol max_iter abs_tol' rel_tol' max_iter' p info p' info' :
  reached affine_constraint l -> reached affine_constraint l' -> same_constraints l l' -> exact_on bk l -> exact_on bk' l' ->
  layout_residual l (l_prim l) = Ok r -> layout_residual l' (l_prim l') = Ok r' -> (1 <= max_iter)%nat -> (1 <= max_iter')%nat ->
  newton_solve bk l abs_tol rel_tol max_iter = Ok (p, info) -> newton_solve bk' l' abs_tol' rel_tol' max_iter' = Ok (p', info') ->
  distance2 (initial_global p') (initial_global p) <= distance2 (initial_global (l_prim l')) (initial_global (l_prim l)).
Proof.
  intros Hl Hl' Hsc Hbk Hbk' Er Er' Hm Hm' E E'. pose proof Hsc as (_ & _ & _ & HS).
  destruct (C83_least_squares l bk r abs_tol rel_tol max_iter Hl Hbk Er Hm) as (p0 & info0 & z & E0 & S & Ez & M).
  rewrite E in E0. assert (p0 = p) as -> by congruence. clear E0 info0.
  destruct (C83_least_squares l' bk' r' abs_tol' rel_tol' max_iter' Hl' Hbk' Er' Hm') as (p0 & info0 & z' & E0 & S' & Ez' & M').
  rewrite E' in E0. assert (p0 = p') as -> by congruence. clear E0 info0.
  destruct (reached_sane _ l affine_constraint_tidy Hl) as (Hw & Hs & Hi). destruct (reached_sane _ l' affine_constraint_tidy Hl') as (Hw' & Hs' & Hi').
  assert (Ip : ids_consistent p) by (destruct (solved_tree l bk _ _ _ _ _ Hw Hs Hbk E) as (g & -> & _); now apply new_ids).
  assert (Ip' : ids_consistent p') by (destruct (solved_tree l' bk' _ _ _ _ _ Hw' Hs' Hbk' E') as (g & -> & _); now apply new_ids).
  assert (Sp' : same_structure (l_prim l) p') by (eapply same_structure_trans; [exact HS|exact S']).
  assert (Sp : same_structure (l_prim l') p) by (eapply same_structure_trans; [apply same_structure_sym; exact HS|exact S]).
  assert (Ex' : layout_residual l p' = Ok z') by now rewrite <- (same_residual l l').
  assert (Ex : layout_residual l' p = Ok z) by now rewrite (same_residual l l').
  pose proof (proj1 (M p' z' Sp' Ip' Ex')) as Le. pose proof (proj1 (M' p z Sp Ip Ex)) as Le'.
  destruct (obtuse l bk r abs_tol rel_tol max_iter p info z p' z' Hl Hbk Er Hm E Ez Sp' Ip' Ex' Le') as (L1 & L2 & V).
  destruct (obtuse l' bk' r' abs_tol' rel_tol' max_iter' p' info' z' p z Hl' Hbk' Er' Hm' E' Ez' Sp Ip Ex Le) as (L3 & L4 & V').
  eapply Rle_trans; [|apply (apart (initial_global p) (initial_global p') (initial_global (l_prim l)) (initial_global (l_prim l'))); congruence]. lra.
Qed.
(** No single coordinate differs by more than the starts are apart. *)
Lemma coordinate_distance : forall a b i, length a = length b -> (nth i a 0 - nth i b 0) * (nth i a 0 - nth i b 0) <= distance2 a b.
Proof.
  unfold distance2, sumsq, minus, dotp. induction a as [|x a IH]; intros [|y b] i H; try discriminate; [destruct i; cbn; lra|].
  pose proof (sumsq_nonneg (minus a b)) as N. unfold sumsq, minus, dotp in N. destruct i as [|i]; cbn in *; [lra|]. injection H as H. specialize (IH b i H). assert (0 <= (x - y) * (x - y)) by apply Rle_0_sqr. lra.
Qed.
Theorem C109_coordinates (l l' : layout) bk bk' r r' abs_tol rel_tol max_iter abs_tol' rel_tol' max_iter' p info p' info' i :
  reached affine_constraint l -> reached affine_constraint l' -> same_constraints l l' -> exact_on bk l -> exact_on bk' l' ->
  layout_residual l (l_prim l) = Ok r -> layout_residual l' (l_prim l') = Ok r' -> (1 <= max_iter)%nat -> (1 <= max_iter')%nat ->
  newton_solve bk l abs_tol rel_tol max_iter = Ok (p, info) -> newton_solve bk' l' abs_tol' rel_tol' max_iter' = Ok (p', info') ->
  Rabs (nth i (initial_global p') 0 - nth i (initial_global p) 0) <= sqrt (distance2 (initial_global (l_prim l')) (initial_global (l_prim l))).
Proof.
  intros Hl Hl' Hsc Hbk Hbk' Er Er' Hm Hm' E E'. pose proof Hsc as (_ & _ & _ & HS).
  pose proof (C109_stable l l' bk bk' r r' abs_tol rel_tol max_iter abs_tol' rel_tol' max_iter' p info p' info' Hl Hl' Hsc Hbk Hbk' Er Er' Hm Hm' E E') as D.
  assert (Len : length (initial_global p') = length (initial_global p)).
  { destruct (reached_sane _ l affine_constraint_tidy Hl) as (Hw & Hs & Hi). destruct (reached_sane _ l' affine_constraint_tidy Hl') as (Hw' & Hs' & Hi').
    destruct (solved_tree l bk _ _ _ _ _ Hw Hs Hbk E) as (g & -> & Lg). destruct (solved_tree l' bk' _ _ _ _ _ Hw' Hs' Hbk' E') as (g' & -> & Lg').
    rewrite !new_global by assumption. rewrite Lg, Lg'. exact (proj1 (vector_of l (l_prim l') Hw Hs Hi (affine_kinds l Hl) HS Hi')). }
  rewrite <- sqrt_Rsqr_abs. apply sqrt_le_1_alt. eapply Rle_trans; [exact (coordinate_distance _ _ i Len)|exact D].
Qed.
(** Solving again from the solution returns it, whether or not the constraints can be satisfied. *)
Theorem C109_again (l l' : layout) bk bk' r r' abs_tol rel_tol max_iter abs_tol' rel_tol' max_iter' p info :
  reached affine_constraint l -> reached affine_constraint l' -> same_constraints l l' -> exact_on bk l -> exact_on bk' l' ->
  layout_residual l (l_prim l) = Ok r -> layout_residual l' (l_prim l') = Ok r' -> (1 <= max_iter)%nat -> (1 <= max_iter')%nat ->
  newton_solve bk l abs_tol rel_tol max_iter = Ok (p, info) -> initial_global (l_prim l') = initial_global p ->
  exists p' info', newton_solve bk' l' abs_tol' rel_tol' max_iter' = Ok (p', info') /\ same_structure p p' /\ initial_global p' = initial_global p.
Proof.
  intros Hl Hl' Hsc Hbk Hbk' Er Er' Hm Hm' E G. pose proof Hsc as (_ & _ & _ & HS).
  destruct (C83_least_squares l bk r abs_tol rel_tol max_iter Hl Hbk Er Hm) as (p0 & info0 & z & E0 & S & Ez & M).
  rewrite E in E0. assert (p0 = p) as -> by congruence. clear E0 info0.
  destruct (C83_least_squares l' bk' r' abs_tol' rel_tol' max_iter' Hl' Hbk' Er' Hm') as (p' & info' & z' & E' & S' & Ez' & M').
  destruct (reached_sane _ l affine_constraint_tidy Hl) as (Hw & Hs & Hi). destruct (reached_sane _ l' affine_constraint_tidy Hl') as (Hw' & Hs' & Hi').
  assert (Ip : ids_consistent p) by (destruct (solved_tree l bk _ _ _ _ _ Hw Hs Hbk E) as (g & -> & _); now apply new_ids).
  assert (Ip' : ids_consistent p') by (destruct (solved_tree l' bk' _ _ _ _ _ Hw' Hs' Hbk' E') as (g & -> & _); now apply new_ids).
  assert (Sp' : same_structure (l_prim l) p') by (eapply same_structure_trans; [exact HS|exact S']).
  assert (Sp : same_structure (l_prim l') p) by (eapply same_structure_trans; [apply same_structure_sym; exact HS|exact S]).
  assert (Ex' : layout_residual l p' = Ok z') by now rewrite <- (same_residual l l').
  assert (Ex : layout_residual l' p = Ok z) by now rewrite (same_residual l l').
  exists p', info'. split; [exact E'|]. split; [eapply same_structure_trans; [apply same_structure_sym; exact S|exact Sp']|].
  pose proof (proj1 (M p' z' Sp' Ip' Ex')) as Le. destruct (M' p z Sp Ip Ex) as [Le' N]. destruct (N (Rle_antisym _ _ Le Le')) as [_ N2].
  symmetry. apply N2. rewrite G. unfold distance2. rewrite (zeros_sumsq (minus (initial_global p) (initial_global p))); [apply sumsq_nonneg|].
  clear. unfold minus, zeros. induction (initial_global p) as [|x a IH]; cbn; [apply Forall_nil|apply Forall_cons; [lra|exact IH]].
Qed.

(** Starting anywhere on the line from the start through the solution, on the near side of the
    solution (or beyond the start): the solution is the same. *)
Lemma behind t : forall s p w, length s = length p -> length w = length p ->
  distance2 w (mix t s p) = distance2 p (mix t s p) + 2 * (1 - t) * dotp (minus p s) (minus w p) + distance2 w p.
Proof.
  unfold distance2, sumsq, minus, mix, dotp. induction s as [|u s IH]; intros [|x p] [|y w] H1 H2; try discriminate; cbn; [lra|]. injection H1 as H1. injection H2 as H2.
  cbn in IH. rewrite (IH p w H1 H2). ring.
Qed.
Theorem C109_on_the_way (l l' : layout) bk bk' r r' abs_tol rel_tol max_iter abs_tol' rel_tol' max_iter' p info t :
  reached affine_constraint l -> reached affine_constraint l' -> same_constraints l l' -> exact_on bk l -> exact_on bk' l' ->
  layout_residual l (l_prim l) = Ok r -> layout_residual l' (l_prim l') = Ok r' -> (1 <= max_iter)%nat -> (1 <= max_iter')%nat ->
  newton_solve bk l abs_tol rel_tol max_iter = Ok (p, info) ->
  t <= 1 -> initial_global (l_prim l') = mix t (initial_global (l_prim l)) (initial_global p) ->
  exists p' info', newton_solve bk' l' abs_tol' rel_tol' max_iter' = Ok (p', info') /\ same_structure p p' /\ initial_global p' = initial_global p.
Proof.
  intros Hl Hl' Hsc Hbk Hbk' Er Er' Hm Hm' E Ht G. pose proof Hsc as (_ & _ & _ & HS).
  destruct (C83_least_squares l bk r abs_tol rel_tol max_iter Hl Hbk Er Hm) as (p0 & info0 & z & E0 & S & Ez & M).
  rewrite E in E0. assert (p0 = p) as -> by congruence. clear E0 info0.
  destruct (C83_least_squares l' bk' r' abs_tol' rel_tol' max_iter' Hl' Hbk' Er' Hm') as (p' & info' & z' & E' & S' & Ez' & M').
  destruct (reached_sane _ l affine_constraint_tidy Hl) as (Hw & Hs & Hi). destruct (reached_sane _ l' affine_constraint_tidy Hl') as (Hw' & Hs' & Hi').
  assert (Ip : ids_consistent p) by (destruct (solved_tree l bk _ _ _ _ _ Hw Hs Hbk E) as (g & -> & _); now apply new_ids).
  assert (Ip' : ids_consistent p') by (destruct (solved_tree l' bk' _ _ _ _ _ Hw' Hs' Hbk' E') as (g & -> & _); now apply new_ids).
  assert (Sp' : same_structure (l_prim l) p') by (eapply same_structure_trans; [exact HS|exact S']).
  assert (Sp : same_structure (l_prim l') p) by (eapply same_structure_trans; [apply same_structure_sym; exact HS|exact S]).
  assert (Ex' : layout_residual l p' = Ok z') by now rewrite <- (same_residual l l').
  assert (Ex : layout_residual l' p = Ok z) by now rewrite (same_residual l l').
  exists p', info'. split; [exact E'|]. split; [eapply same_structure_trans; [apply same_structure_sym; exact S|exact Sp']|].
  pose proof (proj1 (M p' z' Sp' Ip' Ex')) as Le. destruct (M' p z Sp Ip Ex) as [Le' N]. destruct (N (Rle_antisym _ _ Le Le')) as [_ N2].
  destruct (obtuse l bk r abs_tol rel_tol max_iter p info z p' z' Hl Hbk Er Hm E Ez Sp' Ip' Ex' Le') as (L1 & L2 & V).
  symmetry. apply N2. rewrite G, (behind t (initial_global (l_prim l)) (initial_global p) (initial_global p')) by assumption.
  pose proof (distance_nonneg (initial_global p') (initial_global p)). assert (0 <= (1 - t) * dotp (minus (initial_global p) (initial_global (l_prim l))) (minus (initial_global p') (initial_global p))) by (apply Rmult_le_pos; lra). lra.
Qed.

(** The figure of C108 started from the default quadrilateral, from one twice that size, and
    from its own solution. *)
Lemma structure_scale k (p : prim) : same_structure p (ScaleSpec.scale k p).
Proof.
  split; [intros s|intros s1 s2 n1 n2 m1 m2 E1 E2]; rewrite !walk_scale.
  - destruct (walk s p) as [n|]; cbn [option_map]; [|reflexivity]. rewrite scale_type, scale_nkeys, scale_nval. unfold scv. cbn [vdata]. now rewrite map_length.
  - rewrite E1, E2. cbn [option_map]. intros F1 F2. injection F1 as <-. injection F2 as <-. rewrite !scale_nval. reflexivity.
Qed.
Definition rest108 : list (action R) :=
  [AddConstraint (ok_cons Box) ["Q"%string] [] "B"; AddConstraint (ok_cons crFix) ["Q/Line0/Point0"%string] [PA1 [0%R;0%R]] "F";
   AddConstraint (ok_cons crHeight) ["Q"%string] [PFlt 4%R] "H"].
Definition acts109 : list (action R) := AddPrim (ScaleSpec.scale 2 quad60) "Q" :: rest108.
Definition l109 : layout := after (empty_layout 0) acts109.
Definition quad109 : prim := match nch goal108 with (_, q) :: _ => q | [] => goal108 end.
Definition acts109s : list (action R) := AddPrim quad109 "Q" :: rest108.
Definition l109s : layout := after (empty_layout (vid (nval goal108))) acts109s.
Lemma same109 : same_constraints l108 l109 /\ l_prim l109 = ScaleSpec.scale 2 (l_prim l108).
Proof.
  assert (E : l_prim l109 = ScaleSpec.scale 2 (l_prim l108)) by (lazy -[IZR Rplus Rminus Rmult Ropp Rlt_dec Req_EM_T Rdiv sqrt]; reflexivity).
  split; [|exact E]. split; [|split; [|split]]; [| | |rewrite E; apply structure_scale].
  - lazy -[IZR Rplus Rminus Rmult Ropp Rlt_dec Req_EM_T Rdiv sqrt]; reflexivity.
  - lazy -[IZR Rplus Rminus Rmult Ropp Rlt_dec Req_EM_T Rdiv sqrt]; reflexivity.
  - lazy -[IZR Rplus Rminus Rmult Ropp Rlt_dec Req_EM_T Rdiv sqrt]; reflexivity.
Qed.
Lemma reached109 : reached affine_constraint l109.
Proof.
  destruct pool84 as (L & n & P1 & P2 & P3 & P4). exists 0%nat, acts109, (map (scv 2) L), n. split; [reflexivity|]. split; [now apply scale_pool|]. split; [apply (in_map (scv 2)) in P2; exact P2|].
  unfold acts109, rest108. repeat (apply Forall_cons; [split; cbn [given_prims given_cons]; [first [apply Forall_nil|apply Forall_cons; [apply scale_drawn; exact P3|apply Forall_nil]]|first [apply Forall_nil|apply Forall_cons; [apply affine60; cbn [In]; tauto|apply Forall_nil]]]|]); apply Forall_nil.
Qed.
Lemma start109s : l_prim l109s = goal108.
Proof. lazy -[IZR Rplus Rminus Rmult Ropp Rlt_dec Req_EM_T Rdiv sqrt]. reflexivity. Qed.
Lemma reached109s : reached affine_constraint l109s.
Proof.
  destruct reached108 as [Q _]. destruct (reached_sane _ l108 affine_constraint_tidy Q) as (Hw & Hs & Hi).
  assert (Iw : wf goal108) by (apply new_wf; assumption). assert (Is : slashfree goal108) by (apply new_slashfree; assumption). assert (Ii : ids_consistent goal108) by (now apply new_ids).
  assert (Eg : nch goal108 = [("Q"%string, quad109)]) by (lazy -[IZR Rplus Rminus Rmult Ropp Rlt_dec Req_EM_T Rdiv sqrt]; reflexivity).
  exists (vid (nval goal108)), acts109s, (held goal108), (S (list_max (map vid (held goal108)))). split; [reflexivity|]. split; [|split].
  - split; [exact Ii|]. intros a Ha. apply Nat.lt_succ_r. apply (in_map vid) in Ha. revert Ha. generalize (vid a) (map vid (held goal108)). intros x l Hx. pose proof (proj1 (list_max_le l (list_max l)) (Nat.le_refl _)) as H. rewrite Forall_forall in H. now apply H.
  - assert (nval goal108 = {| vid := vid (nval goal108); vdata := [] |}) as <- by (lazy -[IZR Rplus Rminus Rmult Ropp Rlt_dec Req_EM_T Rdiv sqrt]; reflexivity). destruct goal108. left. reflexivity.
  - assert (D : drawn (held goal108) quad109).
    { destruct goal108 as [t v ch]. cbn [nch] in Eg. subst ch. apply wf_children in Iw as [_ Iw]. inversion Is as [? ? ? _ S2]; subst. apply Forall_inv in Iw. apply Forall_inv in S2. cbn [snd] in *.
      split; [split; assumption|]. intros w Hin. right. cbn [flat_map snd]. rewrite app_nil_r. exact Hin. }
    unfold acts109s, rest108. repeat (apply Forall_cons; [split; cbn [given_prims given_cons]; [first [apply Forall_nil|apply Forall_cons; [exact D|apply Forall_nil]]|first [apply Forall_nil|apply Forall_cons; [apply affine60; cbn [In]; tauto|apply Forall_nil]]]|]); apply Forall_nil.
Qed.
Lemma same109s : same_constraints l108 l109s.
Proof.
  destruct reached108 as [Q _]. destruct (reached_sane _ l108 affine_constraint_tidy Q) as (Hw & Hs & Hi).
  split; [|split; [|split; [|rewrite start109s; apply new_structure; assumption || (rewrite start108; reflexivity)]]]; lazy -[IZR Rplus Rminus Rmult Ropp Rlt_dec Req_EM_T Rdiv sqrt]; reflexivity.
Qed.
Lemma residual109 : (exists r, layout_residual l109 (l_prim l109) = Ok r) /\ (exists r, layout_residual l109s (l_prim l109s) = Ok r).
Proof. split; eexists; lazy -[IZR Rplus Rminus Rmult Ropp Rlt_dec Req_EM_T Rdiv sqrt]; reflexivity. Qed.
(** Two different starts: both give figures with a Box 4 inches high, of different widths. *)
Example C109_case : exists r r' p info p' info', reached affine_constraint l108 /\ reached affine_constraint l109 /\ same_constraints l108 l109 /\ exact_on bk83 l108 /\ exact_on bk83 l109 /\
  layout_residual l108 (l_prim l108) = Ok r /\ layout_residual l109 (l_prim l109) = Ok r' /\
  newton_solve bk83 l108 0 0 1 = Ok (p, info) /\ newton_solve bk83 l109 0 0 1 = Ok (p', info') /\ distance2 (initial_global (l_prim l109)) (initial_global (l_prim l108)) = 4.
Proof.
  destruct residual108 as [(r & Er) _]. destruct residual109 as [(r' & Er') _]. destruct reached108 as [Q _]. pose proof reached109 as Q'. pose proof (exact83 _ _ Q Er) as X. pose proof (exact83 _ _ Q' Er') as X'.
  destruct (C83_least_squares l108 bk83 r 0 0 1 Q X Er (Nat.le_refl 1)) as (p & info & z & E & _). destruct (C83_least_squares l109 bk83 r' 0 0 1 Q' X' Er' (Nat.le_refl 1)) as (p' & info' & z' & E' & _).
  exists r, r', p, info, p', info'. split; [exact Q|]. split; [exact Q'|]. split; [apply same109|]. repeat (split; [assumption|]).
  destruct (reached_sane _ l108 affine_constraint_tidy Q) as (Hw & Hs & Hi). rewrite (proj2 same109), scale_initial, start108 by assumption. unfold distance2, sumsq, minus, dotp. cbn. lra.
Qed.
(** Started again from its own solution. *)
Example C109_again_case : exists r r' p info, reached affine_constraint l108 /\ reached affine_constraint l109s /\ same_constraints l108 l109s /\ exact_on bk83 l108 /\ exact_on bk83 l109s /\
  layout_residual l108 (l_prim l108) = Ok r /\ layout_residual l109s (l_prim l109s) = Ok r' /\
  newton_solve bk83 l108 0 0 1 = Ok (p, info) /\ initial_global (l_prim l109s) = initial_global p.
Proof.
  destruct residual108 as [(r & Er) _]. destruct residual109 as [_ (r' & Er')]. destruct reached108 as [Q _]. pose proof reached109s as Q'. pose proof (exact83 _ _ Q Er) as X. pose proof (exact83 _ _ Q' Er') as X'.
  destruct (C83_least_squares l108 bk83 r 0 0 1 Q X Er (Nat.le_refl 1)) as (p & info & z & E & _). assert (p = goal108) as -> by (eapply solved108; [exact X|exact (Nat.le_refl 1)|exact E]).
  exists r, r', goal108, info. split; [exact Q|]. split; [exact Q'|]. split; [apply same109s|]. repeat (split; [assumption|]). now rewrite start109s.
Qed.

(** Started halfway. *)
Definition half109 : prim := new_tree (l_prim l108) [0; 0; 1; 0; 1; 5/2; 0; 5/2].
Definition quad109h : prim := match nch half109 with (_, q) :: _ => q | [] => half109 end.
Definition acts109h : list (action R) := AddPrim quad109h "Q" :: rest108.
Definition l109h : layout := after (empty_layout (vid (nval half109))) acts109h.
Lemma start109h : l_prim l109h = half109.
Proof. lazy -[IZR Rplus Rminus Rmult Ropp Rlt_dec Req_EM_T Rdiv Rinv sqrt]. reflexivity. Qed.
Lemma reached109h : reached affine_constraint l109h.
Proof.
  destruct reached108 as [Q _]. destruct (reached_sane _ l108 affine_constraint_tidy Q) as (Hw & Hs & Hi).
  assert (Iw : wf half109) by (apply new_wf; assumption). assert (Is : slashfree half109) by (apply new_slashfree; assumption). assert (Ii : ids_consistent half109) by (now apply new_ids).
  assert (Eg : nch half109 = [("Q"%string, quad109h)]) by (lazy -[IZR Rplus Rminus Rmult Ropp Rlt_dec Req_EM_T Rdiv Rinv sqrt]; reflexivity).
  exists (vid (nval half109)), acts109h, (held half109), (S (list_max (map vid (held half109)))). split; [reflexivity|]. split; [|split].
  - split; [exact Ii|]. intros a Ha. apply Nat.lt_succ_r. apply (in_map vid) in Ha. revert Ha. generalize (vid a) (map vid (held half109)). intros x l Hx. pose proof (proj1 (list_max_le l (list_max l)) (Nat.le_refl _)) as H. rewrite Forall_forall in H. now apply H.
  - assert (nval half109 = {| vid := vid (nval half109); vdata := [] |}) as <- by (lazy -[IZR Rplus Rminus Rmult Ropp Rlt_dec Req_EM_T Rdiv Rinv sqrt]; reflexivity). destruct half109. left. reflexivity.
  - assert (D : drawn (held half109) quad109h).
    { destruct half109 as [t v ch]. cbn [nch] in Eg. subst ch. apply wf_children in Iw as [_ Iw]. inversion Is as [? ? ? _ S2]; subst. apply Forall_inv in Iw. apply Forall_inv in S2. cbn [snd] in *.
      split; [split; assumption|]. intros w Hin. right. cbn [flat_map snd]. rewrite app_nil_r. exact Hin. }
    unfold acts109h, rest108. repeat (apply Forall_cons; [split; cbn [given_prims given_cons]; [first [apply Forall_nil|apply Forall_cons; [exact D|apply Forall_nil]]|first [apply Forall_nil|apply Forall_cons; [apply affine60; cbn [In]; tauto|apply Forall_nil]]]|]); apply Forall_nil.
Qed.
Lemma same109h : same_constraints l108 l109h.
Proof.
  destruct reached108 as [Q _]. destruct (reached_sane _ l108 affine_constraint_tidy Q) as (Hw & Hs & Hi).
  split; [|split; [|split; [|rewrite start109h; apply new_structure; assumption || (rewrite start108; reflexivity)]]]; lazy -[IZR Rplus Rminus Rmult Ropp Rlt_dec Req_EM_T Rdiv Rinv sqrt]; reflexivity.
Qed.
Lemma residual109h : exists r, layout_residual l109h (l_prim l109h) = Ok r.
Proof. eexists; lazy -[IZR Rplus Rminus Rmult Ropp Rlt_dec Req_EM_T Rdiv Rinv sqrt]; reflexivity. Qed.
Example C109_on_the_way_case : exists r r' p info, reached affine_constraint l108 /\ reached affine_constraint l109h /\ same_constraints l108 l109h /\ exact_on bk83 l108 /\ exact_on bk83 l109h /\
  layout_residual l108 (l_prim l108) = Ok r /\ layout_residual l109h (l_prim l109h) = Ok r' /\
  newton_solve bk83 l108 0 0 1 = Ok (p, info) /\ initial_global (l_prim l109h) = mix (1/2) (initial_global (l_prim l108)) (initial_global p) /\ initial_global (l_prim l109h) <> initial_global p.
Proof.
  destruct residual108 as [(r & Er) _]. destruct residual109h as (r' & Er'). destruct reached108 as [Q _]. pose proof reached109h as Q'. pose proof (exact83 _ _ Q Er) as X. pose proof (exact83 _ _ Q' Er') as X'.
  destruct (C83_least_squares l108 bk83 r 0 0 1 Q X Er (Nat.le_refl 1)) as (p & info & z & E & _). assert (p = goal108) as -> by (eapply solved108; [exact X|exact (Nat.le_refl 1)|exact E]).
  destruct (reached_sane _ l108 affine_constraint_tidy Q) as (Hw & Hs & Hi).
  exists r, r', goal108, info. split; [exact Q|]. split; [exact Q'|]. split; [apply same109h|]. repeat (split; [assumption|]).
  assert (G : initial_global goal108 = [0; 0; 1; 0; 1; 4; 0; 4]) by (apply new_global; [assumption|assumption|rewrite start108; reflexivity]).
  assert (G' : initial_global half109 = [0; 0; 1; 0; 1; 5/2; 0; 5/2]) by (apply new_global; [assumption|assumption|rewrite start108; reflexivity]).
  rewrite start109h, G, G', start108. split.
  - unfold mix. cbn [zip map fst snd]. repeat (apply f_equal2; [lra|]). reflexivity.
  - intros C. apply (f_equal (fun l => nth 5 l 0)) in C. cbn [nth] in C. lra.
Qed.

Print Assumptions C109_stable.
Print Assumptions C109_coordinates.
Print Assumptions C109_again.
Print Assumptions C109_on_the_way.
