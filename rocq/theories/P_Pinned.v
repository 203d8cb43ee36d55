(** C108: stating a constraint that the solved figure already satisfies changes nothing, and
    stating more constraints never brings the solution closer to the figure one started from. *)
From Coq Require Import Reals Lra.
From Verif Require Export P_Same.
From Verif Require Import P_Affine EndProofs.
Local Open Scope R_scope.

(** What the two theorems share: [l'] has the primitives of [l] and at least its constraints. *)
Lemma more_satisfied acts acts' (l l' : layout) r r' q :
  shipped_layout acts l -> shipped_layout acts' l' -> reached affine_constraint l -> reached affine_constraint l' ->
  l_prim l' = l_prim l -> (forall x, In x (LayoutSpec.added acts) -> In x (LayoutSpec.added acts')) ->
  layout_residual l (l_prim l) = Ok r -> layout_residual l' (l_prim l') = Ok r' ->
  same_structure (l_prim l) q -> ids_consistent q -> satisfied l' q -> satisfied l q.
Proof.
  intros Hsh Hsh' Hl Hl' Hp Hadd Er Er' Q1 Q2 (z' & Ez' & Hz').
  destruct (affine_defined l r q Hl Er Q1 Q2) as [z Ez]. assert (Q1' := Q1). rewrite <- Hp in Q1'. exists z. split; [exact Ez|].
  destruct Hsh as (rid & tw & L & n & R1 & R2 & R3 & _). destruct Hsh' as (rid' & tw' & L' & n' & R1' & R2' & R3' & _).
  apply (proj2 (C79_every_constraint rid tw acts l q z R1 R2 R3 Q1 Ez)). pose proof (proj1 (proj2 (C79_every_constraint rid' tw' acts' l' q z' R1' R2' R3' Q1' Ez')) Hz') as A.
  intros c ks ps Hin. apply A. now apply Hadd.
Qed.
Lemma all_satisfied acts (l : layout) r q :
  shipped_layout acts l -> reached affine_constraint l -> layout_residual l (l_prim l) = Ok r -> same_structure (l_prim l) q -> ids_consistent q ->
  (satisfied l q <-> forall c ks ps, In (c, ks, ps) (LayoutSpec.added acts) -> exists prims, mapM (get_child q) ks = Ok prims /\ vanishes c prims ps).
Proof.
  intros Hsh Hl Er Q1 Q2. destruct (affine_defined l r q Hl Er Q1 Q2) as [z Ez]. destruct Hsh as (rid & tw & L & n & R1 & R2 & R3 & _).
  rewrite <- (proj2 (C79_every_constraint rid tw acts l q z R1 R2 R3 Q1 Ez)). split; [intros (y & Ey & H); congruence|intros H; now exists z].
Qed.
Theorem C108_already_true acts acts' (l l' : layout) bk bk' r r' abs_tol rel_tol max_iter abs_tol' rel_tol' max_iter' p info :
  shipped_layout acts l -> shipped_layout acts' l' -> reached affine_constraint l -> reached affine_constraint l' ->
  l_prim l' = l_prim l -> (forall x, In x (LayoutSpec.added acts) -> In x (LayoutSpec.added acts')) ->
  exact_on bk l -> exact_on bk' l' -> layout_residual l (l_prim l) = Ok r -> layout_residual l' (l_prim l') = Ok r' ->
  (1 <= max_iter)%nat -> (1 <= max_iter')%nat ->
  newton_solve bk l abs_tol rel_tol max_iter = Ok (p, info) ->
  (forall c ks ps, In (c, ks, ps) (LayoutSpec.added acts') -> exists prims, mapM (get_child p) ks = Ok prims /\ vanishes c prims ps) ->
  exists info', newton_solve bk' l' abs_tol' rel_tol' max_iter' = Ok (p, info').
Proof.
  intros Hsh Hsh' Hl Hl' Hp Hadd Hbk Hbk' Er Er' Hm Hm' E All.
  destruct (reached_sane _ l affine_constraint_tidy Hl) as (Hw & Hs & Hi).
  destruct (C83_least_squares l bk r abs_tol rel_tol max_iter Hl Hbk Er Hm) as (p0 & info0 & z & E0 & S & Ez & M).
  rewrite E in E0. assert (p0 = p) as -> by congruence. clear E0 info0.
  destruct (solved_tree l bk _ _ _ _ _ Hw Hs Hbk E) as (g & Ep & Lg).
  destruct (C83_least_squares l' bk' r' abs_tol' rel_tol' max_iter' Hl' Hbk' Er' Hm') as (p' & info' & z' & E' & S' & Ez' & M').
  assert (Hw' := Hw). assert (Hs' := Hs). rewrite <- Hp in Hw', Hs'. destruct (solved_tree l' bk' _ _ _ _ _ Hw' Hs' Hbk' E') as (g' & Ep' & Lg').
  assert (Ip : ids_consistent p) by (rewrite Ep; now apply new_ids). assert (Ip' : ids_consistent p') by (rewrite Ep', Hp; now apply new_ids).
  assert (S2 : same_structure (l_prim l') p) by now rewrite Hp. assert (S2' : same_structure (l_prim l) p') by now rewrite <- Hp.
  destruct (proj2 (all_satisfied acts' l' r' p Hsh' Hl' Er' S2 Ip) All) as (y & Ey & Hy).
  destruct (M' p y S2 Ip Ey) as [L1 L2]. rewrite (zeros_sumsq y Hy) in L1, L2.
  assert (Hz' : zeros z') by now apply sumsq_zero. rewrite (zeros_sumsq z' Hz') in L2. destruct (L2 eq_refl) as [D1 D2].
  assert (Sat' : satisfied l p') by (eapply more_satisfied; try eassumption; exists z'; auto).
  assert (Sat : satisfied l p) by (eapply more_satisfied; try eassumption; exists y; auto).
  destruct Sat as (u & Eu & Hu). assert (u = z) as -> by congruence. destruct Sat' as (v & Ev & Hv).
  destruct (M p' v S2' Ip' Ev) as [_ N]. rewrite (zeros_sumsq v Hv), (zeros_sumsq z Hu) in N. destruct (N eq_refl) as [N1 N2].
  rewrite Hp in D1, D2. specialize (N2 D1). exists info'. rewrite E'. rewrite Ep, Ep', Hp in N2. rewrite !new_global in N2 by (try assumption; rewrite Hp in Lg'; assumption).
  rewrite Ep, Ep', Hp. now rewrite N2.
Qed.
(** Every further constraint that can be satisfied together with the others moves the solution
    away from the start, or leaves it as far away. *)
Theorem C108_further acts acts' (l l' : layout) bk bk' r r' abs_tol rel_tol max_iter abs_tol' rel_tol' max_iter' p info p' info' :
  shipped_layout acts l -> shipped_layout acts' l' -> reached affine_constraint l -> reached affine_constraint l' ->
  l_prim l' = l_prim l -> (forall x, In x (LayoutSpec.added acts) -> In x (LayoutSpec.added acts')) ->
  exact_on bk l -> exact_on bk' l' -> layout_residual l (l_prim l) = Ok r -> layout_residual l' (l_prim l') = Ok r' ->
  (exists q, same_structure (l_prim l) q /\ ids_consistent q /\ satisfied l' q) ->
  (1 <= max_iter)%nat -> (1 <= max_iter')%nat ->
  newton_solve bk l abs_tol rel_tol max_iter = Ok (p, info) -> newton_solve bk' l' abs_tol' rel_tol' max_iter' = Ok (p', info') ->
  distance2 (initial_global p) (initial_global (l_prim l)) <= distance2 (initial_global p') (initial_global (l_prim l)) /\
  (distance2 (initial_global p') (initial_global (l_prim l)) = distance2 (initial_global p) (initial_global (l_prim l)) -> p' = p).
Proof.
  intros Hsh Hsh' Hl Hl' Hp Hadd Hbk Hbk' Er Er' (q & Q1 & Q2 & Q3) Hm Hm' E E'.
  destruct (reached_sane _ l affine_constraint_tidy Hl) as (Hw & Hs & Hi).
  destruct (C83_least_squares l bk r abs_tol rel_tol max_iter Hl Hbk Er Hm) as (p0 & info0 & z & E0 & S & Ez & M).
  rewrite E in E0. assert (p0 = p) as -> by congruence. clear E0 info0.
  destruct (C83_least_squares l' bk' r' abs_tol' rel_tol' max_iter' Hl' Hbk' Er' Hm') as (p0 & info0 & z' & E0 & S' & Ez' & M').
  rewrite E' in E0. assert (p0 = p') as -> by congruence. clear E0 info0.
  destruct (solved_tree l bk _ _ _ _ _ Hw Hs Hbk E) as (g & Ep & Lg).
  assert (Hw' := Hw). assert (Hs' := Hs). rewrite <- Hp in Hw', Hs'. destruct (solved_tree l' bk' _ _ _ _ _ Hw' Hs' Hbk' E') as (g' & Ep' & Lg').
  assert (Ip' : ids_consistent p') by (rewrite Ep', Hp; now apply new_ids).
  assert (S2' : same_structure (l_prim l) p') by now rewrite <- Hp.
  assert (Hz' : zeros z').
  { destruct Q3 as (y & Ey & Hy). apply sumsq_zero. rewrite <- (zeros_sumsq y Hy). apply (M' q); [now rewrite Hp|assumption|assumption]. }
  assert (Sat' : satisfied l p') by (eapply more_satisfied; try eassumption; exists z'; auto). destruct Sat' as (v & Ev & Hv).
  destruct (M p' v S2' Ip' Ev) as [N0 N]. rewrite (zeros_sumsq v Hv) in N0, N.
  assert (Hz : zeros z) by now apply sumsq_zero. rewrite (zeros_sumsq z Hz) in N. destruct (N eq_refl) as [N1 N2]. split; [exact N1|].
  intros D. specialize (N2 (Req_le _ _ D)). rewrite Ep, Ep', Hp in N2. rewrite !new_global in N2 by (try assumption; rewrite Hp in Lg'; assumption).
  rewrite Ep, Ep', Hp. now rewrite N2.
Qed.

(** A figure with a Box, fixed at its lower left corner and four inches high: its width is
    left at the value it was given when it was made, 1, so that asking for that width adds
    nothing although the other constraints do not imply it. *)
Definition acts108 : list (action R) :=
  [AddPrim quad60 "Q"; AddConstraint (ok_cons Box) ["Q"%string] [] "B"; AddConstraint (ok_cons crFix) ["Q/Line0/Point0"%string] [PA1 [0%R;0%R]] "F";
   AddConstraint (ok_cons crHeight) ["Q"%string] [PFlt 4%R] "H"].
Definition acts108w : list (action R) := (acts108 ++ [AddConstraint (ok_cons crWidth) ["Q"%string] [PFlt 1%R] "W"])%list.
Definition l108 : layout := after (empty_layout 0) acts108.
Definition l108w : layout := after (empty_layout 0) acts108w.
Lemma shipped108 : forall rc ks key v, In rc [crWidth] -> noslash key = true ->
  shipped_act false (AddConstraint (ok_cons rc) ks [PFlt v] key) /\ top_key (AddConstraint (ok_cons rc) ks [PFlt v] key).
Proof.
  intros rc ks key v H Hn. split; [|exact Hn].
  assert (G : forallb (fun rc : result cons => if rc then true else false) [crWidth] = true) by (vm_compute; reflexivity). rewrite forallb_forall in G. pose proof (ok_of _ (G rc H)) as E.
  unfold shipped_act. assert (M : In rc (dimensions ++ margins)) by (cbn [In] in H; destruct H as [<-|[]]; unfold dimensions; cbn [In List.app]; tauto).
  rewrite E in M. apply sh_dimension; [exact M|]. now left.
Qed.
Lemma shipped_layout108 : shipped_layout acts108 l108 /\ shipped_layout acts108w l108w.
Proof.
  destruct pool84 as (L & n & P1 & P2 & P3 & _). split; exists 0%nat, false, L, n; (split; [apply all_ok_runs; vm_compute; reflexivity|]);
  (split; [|split; [|split; [exact P1|split; [exact P2|]]]]); unfold acts108w, acts108; cbn [List.app].
  1, 4: repeat (apply Forall_cons; [first [exact I | apply shipped60; [cbn [In]; tauto|reflexivity|cbn [In]; tauto]|apply shipped108; [cbn [In]; tauto|reflexivity]]|]); apply Forall_nil.
  1, 3: repeat (apply Forall_cons; [first [exact I | reflexivity]|]); apply Forall_nil.
  1, 2: repeat (apply Forall_cons; [cbn [given_prims]; repeat (apply Forall_cons; [exact P3|]); apply Forall_nil|]); apply Forall_nil.
Qed.
Lemma reached108 : reached affine_constraint l108 /\ reached affine_constraint l108w.
Proof.
  destruct pool84 as (L & n & P1 & P2 & P3 & P4). split; exists 0%nat; eexists; exists L, n; (split; [reflexivity|]); (split; [exact P1|]); (split; [exact P2|]);
    unfold acts108w, acts108; cbn [List.app]; repeat (apply Forall_cons; [split; cbn [given_prims given_cons]; [first [apply Forall_nil|apply Forall_cons; [exact P3|apply Forall_nil]]|first [apply Forall_nil|apply Forall_cons; [apply affine60; cbn [In]; tauto|apply Forall_nil]]]|]); apply Forall_nil.
Qed.
Lemma res108 a b c d e f g h : global_res l108 [a;b;c;d;e;f;g;h] = Ok [d - b; h - f; a - g; e - c; a; b; f - d - 4].
Proof.
  transitivity (Ok [(c - a) * 0 + ((d - b) * 1 + 0); (g - e) * 0 + ((h - f) * 1 + 0); (a - g) * 1 + ((b - h) * 0 + 0); (e - c) * 1 + ((f - d) * 0 + 0);
     a + -1 * 0; b + -1 * 0; (e - c) * 0 + ((f - d) * 1 + 0) + -1 * (4 * 1)]).
  - lazy -[IZR Rplus Rminus Rmult Ropp Rlt_dec Req_EM_T Rdiv sqrt]. reflexivity.
  - do 2 f_equal; [lra|]. repeat (f_equal; [lra|]). f_equal; lra.
Qed.
Lemma res108w a b c d e f g h : global_res l108w [a;b;c;d;e;f;g;h] = Ok [d - b; h - f; a - g; e - c; a; b; f - d - 4; c - a - 1].
Proof.
  transitivity (Ok [(c - a) * 0 + ((d - b) * 1 + 0); (g - e) * 0 + ((h - f) * 1 + 0); (a - g) * 1 + ((b - h) * 0 + 0); (e - c) * 1 + ((f - d) * 0 + 0);
     a + -1 * 0; b + -1 * 0; (e - c) * 0 + ((f - d) * 1 + 0) + -1 * (4 * 1); (c - a) * 1 + ((d - b) * 0 + 0) + -1 * (1 * 1)]).
  - lazy -[IZR Rplus Rminus Rmult Ropp Rlt_dec Req_EM_T Rdiv sqrt]. reflexivity.
  - do 2 f_equal; [lra|]. repeat (f_equal; [lra|]). f_equal; lra.
Qed.
Lemma start108 : initial_global (l_prim l108) = [0; 0; 1; 0; 1; 1; 0; 1].
Proof. lazy -[IZR Rplus Rminus Rmult Ropp Rlt_dec Req_EM_T Rdiv sqrt]. reflexivity. Qed.

Definition goal108 : prim := new_tree (l_prim l108) [0; 0; 1; 0; 1; 4; 0; 4].
Lemma same108 : l_prim l108w = l_prim l108.
Proof. lazy -[IZR]. reflexivity. Qed.
Lemma residual108 : (exists r, layout_residual l108 (l_prim l108) = Ok r) /\ (exists r, layout_residual l108w (l_prim l108w) = Ok r).
Proof. split; eexists; lazy -[IZR Rplus Rminus Rmult Ropp Rlt_dec Req_EM_T Rdiv sqrt]; reflexivity. Qed.
Lemma goal_satisfied108 : satisfied l108 goal108 /\ satisfied l108w goal108.
Proof.
  destruct reached108 as [Q Q']. destruct (reached_sane _ l108 affine_constraint_tidy Q) as (Hw & Hs & Hi). assert (Hi' := Hi). rewrite <- same108 in Hi'.
  assert (Hw' := Hw). assert (Hs' := Hs). rewrite <- same108 in Hw', Hs'.
  split; eexists; (split; [|shelve]).
  - unfold goal108. rewrite <- (global_residual l108) by (try assumption; rewrite start108; reflexivity). apply res108.
  - unfold goal108. rewrite <- same108. rewrite <- (global_residual l108w) by (try assumption; rewrite same108, start108; reflexivity). apply res108w.
  Unshelve. all: repeat (apply Forall_cons; [lra|]); apply Forall_nil.
Qed.
Lemma solved108 bk abs_tol rel_tol max_iter p info : exact_on bk l108 -> (1 <= max_iter)%nat -> newton_solve bk l108 abs_tol rel_tol max_iter = Ok (p, info) -> p = goal108.
Proof.
  intros Hbk Hm E. destruct reached108 as [Q _]. destruct residual108 as [(r & Er) _]. destruct (reached_sane _ l108 affine_constraint_tidy Q) as (Hw & Hs & Hi).
  destruct (C83_least_squares l108 bk r abs_tol rel_tol max_iter Q Hbk Er Hm) as (p0 & info0 & z & E0 & S & Ez & M).
  rewrite E in E0. assert (p0 = p) as -> by congruence. destruct (solved_tree l108 bk _ _ _ _ _ Hw Hs Hbk E) as (g & -> & Lg).
  destruct goal_satisfied108 as [(y & Ey & Hy) _]. assert (Lg8 : length g = 8%nat) by (rewrite Lg, start108; reflexivity).
  destruct (eight_list g Lg8) as (a & b & c & d & e & f & h & i & ->).
  destruct (M goal108 y) as [M1 M2]; [now apply new_structure|now apply new_ids|exact Ey|]. rewrite (zeros_sumsq y Hy) in M1, M2.
  assert (Hz : zeros z) by now apply sumsq_zero. rewrite (zeros_sumsq z Hz) in M2. destruct (M2 eq_refl) as [M3 _]. clear M M1 M2.
  rewrite <- global_residual in Ez by assumption. rewrite res108 in Ez. injection Ez as <-.
  unfold goal108 in M3. rewrite !new_global in M3 by (try assumption; rewrite start108; reflexivity). rewrite start108 in M3.
  unfold distance2, sumsq, minus in M3. cbn -[IZR] in M3.
  unfold zeros in Hz.
  repeat match goal with H : Forall _ (_ :: _) |- _ => pose proof (Forall_inv H); apply Forall_inv_tail in H; cbv beta in * end.
  assert (a = 0) by assumption. assert (b = 0) by assumption. assert (d = 0) by lra. assert (f = 4) by lra. assert (i = 4) by lra. assert (h = 0) by lra. assert (e = c) by lra. subst.
  assert (c = 1) by (assert (0 <= (c - 1) * (c - 1)) by apply Rle_0_sqr; assert ((c - 1) * (c - 1) = 0) by lra; assert (c - 1 = 0) by (now apply Rsqr_0_uniq); lra). subst. reflexivity.
Qed.
Example C108_case : exists r r' p info, shipped_layout acts108 l108 /\ shipped_layout acts108w l108w /\ reached affine_constraint l108 /\ reached affine_constraint l108w /\
  l_prim l108w = l_prim l108 /\ (forall x, In x (LayoutSpec.added acts108) -> In x (LayoutSpec.added acts108w)) /\ length (LayoutSpec.added acts108) <> length (LayoutSpec.added acts108w) /\
  exact_on bk83 l108 /\ exact_on bk83 l108w /\ layout_residual l108 (l_prim l108) = Ok r /\ layout_residual l108w (l_prim l108w) = Ok r' /\
  newton_solve bk83 l108 0 0 1 = Ok (p, info) /\ p <> l_prim l108 /\
  (forall c ks ps, In (c, ks, ps) (LayoutSpec.added acts108w) -> exists prims, mapM (get_child p) ks = Ok prims /\ vanishes c prims ps) /\
  (** the added constraint does not follow from the others *)
  exists q, same_structure (l_prim l108) q /\ satisfied l108 q /\ ~ satisfied l108w q.
Proof.
  destruct residual108 as [(r & Er) (r' & Er')]. destruct shipped_layout108 as [S S']. destruct reached108 as [Q Q']. pose proof (exact83 _ _ Q Er) as X.
  destruct (C83_least_squares l108 bk83 r 0 0 1 Q X Er (Nat.le_refl 1)) as (p & info & z & E & Sp & Ez & _). assert (p = goal108) as -> by (eapply solved108; [exact X|exact (Nat.le_refl 1)|exact E]).
  destruct (reached_sane _ l108 affine_constraint_tidy Q) as (Hw & Hs & Hi). exists r, r', goal108, info.
  split; [exact S|]. split; [exact S'|]. split; [exact Q|]. split; [exact Q'|]. split; [exact same108|]. split; [|split; [|split; [exact X|split; [exact (exact83 _ _ Q' Er')|split; [exact Er|split; [exact Er'|split; [exact E|split; [|split]]]]]]]].
  - intros x. unfold acts108w, LayoutSpec.added. rewrite flat_map_app, in_app_iff. auto.
  - unfold acts108w, acts108, LayoutSpec.added. cbn [flat_map List.app length]. discriminate.
  - intros H. assert (G : initial_global goal108 = initial_global (l_prim l108)) by now rewrite H. unfold goal108 in G. rewrite new_global in G by (try assumption; rewrite start108; reflexivity).
    rewrite start108 in G. apply (f_equal (fun l => nth 5 l 0)) in G. cbn [nth] in G. lra.
  - apply (all_satisfied acts108w l108w r'); [exact S'|exact Q'|exact Er'|rewrite same108; exact Sp|unfold goal108; now apply new_ids|]. apply goal_satisfied108.
  - exists (new_tree (l_prim l108) [0; 0; 2; 0; 2; 4; 0; 4]). split; [now apply new_structure|].
    assert (Hw' := Hw). assert (Hs' := Hs). rewrite <- same108 in Hw', Hs'. split.
    + eexists. split; [rewrite <- (global_residual l108) by assumption; apply res108|]. repeat (apply Forall_cons; [lra|]). apply Forall_nil.
    + intros (y & Ey & Hy). rewrite <- same108 in Ey. rewrite <- (global_residual l108w) in Ey by assumption. rewrite res108w in Ey. injection Ey as <-. unfold zeros in Hy.
      do 7 apply Forall_inv_tail in Hy. apply Forall_inv in Hy. lra.
Qed.
Lemma wider108 : shipped_layout acts60 l60 /\ (forall x, In x (LayoutSpec.added acts108) -> In x (LayoutSpec.added acts60)).
Proof. split; [apply shipped_layout86|]. intros x. unfold acts108, acts60, LayoutSpec.added. cbn [flat_map List.app In]. tauto. Qed.
Example C108_further_case : exists r r' p info p' info', shipped_layout acts108 l108 /\ shipped_layout acts60 l60 /\ reached affine_constraint l108 /\ reached affine_constraint l60 /\
  l_prim l60 = l_prim l108 /\ (forall x, In x (LayoutSpec.added acts108) -> In x (LayoutSpec.added acts60)) /\
  exact_on bk83 l108 /\ exact_on bk83 l60 /\ layout_residual l108 (l_prim l108) = Ok r /\ layout_residual l60 (l_prim l60) = Ok r' /\
  (exists q, same_structure (l_prim l108) q /\ ids_consistent q /\ satisfied l60 q) /\
  newton_solve bk83 l108 0 0 1 = Ok (p, info) /\ newton_solve bk83 l60 0 0 1 = Ok (p', info').
Proof.
  destruct residual108 as [(r & Er) _]. destruct residual86 as [(r' & Er') _]. destruct wider108 as [S' A]. destruct reached108 as [Q _]. destruct reached86 as [Q' _]. pose proof (exact83 _ _ Q Er) as X. pose proof (exact83 _ _ Q' Er') as X'.
  destruct (C83_least_squares l108 bk83 r 0 0 1 Q X Er (Nat.le_refl 1)) as (p & info & z & E & _). destruct (C83_least_squares l60 bk83 r' 0 0 1 Q' X' Er' (Nat.le_refl 1)) as (p' & info' & z' & E' & _).
  assert (Hp : l_prim l60 = l_prim l108) by (lazy -[IZR]; reflexivity). exists r, r', p, info, p', info'.
  split; [apply shipped_layout108|]. split; [exact S'|]. split; [exact Q|]. split; [exact Q'|]. split; [exact Hp|]. split; [exact A|]. split; [exact X|]. split; [exact X'|]. split; [exact Er|]. split; [exact Er'|].
  split; [|split; [exact E|exact E']]. destruct C60_case as (L & n & _ & _ & _ & _ & (z0 & H1 & H2 & H3 & H4) & _). exists goal60. split; [rewrite <- Hp; exact H1|]. split; [exact H2|]. exists z0. auto.
Qed.

Print Assumptions C108_already_true.
Print Assumptions C108_further.
