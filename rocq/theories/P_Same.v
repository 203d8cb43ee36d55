(** C86: layouts of affine constraints with the same solutions are solved alike. *)
From Coq Require Import Reals Lra.
From Verif Require Export P_End P_Backend.
Local Open Scope R_scope.

(** All constraints of [l] are satisfied at the primitives [q]. *)
Definition satisfied (l : layout) (q : prim) : Prop := exists z, layout_residual l q = Ok z /\ zeros z.

Lemma solved_tree (l : layout) bk abs_tol rel_tol max_iter p info : wf (l_prim l) -> slashfree (l_prim l) -> exact_on bk l ->
  newton_solve bk l abs_tol rel_tol max_iter = Ok (p, info) -> exists g, p = new_tree (l_prim l) g /\ length g = length (initial_global (l_prim l)).
Proof.
  intros Hw Hs Hbk E. unfold newton_solve, solve_newton in E. destruct (newton_loop _ _ _ _ _ _) as [x|] eqn:El; [|discriminate]. cbn [bind] in E.
  rewrite tree_of_global_ok in E by assumption. cbn [bind] in E. exists (ns_g x). split; [congruence|].
  refine (loop_good (global_res l) (lstsq_step bk (global_res l)) abs_tol rel_tol (fun g => length g = length (initial_global (l_prim l))) _ _ _ _ _ El); [|reflexivity].
  intros g r d g' a Hg Er Ed Eg _. destruct (lstsq_defined _ (global_res l) bk Hbk g r Hg) as (d' & Ed' & Hd'). assert (d' = d) by congruence. subst d'.
  rewrite shifted_vadd in Eg by (destruct Hd' as [-> _]; congruence). injection Eg as <-. rewrite shifted_length; [exact Hg|]. destruct Hd' as [-> _]. congruence.
Qed.
Theorem C86_same_solutions (l l' : layout) bk bk' r r' abs_tol rel_tol max_iter abs_tol' rel_tol' max_iter' :
  reached affine_constraint l -> reached affine_constraint l' -> l_prim l' = l_prim l -> exact_on bk l -> exact_on bk' l' ->
  layout_residual l (l_prim l) = Ok r -> layout_residual l' (l_prim l') = Ok r' ->
  (forall q, same_structure (l_prim l) q -> ids_consistent q -> satisfied l q <-> satisfied l' q) ->
  (exists q, same_structure (l_prim l) q /\ ids_consistent q /\ satisfied l q) ->
  (1 <= max_iter)%nat -> (1 <= max_iter')%nat ->
  exists p info info', newton_solve bk l abs_tol rel_tol max_iter = Ok (p, info) /\ newton_solve bk' l' abs_tol' rel_tol' max_iter' = Ok (p, info') /\ satisfied l p.
Proof.
  intros Hl Hl' Hp Hbk Hbk' Er Er' Hsat (q & Q1 & Q2 & Q3) Hm Hm'.
  destruct (reached_sane _ l affine_constraint_tidy Hl) as (Hw & Hs & Hi). pose proof (proj1 (Hsat q Q1 Q2) Q3) as Q4.
  destruct (C83_least_squares l bk r abs_tol rel_tol max_iter Hl Hbk Er Hm) as (p & info & z & E & S & Ez & M).
  destruct (C83_least_squares l' bk' r' abs_tol' rel_tol' max_iter' Hl' Hbk' Er' Hm') as (p' & info' & z' & E' & S' & Ez' & M'). rewrite Hp in S', M'.
  assert (Z : forall (l : layout) z z0, zeros z0 -> sumsq z <= sumsq z0 -> zeros z).
  { intros _ a b Hb H. apply sumsq_zero. now rewrite (zeros_sumsq b Hb) in H. }
  destruct Q3 as (zq & Ezq & Hzq). destruct Q4 as (zq' & Ezq' & Hzq').
  assert (Hz : zeros z) by (apply (Z l z zq Hzq); now apply (M q)). assert (Hz' : zeros z') by (apply (Z l' z' zq' Hzq'); now apply (M' q)).
  destruct (solved_tree l bk _ _ _ _ _ Hw Hs Hbk E) as (g & -> & Lg). assert (Hw' := Hw). assert (Hs' := Hs). rewrite <- Hp in Hw', Hs'. destruct (solved_tree l' bk' _ _ _ _ _ Hw' Hs' Hbk' E') as (g' & -> & Lg'). rewrite Hp in *.
  assert (I : forall h, ids_consistent (new_tree (l_prim l) h)) by (intros; now apply new_ids).
  assert (Sp : satisfied l (new_tree (l_prim l) g)) by (exists z; auto). assert (Sp' : satisfied l' (new_tree (l_prim l) g')) by (exists z'; auto).
  destruct (proj1 (Hsat _ S (I g)) Sp) as (u & Eu & Hu). destruct (proj2 (Hsat _ S' (I g')) Sp') as (u' & Eu' & Hu').
  destruct (M _ _ S' (I g') Eu') as [_ N]. rewrite (zeros_sumsq u' Hu'), (zeros_sumsq z Hz) in N. destruct (N eq_refl) as [N1 N2].
  destruct (M' _ _ S (I g) Eu) as [_ N']. rewrite (zeros_sumsq u Hu), (zeros_sumsq z' Hz') in N'. destruct (N' eq_refl) as [N1' _].
  specialize (N2 N1'). exists (new_tree (l_prim l) g), info, info'. split; [exact E|]. split; [|exact Sp].
  rewrite !new_global in N2 by assumption. now rewrite <- N2.
Qed.
(** In particular it does not matter how often, in which order and under which keys the
    same constraints are stated. *)
Lemma blend_flip s : forall a m, blend 0 a a m -> blend s m m a.
Proof.
  induction a as [t v ch IH] using node_ind'. intros [t' v' ch'] H. inversion H as [? ? ? ? ? ? ? ? ? _ E Hc]; subst. rewrite mix_same in E. constructor; [reflexivity|now rewrite mix_same|].
  clear -IH Hc. revert ch' Hc. induction ch as [|[k x] ch IHc]; intros ch' Hc; inversion Hc; subst; [constructor|]. inversion IH; subst. constructor; [auto|now apply IHc].
Qed.
Lemma affine_defined (l : layout) r q : reached affine_constraint l -> layout_residual l (l_prim l) = Ok r -> same_structure (l_prim l) q -> ids_consistent q -> exists z, layout_residual l q = Ok z.
Proof.
  intros Hl Er Hq Hiq. destruct (reached_sane _ l affine_constraint_tidy Hl) as (Hw & Hs & Hi). pose proof (affine_kinds l Hl) as Hc.
  destruct (affine_layout l (l_prim l) r Hw Hs Hi Hc (same_structure_refl _) Hi Er) as [Haff _]. destruct (structure_vector _ q Hw Hs Hi Hq Hiq) as (gs & Hgs & Hb).
  destruct (affine_at _ _ Haff gs Hgs) as [z Ez]. rewrite global_residual in Ez by assumption. apply (blend_flip 0) in Hb.
  destruct (residual_tri 0 l _ _ q Hc Hb z Ez) as (r2 & _ & _ & E). eauto.
Qed.
Theorem C86_repeated acts acts' (l l' : layout) bk bk' r r' abs_tol rel_tol max_iter abs_tol' rel_tol' max_iter' :
  shipped_layout acts l -> shipped_layout acts' l' -> reached affine_constraint l -> reached affine_constraint l' ->
  l_prim l' = l_prim l -> (forall x, In x (LayoutSpec.added acts) <-> In x (LayoutSpec.added acts')) ->
  exact_on bk l -> exact_on bk' l' -> layout_residual l (l_prim l) = Ok r -> layout_residual l' (l_prim l') = Ok r' ->
  (exists q, same_structure (l_prim l) q /\ ids_consistent q /\ satisfied l q) -> (1 <= max_iter)%nat -> (1 <= max_iter')%nat ->
  exists p info info', newton_solve bk l abs_tol rel_tol max_iter = Ok (p, info) /\ newton_solve bk' l' abs_tol' rel_tol' max_iter' = Ok (p, info') /\ satisfied l p.
Proof.
  intros Hsh Hsh' Hl Hl' Hp Hadd Hbk Hbk' Er Er' Hex Hm Hm'. eapply C86_same_solutions; try eassumption. intros q Q1 Q2.
  destruct (affine_defined l r q Hl Er Q1 Q2) as [z Ez]. assert (Q1' := Q1). rewrite <- Hp in Q1'. destruct (affine_defined l' r' q Hl' Er' Q1' Q2) as [z' Ez'].
  assert (S : forall (l : layout) z, layout_residual l q = Ok z -> (satisfied l q <-> zeros z)).
  { intros k y Ey. split; [intros (y' & Ey' & H); congruence|intros H; now exists y]. }
  rewrite (S l z Ez), (S l' z' Ez'). destruct Hsh as (rid & tw & L & n & R1 & R2 & R3 & _). destruct Hsh' as (rid' & tw' & L' & n' & R1' & R2' & R3' & _).
  rewrite (proj2 (C79_every_constraint rid tw acts l q z R1 R2 R3 Q1 Ez)), (proj2 (C79_every_constraint rid' tw' acts' l' q z' R1' R2' R3' Q1' Ez')).
  split; intros H c ks ps Hin; apply H; now apply Hadd.
Qed.

(** The figure of C60 with its width stated twice. *)
Definition acts86 : list (action R) := acts60 ++ [AddConstraint (ok_cons crWidth) ["Q"%string] [PFlt 3%R] "again"].
Definition l86 : layout := after (empty_layout 0) acts86.
Lemma shipped_layout86 : shipped_layout acts60 l60 /\ shipped_layout acts86 l86.
Proof.
  destruct pool84 as (L & n & P1 & P2 & P3 & _). split; exists 0%nat, false, L, n; (split; [apply all_ok_runs; vm_compute; reflexivity|]);
  (split; [|split; [|split; [exact P1|split; [exact P2|]]]]); unfold acts86, acts60; cbn [List.app].
  1, 4: repeat (apply Forall_cons; [first [exact I | apply shipped60; [cbn [In]; tauto|reflexivity|cbn [In]; tauto]]|]); apply Forall_nil.
  1, 3: repeat (apply Forall_cons; [first [exact I | reflexivity]|]); apply Forall_nil.
  1, 2: repeat (apply Forall_cons; [cbn [given_prims]; repeat (apply Forall_cons; [exact P3|]); apply Forall_nil|]); apply Forall_nil.
Qed.
Lemma reached86 : reached affine_constraint l60 /\ reached affine_constraint l86.
Proof.
  destruct pool84 as (L & n & P1 & P2 & P3 & P4). split; exists 0%nat; eexists; exists L, n; (split; [reflexivity|]); (split; [exact P1|]); (split; [exact P2|]);
    unfold acts86, acts60; cbn [List.app]; repeat (apply Forall_cons; [split; cbn [given_prims given_cons]; [first [apply Forall_nil|apply Forall_cons; [exact P3|apply Forall_nil]]|first [apply Forall_nil|apply Forall_cons; [apply affine60; cbn [In]; tauto|apply Forall_nil]]]|]); apply Forall_nil.
Qed.
Lemma residual86 : (exists r, layout_residual l60 (l_prim l60) = Ok r) /\ (exists r, layout_residual l86 (l_prim l86) = Ok r).
Proof. split; eexists; lazy -[IZR Rplus Rminus Rmult Ropp Rlt_dec Req_EM_T Rdiv sqrt]; reflexivity. Qed.
Example C86_case : exists r r', shipped_layout acts60 l60 /\ shipped_layout acts86 l86 /\ reached affine_constraint l60 /\ reached affine_constraint l86 /\
  l_prim l86 = l_prim l60 /\ (forall x, In x (LayoutSpec.added acts60) <-> In x (LayoutSpec.added acts86)) /\ length (LayoutSpec.added acts60) <> length (LayoutSpec.added acts86) /\
  exact_on bk83 l60 /\ exact_on bk83 l86 /\ layout_residual l60 (l_prim l60) = Ok r /\ layout_residual l86 (l_prim l86) = Ok r' /\
  (exists q, same_structure (l_prim l60) q /\ ids_consistent q /\ satisfied l60 q).
Proof.
  destruct residual86 as [(r & Er) (r' & Er')]. destruct shipped_layout86 as [S S']. destruct reached86 as [Q Q']. exists r, r'.
  split; [exact S|]. split; [exact S'|]. split; [exact Q|]. split; [exact Q'|]. split; [lazy -[IZR]; reflexivity|]. split; [|split; [|split; [exact (exact83 _ _ Q Er)|split; [exact (exact83 _ _ Q' Er')|split; [exact Er|split; [exact Er'|]]]]]].
  - intros x. unfold acts86, LayoutSpec.added. rewrite flat_map_app, in_app_iff. split; [auto|]. intros [H|H]; [exact H|]. cbn [flat_map In List.app] in H. destruct H as [<-|[]]. unfold acts60. cbn [flat_map In List.app]. auto.
  - unfold acts86, acts60, LayoutSpec.added. cbn [flat_map List.app length]. discriminate.
  - destruct C60_case as (L & n & _ & _ & _ & _ & (z & H1 & H2 & H3 & H4) & _). exists goal60. split; [exact H1|]. split; [exact H2|]. exists z. auto.
Qed.

Print Assumptions C86_same_solutions.
Print Assumptions C86_repeated.
