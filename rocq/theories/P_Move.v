(** C88: constraints other than Fix only compare positions with each other: moving all
    primitives together changes no residual, and moves what the solver returns. *)
From Coq Require Import Reals Lra.
From Verif Require Export MoveSolve P_Station P_Same.
From Verif Require Import P_Affine.
Local Open Scope R_scope.

Theorem C88_value a b (c : cons) ps params : relative c -> Forall planar ps -> call c (map (move a b) ps) params = call c ps params.
Proof. intros Hc Hp. apply call_move; [now apply relative_pure|exact Hp]. Qed.

Lemma relative_kinds a b i (acts : list (action R)) : Forall relative (flat_map given_cons acts) -> Forall (rel_cls a b) (map (@ntype _ _) (dpre (nch (l_cons (after (empty_layout i) acts))))).
Proof.
  intros Hc. set (l := after (empty_layout i) acts).
  assert (K : Forall (rel_cls a b) (map (@ntype _ _) (preorder (l_cons l)))).
  { apply Forall_forall. intros t Ht. destruct (after_kinds acts t (empty_layout i) Ht) as [H0|(x & c & H1 & H2 & H3)].
    - cbn in H0. destruct H0 as [<-|[]]. intros ps params _. reflexivity.
    - rewrite Forall_flat_map, Forall_forall in Hc. specialize (Hc x H1). rewrite Forall_forall in Hc. specialize (Hc c H2). apply (relative_pure a b) in Hc. rewrite <- Forall_map, Forall_forall in Hc. now apply Hc. }
  destruct (l_cons l) as [t v ch]. cbn [preorder map] in K. now inversion K.
Qed.
Theorem C88_residual a b i (acts : list (action R)) (p : prim) : Forall relative (flat_map given_cons acts) -> planar p ->
  layout_residual (after (empty_layout i) acts) (move a b p) = layout_residual (after (empty_layout i) acts) p.
Proof. intros Hc Hp. apply residual_move; [now apply relative_kinds|exact Hp]. Qed.

(** Every constraint of constraints.py, except Fix, is of this kind. *)
Theorem C88_shipped tw (c : cons) ps : shipped tw c ps -> crFix = Ok c \/ relative c.
Proof. apply shipped_relative. Qed.

(** Building a layout of moved primitives gives the moved layout. *)
Theorem C88_history a b i (acts : list (action R)) :
  let l := after (empty_layout i) acts in let l' := after (empty_layout i) (map (move_action a b) acts) in
  l_prim l' = move a b (l_prim l) /\ l_cons l' = l_cons l /\ l_keys l' = l_keys l /\ l_params l' = l_params l /\
  map (fun k => snd (act (after (empty_layout i) (firstn k (map (move_action a b) acts))) (nth k (map (move_action a b) acts) (AddPrims [])))) (seq 0 (length acts)) =
  map (fun k => snd (act (after (empty_layout i) (firstn k acts)) (nth k acts (AddPrims [])))) (seq 0 (length acts)).
Proof.
  assert (M : forall xs, after (empty_layout i) (map (move_action a b) xs) = moved_layout a b (after (empty_layout i) xs)) by (intros xs; rewrite <- (move_empty a b i) at 1; apply move_after).
  cbv zeta. rewrite M. split; [reflexivity|]. split; [reflexivity|]. split; [reflexivity|]. split; [reflexivity|].
  apply map_ext. intros k. rewrite firstn_map, M. change (AddPrims []) with (move_action a b (AddPrims [])) at 1. rewrite map_nth, move_act. reflexivity.
Qed.

Lemma reached_relative (l : layout) : reached tidy_relative l -> (forall a b, Forall (rel_cls a b) (map (@ntype _ _) (dpre (nch (l_cons l))))) /\ wf (l_prim l) /\ slashfree (l_prim l) /\ ids_consistent (l_prim l).
Proof.
  intros Hl. split; [|apply (reached_sane tidy_relative l); [intros c (H1 & H2 & _); now split|exact Hl]].
  destruct Hl as (rid & acts & L & n & -> & _ & _ & Ha). intros a b. apply relative_kinds. apply Forall_flat_map. eapply Forall_impl; [|exact Ha]. intros x [_ H]. eapply Forall_impl; [|exact H]. intros c (_ & _ & Hc). exact Hc.
Qed.

(** Solving the moved layout returns the moved primitives, with the same errors. *)
Theorem C88_solve a b i (acts : list (action R)) bk abs_tol rel_tol max_iter :
  let l := after (empty_layout i) acts in let n := length (initial_global (l_prim l)) in
  reached tidy_relative l -> planar (l_prim l) ->
  exact_on bk l -> same_gradients bk n -> shift_gradients bk n ->
  newton_solve bk (after (empty_layout i) (map (move_action a b) acts)) abs_tol rel_tol max_iter =
  match newton_solve bk l abs_tol rel_tol max_iter with Ok (p, info) => Ok (move a b p, info) | Err e => Err e end.
Proof.
  cbv zeta. intros Hl Hp Hbk H1 H2. destruct (reached_relative _ Hl) as (Hc & Hw & Hs & _). rewrite <- (move_empty a b i) at 1. rewrite move_after.
  rewrite (solve_move a b _ (Hc a b) Hw Hs Hp bk Hbk H1 H2). destruct (newton_solve _ _ _ _ _) as [[p info]|]; reflexivity.
Qed.

(** The solver does not move the centroid: the sums of the coordinates (of every position
    once) stay, if the residual is differentiable at the iterates. *)
Theorem C88_centroid (l : layout) bk abs_tol rel_tol max_iter p info :
  reached tidy_relative l -> planar (l_prim l) -> exact_on bk l ->
  (forall k q info', (k < max_iter)%nat -> newton_solve bk l abs_tol rel_tol k = Ok (q, info') -> smooth_at (global_res l) (initial_global q)) ->
  newton_solve bk l abs_tol rel_tol max_iter = Ok (p, info) ->
  sum_x (initial_global p) = sum_x (initial_global (l_prim l)) /\ sum_y (initial_global p) = sum_y (initial_global (l_prim l)).
Proof.
  intros Hl Hp Hbk Hsm E. destruct (reached_relative _ Hl) as (Hr & Hw & Hs & _). set (n := length (initial_global (l_prim l))).
  assert (Gs : forall k s, newton_loop (global_res l) (lstsq_step bk (global_res l)) abs_tol rel_tol k (newton_init (initial_global (l_prim l))) = Ok s -> newton_solve bk l abs_tol rel_tol k = Ok (new_tree (l_prim l) (ns_g s), (ns_abs s, ns_rel s)) /\ length (ns_g s) = n).
  { intros k s Es. split; [unfold newton_solve, solve_newton; rewrite Es; cbn [bind]; now rewrite tree_of_global_ok|].
    refine (loop_good (global_res l) (lstsq_step bk (global_res l)) abs_tol rel_tol (fun g => length g = n) _ _ _ _ _ Es); [|reflexivity].
    intros g r d g' x Hg Er Ed Eg _. destruct (lstsq_defined _ (global_res l) bk Hbk g r Hg) as (d' & Ed' & Hd'). assert (d' = d) by congruence. subst d'. assert (Ld : length d = length g) by (destruct Hd' as [Hd' _]; rewrite Hd'; symmetry; exact Hg).
    rewrite shifted_vadd in Eg by exact Ld. injection Eg as <-. now rewrite shifted_length. }
  pose proof E as E'. unfold newton_solve, solve_newton in E'. destruct (newton_loop _ _ _ _ max_iter _) as [s|] eqn:Es; [|discriminate]. destruct (Gs max_iter s Es) as [E2 Ln]. rewrite E in E2. injection E2 as -> _. clear E'.
  assert (Hs' : forall k s', (k < max_iter)%nat -> newton_loop (global_res l) (lstsq_step bk (global_res l)) abs_tol rel_tol k (newton_init (initial_global (l_prim l))) = Ok s' -> smooth_at (global_res l) (ns_g s')).
  { intros k s' Hk Ek. destruct (Gs k s' Ek) as [E3 L3]. specialize (Hsm k _ _ Hk E3). rewrite new_global in Hsm by assumption. exact Hsm. }
  destruct (loop_centroid l Hr Hw Hs Hp bk Hbk abs_tol rel_tol max_iter s Hs' Es) as [_ D]. rewrite new_global by assumption.
  rewrite !(sum_x_dotp n), !(sum_y_dotp n) by (try reflexivity; exact Ln). split; apply D.
Qed.
(** In particular for the constraints with affine residuals. *)
Theorem C88_centroid_affine (l : layout) bk abs_tol rel_tol max_iter p info r :
  reached tidy_relative l -> reached affine_constraint l -> planar (l_prim l) -> exact_on bk l -> layout_residual l (l_prim l) = Ok r ->
  newton_solve bk l abs_tol rel_tol max_iter = Ok (p, info) ->
  sum_x (initial_global p) = sum_x (initial_global (l_prim l)) /\ sum_y (initial_global p) = sum_y (initial_global (l_prim l)).
Proof.
  intros Hl Ha Hp Hbk Er E. destruct (reached_relative _ Hl) as (Hr & Hw & Hs & Hi). apply (C88_centroid l bk abs_tol rel_tol max_iter p info Hl Hp Hbk); [|exact E].
  intros k q info' _ Eq. destruct (solved_tree l bk abs_tol rel_tol k q info' Hw Hs Hbk Eq) as (g & -> & Lg). rewrite new_global by assumption.
  eapply affine_smooth; [|exact Lg]. exact (proj1 (affine_layout l (l_prim l) r Hw Hs Hi (affine_kinds l Ha) (same_structure_refl _) Hi Er)).
Qed.

(** The unit square with two widths, of C87. *)
Lemma relative_width : tidy_relative (ok_cons crWidth).
Proof.
  destruct (affine_constraint_tidy (ok_cons crWidth)) as [H1 H2]; [apply affine60; cbn [In]; tauto|]. split; [exact H1|]. split; [exact H2|].
  assert (G : (if crWidth (F:=R) then true else false) = true) by (vm_compute; reflexivity). apply ok_of in G.
  destruct (C88_shipped false (ok_cons crWidth) [PFlt 0]) as [E|E]; [| |exact E].
  - apply sh_dimension; [rewrite <- G; unfold dimensions; cbn [In List.app]; tauto|now left].
  - exfalso. apply (f_equal (fun r => match r with Ok c => prim_types (csig (nval c)) | Err _ => [] end)) in E.
    assert (E1 : match crFix (F:=R) with Ok c => prim_types (csig (nval c)) | Err _ => [] end = [TPoint]) by (vm_compute; reflexivity).
    assert (E2 : prim_types (csig (nval (ok_cons crWidth))) = [TQuad]) by (vm_compute; reflexivity). rewrite E1, E2 in E. discriminate.
Qed.
Lemma planar87 : planar (l_prim l87).
Proof.
  unfold planar. assert (E : exists ds, map (fun m => vdata (nval m)) (preorder (l_prim l87)) = ds /\ Forall flat2 ds).
  { eexists. split; [lazy -[IZR]; reflexivity|]. repeat (apply Forall_cons; [first [left; reflexivity | right; eexists _, _; reflexivity]|]). apply Forall_nil. }
  destruct E as (ds & E & H). rewrite <- E in H. now rewrite Forall_map in H.
Qed.
Lemma bk83_shift n : shift_gradients bk83 n.
Proof.
  intros f g e Hg He. cbn [grad bk83]. unfold quotients. rewrite shifted_length by congruence. apply map_ext. intros j. f_equal. f_equal. apply nth_eq; [rewrite bump_length, !shifted_length; rewrite ?bump_length; congruence|].
  intros i. rewrite !bump_shifted. assert (U : length (unit_vector (length g) j) = length g) by apply unit_length. rewrite (shifted_length g 1 e) by congruence. rewrite !shifted_nth; rewrite ?shifted_length; try congruence. lra.
Qed.
Example C88_case : exists r x, reached tidy_relative l87 /\ reached affine_constraint l87 /\ Forall relative (flat_map given_cons acts87) /\ planar (l_prim l87) /\ exact_on bk83 l87 /\
  same_gradients bk83 (length (initial_global (l_prim l87))) /\ shift_gradients bk83 (length (initial_global (l_prim l87))) /\
  layout_residual l87 (l_prim l87) = Ok r /\ newton_solve bk83 l87 0 0 1 = Ok x.
Proof.
  destruct C87_case as (r & _ & H1 & H2 & _). assert (Ra : reached affine_constraint l87) by (apply given87, affine60; cbn [In]; tauto).
  destruct (C83_least_squares l87 bk83 r 0 0 1 Ra H1 H2 (Nat.le_refl 1)) as (p & info & _ & E & _). exists r, (p, info).
  split; [apply given87, relative_width|]. split; [exact Ra|]. split; [|split; [exact planar87|split; [exact H1|split; [apply bk83_same|split; [apply bk83_shift|split; [exact H2|exact E]]]]]].
  unfold acts87. cbn [flat_map given_cons List.app]. repeat (apply Forall_cons; [apply relative_width|]). apply Forall_nil.
Qed.

Print Assumptions C88_value.
Print Assumptions C88_residual.
Print Assumptions C88_shipped.
Print Assumptions C88_history.
Print Assumptions C88_solve.
Print Assumptions C88_centroid.
Print Assumptions C88_centroid_affine.
