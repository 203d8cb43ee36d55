(** C59: the error that 'newton' reports last is that of the iterate BEFORE the returned
    one; and a concrete layout where the returned one is worse.  C62 refuted. *)
From Coq Require Import Reals Lra.
From Verif Require Export P_Solver HistProofs.
From Verif Require Import P_Geom.
From Verif Require Export AffineProofs Cons.
Import ListNotations.
Local Open Scope R_scope.

(** What the solver does guarantee: the tree before the last step is within the
    reported error (and is the returned tree moved by the last correction). *)
Theorem C59_reported_error (step : list R -> list R -> result (list R)) (l : layout R) abs_tol rel_tol max_iter p ae re n a :
  wf (l_prim l) -> slashfree (l_prim l) -> ids_consistent (l_prim l) ->
  (forall g r d, step g r = Ok d -> length d = length g) ->
  solve_newton step l abs_tol rel_tol max_iter = Ok (p, (ae, re)) -> length ae = S n -> nth_error ae n = Some a ->
  exists q r d, same_structure (l_prim l) q /\ layout_residual l q = Ok r /\ two_norm r = Ok a /\
    step (initial_global q) r = Ok d /\ initial_global p = plus (initial_global q) d.
Proof.
  intros Hw Hs Hi Hst H Hl Ha. destruct (C57_newton_trace step l Hw Hs Hi Hst _ _ _ _ _ _ H) as (ps & Hr & Hp).
  destruct (nr_abs _ _ _ _ _ _ _ _ Hr n a Ha) as (q & r & Hq & Er & En). rewrite Hl in Hp.
  destruct (nr_step _ _ _ _ _ _ _ _ Hr n q p Hq Hp) as (r' & d & Er' & Ed & _ & Ev). rewrite Er in Er'. injection Er' as <-.
  exists q, r, d. split; [|auto]. pose proof (nr_structure _ _ _ _ _ _ _ _ Hr) as Hf. rewrite Forall_forall in Hf. apply Hf. eapply nth_error_In; eassumption.
Qed.

(** A line from (0,0) to (20/33, 3), to be of length 5 and height 3 with its start fixed. *)
Definition ok_cons (r : result (cons R)) : cons R := match r with Ok c => c | Err _ => Scalar end.
Definition acts59 : list (action R) :=
  [AddPrim (gline 0 0 (20/33) 3) "L"; AddConstraint (ok_cons crFix) ["L/Point0"%string] [PA1 [0;0]] "F";
   AddConstraint (ok_cons crYLength) ["L"%string] [PFlt 3] "Y"; AddConstraint (ok_cons crLength) ["L"%string] [PFlt 5] "D"].
Definition l59 : layout R := after (empty_layout 7) acts59.
Lemma runs59 : runs (empty_layout 7) acts59 l59.
Proof. apply all_ok_runs. vm_compute. reflexivity. Qed.
Lemma init59 : initial_global (l_prim l59) = [0; 0; 20/33; 3].
Proof. reflexivity. Qed.
Lemma res59 a b c d : global_res l59 [a; b; c; d] = Ok [a; b; d - b - 3; sqrt ((c - a) * (c - a) + (d - b) * (d - b)) - 5].
Proof.
  transitivity (Ok [a + -1 * 0; b + -1 * 0; (c - a) * 0 + ((d - b) * 1 + 0) + -1 * 3; sqrt ((c - a) * (c - a) + ((d - b) * (d - b) + 0)) + -1 * 5]).
  - lazy -[IZR Rplus Rminus Rmult Ropp Rlt_dec Req_EM_T Rdiv sqrt]. destruct (Rlt_dec _ 0) as [H|]; [|reflexivity]. exfalso. pose proof (Rle_0_sqr (c - a)). pose proof (Rle_0_sqr (d - b)). unfold Rsqr in *. lra.
  - f_equal. f_equal; [lra|]. f_equal; [lra|]. f_equal; [lra|]. f_equal. rewrite !Rplus_0_r. lra.
Qed.
Lemma four_list {A} (d : list A) : length d = 4%nat -> exists a b c e, d = [a; b; c; e].
Proof. do 4 (destruct d as [|? d]; [discriminate|]). destruct d; [|discriminate]. intros _. eauto. Qed.
Lemma limit_local f h x eps v : 0 < eps -> (forall t, Rabs t < eps -> f (x + t) = h (x + t)) -> derivable_pt_lim f x v -> derivable_pt_lim h x v.
Proof.
  intros He E H e Hpos. destruct (H e Hpos) as [del Hdel].
  assert (Hm : 0 < Rmin eps del) by (apply Rmin_pos; [assumption|apply cond_pos]).
  exists (mkposreal _ Hm). cbn. intros t Ht0 Ht. rewrite <- E by (eapply Rlt_le_trans; [exact Ht|apply Rmin_l]).
  assert (E0 : f x = h x) by (rewrite <- (Rplus_0_r x); apply E; now rewrite Rabs_R0). rewrite <- E0. apply Hdel; [exact Ht0|]. eapply Rlt_le_trans; [exact Ht|apply Rmin_r].
Qed.
Lemma limit_line a b : derivable_pt_lim (fun t => a + t * b) 0 b.
Proof.
  intros e He. exists (mkposreal 1 Rlt_0_1). intros h Hh _. match goal with |- Rabs ?x < e => replace x with 0 end; [now rewrite Rabs_R0|]. field. exact Hh.
Qed.
Lemma sqrt59 : sqrt ((20/33) * (20/33) + 3 * 3) = 101/33.
Proof. replace (20/33 * (20/33) + 3 * 3) with ((101/33) * (101/33)) by lra. apply sqrt_square. lra. Qed.
Lemma limit_length u : derivable_pt_lim (fun t => sqrt ((20/33 + t * u) * (20/33 + t * u) + 3 * 3) - 5) 0 (20/101 * u).
Proof.
  replace (20/101 * u) with ((/ (2 * sqrt ((20/33 + 0 * u) * (20/33 + 0 * u) + 3 * 3))) * (40/33 * u) - 0).
  - apply (derivable_pt_lim_minus (fun t => sqrt ((20/33 + t * u) * (20/33 + t * u) + 3 * 3)) (fun _ => 5)); [|apply derivable_pt_lim_const].
    apply (derivable_pt_lim_comp (fun t => (20/33 + t * u) * (20/33 + t * u) + 3 * 3) sqrt).
    + replace (40/33 * u) with ((u * (20/33 + 0 * u) + (20/33 + 0 * u) * u) + 0) by lra.
      apply (derivable_pt_lim_plus (fun t => (20/33 + t * u) * (20/33 + t * u)) (fun _ => 3 * 3)); [|apply derivable_pt_lim_const].
      apply (derivable_pt_lim_mult (fun t => 20/33 + t * u) (fun t => 20/33 + t * u)); apply limit_line.
    + apply derivable_pt_lim_sqrt. nra.
  - replace ((20/33 + 0 * u) * (20/33 + 0 * u) + 3 * 3) with (20/33 * (20/33) + 3 * 3) by lra. rewrite sqrt59. lra.
Qed.
(** The only Newton correction at the initial point. *)
Lemma directional59 d : directional (global_res l59) [0; 0; 20/33; 3] d (map Ropp [0; 0; 3 - 0 - 3; sqrt ((20/33 - 0) * (20/33 - 0) + (3 - 0) * (3 - 0)) - 5]) <-> d = [0; 0; 64/33 * (101/20); 0].
Proof.
  rewrite !Rminus_0_r, sqrt59. split.
  - intros (Hd & eps & rs & He & Hrs & Hv). apply four_list in Hd as (p & q & u & w & ->). cbn [map] in *.
    assert (E : forall t, Rabs t < eps -> rs t = [0 + t * p; 0 + t * q; (3 + t * w) - (0 + t * q) - 3;
       sqrt (((20/33 + t * u) - (0 + t * p)) * ((20/33 + t * u) - (0 + t * p)) + ((3 + t * w) - (0 + t * q)) * ((3 + t * w) - (0 + t * q))) - 5]).
    { intros t Ht. destruct (Hrs t Ht) as [E _]. unfold shifted in E. cbn [map zip fst snd] in E. rewrite res59 in E. now injection E as <-. }
    assert (P : forall i h, (forall t, Rabs t < eps -> nth i (rs t) 0 = h t) -> derivable_pt_lim h 0 (nth i [-0; -0; -(3 - 3); -(101/33 - 5)] 0)).
    { intros i h Eh. apply (limit_local (fun t => nth i (rs t) 0) h 0 eps _ He); [|apply Hv]. intros t Ht. rewrite Rplus_0_l. now apply Eh. }
    assert (Ep : p = 0).
    { pose proof (uniqueness_limite _ _ _ _ (P 0%nat (fun t => 0 + t * p) (fun t Ht => ltac:(now rewrite E))) (limit_line 0 p)) as U. cbn in U. lra. }
    assert (Eq : q = 0).
    { pose proof (uniqueness_limite _ _ _ _ (P 1%nat (fun t => 0 + t * q) (fun t Ht => ltac:(now rewrite E))) (limit_line 0 q)) as U. cbn in U. lra. }
    assert (Ew : w = 0).
    { pose proof (uniqueness_limite _ _ _ _ (P 2%nat (fun t => 0 + t * w) (fun t Ht => ltac:(rewrite E by assumption; cbn [nth]; rewrite Eq; lra))) (limit_line 0 w)) as U. cbn in U. lra. }
    assert (Eu : u = 64/33 * (101/20)).
    { pose proof (uniqueness_limite _ _ _ _ (P 3%nat (fun t => sqrt ((20/33 + t * u) * (20/33 + t * u) + 3 * 3) - 5)
        (fun t Ht => ltac:(rewrite E by assumption; cbn [nth]; rewrite Eq, Ep, Ew; f_equal; f_equal; lra))) (limit_length u)) as U. cbn in U. lra. }
    now rewrite Ep, Eq, Eu, Ew.
  - intros ->. split; [reflexivity|]. set (u := 64/33 * (101/20)).
    exists 1, (fun t => [0 + t * 0; 0 + t * 0; (3 + t * 0) - (0 + t * 0) - 3;
       sqrt (((20/33 + t * u) - (0 + t * 0)) * ((20/33 + t * u) - (0 + t * 0)) + ((3 + t * 0) - (0 + t * 0)) * ((3 + t * 0) - (0 + t * 0))) - 5]).
    split; [lra|]. split; [intros t _; split; [unfold shifted; cbn [map zip fst snd]; apply res59|reflexivity]|].
    intros i. destruct i as [|[|[|[|i]]]]; cbn [nth map].
    5: { destruct i; apply derivable_pt_lim_const. }
    + replace (-0) with 0 by lra. apply limit_line.
    + replace (-0) with 0 by lra. apply limit_line.
    + apply (limit_local (fun t => 0 + t * 0) _ 0 1); [lra| |replace (-(3-3)) with 0 by lra; apply limit_line]. intros t _. lra.
    + apply (limit_local (fun t => sqrt ((20/33 + t * u) * (20/33 + t * u) + 3 * 3) - 5) _ 0 1); [lra| |].
      * intros t _. f_equal. f_equal. lra.
      * replace (-(101/33 - 5)) with (20/101 * u) by (unfold u; lra). apply limit_length.
Qed.

(** The layout is reachable; its Newton correction exists and is unique, so every exact
    backend computes it; the solver stops after one iteration, reporting an error within
    the tolerance 2, and returns primitives whose error is above 5. *)
Theorem C59_converged_refuted : exists l : layout R,
  (exists acts, runs (empty_layout 7) acts l) /\
  (exists step, forall r, global_res l (initial_global (l_prim l)) = Ok r ->
     exists d, step (initial_global (l_prim l)) r = Ok d /\ directional (global_res l) (initial_global (l_prim l)) d (map Ropp r)) /\
  (forall step rel_tol max_iter,
     (forall r, global_res l (initial_global (l_prim l)) = Ok r ->
        exists d, step (initial_global (l_prim l)) r = Ok d /\ directional (global_res l) (initial_global (l_prim l)) d (map Ropp r)) ->
     exists p a rel r a', solve_newton step l 2 rel_tol (S max_iter) = Ok (p, ([a], [rel])) /\ a <= 2 /\
       layout_residual l p = Ok r /\ two_norm r = Ok a' /\ 5 < a').
Proof.
  exists l59. split; [eexists; exact runs59|]. split.
  - exists (fun _ _ => Ok [0; 0; 64/33 * (101/20); 0]). intros r Hr. eexists. split; [reflexivity|].
    rewrite init59 in *. rewrite res59 in Hr. assert (Er := f_equal (fun x => match x with Ok y => y | Err _ => [] end) Hr). cbn in Er. subst r. now apply directional59.
  - intros step rel_tol max_iter Hst. rewrite init59 in Hst. destruct (Hst _ (res59 _ _ _ _)) as (d & Ed & Hd). apply directional59 in Hd. subst d.
    assert (Hn : norm [0; 0; 3 - 0 - 3; sqrt ((20/33 - 0) * (20/33 - 0) + (3 - 0) * (3 - 0)) - 5] = Ok (64/33)).
    { rewrite !Rminus_0_r, sqrt59. unfold norm. cbn [map nsum fold_right nmul NumR nadd nsqrt n0 nofZ]. unfold Rsqrt_r. destruct (Rlt_dec _ 0) as [H|_]; [exfalso; lra|].
      f_equal. match goal with |- sqrt ?x = _ => replace x with ((64/33) * (64/33)) by lra end. apply sqrt_square. lra. }
    set (g1 := [0 + 0; 0 + 0; 20/33 + 64/33 * (101/20); 3 + 0]).
    assert (Hloop : newton_loop (global_res l59) step 2 rel_tol (S max_iter) (newton_init [0; 0; 20/33; 3]) =
       Ok {| ns_n := 1; ns_g := g1; ns_abs := [64/33]; ns_rel := [rel_of (64/33) (64/33)]; ns_abs_err := Fin (64/33); ns_rel_err := rel_of (64/33) (64/33) |}).
    { cbn [newton_loop newton_init ns_abs_err ns_rel_err gtb andb]. unfold newton_body. cbn [ns_g newton_init]. rewrite res59. cbn [bind]. rewrite Ed. cbn [bind].
      change (vadd [0; 0; 20/33; 3] [0; 0; 64/33 * (101/20); 0]) with (Ok g1). cbn [bind]. rewrite Hn. cbn [bind ns_n ns_abs ns_rel app hd newton_init Nat.add].
      destruct max_iter as [|m]; [reflexivity|]. cbn [newton_loop ns_abs_err gtb nltb NumR]. unfold Rltb. destruct (Rlt_dec 2 (64/33)) as [H|_]; [exfalso; lra|]. reflexivity. }
    assert (Hres : layout_residual l59 (new_tree (l_prim l59) g1) = Ok [0 + 0; 0 + 0; 3 + 0 - (0 + 0) - 3;
        sqrt ((20/33 + 64/33 * (101/20) - (0 + 0)) * (20/33 + 64/33 * (101/20) - (0 + 0)) + (3 + 0 - (0 + 0)) * (3 + 0 - (0 + 0))) - 5]).
    { pose proof (res59 (0 + 0) (0 + 0) (20/33 + 64/33 * (101/20)) (3 + 0)) as H. unfold global_res in H. fold g1 in H. exact H. }
    assert (Hfin : forall s, 101/10 <= s -> exists a', norm [0 + 0; 0 + 0; 3 + 0 - (0 + 0) - 3; s - 5] = Ok a' /\ 5 < a').
    { intros s Hs. assert (Hm : 25 < (s - 5) * (s - 5)) by (assert (H5 : 51/10 <= s - 5) by lra; assert (H6 : 5 * 5 < (s - 5) * (s - 5)) by (apply Rmult_le_0_lt_compat; lra); lra).
      unfold norm. cbn [map nsum fold_right nmul NumR nadd nsqrt n0 nofZ]. unfold Rsqrt_r. destruct (Rlt_dec _ 0) as [H|_]; [exfalso; lra|].
      eexists. split; [reflexivity|]. match goal with |- 5 < sqrt ?x => assert (Hx : 5 * 5 < x) by lra end.
      rewrite <- (sqrt_square 5) at 1 by lra. apply sqrt_lt_1_alt. lra. }
    destruct (Hfin (sqrt ((20/33 + 64/33 * (101/20) - (0 + 0)) * (20/33 + 64/33 * (101/20) - (0 + 0)) + (3 + 0 - (0 + 0)) * (3 + 0 - (0 + 0))))) as (a' & Ha & Ha').
    { rewrite <- (sqrt_square (101/10)) at 1 by lra. apply sqrt_le_1_alt. lra. }
    eexists _, (64/33), _, _, a'. split; [|split; [lra|split; [exact Hres|split; assumption]]].
    unfold solve_newton. rewrite init59, Hloop. cbn [bind ns_g]. reflexivity.
Qed.

(** ** C62 *)
(** A point at (3,0), to be fixed at the origin; an optimiser that tries (2,0) and
    reports the true objective value there. *)
Definition acts62 : list (action R) := [AddPrim (gpt 1 3 0) "P"; AddConstraint (ok_cons crFix) ["P"%string] [PA1 [0; 0]] "F"].
Definition l62 : layout R := after (empty_layout 7) acts62.
Definition try62 (f : list R -> result R) (x0 : list R) (k : nat) : list (R * list R) :=
  if Nat.eqb (length x0) 2 then match f [2; 0] with Ok v => [(v, [2; 0])] | Err _ => [] end else [].
Lemma res62 a b : global_res l62 [a; b] = Ok [a; b].
Proof.
  transitivity (Ok [a + -1 * 0; b + -1 * 0]); [lazy -[IZR Rplus Rminus Rmult Ropp Rlt_dec Req_EM_T Rdiv]; reflexivity|].
  f_equal. f_equal; [lra|]. f_equal. lra.
Qed.
Lemma res62' a b r : layout_residual l62 (new_tree (l_prim l62) [a; b]) = Ok r -> r = [a; b].
Proof. intros H. pose proof (res62 a b) as E. unfold global_res in E. change (tree_of_global (l_prim l62) [a; b]) with (Ok (new_tree (l_prim l62) [a; b])) in E. cbn [bind] in E. congruence. Qed.
(** The reported absolute error is 4 where the 2-norm of the residual is 2; the reported
    relative error is 1 where the ratio to the initial error is 2/3. *)
Theorem C62_minimize_history_refuted : exists l minimizer p,
  (exists acts, runs (empty_layout 7) acts l) /\
  (forall x0 k, Forall (fun fx => objective l (snd fx) = Ok (fst fx) /\ length (snd fx) = length x0) (minimizer (objective l) x0 k)) /\
  solve_minimize minimizer l (1/1000) (1/1000) 1 = Ok (p, ([4], [1])) /\
  (exists r, layout_residual l p = Ok r /\ two_norm r = Ok 2) /\
  (exists r, layout_residual l (l_prim l) = Ok r /\ two_norm r = Ok 3).
Proof.
  assert (Ho : forall a b, objective l62 [a; b] = Ok (a * a + (b * b + 0))) by (intros a b; unfold objective; rewrite res62; reflexivity).
  assert (N1 : forall a, 0 <= a -> norm [a; 0] = Ok a).
  { intros a Ha. unfold norm. cbn [map nsum fold_right nmul NumR nadd nsqrt n0 nofZ]. unfold Rsqrt_r. destruct (Rlt_dec _ 0) as [H|_]; [exfalso; nra|]. f_equal.
    replace (a * a + (0 * 0 + 0)) with (a * a) by lra. now apply sqrt_square. }
  exists l62, try62, (new_tree (l_prim l62) [2; 0]). split; [exists acts62; apply all_ok_runs; vm_compute; reflexivity|]. split; [|split; [|split]].
  - intros x0 k. unfold try62. destruct (Nat.eqb_spec (length x0) 2) as [E|]; [|constructor]. rewrite Ho. constructor; [|constructor]. split; [apply Ho|now rewrite E].
  - unfold solve_minimize. change (initial_global (l_prim l62)) with [3; 0]. rewrite Ho. cbn [bind]. unfold try62 at 1. cbn [length Nat.eqb]. rewrite Ho.
    cbn [run_callback app hd ndiv NumR]. unfold Rdiv_r. destruct (Req_EM_T _ 0) as [H|_]; [exfalso; lra|]. cbn [bind].
    assert (E : forall b : bool, (if b then @Ok (list R * list R * list R) ([2 * 2 + (0 * 0 + 0)], [(2 * 2 + (0 * 0 + 0)) / (2 * 2 + (0 * 0 + 0))], [2; 0])
       else Ok ([2 * 2 + (0 * 0 + 0)], [(2 * 2 + (0 * 0 + 0)) / (2 * 2 + (0 * 0 + 0))], [2; 0])) = Ok ([4], [1], [2; 0])).
    { intros []; repeat f_equal; lra. }
    rewrite E. reflexivity.
  - exists [2; 0]. split; [|apply N1; lra]. pose proof (res62 2 0) as H. unfold global_res in H. exact H.
  - exists [3 + -1 * 0; 0 + -1 * 0]. split; [reflexivity|]. replace (3 + -1 * 0) with 3 by lra. replace (0 + -1 * 0) with 0 by lra. apply N1. lra.
Qed.

(** C57, C58: the layout [l62] with the backend that undoes the residual. *)
Definition undo (g r : list R) : result (list R) := if Nat.eqb (length r) (length g) then Ok (map Ropp r) else Err ValueErr.
Example C57_case : (wf (l_prim l62) /\ slashfree (l_prim l62) /\ ids_consistent (l_prim l62)) /\
  (forall g r d, undo g r = Ok d -> length d = length g) /\
  (forall q, same_structure (l_prim l62) q -> exists r a d, layout_residual l62 q = Ok r /\ two_norm r = Ok a /\ undo (initial_global q) r = Ok d).
Proof.
  split; [|split].
  - split; [repeat constructor; intros []|]. split; [repeat constructor|]. intros a b Ha Hb. cbn in Ha, Hb. intuition (subst; cbn in *; try discriminate; reflexivity).
  - intros g r d. unfold undo. destruct (Nat.eqb_spec (length r) (length g)) as [E|]; [|discriminate]. intros H. injection H as <-. now rewrite map_length.
  - intros q [H H2]. pose proof (H []) as H0. pose proof (H ["P"%string]) as H1. cbn in H0, H1. destruct q as [t v ch]. cbn in H0. injection H0 as <- Hk Hv.
    destruct ch as [|[k c] [|? ?]]; try discriminate. cbn in Hk. injection Hk as <-. cbn in H1. destruct c as [t' v' ch']. cbn in H1. injection H1 as <- Hk' Hv'.
    destruct ch'; [|discriminate]. destruct v as [i [|? ?]]; [|discriminate]. destruct v' as [j [|x [|y [|? ?]]]]; try discriminate.
    exists [x + -1 * 0; y + -1 * 0]. eexists _, _. split; [lazy -[IZR Rplus Rminus Rmult Ropp Rlt_dec Req_EM_T Rdiv]; reflexivity|]. split.
    + unfold two_norm. cbn [map fold_right nmul NumR nadd nsqrt n0 nofZ]. unfold Rsqrt_r. destruct (Rlt_dec _ 0) as [G|_]; [exfalso; nra|reflexivity].
    + unfold undo. match goal with |- context [Nat.eqb ?a ?b] => assert (E : a = b) end.
      { assert (Hij : i <> j). { intros ->. specialize (proj2 (H2 [] ["P"%string] _ _ _ _ eq_refl eq_refl eq_refl eq_refl) eq_refl). cbn. discriminate. }
        unfold initial_global, filter_unique. cbn. unfold filter_step. cbn. destruct (Nat.eqb_spec j i); [congruence|]. reflexivity. } rewrite E, Nat.eqb_refl. reflexivity.
Qed.

Print Assumptions C59_reported_error.
Print Assumptions C59_converged_refuted.
Print Assumptions C62_minimize_history_refuted.
