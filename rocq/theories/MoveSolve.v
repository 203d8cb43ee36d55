(** The solver on moved layouts. *)
From Coq Require Import Reals Lra.
From Verif Require Export MoveProofs SolverProofs BackendAffine Station.
Local Open Scope R_scope.

Section Pack.
  Variables a b : R.
  Notation prim := (prim R).
  Notation move := (move a b).
  Notation displace := (displace a b).
  Definition mvv (v : pv R) : pv R := {| vid := vid v; vdata := displace (vdata v) |}.
  Fixpoint slide (g : list R) : list R := match g with x :: y :: r => (x + a) :: (y + b) :: slide r | _ => g end.
  Fixpoint alternate (n : nat) : list R := match n with S (S n) => a :: b :: alternate n | _ => repeat 0 n end.

  Lemma two_ind (P : nat -> Prop) : P 0%nat -> P 1%nat -> (forall n, P n -> P (S (S n))) -> forall n, P n.
  Proof. intros H0 H1 H. assert (G : forall n, P n /\ P (S n)) by (induction n as [|n [I1 I2]]; auto). intros n. apply G. Qed.
  Lemma alternate_length n : length (alternate n) = n.
  Proof. induction n as [| |n IH] using two_ind; cbn; auto. Qed.
  Lemma slide_shifted n : forall g, length g = n -> slide g = shifted g 1 (alternate n).
  Proof.
    induction n as [| |n IH] using two_ind; intros g Hg.
    - destruct g; [reflexivity|discriminate].
    - destruct g as [|x [|]]; try discriminate. unfold shifted. cbn. f_equal. lra.
    - destruct g as [|x [|y g]]; try discriminate. cbn [slide alternate]. unfold shifted. cbn [zip map fst snd]. f_equal; [lra|]. f_equal; [lra|]. apply IH. now injection Hg.
  Qed.
  Lemma slide_length g : length (slide g) = length g.
  Proof. rewrite (slide_shifted _ g eq_refl). apply shifted_length, alternate_length. Qed.

  Lemma move_preorder p : preorder (move p) = map move (preorder p).
  Proof.
    induction p as [t v ch IH] using node_ind'. cbn [MoveSpec.move preorder map]. f_equal. rewrite Forall_forall in IH.
    rewrite flat_map_concat_map, map_map, flat_map_concat_map, concat_map, map_map. f_equal. apply map_ext_in. intros kc Hk. cbn [snd]. now apply (IH kc).
  Qed.
  Lemma move_nval p : nval (move p) = mvv (nval p).
  Proof. destruct p. reflexivity. Qed.
  Lemma move_values p : node_values (move p) = map mvv (node_values p).
  Proof. unfold node_values. rewrite move_preorder, !map_map. apply map_ext. intros n. apply move_nval. Qed.
  Lemma move_wf p : wf p -> wf (move p).
  Proof.
    induction p as [t v ch IH] using node_ind'. intros H. inversion H as [? ? ? Hk Hc]; subst. cbn. constructor.
    - unfold dkeys. rewrite map_map. exact Hk.
    - rewrite Forall_forall in *. intros kc Hin. apply in_map_iff in Hin as (kc' & <- & Hin). cbn [snd]. apply IH; auto.
  Qed.
  Lemma move_slashfree p : slashfree p -> slashfree (move p).
  Proof.
    induction p as [t v ch IH] using node_ind'. intros H. inversion H as [? ? ? Hk Hc]; subst. cbn. constructor.
    - rewrite Forall_forall in *. intros kc Hin. apply in_map_iff in Hin as (kc' & <- & Hin). cbn [fst]. now apply Hk.
    - rewrite Forall_forall in *. intros kc Hin. apply in_map_iff in Hin as (kc' & <- & Hin). cbn [snd]. apply IH; auto.
  Qed.
  Lemma move_uniques p : wf p -> slashfree p -> snd (filter_unique (move p)) = map mvv (snd (filter_unique p)).
  Proof.
    intros Hw Hs. rewrite !filter_values by auto using move_wf, move_slashfree. rewrite move_values. change (@nil (pv R)) with (map mvv []) at 1. apply firsts_map. intros v w _ _. reflexivity.
  Qed.
  Definition flats (l : list (pv R)) : Prop := Forall (fun v => flat2 (vdata v)) l.
  Lemma planar_values' p : planar p -> flats (node_values p).
  Proof. intros H. unfold flats, node_values. now apply Forall_map. Qed.
  Lemma planar_uniques p : wf p -> slashfree p -> planar p -> flats (snd (filter_unique p)).
  Proof.
    intros Hw Hs Hp. rewrite filter_values by assumption. pose proof (planar_values' p Hp) as H. unfold flats in *. rewrite Forall_forall in *. intros v Hv. apply H. eapply firsts_incl; eassumption.
  Qed.
  Lemma slide_global l : flats l -> global_of (map mvv l) = slide (global_of l).
  Proof.
    unfold global_of. induction 1 as [|v l Hv H IH]; [reflexivity|]. cbn [map List.concat]. rewrite IH. cbn [mvv vdata]. destruct Hv as [->|(x & y & ->)]; reflexivity.
  Qed.
  Lemma displace_length d : length (displace d) = length d.
  Proof. destruct d as [|x [|y [|]]]; reflexivity. Qed.
  Lemma slide_initial p : wf p -> slashfree p -> planar p -> initial_global (move p) = slide (initial_global p).
  Proof. intros Hw Hs Hp. unfold initial_global. rewrite move_uniques by assumption. now apply slide_global, planar_uniques. Qed.
  Lemma slide_slices l : flats l -> forall g, length g = length (global_of l) -> slices (map mvv l) (slide g) = map displace (slices l g).
  Proof.
    unfold slices. cbv zeta. intros H g Hg. rewrite !chunk_cut. revert g Hg. unfold sizes_of, global_of. induction H as [|v l Hv H IH]; intros g Hg; [reflexivity|].
    cbn [map cut List.concat] in *. rewrite app_length in Hg. cbn [mvv vdata]. rewrite displace_length. destruct Hv as [Ev|(x & y & Ev)]; rewrite Ev in *; cbn [length firstn skipn Nat.add] in *.
    - f_equal. now apply IH.
    - destruct g as [|u [|w g]]; try discriminate. cbn [slide firstn skipn]. f_equal. apply IH. now injection Hg.
  Qed.
  Lemma slices_flat l g : flats l -> length g = length (global_of l) -> Forall flat2 (slices l g).
  Proof.
    unfold slices. cbv zeta. rewrite chunk_cut. intros H. revert g. unfold sizes_of, global_of. induction H as [|v l Hv H IH]; intros g Hg; [constructor|].
    cbn [map cut List.concat] in *. rewrite app_length in Hg. destruct Hv as [Ev|(x & y & Ev)]; rewrite Ev in *; cbn [length firstn skipn Nat.add] in *.
    - constructor; [now left|]. now apply IH.
    - destruct g as [|u [|w g]]; try discriminate. cbn [firstn skipn]. constructor; [right; eauto|]. apply IH. now injection Hg.
  Qed.
  Lemma fresh_move cs : fresh_values (map displace cs) = map mvv (fresh_values cs).
  Proof.
    unfold fresh_values. rewrite map_length, map_map. generalize (seq 0 (length cs)). induction cs as [|c cs IH]; intros [|i s]; try reflexivity. cbn [map zip fst snd]. now rewrite IH.
  Qed.
  Lemma pos_move i l : pos i (map mvv l) = pos i l.
  Proof. induction l as [|v l IH]; [reflexivity|]. cbn. now rewrite IH. Qed.
  Lemma tmap_move (G G' : prim -> ptype * pv R) p : (forall n, In n (preorder p) -> G' (move n) = (fst (G n), mvv (snd (G n)))) -> tmap G' (move p) = move (tmap G p).
  Proof.
    induction p as [t v ch IH] using node_ind'. intros H. pose proof (H _ (or_introl eq_refl)) as H0. cbn [tmap MoveSpec.move] in *. rewrite H0. cbn [fst snd mvv vid vdata]. f_equal. rewrite !map_map. apply map_ext_in. intros kc Hk. cbn [fst snd].
    f_equal. rewrite Forall_forall in IH. apply (IH kc Hk). intros n Hn. apply H. cbn [preorder]. right. apply in_flat_map. eauto.
  Qed.
  Lemma new_move p g : wf p -> slashfree p -> planar p -> length g = length (initial_global p) -> new_tree (move p) (slide g) = move (new_tree p g).
  Proof.
    intros Hw Hs Hp Hg. unfold new_tree, rebuilt. rewrite move_uniques by assumption. pose proof (planar_uniques p Hw Hs Hp) as Hf. rewrite (slide_slices _ Hf g Hg), fresh_move. apply tmap_move. intros n Hn.
    cbn [fst snd]. rewrite move_type, move_nval, pos_move. cbn [mvv vid]. f_equal. destruct (pos _ _) as [i|]; [|reflexivity]. symmetry. change (nval n) with (nval n) in *. rewrite <- (map_nth mvv). reflexivity.
  Qed.
  Lemma new_planar p g : wf p -> slashfree p -> planar p -> length g = length (initial_global p) -> planar (new_tree p g).
  Proof.
    intros Hw Hs Hp Hg. apply (proj1 (Forall_map (@nval _ _) (fun v => flat2 (vdata v)) (preorder (new_tree p g)))). change (flats (node_values (new_tree p g))). rewrite new_values. apply Forall_map, Forall_forall. intros v Hv.
    destruct (new_value p g Hw Hs v Hv) as (i & c & Ei & Ec & En). unfold renew. rewrite Ei, En. cbn [vdata]. apply nth_error_In in Ec. pose proof (slices_flat _ g (planar_uniques p Hw Hs Hp) Hg) as F. rewrite Forall_forall in F. now apply F.
  Qed.
  Lemma tmap_move' (G G' : prim -> ptype * pv R) p : (forall n, In n (preorder p) -> G' n = (fst (G n), mvv (snd (G n)))) -> tmap G' p = move (tmap G p).
  Proof.
    induction p as [t v ch IH] using node_ind'. intros H. pose proof (H _ (or_introl eq_refl)) as H0. cbn [tmap MoveSpec.move] in *. rewrite H0. cbn [fst snd mvv vid vdata]. f_equal. rewrite !map_map. apply map_ext_in. intros kc Hk. cbn [fst snd].
    f_equal. rewrite Forall_forall in IH. apply (IH kc Hk). intros n Hn. apply H. cbn [preorder]. right. apply in_flat_map. eauto.
  Qed.
  Lemma new_slide p g : wf p -> slashfree p -> planar p -> length g = length (initial_global p) -> new_tree p (slide g) = move (new_tree p g).
  Proof.
    intros Hw Hs Hp Hg. unfold new_tree, rebuilt. pose proof (planar_uniques p Hw Hs Hp) as Hf.
    assert (E : slices (snd (filter_unique p)) (slide g) = map displace (slices (snd (filter_unique p)) g)).
    { rewrite <- (slide_slices _ Hf g Hg). unfold slices. cbv zeta. f_equal. assert (Z : sizes_of (map mvv (snd (filter_unique p))) = sizes_of (snd (filter_unique p))) by (unfold sizes_of; rewrite map_map; apply map_ext; intros v; apply displace_length). now rewrite Z. }
    rewrite E, fresh_move. apply tmap_move'. intros n Hn. cbn [fst snd]. f_equal.
    destruct (new_value p g Hw Hs (nval n) (in_map _ _ _ Hn)) as (i & c & Ei & Ec & En). rewrite Ei, <- (map_nth mvv). apply nth_indep. rewrite map_length, fresh_length. apply nth_error_Some. congruence.
  Qed.
End Pack.

(** ** The residual of a layout *)
Section Layout.
  Variables a b : R.
  Notation layout := (layout R).
  Variable l : layout.
  Hypothesis Hrel : Forall (rel_cls a b) (map (@ntype _ _) (dpre (nch (l_cons l)))).
  Hypothesis Hw : wf (l_prim l).
  Hypothesis Hs : slashfree (l_prim l).
  Hypothesis Hp : planar (l_prim l).
  Let n := length (initial_global (l_prim l)).
  Let l' := moved_layout a b l.
  Lemma residual_move p : planar p -> layout_residual l (move a b p) = layout_residual l p.
  Proof. intros H. unfold layout_residual. rewrite flat_constraints_dpre. now rewrite assem_move. Qed.
  Lemma global_move g : length g = n -> global_res l' (slide a b g) = global_res l g.
  Proof.
    intros Hg. unfold global_res. cbn [l' moved_layout l_prim]. rewrite !tree_of_global_ok by auto using move_wf, move_slashfree. cbn [bind]. rewrite new_move by assumption.
    change (layout_residual l' (move a b (new_tree (l_prim l) g))) with (layout_residual l (move a b (new_tree (l_prim l) g))). apply residual_move. now apply new_planar.
  Qed.
  (** The residual does not change in the directions of a common translation. *)
  Lemma global_slide g : length g = n -> global_res l (slide a b g) = global_res l g.
  Proof.
    intros Hg. unfold global_res. rewrite !tree_of_global_ok by assumption. cbn [bind]. rewrite new_slide by assumption. apply residual_move. now apply new_planar.
  Qed.

  Variable bk : backend.
  Hypothesis Hbk : exact_on bk l.
  Hypothesis Hsame : same_gradients bk n.
  Hypothesis Hshift : shift_gradients bk n.
  Lemma step_move g r : length g = n -> lstsq_step bk (global_res l') (slide a b g) r = lstsq_step bk (global_res l) g r.
  Proof.
    intros Hg. unfold lstsq_step. rewrite slide_length. f_equal. unfold jacobian. apply map_ext. intros i. rewrite (slide_shifted a b _ g eq_refl), Hshift by (rewrite ?alternate_length; auto).
    apply Hsame; [exact Hg|]. intros h Hh. rewrite Hg, <- Hh, <- (slide_shifted a b _ h eq_refl). unfold component. now rewrite global_move.
  Qed.
  Definition slid (s : newton_state (F:=R)) : newton_state (F:=R) :=
    {| ns_n := ns_n s; ns_g := slide a b (ns_g s); ns_abs := ns_abs s; ns_rel := ns_rel s; ns_abs_err := ns_abs_err s; ns_rel_err := ns_rel_err s |}.
  Lemma loop_move abs_tol rel_tol left : forall s, length (ns_g s) = n ->
    newton_loop (global_res l') (lstsq_step bk (global_res l')) abs_tol rel_tol left (slid s) = fwd slid (newton_loop (global_res l) (lstsq_step bk (global_res l)) abs_tol rel_tol left s) /\
    (forall s', newton_loop (global_res l) (lstsq_step bk (global_res l)) abs_tol rel_tol left s = Ok s' -> length (ns_g s') = n).
  Proof.
    induction left as [|left IH]; intros s Hg; cbn [newton_loop]; [split; [reflexivity|intros s' E; now injection E as <-]|]. cbn [slid ns_abs_err ns_rel_err].
    destruct (_ && _)%bool; [|split; [reflexivity|intros s' E; now injection E as <-]]. unfold newton_body. cbn [slid ns_g ns_abs ns_rel ns_n]. rewrite global_move by exact Hg. destruct (global_res l (ns_g s)) as [r|]; [|split; [reflexivity|discriminate]]. cbn [bind].
    rewrite step_move by exact Hg. destruct (lstsq_defined n (global_res l) bk Hbk (ns_g s) r Hg) as (d & -> & Ld & _). cbn [bind].
    assert (Lg : length d = length (ns_g s)) by congruence. rewrite (shifted_vadd (ns_g s) d Lg). rewrite shifted_vadd by now rewrite slide_length. cbn [bind].
    assert (E : shifted (slide a b (ns_g s)) 1 d = slide a b (shifted (ns_g s) 1 d)).
    { assert (La : length (alternate a b n) = length (ns_g s)) by (rewrite alternate_length; now rewrite Hg).
      assert (L1 : length (shifted (ns_g s) 1 d) = length (ns_g s)) by (apply shifted_length; exact Lg). assert (L2 : length (shifted (ns_g s) 1 (alternate a b n)) = length (ns_g s)) by (apply shifted_length; exact La).
      rewrite (slide_shifted a b n (ns_g s) Hg), (slide_shifted a b n (shifted (ns_g s) 1 d)) by (now rewrite L1). apply nth_eq.
      - rewrite !shifted_length; congruence.
      - intros i. rewrite (shifted_nth (shifted (ns_g s) 1 _) 1 d) by congruence. rewrite (shifted_nth (shifted (ns_g s) 1 d)) by congruence. rewrite !shifted_nth by congruence. lra. }
    rewrite E. destruct (norm r) as [x|]; [|split; [reflexivity|discriminate]]. cbn [bind].
    set (s1 := {| ns_n := _; ns_g := shifted (ns_g s) 1 d; ns_abs := _; ns_rel := _; ns_abs_err := _; ns_rel_err := _ |}). apply (IH s1). unfold s1. cbn [ns_g]. rewrite (shifted_length _ 1 d Lg). exact Hg.
  Qed.
  Lemma solve_move abs_tol rel_tol max_iter : newton_solve bk l' abs_tol rel_tol max_iter = fwd (fun x => (move a b (fst x), snd x)) (newton_solve bk l abs_tol rel_tol max_iter).
  Proof.
    unfold newton_solve, solve_newton. cbn [l' moved_layout l_prim]. rewrite slide_initial by assumption. fold l'.
    destruct (loop_move abs_tol rel_tol max_iter (newton_init (initial_global (l_prim l))) eq_refl) as [E L]. change (slid (newton_init (initial_global (l_prim l)))) with (newton_init (slide a b (initial_global (l_prim l)))) in E.
    rewrite E. destruct (newton_loop (global_res l) _ _ _ _ _) as [s|] eqn:Es; [|reflexivity]. cbn [fwd bind slid ns_g ns_abs ns_rel]. rewrite !tree_of_global_ok by auto using move_wf, move_slashfree. cbn [bind fwd fst snd].
    rewrite new_move by (try assumption; now apply L). reflexivity.
  Qed.
End Layout.

(** ** The centroid *)
Lemma dotp_shift d : forall e s y, length e = length d -> length y = length d -> dotp (shifted d s e) y = dotp d y + s * dotp e y.
Proof.
  unfold shifted. induction d as [|x d IH]; intros [|z e] s [|w y] He Hy; try discriminate; [cbn; lra|]. cbn [zip map fst snd]. rewrite !dotp_cons, IH; [lra|now injection He|now injection Hy].
Qed.
Lemma dotp_sym a : forall b, dotp a b = dotp b a.
Proof. induction a as [|x a IH]; intros [|y b]; try reflexivity. rewrite !dotp_cons, IH. lra. Qed.
Lemma sumsq_shift d e s : length e = length d -> sumsq (shifted d s e) = sumsq d + 2 * s * dotp d e + s * s * sumsq e.
Proof.
  intros H. unfold sumsq. assert (L : length (shifted d s e) = length d) by now apply shifted_length. rewrite dotp_shift by congruence. rewrite !(dotp_sym _ (shifted d s e)), !dotp_shift by congruence. rewrite (dotp_sym e d). lra.
Qed.
Lemma times_shift J d e s n : Forall (fun row => length row = n) J -> length d = n -> length e = n -> times J (shifted d s e) = shifted (times J d) s (times J e).
Proof.
  intros HJ Hd He. induction HJ as [|row J Hr HJ IH]; [reflexivity|].
  change (dotp row (shifted d s e) :: times J (shifted d s e) = (dotp row d + s * dotp row e) :: shifted (times J d) s (times J e)). rewrite IH. f_equal.
  rewrite !(dotp_sym row). apply dotp_shift; congruence.
Qed.
Lemma shift_zeros r s z : length z = length r -> zeros z -> shifted r s z = r.
Proof.
  intros Hl Hz. apply nth_eq; [now apply shifted_length|]. intros i. rewrite shifted_nth by exact Hl.
  assert (nth i z 0 = 0) as ->; [|lra]. destruct (nth_in_or_default i z 0) as [H|H]; [|exact H]. unfold zeros in Hz. rewrite Forall_forall in Hz. now apply Hz.
Qed.
Lemma least_kernel n J b d e : Forall (fun row => length row = n) J -> least n J b d -> length e = n -> zeros (times J e) -> dotp d e = 0.
Proof.
  intros HJ [Hd H] He Hz. assert (G : forall s, 0 <= 2 * s * dotp d e + s * s * sumsq e).
  { intros s. destruct (H (shifted d s e)) as [_ H2]; [rewrite shifted_length; congruence|]. rewrite (times_shift J d e s n HJ Hd He), shift_zeros in H2 by (try assumption; unfold times; now rewrite !map_length).
    specialize (H2 eq_refl). rewrite sumsq_shift in H2 by congruence. lra. }
  pose proof (sumsq_nonneg e) as Hm. set (c := dotp d e) in *. set (m := sumsq e) in *. specialize (G (- c / (m + 1))). assert (Hp : 0 < m + 1) by lra.
  assert (E : 2 * (- c / (m + 1)) * c + - c / (m + 1) * (- c / (m + 1)) * m = - ((c * c) * ((m + 2) / ((m + 1) * (m + 1))))) by (field; lra). rewrite E in G.
  assert (Hq : 0 < (m + 2) / ((m + 1) * (m + 1))) by (apply Rdiv_lt_0_compat; [lra|now apply Rmult_lt_0_compat]). destruct (Req_dec c 0) as [|Hc]; [assumption|].
  assert (0 < c * c) by (destruct (Rdichotomy _ _ Hc); nra). pose proof (Rmult_lt_0_compat _ _ H0 Hq). lra.
Qed.
Lemma sum_x_dotp n : forall g, length g = n -> sum_x g = dotp g (alternate 1 0 n).
Proof.
  induction n as [| |n IH] using two_ind; intros g Hg; [destruct g; [reflexivity|discriminate]|destruct g as [|x [|]]; try discriminate; cbn; lra|].
  destruct g as [|x [|y g]]; try discriminate. cbn [sum_x alternate]. rewrite !dotp_cons, <- IH by now injection Hg. lra.
Qed.
Lemma sum_y_dotp n : forall g, length g = n -> sum_y g = dotp g (alternate 0 1 n).
Proof.
  induction n as [| |n IH] using two_ind; intros g Hg; [destruct g; [reflexivity|discriminate]|destruct g as [|x [|]]; try discriminate; cbn; lra|].
  destruct g as [|x [|y g]]; try discriminate. cbn [sum_y alternate]. rewrite !dotp_cons, <- IH by now injection Hg. lra.
Qed.
Lemma alternate_scale a b t n : forall g, length g = n -> shifted g t (alternate a b n) = slide (t * a) (t * b) g.
Proof.
  intros g Hg. rewrite (slide_shifted _ _ n g Hg). unfold shifted. revert g Hg. induction n as [| |n IH] using two_ind; intros g Hg; [destruct g; [reflexivity|discriminate]|destruct g as [|x [|]]; try discriminate; cbn; f_equal; lra|].
  destruct g as [|x [|y g]]; try discriminate. cbn [alternate zip map fst snd]. f_equal; [lra|]. f_equal; [lra|]. apply IH. now injection Hg.
Qed.

Lemma loop_split (res : list R -> result (list R)) step at_ rt m : forall s, newton_loop res step at_ rt (S m) s = (s1 <- newton_loop res step at_ rt m s ;; newton_loop res step at_ rt 1 s1).
Proof.
  induction m as [|m IH]; intros s; [reflexivity|].
  change ((if (gtb (ns_abs_err s) at_ && gtb (ns_rel_err s) rt)%bool then (s' <- newton_body res step s ;; newton_loop res step at_ rt (S m) s') else Ok s) =
    (s1 <- (if (gtb (ns_abs_err s) at_ && gtb (ns_rel_err s) rt)%bool then (s' <- newton_body res step s ;; newton_loop res step at_ rt m s') else Ok s) ;; newton_loop res step at_ rt 1 s1)).
  destruct (gtb (ns_abs_err s) at_ && gtb (ns_rel_err s) rt)%bool eqn:E.
  - destruct (newton_body res step s) as [s'|]; [|reflexivity]. cbn [bind]. apply IH.
  - cbn [bind newton_loop]. now rewrite E.
Qed.

Section Centroid.
  Notation layout := (layout R).
  Variable l : layout.
  Hypothesis Hrel : forall a b, Forall (rel_cls a b) (map (@ntype _ _) (dpre (nch (l_cons l)))).
  Hypothesis Hw : wf (l_prim l).
  Hypothesis Hs : slashfree (l_prim l).
  Hypothesis Hp : planar (l_prim l).
  Let n := length (initial_global (l_prim l)).
  Lemma kernel a b g J r : length g = n -> has_jacobian (global_res l) g J -> global_res l g = Ok r -> zeros (times J (alternate a b n)).
  Proof.
    intros Hg [H1 H2] Er. destruct (H2 (alternate a b n)) as (_ & eps & rs & He & Hrs & Hv); [now rewrite alternate_length|].
    assert (C : forall t, Rabs t < eps -> rs t = r).
    { intros t Ht. destruct (Hrs t Ht) as [E _]. rewrite (alternate_scale a b t n g Hg), (global_slide (t * a) (t * b) l (Hrel _ _) Hw Hs Hp g Hg), Er in E. now injection E. }
    apply Forall_forall. intros x Hx. apply (In_nth _ _ 0) in Hx as (i & _ & <-). symmetry. eapply uniqueness_limite; [|apply (Hv i)].
    apply (near_limit (fun _ => nth i r 0) _ eps); [exact He|intros t Ht; now rewrite C|]. apply (derivable_pt_lim_const (nth i r 0)).
  Qed.
  Variable bk : backend.
  Hypothesis Hbk : exact_on bk l.
  Lemma loop_centroid abs_tol rel_tol m : forall s,
    (forall k s', (k < m)%nat -> newton_loop (global_res l) (lstsq_step bk (global_res l)) abs_tol rel_tol k (newton_init (initial_global (l_prim l))) = Ok s' -> smooth_at (global_res l) (ns_g s')) ->
    newton_loop (global_res l) (lstsq_step bk (global_res l)) abs_tol rel_tol m (newton_init (initial_global (l_prim l))) = Ok s ->
    length (ns_g s) = n /\ forall a b, dotp (ns_g s) (alternate a b n) = dotp (initial_global (l_prim l)) (alternate a b n).
  Proof.
    induction m as [|m IH]; intros s Hsm E; [cbn in E; injection E as <-; split; reflexivity|]. rewrite loop_split in E. destruct (newton_loop _ _ _ _ m _) as [s1|] eqn:E1; [|discriminate]. cbn [bind] in E.
    destruct (IH s1) as [L1 D1]; [intros k s' Hk; apply Hsm; lia|reflexivity|]. pose proof (Hsm m s1 (Nat.lt_succ_diag_r m) E1) as [J HJ]. cbn [newton_loop] in E. destruct (_ && _)%bool; [|injection E as <-; now split].
    destruct (newton_body _ _ s1) as [s2|] eqn:Eb; [|discriminate]. cbn [bind] in E. injection E as <-. unfold newton_body in Eb. destruct (global_res l (ns_g s1)) as [r|] eqn:Er; [|discriminate]. cbn [bind] in Eb.
    destruct (lstsq_defined n (global_res l) bk Hbk (ns_g s1) r L1) as (d & Ed & Hd). rewrite Ed in Eb. cbn [bind] in Eb. assert (Ld : length d = n) by apply Hd.
    rewrite shifted_vadd in Eb by congruence. cbn [bind] in Eb. destruct (norm r) as [nr|]; [|discriminate]. cbn [bind] in Eb. injection Eb as <-. cbn [ns_g]. split; [rewrite shifted_length; congruence|].
    intros a b. rewrite dotp_shift by (rewrite ?alternate_length; congruence). rewrite D1. unfold exact_on in Hbk. fold n in Hbk. rewrite <- L1 in Hbk, Hd.
    rewrite (exact_jacobian l (ns_g s1) J r HJ Er bk Hbk) in Hd. rewrite L1 in Hd. rewrite (least_kernel n J (map Ropp r) d (alternate a b n)); [lra| |exact Hd|apply alternate_length|now apply (kernel a b (ns_g s1) J r)].
    rewrite <- L1. apply HJ.
  Qed.
End Centroid.
