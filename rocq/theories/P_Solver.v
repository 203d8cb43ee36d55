(** C57-C59, C61, C62: the solvers. *)
From Coq Require Import Reals Lra.
From Verif Require Export SolverProofs SolverSpec.
Local Open Scope nat_scope.

Section Generic.
  Context {F : Type} {N : Num F}.
  Notation prim := (prim F).
  Notation layout := (layout F).
  Variable step : list F -> list F -> result (list F).
  Variable l : layout.
  Hypothesis Hw : wf (l_prim l).
  Hypothesis Hs : slashfree (l_prim l).
  Hypothesis Hi : ids_consistent (l_prim l).

  Lemma new_walk_none root g p : walk p root = None -> walk p (new_tree (F:=F) root g) = None.
  Proof. intros H. unfold new_tree, rebuilt. rewrite walk_tmap, H. reflexivity. Qed.

  Lemma new_structure g : length g = length (initial_global (l_prim l)) -> same_structure (l_prim l) (new_tree (l_prim l) g).
  Proof.
    intros Hg. split.
    - intros k. destruct (walk k (l_prim l)) as [n|] eqn:E; [|now rewrite new_walk_none].
      destruct (new_walk _ g _ _ E) as (n' & -> & Ht & Hv & Hk). cbn [option_map]. rewrite Ht, Hv, Hk, new_sizes; auto.
      eapply node_values_In; eassumption.
    - intros k1 k2 n1 n2 m1 m2 E1 E2 G1 G2.
      destruct (new_walk _ g _ _ E1) as (n1' & G1' & _ & V1 & _). destruct (new_walk _ g _ _ E2) as (n2' & G2' & _ & V2 & _).
      rewrite G1 in G1'. rewrite G2 in G2'. injection G1' as <-. injection G2' as <-. rewrite V1, V2. symmetry.
      apply renew_ids; auto; eapply node_values_In; eassumption.
  Qed.
  Lemma new_numbers : same_numbers (l_prim l) (new_tree (l_prim l) (initial_global (l_prim l))).
  Proof.
    intros k. destruct (walk k (l_prim l)) as [n|] eqn:E; [|now rewrite new_walk_none].
    destruct (new_walk _ (initial_global (l_prim l)) _ _ E) as (n' & -> & Ht & Hv & Hk). cbn [option_map]. rewrite Hv, new_initial; auto.
    eapply node_values_In; eassumption.
  Qed.

  Lemma gtb_within (e : ext (F:=F)) tol : gtb e tol = true <-> ~ within e tol.
  Proof. destruct e; cbn; [|tauto|now split; [|intros H; exfalso; apply H]]. destruct (nltb tol x); split; intros; congruence. Qed.
  Lemma gtb_not_within (e : ext (F:=F)) tol : gtb e tol = false <-> within e tol.
  Proof. destruct e; cbn; [tauto| |now split]. split; [discriminate|contradiction]. Qed.

  (** The backend returns a correction of the right size. *)
  Hypothesis Hstep : forall g r d, step g r = Ok d -> length d = length g.
  Notation good := (fun g : list F => length g = length (initial_global (l_prim l))).

  Lemma last_nth {A} (x : list A) d k : length x = S k -> nth_error x k = Some (last x d).
  Proof.
    revert k. induction x as [|a x IH]; intros k H; [discriminate|]. destruct x as [|b x]; cbn in H; injection H as <-; [reflexivity|].
    cbn [nth_error length last]. apply (IH (length x)). reflexivity.
  Qed.

  Lemma vadd_total (a b : list F) : length a = length b -> exists c, vadd a b = Ok c.
  Proof.
    intros H. unfold vadd, bcast2. rewrite H, Nat.eqb_refl. generalize (zip a b). intros z. induction z as [|x z [c IH]]; [now exists []|].
    cbn [mapM]. cbn [bind]. rewrite IH. cbn [bind]. eauto.
  Qed.
  Theorem C57_newton_trace abs_tol rel_tol max_iter p ae re :
    solve_newton step l abs_tol rel_tol max_iter = Ok (p, (ae, re)) ->
    exists ps, newton_run step l abs_tol rel_tol max_iter ps ae re /\ nth_error ps (length ae) = Some p.
  Proof.
    intros H. unfold solve_newton in H. destruct (newton_loop _ _ _ _ _ _) as [s|] eqn:E; [|discriminate]. cbn [bind] in H.
    rewrite tree_of_global_ok in H by assumption. cbn [bind] in H. injection H as <- <- <-.
    destruct (trace_loop _ _ _ _ _ _ _ _ (trace_init _ _ _ _ _) E) as (gs' & [Tl Tn Ts Tr To Te] & Hle & Hst). cbn [newton_init ns_abs length] in Hle, Hst. rewrite Nat.add_0_l in *.
    set (gs := [initial_global (l_prim l)] ++ gs') in *.
    assert (Hn : forall k g, nth_error gs k = Some g -> good g).
    { induction k as [|k IH]; intros g Hg; [cbn in Hg; injection Hg as <-; reflexivity|].
      assert (Hk : S k < length gs) by (apply nth_error_Some; congruence).
      destruct (nth_error (ns_abs s) k) as [a|] eqn:Ea; [|apply nth_error_None in Ea; lia].
      destruct (Ts k a Ea) as (g0 & g1 & E0 & E1 & r & d & Er & Ed & Ev & En). rewrite Hg in E1. injection E1 as <-.
      apply IH in E0. rewrite (vadd_length _ _ _ Ev); [exact E0|]. symmetry. eauto. }
    assert (Hr : forall g r, global_res l g = Ok r -> layout_residual l (new_tree (l_prim l) g) = Ok r).
    { intros g r Hg. unfold global_res in Hg. now rewrite tree_of_global_ok in Hg by assumption. }
    exists (map (new_tree (l_prim l)) gs). split; [split|].
    - eexists. split; [reflexivity|]. apply new_numbers; assumption.
    - apply Forall_map, Forall_forall. intros g Hg. apply In_nth_error in Hg as [k Hg]. apply new_structure; eauto.
    - rewrite map_length. split; [exact Tl|]. rewrite Tr. apply map_length.
    - intros k p p' H1 H2. rewrite nth_error_map in H1, H2. destruct (nth_error gs k) as [g|] eqn:E1; [|discriminate].
      destruct (nth_error gs (S k)) as [g'|] eqn:E2; [|discriminate]. cbn [option_map] in *. injection H1 as <-. injection H2 as <-.
      assert (Hk : S k < length gs) by (apply nth_error_Some; congruence).
      destruct (nth_error (ns_abs s) k) as [a|] eqn:Ea; [|apply nth_error_None in Ea; lia].
      destruct (Ts k a Ea) as (g0 & g1 & G0 & G1 & r & d & Er & Ed & Ev & En). rewrite E1 in G0. rewrite E2 in G1. injection G0 as <-. injection G1 as <-.
      exists r, d. rewrite !new_global by eauto. split; [now apply Hr|]. split; [exact Ed|]. pose proof (Hstep _ _ _ Ed) as Ld. split; [exact Ld|].
      unfold vadd, bcast2 in Ev. rewrite Ld, Nat.eqb_refl, (mapM_Ok_map (fun xy => nadd (fst xy) (snd xy))) in Ev. now injection Ev.
    - intros k a Ha. destruct (Ts k a Ha) as (g & g' & Hg & _ & r & d & Er & _ & _ & En). exists (new_tree (l_prim l) g), r.
      rewrite nth_error_map, Hg. auto.
    - intros k a a0 Ha H0. rewrite Tr, nth_error_map, Ha. cbn [option_map]. destruct (ns_abs s); [discriminate|]. cbn in H0. injection H0 as ->. eexists. split; [reflexivity|]. split; intros H1; unfold rel_of; cbn [hd].
      + intros H2. now rewrite H2.
      + destruct (ndiv a a0) as [q|]; [now destruct (H1 q)|]. split; intros ->; reflexivity.
    - exact Hle.
    - intros k a e Hk Ha He. specialize (To k a e Hk Ha He). unfold goes_on in To. apply andb_true_iff in To as [A B]. now rewrite <- !gtb_within.
    - intros Hlt. specialize (Hst Hlt). destruct Te as [(E0 & E1 & E2)|(k & a & E0 & E1 & E2 & E3)].
      + rewrite E1, E2 in Hst. discriminate.
      + exists k, a, (ns_rel_err s). repeat (split; [assumption|]). rewrite <- !gtb_not_within. rewrite E2 in Hst. unfold goes_on in Hst. now apply andb_false_iff.
    - rewrite nth_error_map, (last_nth gs [] _ Tl). cbn [option_map]. now rewrite Tn.
  Qed.
  (** It does return if the constraints can be evaluated on every tree of the layout's
      structure and the backend does not fail. *)
  Theorem C57_newton_returns abs_tol rel_tol max_iter :
    (forall q, same_structure (l_prim l) q -> exists r a d, layout_residual l q = Ok r /\ two_norm r = Ok a /\ step (initial_global q) r = Ok d) ->
    exists out, solve_newton step l abs_tol rel_tol max_iter = Ok out.
  Proof.
    intros H. unfold solve_newton.
    destruct (loop_total (global_res l) step abs_tol rel_tol good) with (left := max_iter) (s := newton_init (initial_global (l_prim l))) as (s & -> & Hg).
    - intros g Hg. destruct (H (new_tree (l_prim l) g) (new_structure g Hg)) as (r & a & d & E1 & E2 & E3). rewrite new_global in E3 by assumption.
      destruct (vadd_total g d) as [g' E4]; [symmetry; eauto|].
      exists r, d, g', a. unfold global_res. rewrite tree_of_global_ok by assumption. repeat (split; [assumption|]).
      rewrite (vadd_length _ _ _ E4); [exact Hg|]. symmetry. eauto.
    - reflexivity.
    - cbn [bind]. rewrite tree_of_global_ok by assumption. eexists. reflexivity.
  Qed.

  (** ** C58 *)
  Lemma callback_good abs_tol rel_tol its : Forall (fun fx : F * list F => good (snd fx)) its ->
    forall ae re x, good x -> forall ae' re' x', run_callback abs_tol rel_tol its ae re x = Ok (ae', re', x') -> good x'.
  Proof.
    induction 1 as [|[f x1] its H1 _ IH]; intros ae re x Hx ae' re' x' H; cbn [run_callback] in H; [injection H as <- <- <-; exact Hx|].
    destruct (ndiv _ _) as [rel|]; [|discriminate]. cbn [bind] in H. destruct (_ || _); [injection H as <- <- <-; exact H1|].
    eapply IH; [|exact H]. exact H1.
  Qed.
  Theorem C58_structure minimizer abs_tol rel_tol max_iter method p info :
    (forall f x0 k, Forall (fun fx => length (snd fx) = length x0) (minimizer f x0 k)) ->
    solve step minimizer l abs_tol rel_tol max_iter method = Ok (p, info) ->
    same_structure (l_prim l) p.
  Proof.
    intros Hm H. unfold solve in H. destruct (String.eqb method "newton"); [|destruct (String.eqb method "minimize"); [|discriminate]].
    - destruct info as [ae re]. destruct (C57_newton_trace _ _ _ _ _ _ H) as (ps & Hr & Hp). apply nth_error_In in Hp.
      pose proof (nr_structure _ _ _ _ _ _ _ _ Hr) as Hf. rewrite Forall_forall in Hf. now apply Hf.
    - unfold solve_minimize in H. destruct (objective _ _); [|discriminate]. cbn [bind] in H.
      destruct (run_callback _ _ _ _ _ _) as [[[ae re] x]|] eqn:E; [|discriminate]. cbn [bind] in H.
      rewrite tree_of_global_ok in H by assumption. cbn [bind] in H. injection H as <- _. apply new_structure; auto.
      eapply callback_good; [|reflexivity|exact E]. apply Hm.
  Qed.
  Theorem C58_no_iterations abs_tol rel_tol p info :
    solve_newton step l abs_tol rel_tol 0 = Ok (p, info) -> same_numbers (l_prim l) p /\ info = ([], []).
  Proof.
    unfold solve_newton. cbn [newton_loop bind newton_init ns_g ns_abs ns_rel]. rewrite tree_of_global_ok by assumption. cbn [bind]. intros H. injection H as <- <-.
    split; [apply new_numbers; assumption|reflexivity].
  Qed.
End Generic.

(** ** C61 *)
Theorem C61_dispatch {F} {N : Num F} step minimizer (l : layout F) abs_tol rel_tol max_iter method :
  (method = "newton"%string -> solve step minimizer l abs_tol rel_tol max_iter method = solve_newton step l abs_tol rel_tol max_iter) /\
  (method = "minimize"%string -> forall p ae re, solve step minimizer l abs_tol rel_tol max_iter method = Ok (p, (ae, re)) <->
     exists re', solve_minimize minimizer l abs_tol rel_tol max_iter = Ok (p, (ae, re')) /\ re = map Fin re') /\
  (method <> "newton"%string -> method <> "minimize"%string -> solve step minimizer l abs_tol rel_tol max_iter method = Err ValueErr).
Proof.
  unfold solve. split; [|split].
  - intros ->. reflexivity.
  - intros -> p ae re. cbn [String.eqb Ascii.eqb Bool.eqb]. destruct (solve_minimize _ _ _ _ _) as [[p' [ae' re']]|e]; cbn [bind].
    + split; [intros H; injection H as <- <- <-; eauto|]. intros (re'' & H & ->). now injection H as <- <- <-.
    + split; [discriminate|]. intros (re'' & H & _). discriminate.
  - intros H1 H2. destruct (String.eqb_spec method "newton"); [contradiction|]. destruct (String.eqb_spec method "minimize"); [contradiction|reflexivity].
Qed.
Example C61_typo : solve (F:=QArith_base.Q) (fun g _ => Ok g) (fun _ _ _ => []) (empty_layout 0) (QArith_base.Qmake 1 1) (QArith_base.Qmake 1 1) 10 "Newton" = Err ValueErr.
Proof. reflexivity. Qed.

(** ** C62: what the histories of 'minimize' are *)
Section Minimize.
  Local Open Scope R_scope.
  Notation prim := (prim R).
  Variable l : layout R.
  Hypothesis Hw : wf (l_prim l).
  Hypothesis Hs : slashfree (l_prim l).
  Hypothesis Hi : ids_consistent (l_prim l).
  (** The sum of squares of the constraints at [p]. *)
  Definition sum_squares (p : prim) (f : R) : Prop :=
    exists r, layout_residual l p = Ok r /\ f = nsum (map (fun x => x * x) r).

  Lemma objective_new g f : objective l g = Ok f -> sum_squares (new_tree (l_prim l) g) f.
  Proof.
    unfold objective, global_res. rewrite tree_of_global_ok by assumption. cbn [bind]. destruct (layout_residual _ _) as [r|] eqn:E; [|discriminate].
    cbn [bind]. intros H. injection H as <-. exists r. split; [exact E|reflexivity].
  Qed.
  Lemma last_cons {A} (a : A) y d : last (a :: y) d = last y a.
  Proof. revert a d. induction y as [|b y IH]; intros a d; [reflexivity|]. transitivity (last (b :: y) d); [reflexivity|]. now rewrite !IH. Qed.
  Lemma callback_trace abs_tol rel_tol its : Forall (fun fx : R * list R => objective l (snd fx) = Ok (fst fx)) its ->
    forall ae re x ae' re' x', run_callback abs_tol rel_tol its ae re x = Ok (ae', re', x') ->
    length re = length ae ->
    exists fs, ae' = ae ++ map fst fs /\ (exists k, fs = firstn k its) /\ x' = last (map snd fs) x /\
      re' = re ++ map (fun f => f / hd 0 ae') (map fst fs) /\
      (forall k f, (S k < length fs)%nat -> nth_error (map fst fs) k = Some f -> abs_tol <= f /\ rel_tol <= f / hd 0 ae') /\
      (fs <> its -> exists f, nth_error (map fst fs) (length fs - 1) = Some f /\ (f < abs_tol \/ f / hd 0 ae' < rel_tol)).
  Proof.
    induction 1 as [|[f x1] its H1 Hf IH]; intros ae re x ae' re' x' H Hl; cbn [run_callback] in H.
    - injection H as <- <- <-. exists []. cbn. rewrite !app_nil_r. repeat split; auto; [now exists 0%nat|intros; lia|intros; lia|congruence].
    - destruct (ndiv _ _) as [rel|] eqn:Ed; [|discriminate]. cbn [bind] in H. cbn [ndiv NumR] in Ed. unfold Rdiv_r in Ed. destruct (Req_EM_T _ 0) as [|Hn]; [discriminate|].
      assert (Erel : rel = f / hd f (ae ++ [f])) by congruence. clear Ed.
      destruct (nltb rel rel_tol || nltb f abs_tol) eqn:Et.
      + injection H as <- <- <-. exists [(f, x1)]. cbn [map fst snd last length firstn app].
        assert (Eh : hd 0 (ae ++ [f]) = hd f (ae ++ [f])) by (destruct ae; reflexivity). rewrite Eh, <- Erel.
        split; [reflexivity|]. split; [now exists 1%nat|]. split; [reflexivity|]. split; [reflexivity|]. split; [intros; cbn in *; lia|].
        intros _. exists f. split; [reflexivity|]. rewrite <- Erel. cbn [nltb NumR] in Et. unfold Rltb in Et. destruct (Rlt_dec rel rel_tol); [now right|]. destruct (Rlt_dec f abs_tol); [now left|discriminate].
      + apply IH in H; [|rewrite !app_length; cbn; lia]. destruct H as (fs & -> & [k ->] & -> & -> & Hon & Hst). exists ((f, x1) :: firstn k its).
        assert (Eh : hd 0 ((ae ++ [f]) ++ map fst (firstn k its)) = hd f (ae ++ [f])) by (destruct ae; reflexivity).
        rewrite Eh in *. cbn [map fst snd]. rewrite <- !app_assoc. cbn [app]. rewrite <- Erel.
        split; [reflexivity|]. split; [now exists (S k)|]. split; [symmetry; apply last_cons|].
        split; [reflexivity|]. split.
        * intros j f' Hj Ej. destruct j as [|j]; cbn in Ej.
          -- injection Ej as <-. rewrite <- Erel. cbn [nltb NumR] in Et. unfold Rltb in Et. destruct (Rlt_dec rel rel_tol); [discriminate|]. destruct (Rlt_dec f abs_tol); [discriminate|]. lra.
          -- apply (Hon j f'); [cbn in Hj; lia|exact Ej].
        * intros Hne. destruct Hst as (f' & E1 & E2); [congruence|]. exists f'. split; [|exact E2]. cbn [length].
          replace (S (length (firstn k its)) - 1)%nat with (length (firstn k its)) by lia. destruct (firstn k its) as [|y ys]; [discriminate|]. cbn [length] in *. replace (S (length ys) - 1)%nat with (length ys) in E1 by lia. exact E1.
  Qed.

  (** For an optimiser that reports the true objective values: entry [k] of abs_errs is
      the SUM OF SQUARES of the constraints at intermediate result [k] (the square of the
      2-norm), rel_errs is the ratio to the first intermediate result (not to the
      initial error), and the tree returned is the last intermediate result; the run is
      cut at the first entry below a tolerance. *)
  Theorem C62_minimize_history minimizer abs_tol rel_tol max_iter p ae re :
    (forall x0 k, Forall (fun fx => objective l (snd fx) = Ok (fst fx) /\ length (snd fx) = length x0) (minimizer (objective l) x0 k)) ->
    solve_minimize minimizer l abs_tol rel_tol max_iter = Ok (p, (ae, re)) ->
    length re = length ae /\
    (exists qs, Forall2 sum_squares qs ae /\ (ae <> [] -> nth_error qs (length ae - 1) = Some p) /\ (ae = [] -> same_numbers (l_prim l) p)) /\
    (forall k a a0, nth_error ae k = Some a -> nth_error ae 0 = Some a0 -> nth_error re k = Some (a / a0)) /\
    (forall k a e, (S k < length ae)%nat -> nth_error ae k = Some a -> nth_error re k = Some e -> abs_tol <= a /\ rel_tol <= e) /\
    ((length ae < length (minimizer (objective l) (initial_global (l_prim l)) max_iter))%nat ->
       exists a e, nth_error ae (length ae - 1) = Some a /\ nth_error re (length ae - 1) = Some e /\ (a < abs_tol \/ e < rel_tol)).
  Proof.
    intros Hm H. specialize (Hm (initial_global (l_prim l)) max_iter). unfold solve_minimize in H. destruct (objective l (initial_global _)) as [f0|] eqn:E0; [|discriminate]. cbn [bind] in H.
    set (its := minimizer (objective l) (initial_global (l_prim l)) max_iter) in *.
    destruct (run_callback _ _ its _ _ _) as [[[ae' re'] x]|] eqn:E; [|discriminate]. cbn [bind] in H.
    rewrite tree_of_global_ok in H by assumption. cbn [bind] in H. injection H as <- <- <-.
    apply callback_trace in E; [|eapply Forall_impl; [|exact Hm]; cbn; tauto|reflexivity]. destruct E as (fs & Ea & [k ->] & -> & Er & Hon & Hst). cbn [app] in *. subst ae' re'.
    set (fs := firstn k its) in *.
    assert (Hfs : Forall (fun fx => objective l (snd fx) = Ok (fst fx)) fs).
    { apply Forall_forall. intros y Hy. rewrite Forall_forall in Hm. apply Hm. rewrite <- (firstn_skipn k its). apply in_or_app. now left. }
    split; [now rewrite !map_length|]. split; [|split; [|split]].
    - exists (map (fun fx => new_tree (l_prim l) (snd fx)) fs). split; [|split].
      + clear - Hfs Hw Hs. clearbody fs. induction Hfs as [|y fs Hy _ IH]; [constructor|]. cbn [map]. constructor; [|exact IH]. now apply objective_new.
      + intros Hne. rewrite map_length. destruct (length fs) as [|j] eqn:El; [apply length_zero_iff_nil in El; rewrite El in Hne; now elim Hne|].
        replace (S j - 1)%nat with j by lia.
        rewrite <- (map_map snd (new_tree (l_prim l))), nth_error_map.
        rewrite (last_nth (map snd fs) (initial_global (l_prim l)) j) by (rewrite map_length; exact El). reflexivity.
      + intros He. destruct fs; [|discriminate]. cbn [map last]. apply new_numbers; assumption.
    - intros j a a0 Ha H0. rewrite nth_error_map, Ha. cbn [option_map]. destruct (map fst fs); [discriminate|]. cbn in H0. injection H0 as ->. reflexivity.
    - intros j a e Hj Ha He. rewrite nth_error_map, Ha in He. cbn [option_map] in He. injection He as <-. apply (Hon j); [now rewrite map_length in Hj|exact Ha].
    - intros Hlt. rewrite map_length in *. destruct Hst as (f & Ef & Hf); [intros E; rewrite E in Hlt; lia|]. exists f. eexists. split; [exact Ef|]. rewrite nth_error_map, Ef. split; [reflexivity|exact Hf].
  Qed.
End Minimize.

Print Assumptions C57_newton_trace.
Print Assumptions C57_newton_returns.
Print Assumptions C58_structure.
Print Assumptions C58_no_iterations.
Print Assumptions C61_dispatch.
Print Assumptions C62_minimize_history.
