(** The order in which constraints were added does not matter to a solve. *)
From Coq Require Import Reals Lra Permutation.
From Verif Require Export BackendLocal.
Local Open Scope R_scope.
Local Open Scope nat_scope.

Notation request := (cons * list string * list (pyval R))%type.
Definition val (p : prim) (x : request) : list R :=
  match (prims <- mapM (get_child p) (snd (fst x)) ;; call (fst (fst x)) prims (snd x)) with Ok r => r | Err _ => [] end.
Lemma val_value p x r : value_at p x r -> val p x = r.
Proof. destruct x as [[c ks] ps]. intros (prims & E1 & E2). unfold val. cbn [fst snd]. rewrite E1. cbn [bind]. now rewrite E2. Qed.
Lemma values_val p xs vs : Forall2 (value_at p) xs vs -> vs = map (val p) xs.
Proof. induction 1 as [|x r xs vs H _ IH]; [reflexivity|]. cbn. now rewrite (val_value p x r H), IH. Qed.

(** The entries of the residual, one per constraint and component. *)
Definition entries (size : request -> nat) (xs : list request) : list (request * nat) := flat_map (fun x => map (pair x) (seq 0 (size x))) xs.
Definition entry_at (p : prim) (e : request * nat) : R := nth (snd e) (val p (fst e)) 0%R.
Lemma list_nth (r : list R) : r = map (fun k => nth k r 0%R) (seq 0 (length r)).
Proof. induction r as [|x r IH]; [reflexivity|]. cbn [length seq map nth]. f_equal. rewrite <- seq_shift, map_map. exact IH. Qed.
Lemma concat_entries p size xs : (forall x, In x xs -> length (val p x) = size x) -> List.concat (map (val p) xs) = map (entry_at p) (entries size xs).
Proof.
  unfold entries. induction xs as [|x xs IH]; intros H; [reflexivity|]. cbn [map List.concat flat_map]. rewrite map_app, map_map, IH by (intros; apply H; now right). f_equal.
  rewrite <- (H x (or_introl eq_refl)). unfold entry_at. cbn [fst snd]. apply list_nth.
Qed.
Lemma combine_map {A B C} (f : A -> B) (h : A -> C) (l : list A) : combine (map f l) (map h l) = map (fun a => (f a, h a)) l.
Proof. induction l as [|a l IH]; [reflexivity|]. cbn. now rewrite IH. Qed.

Section Order.
  Variables (rid : nat) (tw : bool) (acts : list (action R)) (l : layout).
  Hypotheses (Hr : runs (empty_layout rid) acts l) (Hsh : Forall (shipped_act tw) acts) (Hk : Forall top_key acts).
  Hypotheses (Hw : wf (l_prim l)) (Hs : slashfree (l_prim l)) (Hi : ids_consistent (l_prim l)).
  Notation root := (l_prim l).
  Notation n := (length (initial_global root)).

  Lemma residual_values_at g z : length g = n ->
    (global_res l g = Ok z <-> LayoutSpec.added acts <> [] /\ exists vs, Forall2 (value_at (new_tree root g)) (LayoutSpec.added acts) vs /\ z = List.concat vs).
  Proof.
    intros Hg. rewrite (global_new l) by assumption. destruct (LayoutSpec.added acts) as [|a0 rest] eqn:Ea.
    - rewrite (C53_no_constraints rid acts l _ Hr Ea). split; [discriminate|]. intros [H _]. congruence.
    - assert (Hne : LayoutSpec.added acts <> []) by (rewrite Ea; discriminate). rewrite <- Ea in *. rewrite (residual_split rid tw acts l Hr Hsh Hk) by (try assumption; now apply new_structure). tauto.
  Qed.
  Lemma new_same_sizes g h prims prims' ks : length g = n -> length h = n -> mapM (get_child (new_tree root g)) ks = Ok prims -> mapM (get_child (new_tree root h)) ks = Ok prims' ->
    Forall wf prims /\ Forall wf prims' /\ Forall2 same_sizes prims prims'.
  Proof.
    intros Hg Hh. revert prims prims'. induction ks as [|key ks IH]; intros prims prims' E E'; cbn [mapM] in *.
    - injection E as <-. injection E' as <-. repeat constructor.
    - inv_bind E. inv_bind E. injection E as <-. inv_bind E'. inv_bind E'. injection E' as <-. destruct (IH _ _ E1 E2) as (W1 & W2 & W3).
      assert (G : exists q, get_child root key = Ok q).
      { rewrite get_child_walk in *. destruct (walk (split_all key) root) as [q|] eqn:W; [now exists q|]. apply (new_walk_none root g) in W. rewrite W in E0. discriminate. }
      destruct G as [q Eq]. destruct (get_new root g key q Eq) as (q1 & Eq1 & S1). destruct (get_new root h key q Eq) as (q2 & Eq2 & S2).
      assert (x = q1) by congruence. subst q1. assert (x1 = q2) by congruence. subst q2.
      split; [|split]; constructor; try assumption; try (eapply get_wf; [eassumption|]; now apply new_wf).
      intros k. specialize (S1 k). specialize (S2 k). destruct (walk k q) as [m|] eqn:Wm.
      + assert (Hin : In (nval m) (node_values root)).
        { rewrite get_child_walk in Eq. destruct (walk (split_all key) root) as [q0|] eqn:W; [|discriminate]. assert (q0 = q) by congruence. subst q0. apply (node_values_In root (split_all key ++ k)); [exact Hw|]. rewrite walk_app, W. exact Wm. }
        destruct (walk k x) as [a|]; [|discriminate]. destruct (walk k x1) as [b|]; [|discriminate]. cbn in S1, S2 |- *. injection S1 as A1 A2 A3. injection S2 as B1 B2 B3.
        rewrite A1, A2, A3, B1, B2, B3, !new_sizes by assumption. reflexivity.
      + destruct (walk k x); [discriminate|]. destruct (walk k x1); [discriminate|]. reflexivity.
  Qed.
  (** Each constraint's number of equations. *)
  Lemma value_sizes g h z z' x : length g = n -> length h = n -> global_res l g = Ok z -> global_res l h = Ok z' -> In x (LayoutSpec.added acts) ->
    length (val (new_tree root g) x) = length (val (new_tree root h) x).
  Proof.
    intros Hg Hh Eg Eh Hx. apply residual_values_at in Eg as (_ & vs & Hv & _); [|exact Hg]. apply residual_values_at in Eh as (_ & ws & Hw' & _); [|exact Hh].
    assert (G : forall p rs, Forall2 (value_at p) (LayoutSpec.added acts) rs -> exists r, value_at p x r).
    { intros p rs H. clear -H Hx. induction H as [|y r xs rs H _ IH]; [contradiction|]. destruct Hx as [->|Hx]; [eauto|auto]. }
    destruct (G _ _ Hv) as [r1 H1]. destruct (G _ _ Hw') as [r2 H2]. rewrite (val_value _ _ _ H1), (val_value _ _ _ H2). destruct x as [[c ks] ps]. destruct H1 as (p1 & E1 & C1). destruct H2 as (p2 & E2 & C2).
    destruct (new_same_sizes g h p1 p2 ks Hg Hh E1 E2) as (W1 & W2 & W3). eapply (C81_value_size c p1 p2 ps); try eassumption. eapply (added_expressible tw); eassumption.
  Qed.
  Definition size_at (g : list R) (x : request) : nat := length (val (new_tree root g) x).
  Lemma residual_entries g0 z0 g z : length g0 = n -> global_res l g0 = Ok z0 -> length g = n -> global_res l g = Ok z ->
    z = map (entry_at (new_tree root g)) (entries (size_at g0) (LayoutSpec.added acts)).
  Proof.
    intros Hg0 E0 Hg E. pose proof E as E'. apply residual_values_at in E' as (_ & vs & Hv & ->); [|exact Hg]. rewrite (values_val _ _ _ Hv). apply concat_entries.
    intros x Hx. unfold size_at. eapply value_sizes; eassumption.
  Qed.
End Order.

Lemma map_seq {A B} (H : nat -> B) (F : A -> B) (P : list A) : (forall i e, nth_error P i = Some e -> H i = F e) -> map H (seq 0 (length P)) = map F P.
Proof.
  revert H. induction P as [|a P IH]; intros H E; [reflexivity|]. cbn [length seq map]. f_equal; [now apply (E 0)|]. rewrite <- seq_shift, map_map. apply IH. intros i e Hi. now apply (E (S i)).
Qed.
Lemma norm_perm (a b : list R) : Permutation a b -> norm a = norm b.
Proof.
  intros H. unfold norm. replace (nsum (map (fun x => nmul x x) b)) with (nsum (map (fun x => nmul x x) a)); [reflexivity|].
  unfold nsum. apply (sum_perm (map (fun x => x * x)%R a) (map (fun x => x * x)%R b)). now apply Permutation_map.
Qed.
(** An entry as a function of the vector, 0 where the residual is undefined. *)
Definition comp (l : layout) (e : request * nat) (g : list R) : R :=
  match global_res l g with Ok _ => entry_at (new_tree (l_prim l) g) e | Err _ => 0%R end.
Section Jacobian.
  Variables (rid : nat) (tw : bool) (acts : list (action R)) (l : layout).
  Hypotheses (Hr : runs (empty_layout rid) acts l) (Hsh : Forall (shipped_act tw) acts) (Hk : Forall top_key acts).
  Hypotheses (Hw : wf (l_prim l)) (Hs : slashfree (l_prim l)) (Hi : ids_consistent (l_prim l)).
  Notation root := (l_prim l).
  Notation n := (length (initial_global root)).
  Variable bk : backend.
  Hypothesis Hext : same_gradients bk n.
  Lemma jacobian_entries g z : length g = n -> global_res l g = Ok z ->
    jacobian bk (global_res l) (length z) g = map (fun e => grad bk (comp l e) g) (entries (size_at l g) (LayoutSpec.added acts)).
  Proof.
    intros Hg E. pose proof (residual_entries rid tw acts l Hr Hsh Hk Hw Hs Hi g z g z Hg E Hg E) as Ez. unfold jacobian. rewrite Ez at 1. rewrite map_length. apply map_seq.
    intros i e He. apply Hext; [exact Hg|]. intros h Hh. unfold component, comp. destruct (global_res l h) as [zh|] eqn:Eh; [|reflexivity].
    rewrite (residual_entries rid tw acts l Hr Hsh Hk Hw Hs Hi g z h zh Hg E Hh Eh). apply nth_error_nth. rewrite nth_error_map, He. reflexivity.
  Qed.
End Jacobian.

Section Two.
  Variables (rid rid' : nat) (tw tw' : bool) (acts acts' : list (action R)) (l l' : layout).
  Hypotheses (Hr : runs (empty_layout rid) acts l) (Hsh : Forall (shipped_act tw) acts) (Hk : Forall top_key acts).
  Hypotheses (Hr' : runs (empty_layout rid') acts' l') (Hsh' : Forall (shipped_act tw') acts') (Hk' : Forall top_key acts').
  Hypotheses (Hw : wf (l_prim l)) (Hs : slashfree (l_prim l)) (Hi : ids_consistent (l_prim l)).
  Hypotheses (Heq : l_prim l' = l_prim l) (Hp : Permutation (LayoutSpec.added acts) (LayoutSpec.added acts')).
  Notation root := (l_prim l).
  Notation n := (length (initial_global root)).
  Lemma global_same_ok g z : length g = n -> global_res l g = Ok z -> exists z', global_res l' g = Ok z'.
  Proof.
    intros Hg E. apply (residual_values_at rid tw acts l Hr Hsh Hk Hw Hs Hi) in E as (Hne & vs & Hv & ->); [|exact Hg].
    assert (G : exists ws, Forall2 (value_at (new_tree root g)) (LayoutSpec.added acts') ws).
    { assert (A : forall x, In x (LayoutSpec.added acts') -> exists r, value_at (new_tree root g) x r).
      { intros x Hx. apply (Permutation_in x (Permutation_sym Hp)) in Hx. clear -Hv Hx. induction Hv as [|y r xs rs H _ IH]; [contradiction|]. destruct Hx as [->|Hx]; [eauto|auto]. }
      clear -A. induction (LayoutSpec.added acts') as [|x xs IH]; [exists []; constructor|]. destruct (A x (or_introl eq_refl)) as [r Hr]. destruct IH as [ws IH]; [intros; apply A; now right|]. exists (r :: ws). now constructor. }
    destruct G as [ws Hws]. exists (List.concat ws). apply (residual_values_at rid' tw' acts' l' Hr' Hsh' Hk'); rewrite ?Heq; try assumption. split; [|eauto].
    intros E. rewrite E in Hp. apply Permutation_sym, Permutation_nil in Hp. congruence.
  Qed.
End Two.

Section Steps.
  Variables (rid rid' : nat) (tw tw' : bool) (acts acts' : list (action R)) (l l' : layout).
  Hypotheses (Hr : runs (empty_layout rid) acts l) (Hsh : Forall (shipped_act tw) acts) (Hk : Forall top_key acts).
  Hypotheses (Hr' : runs (empty_layout rid') acts' l') (Hsh' : Forall (shipped_act tw') acts') (Hk' : Forall top_key acts').
  Hypotheses (Hw : wf (l_prim l)) (Hs : slashfree (l_prim l)) (Hi : ids_consistent (l_prim l)).
  Hypotheses (Heq : l_prim l' = l_prim l) (Hp : Permutation (LayoutSpec.added acts) (LayoutSpec.added acts')).
  Notation root := (l_prim l).
  Notation n := (length (initial_global root)).
  Variable bk : backend.
  Hypotheses (Hext : same_gradients bk n) (Hbk : exact_on bk l) (Hbk' : exact_on bk l').
  Lemma comp_same e g : length g = n -> comp l' e g = comp l e g.
  Proof.
    intros Hg. unfold comp. rewrite Heq. destruct (global_res l g) as [z|] eqn:E.
    - destruct (global_same_ok rid rid' tw tw' acts acts' l l' Hr Hsh Hk Hr' Hsh' Hk' Hw Hs Hi Heq Hp g z Hg E) as [z' ->]. reflexivity.
    - destruct (global_res l' g) as [z'|] eqn:E'; [|reflexivity]. exfalso.
      assert (exists z, global_res l g = Ok z) as [z Ez].
      { eapply (global_same_ok rid' rid tw' tw acts' acts l' l); try eassumption; rewrite ?Heq; auto. now apply Permutation_sym. }
      congruence.
  Qed.
  Lemma step_same g z d : length g = n -> global_res l g = Ok z -> lstsq_step bk (global_res l) g z = Ok d ->
    length d = n /\ exists z', global_res l' g = Ok z' /\ lstsq_step bk (global_res l') g z' = Ok d /\ norm z' = norm z.
  Proof.
    intros Hg E Ed. destruct (global_same_ok rid rid' tw tw' acts acts' l l' Hr Hsh Hk Hr' Hsh' Hk' Hw Hs Hi Heq Hp g z Hg E) as [z' E'].
    assert (Hw' : wf (l_prim l')) by now rewrite Heq. assert (Hs' : slashfree (l_prim l')) by now rewrite Heq. assert (Hi' : ids_consistent (l_prim l')) by now rewrite Heq.
    assert (Hg' : length g = length (initial_global (l_prim l'))) by now rewrite Heq. assert (Hext' : same_gradients bk (length (initial_global (l_prim l')))) by now rewrite Heq.
    destruct (lstsq_defined n (global_res l) bk Hbk g z Hg) as (d1 & E1 & L1). rewrite Ed in E1. injection E1 as <-. split; [apply L1|]. exists z'. split; [exact E'|].
    destruct (lstsq_defined _ (global_res l') bk Hbk' g z' Hg') as (d2 & E2 & L2). rewrite Heq in L2.
    pose proof (residual_entries rid tw acts l Hr Hsh Hk Hw Hs Hi g z g z Hg E Hg E) as Ez. pose proof (residual_entries rid' tw' acts' l' Hr' Hsh' Hk' Hw' Hs' Hi' g z' g z' Hg' E' Hg' E') as Ez'.
    assert (P : Permutation (entries (size_at l g) (LayoutSpec.added acts)) (entries (size_at l' g) (LayoutSpec.added acts'))).
    { unfold entries, size_at. rewrite Heq. now apply Permutation_flat_map. }
    pose proof (jacobian_entries rid tw acts l Hr Hsh Hk Hw Hs Hi bk Hext g z Hg E) as J. pose proof (jacobian_entries rid' tw' acts' l' Hr' Hsh' Hk' Hw' Hs' Hi' bk Hext' g z' Hg' E') as J'.
    destruct (jacobian_rows n (global_res l) bk Hbk (length z) g Hg) as [R1 R2]. destruct (jacobian_rows _ (global_res l') bk Hbk' (length z') g Hg') as [R1' R2']. rewrite Heq in R1'.
    split.
    - rewrite E2. f_equal. eapply (least_unique n _ _ d2 d); [exact R1'|now rewrite R2', map_length|exact L2|].
      eapply least_perm; [| | |exact L1]; [now rewrite R2, map_length|now rewrite R2', map_length|]. rewrite J, J', Ez, Ez', !map_map, !combine_map. rewrite Heq.
      assert (C : forall e, grad bk (comp l' e) g = grad bk (comp l e) g) by (intros e; apply Hext; [exact Hg|]; intros h Hh; now apply comp_same).
      rewrite (map_ext (fun e => (grad bk (comp l' e) g, (- entry_at (new_tree root g) e)%R)) (fun e => (grad bk (comp l e) g, (- entry_at (new_tree root g) e)%R))) by (intros e; now rewrite C).
      now apply Permutation_map.
    - rewrite Ez, Ez', Heq. apply norm_perm, Permutation_map, Permutation_sym. exact P.
  Qed.
  Lemma loop_same abs_tol rel_tol left : forall s s', length (ns_g s) = n -> newton_loop (global_res l) (lstsq_step bk (global_res l)) abs_tol rel_tol left s = Ok s' ->
    newton_loop (global_res l') (lstsq_step bk (global_res l')) abs_tol rel_tol left s = Ok s'.
  Proof.
    induction left as [|left IH]; intros s s' Hg E; cbn [newton_loop] in *; [exact E|]. destruct (gtb _ _ && gtb _ _)%bool; [|exact E].
    unfold newton_body in *. destruct (global_res l (ns_g s)) as [z|] eqn:Ez; [|discriminate]. cbn [bind] in E. destruct (lstsq_step bk (global_res l) (ns_g s) z) as [d|] eqn:Ed; [|discriminate]. cbn [bind] in E.
    destruct (step_same _ _ _ Hg Ez Ed) as (Hd & z' & Ez' & Ed' & En). rewrite Ez'. cbn [bind]. rewrite Ed'. cbn [bind]. rewrite shifted_vadd in * by congruence. cbn [bind] in *. rewrite En.
    destruct (norm z) as [a|]; [|discriminate]. cbn [bind] in *. apply IH; [|exact E]. cbn [ns_g]. rewrite shifted_length; congruence.
  Qed.
  Lemma solve_same abs_tol rel_tol max_iter x : newton_solve bk l abs_tol rel_tol max_iter = Ok x -> newton_solve bk l' abs_tol rel_tol max_iter = Ok x.
  Proof.
    unfold newton_solve, solve_newton. rewrite Heq. intros E. destruct (newton_loop (global_res l) _ _ _ _ _) as [s|] eqn:El; [|discriminate]. apply loop_same in El; [|reflexivity]. now rewrite El.
  Qed.
End Steps.
