(** C89: the 'minimize' method: results do not depend on the order of constraints, follow
    translations, are never worse than the start, keep bystanders and the centroid. *)
From Coq Require Import Reals Lra Permutation.
From Coquelicot Require Import Derive.
From Verif Require Export MinSpec P_Move P_Ideal.
From Verif Require Import P_Affine.
Local Open Scope R_scope.

(** ** The callback *)
Lemma callback_in abs_tol rel_tol its : forall ae re x ae' re' x', run_callback (F:=R) abs_tol rel_tol its ae re x = Ok (ae', re', x') -> x' = x \/ In x' (map snd its).
Proof.
  induction its as [|[f y] its IH]; intros ae re x ae' re' x' H; cbn [run_callback] in H; [left; congruence|].
  destruct (ndiv _ _) as [rel|]; [|discriminate]. cbn [bind] in H. destruct (_ || _)%bool; [right; left; cbn [snd]; congruence|].
  apply IH in H as [->|H]; right; [now left|now right].
Qed.
Lemma callback_map abs_tol rel_tol (phi : list R -> list R) its : forall ae re x,
  run_callback abs_tol rel_tol (map (fun fx => (fst fx, phi (snd fx))) its) ae re (phi x) =
  match run_callback abs_tol rel_tol its ae re x with Ok (ae', re', x') => Ok (ae', re', phi x') | Err e => Err e end.
Proof.
  induction its as [|[f y] its IH]; intros ae re x; [reflexivity|]. cbn [map run_callback fst snd]. destruct (ndiv _ _) as [rel|]; [|reflexivity]. cbn [bind].
  destruct (_ || _)%bool; [reflexivity|apply IH].
Qed.
Lemma minimized m (l : layout) abs_tol rel_tol max_iter p info : wf (l_prim l) -> slashfree (l_prim l) -> solve_minimize m l abs_tol rel_tol max_iter = Ok (p, info) ->
  let its := m (objective l) (initial_global (l_prim l)) max_iter in exists v0 x, objective l (initial_global (l_prim l)) = Ok v0 /\
  p = new_tree (l_prim l) x /\ (x = initial_global (l_prim l) \/ In x (map snd its)).
Proof.
  intros Hw Hs H. cbv zeta. unfold solve_minimize in H. destruct (objective l _) as [v0|] eqn:E0; [|discriminate]. cbn [bind] in H. destruct (run_callback _ _ _ _ _ _) as [[[ae re] x]|] eqn:E; [|discriminate].
  cbn [bind] in H. rewrite tree_of_global_ok in H by assumption. cbn [bind] in H. exists v0, x. split; [reflexivity|]. split; [congruence|]. eapply callback_in. exact E.
Qed.
Lemma right_length m (l : layout) k x : right_lengths m -> x = initial_global (l_prim l) \/ In x (map snd (m (objective l) (initial_global (l_prim l)) k)) -> length x = length (initial_global (l_prim l)).
Proof. intros Hm [->|H]; [reflexivity|]. apply in_map_iff in H as (fx & <- & H). specialize (Hm (objective l) (initial_global (l_prim l)) k). rewrite Forall_forall in Hm. now apply Hm. Qed.

(** ** The order of constraints *)
Section Two.
  Variables (rid rid' : nat) (tw tw' : bool) (acts acts' : list (action R)) (l l' : layout).
  Hypotheses (Hr : runs (empty_layout rid) acts l) (Hsh : Forall (shipped_act tw) acts) (Hk : Forall top_key acts).
  Hypotheses (Hr' : runs (empty_layout rid') acts' l') (Hsh' : Forall (shipped_act tw') acts') (Hk' : Forall top_key acts').
  Hypotheses (Hw : wf (l_prim l)) (Hs : slashfree (l_prim l)) (Hi : ids_consistent (l_prim l)).
  Hypotheses (Heq : l_prim l' = l_prim l) (Hp : Permutation (LayoutSpec.added acts) (LayoutSpec.added acts')).
  Notation root := (l_prim l).
  Notation n := (length (initial_global root)).
  Lemma objective_same g v : length g = n -> objective l g = Ok v -> objective l' g = Ok v.
  Proof.
    intros Hg E. unfold objective in *. destruct (global_res l g) as [z|] eqn:Ez; [|discriminate]. cbn [bind] in E.
    destruct (global_same_ok rid rid' tw tw' acts acts' l l' Hr Hsh Hk Hr' Hsh' Hk' Hw Hs Hi Heq Hp g z Hg Ez) as [z' Ez']. rewrite Ez'. cbn [bind].
    assert (Hw' : wf (l_prim l')) by now rewrite Heq. assert (Hs' : slashfree (l_prim l')) by now rewrite Heq. assert (Hi' : ids_consistent (l_prim l')) by now rewrite Heq.
    assert (Hg' : length g = length (initial_global (l_prim l'))) by now rewrite Heq.
    pose proof (residual_entries rid tw acts l Hr Hsh Hk Hw Hs Hi g z g z Hg Ez Hg Ez) as E1. pose proof (residual_entries rid' tw' acts' l' Hr' Hsh' Hk' Hw' Hs' Hi' g z' g z' Hg' Ez' Hg' Ez') as E2.
    assert (P : Permutation (BackendOrder.entries (size_at l g) (LayoutSpec.added acts)) (BackendOrder.entries (size_at l' g) (LayoutSpec.added acts'))) by (unfold BackendOrder.entries, size_at; rewrite Heq; now apply Permutation_flat_map).
    assert (Pz : Permutation z z') by (rewrite E1, E2, Heq; now apply Permutation_map).
    rewrite <- E. f_equal. symmetry. apply (sum_perm (map (fun x => x * x) z) (map (fun x => x * x) z')). now apply Permutation_map.
  Qed.
End Two.
Theorem C89_order acts acts' (l l' : layout) m abs_tol rel_tol max_iter x :
  shipped_layout acts l -> shipped_layout acts' l' -> l_prim l' = l_prim l -> Permutation (LayoutSpec.added acts) (LayoutSpec.added acts') ->
  reads_values m (length (initial_global (l_prim l))) ->
  solve_minimize m l abs_tol rel_tol max_iter = Ok x <-> solve_minimize m l' abs_tol rel_tol max_iter = Ok x.
Proof.
  intros Hl Hl' Heq Hp Hm. destruct (shipped_sane acts l Hl) as (Hw & Hs & Hi). destruct Hl as (rid & tw & L & n & Hr & Hsh & Hk & _). destruct Hl' as (rid' & tw' & L' & n' & Hr' & Hsh' & Hk' & _).
  assert (O1 : forall g v, length g = length (initial_global (l_prim l)) -> objective l g = Ok v -> objective l' g = Ok v) by (intros g v; exact (objective_same rid rid' tw tw' acts acts' l l' Hr Hsh Hk Hr' Hsh' Hk' Hw Hs Hi Heq Hp g v)).
  assert (O2 : forall g v, length g = length (initial_global (l_prim l)) -> objective l' g = Ok v -> objective l g = Ok v).
  { rewrite <- Heq in *. intros g v. exact (objective_same rid' rid tw' tw acts' acts l' l Hr' Hsh' Hk' Hr Hsh Hk Hw Hs Hi (eq_sym Heq) (Permutation_sym Hp) g v). }
  assert (Em : m (objective l) (initial_global (l_prim l)) max_iter = m (objective l') (initial_global (l_prim l)) max_iter) by (apply Hm; [reflexivity|]; intros g v Hg; split; auto).
  unfold solve_minimize. rewrite Heq, <- Em. destruct (objective l (initial_global (l_prim l))) as [v|] eqn:E.
  - rewrite (O1 _ _ eq_refl E). reflexivity.
  - destruct (objective l' (initial_global (l_prim l))) as [v'|] eqn:E'; [rewrite (O2 _ _ eq_refl E') in E; discriminate|]. split; discriminate.
Qed.

(** ** Translations *)
Theorem C89_moved a b i (acts : list (action R)) m abs_tol rel_tol max_iter :
  let l := after (empty_layout i) acts in let n := length (initial_global (l_prim l)) in
  reached tidy_relative l -> planar (l_prim l) -> right_lengths m -> reads_values m n -> origin_free m n ->
  match solve_minimize m l abs_tol rel_tol max_iter with
  | Ok (p, info) => solve_minimize m (after (empty_layout i) (map (move_action a b) acts)) abs_tol rel_tol max_iter = Ok (move a b p, info)
  | Err _ => exists e, solve_minimize m (after (empty_layout i) (map (move_action a b) acts)) abs_tol rel_tol max_iter = Err e
  end.
Proof.
  cbv zeta. intros Hl Hp Hlen Hrd Ho. destruct (reached_relative _ Hl) as (Hc & Hw & Hs & _). assert (M : after (empty_layout i) (map (move_action a b) acts) = moved_layout a b (after (empty_layout i) acts)) by (rewrite <- (move_empty a b i) at 1; apply move_after). rewrite !M. clear M. set (l := after (empty_layout i) acts) in *.
  set (l' := moved_layout a b l). set (n := length (initial_global (l_prim l))) in *. set (g0 := initial_global (l_prim l)) in *.
  assert (G0 : initial_global (l_prim l') = slide a b g0) by (apply slide_initial; assumption).
  assert (Ob : forall g, length g = n -> objective l' (slide a b g) = objective l g).
  { intros g Hg. unfold objective, l'. rewrite (global_move a b l (Hc a b) Hw Hs Hp g Hg). reflexivity. }
  assert (Em : m (objective l') (slide a b g0) max_iter = map (fun fx => (fst fx, slide a b (snd fx))) (m (objective l) g0 max_iter)).
  { rewrite (slide_shifted a b n g0 eq_refl). rewrite (Ho (objective l') g0 (alternate a b n) max_iter eq_refl (alternate_length a b n)).
    rewrite (Hrd (fun g => objective l' (shifted g 1 (alternate a b n))) (objective l) g0 max_iter eq_refl).
    - apply map_ext_in. intros fx Hfx. specialize (Hlen (objective l) g0 max_iter). rewrite Forall_forall in Hlen. specialize (Hlen fx Hfx). now rewrite (slide_shifted a b n (snd fx)).
    - intros g v Hg. rewrite <- (slide_shifted a b n g Hg), (Ob g Hg). tauto. }
  unfold solve_minimize. rewrite G0, (Ob g0 eq_refl). fold g0. destruct (objective l g0) as [v0|]; cbn [bind]; [|eexists; reflexivity].
  rewrite Em, callback_map. destruct (run_callback _ _ _ _ _ _) as [[[ae re] x]|] eqn:E; cbn [bind]; [|eexists; reflexivity].
  assert (Lx : length x = n) by (apply callback_in in E; exact (right_length m l max_iter x Hlen E)).
  rewrite tree_of_global_ok by assumption. cbn [bind]. rewrite tree_of_global_ok by (unfold l'; cbn [moved_layout l_prim]; auto using move_wf, move_slashfree). cbn [bind].
  unfold l'. cbn [moved_layout l_prim]. rewrite new_move by assumption. reflexivity.
Qed.

(** ** Never worse than the start *)
Theorem C89_never_worse (l : layout) m abs_tol rel_tol max_iter p info : reached tidy_expression l -> descends m ->
  solve_minimize m l abs_tol rel_tol max_iter = Ok (p, info) ->
  exists v0 v, misfit l (l_prim l) v0 /\ misfit l p v /\ v <= v0.
Proof.
  intros Hl Hm E. destruct (reached_sane _ l tidy_expression_tidy Hl) as (Hw & Hs & Hi). destruct (minimized m l abs_tol rel_tol max_iter p info Hw Hs E) as (v0 & x & E0 & -> & Hx).
  assert (H0 : misfit l (l_prim l) v0).
  { unfold objective in E0. destruct (global_res l _) as [r|] eqn:Er; [|discriminate]. cbn [bind] in E0. exists r. split; [|symmetry; injection E0 as E0; exact E0].
    rewrite <- Er, (global_residual l _ Hw Hs). apply reached_residual; [exact Hl|exact Hw|now apply new_wf|]. apply structure_content; [now apply new_structure|now apply new_numbers]. }
  assert (Hv : exists v, objective l x = Ok v /\ v <= v0).
  { destruct Hx as [->|Hx]; [exists v0; split; [exact E0|lra]|]. apply in_map_iff in Hx as (fx & <- & Hx). specialize (Hm (objective l) _ max_iter v0 E0). rewrite Forall_forall in Hm. destruct (Hm fx Hx) as [H1 H2]. eauto. }
  destruct Hv as (v & Ev & Hle). exists v0, v. split; [exact H0|]. split; [|exact Hle]. exact (objective_new l Hw Hs x v Ev).
Qed.

(** ** Bystanders and the centroid *)
Theorem C89_bystanders acts (l : layout) m abs_tol rel_tol max_iter p info path x :
  shipped_layout acts l -> right_lengths m -> along_gradients m (objective l) (initial_global (l_prim l)) ->
  solve_minimize m l abs_tol rel_tol max_iter = Ok (p, info) ->
  walk path (l_prim l) = Some x ->
  (forall c ks ps key q below y, In (c, ks, ps) (LayoutSpec.added acts) -> In key ks -> get_child (l_prim l) key = Ok q -> walk below q = Some y ->
     vid (nval y) <> vid (nval x)) ->
  exists x', walk path p = Some x' /\ ntype x' = ntype x /\ vdata (nval x') = vdata (nval x).
Proof.
  intros Hl Hlen Hm E Hx Hu. destruct (shipped_sane acts l Hl) as (Hw & Hs & Hi). destruct Hl as (rid & tw & L & n & Hr & Hsh & Hk & _).
  assert (Hun : forall c ks ps, In (c, ks, ps) (LayoutSpec.added acts) -> untouched (l_prim l) ks (nval x)).
  { intros c ks ps Hin key q w Hkey Eq Hw'. pose proof (get_wf _ _ _ Eq Hw) as Wq. rewrite (node_values_paths q Wq) in Hw'. apply in_map_iff in Hw' as (below & <- & Hb). apply in_paths_iff in Hb; [|exact Wq].
    unfold GlobalProofs.value_at. destruct (walk below q) as [y|] eqn:Ey; [|congruence]. eapply Hu; eassumption. }
  pose proof (node_values_In _ _ _ Hw Hx) as Hv. destruct (minimized m l abs_tol rel_tol max_iter p info Hw Hs E) as (v0 & g & _ & -> & Hg).
  pose proof (right_length m l max_iter g Hlen Hg) as Lg. set (g0 := initial_global (l_prim l)) in *.
  assert (Hj : forall j, in_block (l_prim l) (nval x) j -> nth j g 0 = nth j g0 0).
  { intros j Hb. pose proof (in_block_lt l (nval x) j Hb) as Hlt. fold g0 in Hlt. destruct Hg as [->|Hg]; [reflexivity|]. apply in_map_iff in Hg as (fx & <- & Hg).
    assert (D : dotp (snd fx) (unit_vector (length g0) j) = dotp g0 (unit_vector (length g0) j)).
    { assert (F : Forall (fun fx => dotp (snd fx) (unit_vector (length g0) j) = dotp g0 (unit_vector (length g0) j)) (m (objective l) g0 max_iter)).
      { apply Hm; [apply unit_length|]. intros h v t Lh Eh. rewrite <- Lh, <- bump_shifted. unfold objective in *. destruct (global_res l h) as [z|] eqn:Ez; [|discriminate].
        rewrite (residual_bump rid tw acts l Hr Hsh Hk Hw Hs Hi (nval x) Hv Hun h j t z Lh Hb Ez). exact Eh. }
      rewrite Forall_forall in F. exact (F fx Hg). }
    rewrite <- Lg in D at 1. rewrite !dotp_unit in D by (rewrite ?Lg; exact Hlt). exact D. }
  destruct (new_walk (l_prim l) g _ _ Hx) as (x' & E' & H1 & H2 & _). exists x'. split; [exact E'|]. split; [exact H1|]. rewrite H2.
  rewrite <- (new_initial (l_prim l) Hw Hs Hi (nval x) Hv). now apply renew_block.
Qed.
Theorem C89_centroid (l : layout) m abs_tol rel_tol max_iter p info :
  reached tidy_relative l -> planar (l_prim l) -> right_lengths m -> along_gradients m (objective l) (initial_global (l_prim l)) ->
  solve_minimize m l abs_tol rel_tol max_iter = Ok (p, info) ->
  sum_x (initial_global p) = sum_x (initial_global (l_prim l)) /\ sum_y (initial_global p) = sum_y (initial_global (l_prim l)).
Proof.
  intros Hl Hp Hlen Hm E. destruct (reached_relative _ Hl) as (Hc & Hw & Hs & _). destruct (minimized m l abs_tol rel_tol max_iter p info Hw Hs E) as (v0 & g & _ & -> & Hg).
  pose proof (right_length m l max_iter g Hlen Hg) as Lg. rewrite new_global by assumption. set (g0 := initial_global (l_prim l)) in *. set (n := length g0) in *.
  assert (D : forall a b, dotp g (alternate a b n) = dotp g0 (alternate a b n)).
  { intros a b. destruct Hg as [->|Hg]; [reflexivity|]. apply in_map_iff in Hg as (fx & <- & Hg).
    assert (F : Forall (fun fx => dotp (snd fx) (alternate a b n) = dotp g0 (alternate a b n)) (m (objective l) g0 max_iter)).
    { apply Hm; [apply alternate_length|]. intros h v t Lh Eh. rewrite (alternate_scale a b t n h Lh). unfold objective in *. rewrite (global_slide (t * a) (t * b) l (Hc _ _) Hw Hs Hp h Lh). exact Eh. }
    rewrite Forall_forall in F. exact (F fx Hg). }
  rewrite !(sum_x_dotp n), !(sum_y_dotp n) by (try reflexivity; exact Lg). split; apply D.
Qed.

(** ** An optimiser that meets all of these: steepest descent with unit steps, as long as
    the objective does not grow *)
Definition value_of (f : list R -> result R) (g : list R) : R := match f g with Ok v => v | Err _ => 0 end.
Definition slopes (f : list R -> result R) (g : list R) : list R := map (fun j => Derive (fun t => value_of f (bump g j t)) 0) (seq 0 (length g)).
Fixpoint steepest (s : R) (f : list R -> result R) (x : list R) (k : nat) : list (R * list R) :=
  match k with
  | O => []
  | S k => let y := shifted x (- s) (slopes f x) in
      match f x, f y with
      | Ok v, Ok w => if Rle_dec w v then (w, y) :: steepest s f y k else []
      | _, _ => []
      end
  end.
Lemma slopes_length f x : length (slopes f x) = length x.
Proof. unfold slopes. now rewrite map_length, seq_length. Qed.
Lemma steepest_lengths s : right_lengths (steepest s).
Proof.
  intros f x0 k. revert x0. induction k as [|k IH]; intros x0; cbn [steepest]; [constructor|].
  destruct (f x0); [|constructor]. destruct (f (shifted _ _ _)); [|constructor]. destruct (Rle_dec _ _); constructor; cbn [snd]; [now rewrite shifted_length; rewrite ?slopes_length|].
  eapply Forall_impl; [|apply IH]. cbn. intros fx ->. now rewrite shifted_length; rewrite ?slopes_length.
Qed.
Lemma steepest_reads s n : reads_values (steepest s) n.
Proof.
  intros f f' x0 k Hx H. revert x0 Hx. induction k as [|k IH]; intros x0 Hx; cbn [steepest]; [reflexivity|].
  assert (V : forall g, length g = n -> value_of f g = value_of f' g).
  { intros g Hg. unfold value_of. destruct (f g) as [v|] eqn:E; [apply H in E; [|exact Hg]; now rewrite E|]. destruct (f' g) as [v|] eqn:E'; [apply H in E'; [congruence|exact Hg]|reflexivity]. }
  assert (S : slopes f x0 = slopes f' x0) by (unfold slopes; apply map_ext; intros j; apply Derive_ext; intros t; apply V; now rewrite bump_length).
  assert (Ly : length (shifted x0 (- s) (slopes f' x0)) = n) by (rewrite shifted_length; rewrite ?slopes_length; auto).
  rewrite S. set (y := shifted _ _ _) in *.
  assert (W : forall g, length g = n -> match f g with Ok v => f' g = Ok v | Err _ => exists e, f' g = Err e end).
  { intros g Hg. destruct (f g) as [v|] eqn:E; [now apply H|]. destruct (f' g) as [v|] eqn:E'; [apply H in E'; [congruence|exact Hg]|eauto]. }
  pose proof (W x0 Hx) as W1. pose proof (W y Ly) as W2. destruct (f x0); [|destruct W1 as [? ->]; reflexivity]. rewrite W1. destruct (f y); [|destruct W2 as [? ->]; reflexivity]. rewrite W2.
  destruct (Rle_dec _ _); [|reflexivity]. f_equal. now apply IH.
Qed.
Lemma shift_comm x s d e : length d = length x -> length e = length x -> shifted (shifted x 1 e) s d = shifted (shifted x s d) 1 e.
Proof. intros Hd He. apply nth_eq; [rewrite !shifted_length; rewrite ?shifted_length; congruence|]. intros i. rewrite !shifted_nth; rewrite ?shifted_length; try congruence. lra. Qed.
Lemma steepest_free s n : origin_free (steepest s) n.
Proof.
  intros f x0 e k Hx He. revert x0 Hx. induction k as [|k IH]; intros x0 Hx; cbn [steepest map]; [reflexivity|].
  set (h := fun g => f (shifted g 1 e)).
  assert (S : slopes f (shifted x0 1 e) = slopes h x0).
  { unfold slopes. rewrite shifted_length by congruence. apply map_ext. intros j. apply Derive_ext. intros t. unfold h, value_of. rewrite !bump_shifted.
    rewrite (shifted_length x0 1 e) by congruence. rewrite shift_comm by (rewrite ?unit_length; congruence). reflexivity. }
  rewrite S. assert (Ls : length (slopes h x0) = length x0) by apply slopes_length. rewrite shift_comm by congruence. set (y := shifted x0 (- s) (slopes h x0)).
  assert (Ly : length y = n) by (unfold y; rewrite shifted_length; congruence). fold (h x0) (h y). change (f (shifted x0 1 e)) with (h x0). change (f (shifted y 1 e)) with (h y).
  destruct (h x0); [|reflexivity]. destruct (h y); [|reflexivity]. destruct (Rle_dec _ _); [|reflexivity]. cbn [map fst snd]. f_equal. rewrite (IH y Ly). reflexivity.
Qed.
Lemma steepest_descends s : descends (steepest s).
Proof.
  intros f x0 k. revert x0. induction k as [|k IH]; intros x0 v0 E0; cbn [steepest]; [constructor|]. rewrite E0. set (y := shifted _ _ _).
  destruct (f y) as [w|] eqn:Ew; [|constructor]. destruct (Rle_dec w v0) as [Hle|]; [|constructor]. constructor; [cbn [fst snd]; auto|].
  eapply Forall_impl; [|exact (IH y w Ew)]. cbn. intros fx [H1 H2]. split; [exact H1|lra].
Qed.
Lemma dotp_scale t : forall a b, dotp a (map (Rmult t) b) = t * dotp a b.
Proof. unfold dotp. intros a. induction a as [|x a IH]; intros [|y b]; cbn; try lra. cbn in IH. rewrite IH. lra. Qed.
Lemma times_scale J t a : times J (map (Rmult t) a) = map (Rmult t) (times J a).
Proof. unfold times. rewrite map_map. apply map_ext. intros row. apply dotp_scale. Qed.
(** If the residual is differentiable, the slopes have no part along directions in which the
    objective does not change. *)
Lemma slopes_orthogonal (l : layout) g r e : smooth_at (global_res l) g -> global_res l g = Ok r -> length e = length g ->
  (forall t, objective l (shifted g t e) = objective l g) -> dotp (slopes (objective l) g) e = 0.
Proof.
  intros [J HJ] Er He Hinv. assert (Eo : objective l g = Ok (nsum (map (fun x => nmul x x) r))) by (unfold objective; rewrite Er; reflexivity).
  assert (S0 : 2 * dotp r (times J e) = 0).
  { eapply (slope_unique l g e); [exact (slope_at l g J r HJ Er e He)|]. exists 1, (fun _ => nsum (map (fun x => nmul x x) r)). split; [lra|]. split; [intros t _; rewrite Hinv; exact Eo|apply derivable_pt_lim_const]. }
  transitivity (2 * dotp r (times J e)); [|exact S0]. symmetry. apply (linear_dotp (length g) (fun d => 2 * dotp r (times J d))); [|apply slopes_length|exact He|].
  - pose proof (rows_count l g J r HJ Er) as Hrc. destruct HJ as [HJ _]. split.
    + intros d d' Hd Hd'. rewrite (times_shift J d d' 1 (length g) HJ Hd Hd'). rewrite !(dotp_sym r), dotp_shift by (rewrite !times_length; auto). lra.
    + intros t a Ha. rewrite times_scale, dotp_scale. lra.
  - intros j Hj. unfold slopes. rewrite (nth_indep _ 0 (Derive (fun t => value_of (objective l) (bump g 0 t)) 0)) by now rewrite map_length, seq_length.
    rewrite (map_nth (fun j => Derive (fun t => value_of (objective l) (bump g j t)) 0)), seq_nth by exact Hj. cbn [Nat.add].
    apply is_derive_unique, is_derive_Reals. destruct (slope_at l g J r HJ Er (unit_vector (length g) j) (unit_length _ _)) as (eps & f & Heps & Hf & Hd).
    apply (near_limit f _ eps _ Heps); [|exact Hd]. intros t Ht. unfold value_of. rewrite bump_shifted. now rewrite (Hf t Ht).
Qed.

Lemma steepest_along s (l : layout) x0 : (forall g, length g = length x0 -> smooth_at (global_res l) g) -> along_gradients (steepest s) (objective l) x0.
Proof.
  intros Hsm e k He Hinv.
  assert (G : forall k x, length x = length x0 -> Forall (fun fx => dotp (snd fx) e = dotp x e) (steepest s (objective l) x k)); [|now apply G].
  clear k. induction k as [|k IH]; intros x Hx; cbn [steepest]; [constructor|]. set (d := slopes (objective l) x). assert (Ld : length d = length x) by apply slopes_length.
  assert (Ly : length (shifted x (- s) d) = length x0) by (rewrite shifted_length; congruence). destruct (objective l x) as [v|] eqn:Ev; [|constructor]. destruct (objective l (shifted x (- s) d)) as [w|]; [|constructor].
  assert (Ed : dotp (shifted x (- s) d) e = dotp x e).
  { rewrite dotp_shift by congruence. unfold objective in Ev. destruct (global_res l x) as [r|] eqn:Er; [|discriminate]. unfold d. rewrite (slopes_orthogonal l x r e (Hsm x Hx) Er); [lra|congruence|].
    intros t. pose proof Er as Eo. assert (Eo' : objective l x = Ok v) by (unfold objective; rewrite Er; exact Ev). rewrite Eo'. now apply Hinv. }
  destruct (Rle_dec w v); constructor; [exact Ed|]. rewrite <- Ed. now apply IH.
Qed.
(** On every layout of constraints with affine residuals (and any step size), it meets all
    that the theorems above ask for. *)
Theorem C89_optimiser_exists (l : layout) r s : reached affine_constraint l -> layout_residual l (l_prim l) = Ok r ->
  let n := length (initial_global (l_prim l)) in exists m, right_lengths m /\ reads_values m n /\ origin_free m n /\ descends m /\ along_gradients m (objective l) (initial_global (l_prim l)) /\
  (forall f x k w y rest, m f x (S k) = (w, y) :: rest -> y = shifted x (- s) (slopes f x)).
Proof.
  intros Ra Er n. exists (steepest s). split; [apply steepest_lengths|]. split; [apply steepest_reads|]. split; [apply steepest_free|]. split; [apply steepest_descends|]. split.
  - apply steepest_along. intros g Hg. destruct (reached_sane _ l affine_constraint_tidy Ra) as (Hw & Hs & Hi). eapply affine_smooth; [|exact Hg].
    exact (proj1 (affine_layout l (l_prim l) r Hw Hs Hi (affine_kinds l Ra) (same_structure_refl _) Hi Er)).
  - intros f x k w y rest. cbn [steepest]. destruct (f x); [|discriminate]. destruct (f (shifted _ _ _)); [|discriminate]. destruct (Rle_dec _ _); [|discriminate]. congruence.
Qed.

(** A unit square asked to have width 3: one step widens it to 2. *)
Definition acts89 : list (action R) := [AddPrim quad60 "Q"; AddConstraint (ok_cons crWidth) ["Q"%string] [PFlt 3%R] "W"].
Definition l89 : layout := after (empty_layout 0) acts89.
Lemma given89 (P : cons -> Prop) : P (ok_cons crWidth) -> reached P l89.
Proof.
  intros HP. destruct C60_case as (L & n & H1 & H2 & H3 & _). exists 0%nat, acts89, L, n. split; [reflexivity|]. split; [exact H1|]. split; [exact H2|].
  assert (Hq : Forall (drawn L) (given_prims (AddPrim quad60 "Q"))).
  { rewrite Forall_forall in H3. apply (H3 (AddPrim quad60 "Q")). unfold acts60. left. reflexivity. }
  cbn [given_prims] in Hq. unfold acts89. repeat (apply Forall_cons; [split; cbn [given_prims given_cons]; [first [exact Hq|apply Forall_nil]|]; first [apply Forall_nil|apply Forall_cons; [exact HP|apply Forall_nil]]|]). apply Forall_nil.
Qed.
Lemma start89 : initial_global (l_prim l89) = [0; 0; 1; 0; 1; 1; 0; 1].
Proof. lazy -[IZR]. reflexivity. Qed.
Lemma planar89 : planar (l_prim l89).
Proof.
  unfold planar. assert (E : exists ds, map (fun m => vdata (nval m)) (preorder (l_prim l89)) = ds /\ Forall flat2 ds).
  { eexists. split; [lazy -[IZR]; reflexivity|]. repeat (apply Forall_cons; [first [left; reflexivity | right; eexists _, _; reflexivity]|]). apply Forall_nil. }
  destruct E as (ds & E & H). rewrite <- E in H. now rewrite Forall_map in H.
Qed.
Lemma res89 a b c d e f u v : global_res l89 [a; b; c; d; e; f; u; v] = Ok [c - a - 3].
Proof. lazy -[IZR Rplus Rminus Rmult Ropp Rlt_dec Req_EM_T Rdiv sqrt]. f_equal. f_equal. ring. Qed.
Lemma objective89 a b c d e f u v : objective l89 [a; b; c; d; e; f; u; v] = Ok ((c - a - 3) * (c - a - 3)).
Proof. unfold objective. rewrite res89. cbn [bind map]. f_equal. cbn. ring. Qed.
Lemma derive_square f p q : (forall t, f t = (p + t * q) * (p + t * q)) -> Derive f 0 = 2 * p * q.
Proof.
  intros H. rewrite (Derive_ext f (fun t => (p + t * q) * (p + t * q)) 0 H). apply is_derive_unique, is_derive_Reals.
  replace (2 * p * q) with (q * (p + 0 * q) + (p + 0 * q) * q) by ring. apply (derivable_pt_lim_mult (fun t => p + t * q) (fun t => p + t * q)); apply limit_line.
Qed.
Lemma slopes89 : slopes (objective l89) [0; 0; 1; 0; 1; 1; 0; 1] = [4; 0; -4; 0; 0; 0; 0; 0].
Proof.
  unfold slopes. cbn [length seq map bump]. unfold value_of.
  assert (G : forall f p q v, (forall t, f t = (p + t * q) * (p + t * q)) -> v = 2 * p * q -> Derive f 0 = v) by (intros f p q v H ->; now apply derive_square).
  assert (C : forall h1 h2 h3 h4 h5 h6 h7 h8, [h1; h2; h3; h4; h5; h6; h7; h8] = [4; 0; -4; 0; 0; 0; 0; 0] <-> (h1 = 4 /\ h3 = -4 /\ h2 = 0 /\ h4 = 0 /\ h5 = 0 /\ h6 = 0 /\ h7 = 0 /\ h8 = 0)).
  { intros. split; [intros E; repeat split; congruence|]. intros (-> & -> & -> & -> & -> & -> & -> & ->). reflexivity. }
  apply C. split; [apply (G _ (-2) (-1)); [intros t; rewrite objective89; ring|ring]|]. split; [apply (G _ (-2) 1); [intros t; rewrite objective89; ring|ring]|].
  repeat split; (apply (G _ (-2) 0); [intros t; rewrite objective89; ring|ring]).
Qed.
Example C89_case : exists p r, reached tidy_relative l89 /\ reached tidy_expression l89 /\ reached affine_constraint l89 /\ planar (l_prim l89) /\ layout_residual l89 (l_prim l89) = Ok r /\
  solve_minimize (steepest (1/8)) l89 0 0 1 = Ok (p, ([1], [1])) /\ initial_global p = [-1/2; 0; 3/2; 0; 1; 1; 0; 1].
Proof.
  assert (Ra : reached affine_constraint l89) by (apply given89, affine60; cbn [In]; tauto). destruct (reached_sane _ l89 affine_constraint_tidy Ra) as (Hw & Hs & Hi).
  exists (new_tree (l_prim l89) [-1/2; 0; 3/2; 0; 1; 1; 0; 1]), [1 - 0 - 3]. split; [apply given89, relative_width|]. split; [apply given89, expressible60; cbn [In]; tauto|]. split; [exact Ra|]. split; [exact planar89|]. split.
  - assert (Rt : reached tidy_expression l89) by (apply given89, expressible60; cbn [In]; tauto). rewrite <- (res89 0 0 1 0 1 1 0 1), <- start89, (global_residual l89 _ Hw Hs). apply reached_residual; [exact Rt|exact Hw|now apply new_wf|]. apply structure_content; [now apply new_structure|now apply new_numbers].
  - split; [|apply new_global; [exact Hw|exact Hs|rewrite start89; reflexivity]].
    unfold solve_minimize. rewrite start89, objective89. cbn [bind steepest]. rewrite slopes89. unfold shifted. cbn [zip map fst snd]. rewrite !objective89.
    destruct (Rle_dec _ _) as [_|H]; [|exfalso; apply H; lra].
    match goal with |- context [run_callback _ _ [(?w, ?y)] _ _ _] => replace w with 1 by field; replace y with [-1/2; 0; 3/2; 0; 1; 1; 0; 1] by (repeat (apply f_equal2; [field|]); reflexivity) end.
    cbn [run_callback List.app hd ndiv NumR]. unfold Rdiv_r. destruct (Req_EM_T 1 0) as [H|_]; [exfalso; lra|]. cbn [bind]. replace (1 / 1) with 1 by field. destruct (_ || _)%bool; cbn [bind]; rewrite tree_of_global_ok by assumption; reflexivity.
Qed.
Example C89_case_order : exists m, shipped_layout acts84 l84 /\ shipped_layout acts85 l85 /\ l_prim l85 = l_prim l84 /\ Permutation (LayoutSpec.added acts84) (LayoutSpec.added acts85) /\
  LayoutSpec.added acts84 <> LayoutSpec.added acts85 /\ reads_values m (length (initial_global (l_prim l84))) /\ right_lengths m /\ along_gradients m (objective l84) (initial_global (l_prim l84)).
Proof.
  destruct C85_case as (H1 & H2 & H3 & H4 & H5 & _). destruct residual84 as [(r & Er) _]. destruct (C89_optimiser_exists l84 r 1 (proj1 reached84) Er) as (m & A1 & A2 & _ & _ & A5 & _). exists m. tauto.
Qed.

Print Assumptions C89_order.
Print Assumptions C89_moved.
Print Assumptions C89_never_worse.
Print Assumptions C89_bystanders.
Print Assumptions C89_centroid.
Print Assumptions C89_optimiser_exists.
