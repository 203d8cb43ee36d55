(** * C99: one Newton iteration solves straight layouts started from default primitives *)
From Coq Require Import Reals Lra.
From Verif Require Import P_Station P_Implied BackendLocal BackendOrder EndProofs P_End AffineLayout P_Expr OneStepLayout P_Same P_Comp P_Grid P_GridEnd P_Ideal AllocProofs P_Draw.
From Verif Require Export OneStepSpec.
From Verif Require Import P_Affine.
Local Open Scope R_scope.

Lemma vector_is (l : layout) (q : prim) : let root := l_prim l in wf root -> slashfree root -> ids_consistent root -> same_structure root q -> ids_consistent q ->
  length (initial_global q) = length (initial_global root) /\ wf q /\ same_numbers q (new_tree root (initial_global q)) /\ same_content q (new_tree root (initial_global q)).
Proof.
  intros root Hw Hs Hi Hq Hiq. destruct (structure_vector _ q Hw Hs Hi Hq Hiq) as (gs & Hgs & Hb).
  assert (Hk : forall k, option_map (@nkeys _ _) (walk k root) = option_map (@nkeys _ _) (walk k q)).
  { intros k. pose proof (proj1 Hq k) as H1. destruct (walk k root), (walk k q); cbn in *; congruence. }
  destruct (keys_shape _ _ Hw Hk) as [_ Wq]. pose proof (keys_tidy _ _ Hw Hs Hk) as Sq.
  assert (St : same_structure q (new_tree root gs)) by (eapply same_structure_trans; [apply same_structure_sym; exact Hq|now apply new_structure]).
  assert (Sn : same_numbers q (new_tree root gs)).
  { intros k. pose proof (blend_walk 0 k q q _ Hb) as G. destruct (walk k q) as [x|], (walk k (new_tree root gs)) as [y|]; try contradiction; cbn; [|reflexivity]. f_equal.
    inversion G; subst. cbn. match goal with E : _ = mix 0 _ _ |- _ => rewrite mix_same in E; now symmetry end. }
  assert (Eg : initial_global q = gs).
  { rewrite <- (new_global root gs Hw Hs Hgs). apply same_global; try assumption; [now apply new_wf|now apply new_slashfree]. }
  rewrite Eg. split; [exact Hgs|]. split; [exact Wq|]. split; [exact Sn|]. now apply structure_content.
Qed.

Lemma one_step_all acts (l : layout) bk q zq abs_tol rel_tol k :
  shipped_layout acts l -> exact_on bk l ->
  (forall c ks ps, In (c, ks, ps) (LayoutSpec.added acts) -> plain_request acts l c ks ps) ->
  same_structure (l_prim l) q -> ids_consistent q -> layout_residual l q = Ok zq -> zeros zq ->
  (forall Q, boxed_square acts l Q -> upright q Q) ->
  exists p a errs re z, newton_solve bk l abs_tol rel_tol (S k) = Ok (p, (a :: errs, re)) /\
    same_structure (l_prim l) p /\ ids_consistent p /\ layout_residual l p = Ok z /\ zeros z /\
    zeros errs /\ (0 <= abs_tol -> (length errs <= 1)%nat) /\
    forall q' zq', same_structure (l_prim l) q' -> ids_consistent q' -> layout_residual l q' = Ok zq' -> zeros zq' ->
      (forall Q, boxed_square acts l Q -> upright q' Q) ->
      distance2 (initial_global p) (initial_global (l_prim l)) <= distance2 (initial_global q') (initial_global (l_prim l)) /\
      (distance2 (initial_global q') (initial_global (l_prim l)) <= distance2 (initial_global p) (initial_global (l_prim l)) -> initial_global q' = initial_global p) /\
      forall t, exists z', layout_residual l (new_tree (l_prim l) (mix t (initial_global q') (initial_global p))) = Ok z' /\ zeros z'.
Proof.
  intros Hl Hbk Hp Hq Hiq Ez Hz Hu. destruct (shipped_sane acts l Hl) as (Hw & Hs & Hi). destruct Hl as (rid & tw & L & nn & Hr & Hsh & Hk & _). set (g0 := initial_global (l_prim l)).
  assert (Hne : LayoutSpec.added acts <> []). { intros E. rewrite (C53_no_constraints rid acts l q Hr E) in Ez. discriminate. }
  (* what a satisfying upright tree gives *)
  assert (Sol : forall q zq, same_structure (l_prim l) q -> ids_consistent q -> layout_residual l q = Ok zq -> zeros zq -> (forall Q, boxed_square acts l Q -> upright q Q) ->
    let gq := initial_global q in length gq = length g0 /\ (forall Q, boxed_square acts l Q -> upright (new_tree (l_prim l) gq) Q) /\ Forall (fun x => met (req l x) gq) (LayoutSpec.added acts)).
  { clear q zq Hq Hiq Ez Hz Hu. intros q zq Hq Hiq Ez Hz Hu gq. destruct (vector_is l q Hw Hs Hi Hq Hiq) as (Lq & Wq & Nq & Cq). fold gq in Lq, Nq, Cq. split; [exact Lq|].
    assert (Sg : same_structure (l_prim l) (new_tree (l_prim l) gq)) by now apply new_structure. assert (Ig : ids_consistent (new_tree (l_prim l) gq)) by now apply new_ids. split.
    - intros Q HQ. destruct (Hu Q HQ) as (x & a & b & r & t & E & Hb & H1 & H2). destruct (quad_moved _ _ Q Sg Ig (proj1 HQ)) as (y & P0 & P1 & P2 & P3 & E' & H'). exists y, a, b, r, t. split; [exact E'|]. split; [|auto]. eapply box_numbers; eassumption.
    - apply Forall_forall. intros x Hx.
      assert (Er : layout_residual l (new_tree (l_prim l) gq) = Ok zq).
      { rewrite <- Ez. pose proof (runs_after _ _ _ Hr) as <-. symmetry. apply C80_residual; [|exact Wq|now apply new_wf|exact Cq]. apply Forall_flat_map. apply Forall_forall. intros a Ha. rewrite Forall_forall in Hsh. specialize (Hsh a Ha).
        destruct a as [| |c ks ps key]; cbn [given_cons]; try apply Forall_nil. apply Forall_cons; [|apply Forall_nil]. cbn in Hsh. eapply shipped_expressible. exact Hsh. }
      destruct x as [[c ks] ps]. destruct (proj1 (proj2 (C79_every_constraint rid tw acts l _ zq Hr Hsh Hk Sg Er)) Hz c ks ps Hx) as (prims & E1 & v & E2 & E3).
      exists v. split; [|exact E3]. eapply value_req; try eassumption. exists prims. auto. }
  destruct (Sol q zq Hq Hiq Ez Hz Hu) as (Lq & Uq & Mq). cbv zeta in Lq, Uq, Mq. set (gq := initial_global q) in *.
  assert (Hp' : Forall (fun x => let '(c, ks, ps) := x in plain_request acts l c ks ps) (LayoutSpec.added acts)) by (apply Forall_forall; intros [[c ks] ps] Hx; now apply Hp).
  destruct (reqs_handled acts l Hw Hs Hi gq Lq Uq _ Hp' Mq) as (m & T & Zm & Sm).
  assert (T' : tangent (length g0) g0 (global_res l) m) by (eapply tangent_defined; [reflexivity| |exact T]; intros g z Hg E; now apply (reqs_global rid tw acts l Hr Hsh Hk Hw Hs Hi)).
  assert (Good : forall g, length g = length g0 -> zeros (m g) -> exists z, global_res l g = Ok z /\ zeros z).
  { intros g Hg Hzg. pose proof (Sm g Hg Hzg) as F. rewrite Forall_forall in F. assert (Sg : same_structure (l_prim l) (new_tree (l_prim l) g)) by now apply new_structure. 
    assert (V : forall x, In x (LayoutSpec.added acts) -> met (req l x) g -> exists v, LayoutSpec.value_at (new_tree (l_prim l) g) x v /\ zeros v).
    { intros x Hx (v & E & Hv). exists v. split; [|exact Hv]. eapply req_value; eassumption. }
    assert (St : straight acts l g).
    { intros Q HQ. destruct (square_quad acts l Hw Hs Hi gq Lq Uq Q HQ g Hg) as (P0 & P1 & P2 & P3 & H4). pose proof (proj2 (proj2 HQ)) as (b & Eb & Hb).
      assert (Ab : affine_cons b). { apply affine_constraint_ok. left. rewrite <- Eb. unfold affine_shipped. apply in_or_app. right. apply in_or_app. left. cbn [In]. repeat match goal with |- ?x = ?x \/ _ => left; reflexivity | |- _ \/ _ => right end. }
      destruct (V _ Hb (F _ Hb (or_introl Ab))) as (v & (prims & Ep & Ec) & Hv). cbn [mapM] in Ep. rewrite (square_child acts l Hw Hs Hi gq Lq Uq Q HQ g Hg) in Ep. cbn [bind] in Ep. injection Ep as <-.
      pose proof (boxed _ _ _ _ _ H4 (ex_intro _ b (conj Eb (ex_intro _ v (conj Ec Hv))))) as B. unfold GridProofs.is_box in B. unfold straight_quad. eauto. }
    rewrite global_residual by assumption. apply (all_satisfied rid tw acts l _ Hr Hsh Hk Sg Hne). intros c ks ps Hx.
    destruct (V _ Hx (F _ Hx (or_intror St))) as (v & (prims & Ep & Ec) & Hv). exists prims. split; [exact Ep|]. exists v. auto. }
  destruct (tangent_loop l bk m gq abs_tol rel_tol k Hbk T' Lq Zm Good) as (s & Es & Ls & Zs & Cs & a & errs & Ea & He & Ht). fold g0 in Es, Ls, Cs.
  unfold newton_solve, solve_newton. fold g0. rewrite Es. cbn [bind]. rewrite tree_of_global_ok by assumption. cbn [bind]. rewrite Ea.
  destruct (Good _ Ls Zs) as (z & Ez1 & Hz1). exists (new_tree (l_prim l) (ns_g s)), a, errs, (ns_rel s), z. split; [reflexivity|]. split; [now apply new_structure|]. split; [now apply new_ids|].
  split; [now rewrite <- global_residual|]. split; [exact Hz1|]. split; [exact He|]. split; [exact Ht|].
  intros q' zq' Hq' Hiq' Ez' Hz' Hu'. destruct (Sol q' zq' Hq' Hiq' Ez' Hz' Hu') as (Lq' & Uq' & Mq'). cbv zeta in Lq', Uq', Mq'.
  destruct (reqs_handled acts l Hw Hs Hi (initial_global q') Lq' Uq' _ Hp' Mq') as (m' & T1 & Zm' & _).
  rewrite new_global by assumption. rewrite <- (tangent_unique (length g0) g0 eq_refl _ m m' T T1) in Zm' by exact Lq'. destruct (Cs _ Lq' Zm') as [C1 C2]. split; [exact C1|]. split; [exact C2|]. intros t.
  rewrite <- global_residual by assumption. apply Good; [rewrite mix_length; congruence|]. destruct T as (Am & _). destruct (affine_parts _ m t _ _ Am Lq' Ls) as [Lm ->].
  apply Forall_forall. intros x Hx. unfold mix in Hx. apply in_map_iff in Hx as ([u v] & <- & Hx). apply zip_In in Hx as [H1 H2]. unfold zeros in *. rewrite Forall_forall in Zm', Zs. cbn [fst snd]. rewrite (Zm' u H1), (Zs v H2). lra.
Qed.
(** A layout of shipped constraints that are all "plain" (OneStepSpec.v), some satisfying tree of
    which has all boxed squares upright: with an exact backend, Newton's method reaches
    after the first iteration primitives that satisfy all constraints exactly, and stays
    there; they are the satisfying upright ones closest to the start. *)
Theorem C99_one_step acts (l : layout) bk q zq abs_tol rel_tol k :
  shipped_layout acts l -> exact_on bk l ->
  (forall c ks ps, In (c, ks, ps) (LayoutSpec.added acts) -> plain_request acts l c ks ps) ->
  same_structure (l_prim l) q -> ids_consistent q -> layout_residual l q = Ok zq -> zeros zq ->
  (forall Q, boxed_square acts l Q -> upright q Q) ->
  exists p a errs re z, newton_solve bk l abs_tol rel_tol (S k) = Ok (p, (a :: errs, re)) /\
    same_structure (l_prim l) p /\ ids_consistent p /\ layout_residual l p = Ok z /\ zeros z /\
    zeros errs /\ (0 <= abs_tol -> (length errs <= 1)%nat) /\
    forall q' zq', same_structure (l_prim l) q' -> ids_consistent q' -> layout_residual l q' = Ok zq' -> zeros zq' ->
      (forall Q, boxed_square acts l Q -> upright q' Q) ->
      distance2 (initial_global p) (initial_global (l_prim l)) <= distance2 (initial_global q') (initial_global (l_prim l)) /\
      (distance2 (initial_global q') (initial_global (l_prim l)) <= distance2 (initial_global p) (initial_global (l_prim l)) -> initial_global q' = initial_global p).
Proof.
  intros Hl Hbk Hp Hq Hiq Ez Hz Hu. destruct (one_step_all acts l bk q zq abs_tol rel_tol k Hl Hbk Hp Hq Hiq Ez Hz Hu) as (p & a & errs & re & z & E & P1 & P2 & P3 & P4 & P5 & P6 & P7).
  exists p, a, errs, re, z. repeat (split; [assumption|]). intros q' zq' H1 H2 H3 H4 H5. destruct (P7 q' zq' H1 H2 H3 H4 H5) as (A & B & _). auto.
Qed.

(** ** Grids: what is drawn *)
Lemma figure_size rid tw acts (l : layout) p z fig w h : runs (empty_layout rid) acts l -> Forall (shipped_act tw) acts -> Forall top_key acts ->
  same_structure (l_prim l) p -> layout_residual l p = Ok z -> zeros z -> sized acts fig w h ->
  forall q a b r t, get_child p fig = Ok q -> box_at q a b r t -> r - a = w /\ t - b = h.
Proof.
  intros Hr Hs Hk Hp Hz Hzz (SB & (vw & [nw1 nw2] & SW) & (vh & [nh1 nh2] & SH)) fq x0 y0 x1 y1 Gf B. pose proof (asked_vanish rid tw acts l p z Hr Hs Hk Hp Hz Hzz) as Ev.
  destruct (Ev _ _ _ SW) as (c1 & prims & F1 & E2 & F3). cbn [mapM] in E2. rewrite Gf in E2. cbn [bind] in E2. injection E2 as <-.
  destruct (C42_width _ _ _ _ _ _ _ B nw1 nw2) as (c' & F1' & _ & F3'). rewrite F1 in F1'. injection F1' as <-. apply F3' in F3.
  destruct (Ev _ _ _ SH) as (c2 & prims & H1 & E2 & H3). cbn [mapM] in E2. rewrite Gf in E2. cbn [bind] in E2. injection E2 as <-.
  destruct (C42_height _ _ _ _ _ _ _ B nh1 nh2) as (c' & H1' & _ & H3'). rewrite H1 in H1'. injection H1' as <-. apply H3' in H3. auto.
Qed.
Lemma small_t (l : list (R * R)) : Forall (fun ab => 0 < fst ab) l -> exists t, 0 < t <= 1 /\ forall s, 0 <= s <= t -> Forall (fun ab => 0 < (1 - s) * fst ab + s * snd ab) l.
Proof.
  induction 1 as [|[a b] l Ha _ (t & Ht & IH)]; [exists 1; split; [lra|]; constructor|]. cbn [fst] in Ha. pose proof (Rabs_pos b) as Hb. pose proof (Rle_abs (- b)) as Hb'. rewrite Rabs_Ropp in Hb'.
  set (u := a / (a + Rabs b + 1)). assert (Hu : 0 < u) by (apply Rdiv_lt_0_compat; lra).
  exists (Rmin t u). split; [split; [apply Rmin_glb_lt; lra|eapply Rle_trans; [apply Rmin_l|lra]]|]. intros s [S1 S2]. pose proof (Rle_trans _ _ _ S2 (Rmin_l _ _)) as S3. pose proof (Rle_trans _ _ _ S2 (Rmin_r _ _)) as S4.
  constructor; [|apply IH; lra]. cbn [fst snd]. assert (X : s * (a + Rabs b + 1) <= a).
  { replace a with (u * (a + Rabs b + 1)) at 2 by (unfold u; field; lra). apply Rmult_le_compat_r; lra. }
  assert (Y : - (s * Rabs b) <= s * b) by (replace (- (s * Rabs b)) with (s * (- Rabs b)) by ring; apply Rmult_le_compat_l; lra). nra.
Qed.
Lemma box_blend s (a b m : prim) A B M : blend s a b m -> GridProofs.is_box a A -> GridProofs.is_box b B -> GridProofs.is_box m M ->
  GridProofs.bwidth M = (1 - s) * GridProofs.bwidth A + s * GridProofs.bwidth B /\ GridProofs.bheight M = (1 - s) * GridProofs.bheight A + s * GridProofs.bheight B.
Proof.
  intros H HA HB HM. destruct (corners _ _ _ _ _ HA) as (A0 & _ & A2 & _), (corners _ _ _ _ _ HB) as (B0 & _ & B2 & _), (corners _ _ _ _ _ HM) as (M0 & _ & M2 & _).
  assert (G : forall path x0 y0 x1 y1 x2 y2, option_map (fun n : prim => vdata (nval n)) (walk path a) = Some [x0; y0] -> option_map (fun n : prim => vdata (nval n)) (walk path b) = Some [x1; y1] -> option_map (fun n : prim => vdata (nval n)) (walk path m) = Some [x2; y2] ->
    x2 = (1 - s) * x0 + s * x1 /\ y2 = (1 - s) * y0 + s * y1).
  { intros path x0 y0 x1 y1 x2 y2 E1 E2 E3. pose proof (blend_walk s path a b m H) as W. destruct (walk path a) as [u|]; [|discriminate]. destruct (walk path b) as [v|]; [|discriminate]. destruct (walk path m) as [w|]; [|discriminate].
    cbn in E1, E2, E3. injection E1 as E1. injection E2 as E2. injection E3 as E3. destruct W as [ta va cha tb vb chb tm vm chm L D _]. cbn in *. rewrite E1, E2, E3 in D. cbn in D. injection D as -> ->. auto. }
  destruct (G _ _ _ _ _ _ _ A0 B0 M0) as [X0 Y0]. destruct (G _ _ _ _ _ _ _ A2 B2 M2) as [X2 Y2]. cbn [fst snd] in *. unfold GridProofs.bwidth, GridProofs.bheight. split; nra.
Qed.
(** In a layout of [r] x [c] boxed squares in a boxed square, with the requests of C92 and
    possibly others of the plain kind, that can be satisfied with all boxed squares upright:
    drawing what one Newton iteration (or more) gives succeeds, with exactly the requested size, and
    the margins computed from the request. *)
Theorem C99_grid acts (l : layout) bk q zq abs_tol rel_tol k fig w h r c key g :
  shipped_layout acts l -> exact_on bk l ->
  (forall c ks ps, In (c, ks, ps) (LayoutSpec.added acts) -> plain_request acts l c ks ps) ->
  same_structure (l_prim l) q -> ids_consistent q -> layout_residual l q = Ok zq -> zeros zq ->
  (forall Q, boxed_square acts l Q -> upright q Q) ->
  boxed_square acts l fig -> sized acts fig w h -> 0 < w -> 0 < h ->
  (1 <= r)%nat -> (1 <= c)%nat -> NoDup (GridEndSpec.cells r c key) ->
  (forall i j, (i < r)%nat -> (j < c)%nat -> axes_in (l_prim l) (key i j) /\ boxed_square acts l (frame (key i j))) ->
  length (ratios_x g) = (c - 1)%nat -> length (gaps_x g) = (c - 1)%nat -> length (ratios_y g) = (r - 1)%nat -> length (gaps_y g) = (r - 1)%nat ->
  asked_grid acts fig r c key g ->
  exists p info tr, newton_solve bk l abs_tol rel_tol (S k) = Ok (p, info) /\
      subplots p fig (Some (GridEndSpec.cells r c key)) = (tr, Ok tt) /\
      sizes tr = [(w, h)] /\ map fst (positions tr) = GridEndSpec.cells r c key /\
      map (fun kr => inches w h (snd kr)) (positions tr) = GridEndSpec.cells r c (cell_margins w h g).
Proof.
  intros Hl Hbk Hp Hq Hiq Ez Hz Hu Hfig Hsize W0 H0 Pr Pc Hn Hcell' L1 L2 L3 L4 Ag. assert (Hcell : forall i j, (i < r)%nat -> (j < c)%nat -> boxed_square acts l (frame (key i j))) by (intros; now apply Hcell').
  destruct (one_step_all acts l bk q zq abs_tol rel_tol k Hl Hbk Hp Hq Hiq Ez Hz Hu) as (p & a & errs & re & z & E & P1 & P2 & P3 & P4 & P5 & P6 & P7).
  exists p, (a :: errs, re). destruct (P7 q zq Hq Hiq Ez Hz Hu) as (_ & _ & Seg). clear P7.
  destruct (shipped_sane acts l Hl) as (Hw & Hs & Hi). destruct Hl as (rid & tw & LL & nn & Hr & Hsh & Hk & _).
  destruct (vector_is l q Hw Hs Hi Hq Hiq) as (Lq & Wq & Nq & Cq). destruct (vector_is l p Hw Hs Hi P1 P2) as (Lp & Wp & Np & Cp). set (gq := initial_global q) in *. set (gp := initial_global p) in *.
  set (T := fun t => new_tree (l_prim l) (mix t gq gp)).
  assert (Lm : forall t, length (mix t gq gp) = length (initial_global (l_prim l))) by (intros t; rewrite mix_length; congruence).
  assert (St : forall t, same_structure (l_prim l) (T t)) by (intros t; now apply new_structure). assert (It : forall t, ids_consistent (T t)) by (intros t; now apply new_ids).
  assert (Fig : forall p' z', same_structure (l_prim l) p' -> layout_residual l p' = Ok z' -> zeros z' -> forall q a b r t, get_child p' fig = Ok q -> box_at q a b r t -> r - a = w /\ t - b = h) by (intros; eapply figure_size; eassumption).
  assert (Drawn : exists tr, subplots p fig (Some (GridEndSpec.cells r c key)) = (tr, Ok tt)).
  { destruct (quad_moved _ p _ P1 P2 (proj1 Hfig)) as (x & Q0 & Q1 & Q2 & Q3 & Ex & Hx). destruct (asked_vanish rid tw acts l p z Hr Hsh Hk P1 P3 P4 _ _ _ (proj2 (proj2 Hfig))) as (c0 & prims & E1 & E2 & E3).
    cbn [mapM] in E2. rewrite Ex in E2. cbn [bind] in E2. injection E2 as <-. assert (B : GridProofs.is_box x (span x)) by (eapply boxed; [exact Hx|]; eauto).
    destruct (Fig p z P1 P3 P4 _ _ _ _ _ Ex B) as [F1 F2]. apply (C100_draws (l_prim l) p fig x _ _ _ _ _ P1 P2 Ex B); cbn [fst snd]; [lra|lra|].
    intros k' Hin. apply cells_in in Hin as (i & j & Hi' & Hj & ->). now apply Hcell'. }
  destruct Drawn as [tr Hd]. exists tr. split; [exact E|]. split; [exact Hd|].
  (* boxes *)
  assert (Bx : forall t i j, (i < r)%nat -> (j < c)%nat -> exists x, get_child (T t) (frame (key i j)) = Ok x /\ GridProofs.is_box x (span x)).
  { intros t i j Hi' Hj. destruct (Seg t) as (z' & Ez' & Hz'). pose proof (asked_vanish rid tw acts l (T t) z' Hr Hsh Hk (St t) Ez' Hz') as Ev. pose proof (Hcell i j Hi' Hj) as HQ.
    destruct (quad_moved _ _ _ (St t) (It t) (proj1 HQ)) as (x & Q0 & Q1 & Q2 & Q3 & Ex & Hx). exists x. split; [exact Ex|]. destruct (Ev _ _ _ (proj2 (proj2 HQ))) as (c0 & prims & E1 & E2 & E3).
    cbn [mapM] in E2. rewrite Ex in E2. cbn [bind] in E2. injection E2 as <-. eapply boxed; [exact Hx|]. eauto. }
  set (bx := fun t i j => match get_child (T t) (frame (key i j)) with Ok x => span x | Err _ => GridProofs.nobox end).
  assert (Bx' : forall t i j, (i < r)%nat -> (j < c)%nat -> exists x, get_child (T t) (frame (key i j)) = Ok x /\ GridProofs.is_box x (bx t i j)).
  { intros t i j Hi' Hj. destruct (Bx t i j Hi' Hj) as (x & Ex & Hx). exists x. unfold bx. rewrite Ex. auto. }
  assert (Mix : forall t i j, (i < r)%nat -> (j < c)%nat -> GridProofs.bwidth (bx t i j) = (1 - t) * GridProofs.bwidth (bx 0 i j) + t * GridProofs.bwidth (bx 1 i j) /\ GridProofs.bheight (bx t i j) = (1 - t) * GridProofs.bheight (bx 0 i j) + t * GridProofs.bheight (bx 1 i j)).
  { intros t i j Hi' Hj. destruct (Bx' t i j Hi' Hj) as (x & Ex & Hx). destruct (Bx' 0 i j Hi' Hj) as (y & Ey & Hy). destruct (Bx' 1 i j Hi' Hj) as (u & Eu & Hu').
    apply (box_blend t y u x); try assumption. pose proof (new_blend t (l_prim l) (mix 0 gq gp) (mix 1 gq gp) Hw Hs Hi (Lm 0) (Lm 1)) as B. 
    assert (Em : mix t (mix 0 gq gp) (mix 1 gq gp) = mix t gq gp).
    { apply nth_eq; [rewrite !mix_length; rewrite ?mix_length; congruence|]. intros n0. rewrite !mix_nth by (rewrite ?mix_length; congruence). ring. }
    rewrite Em in B. pose proof (blend_get_child t (frame (key i j)) _ _ _ B) as G. fold (T 0) (T 1) (T t) in G. rewrite Ex, Ey, Eu in G. exact G. }
  assert (Up0 : forall i j, (i < r)%nat -> (j < c)%nat -> 0 < GridProofs.bwidth (bx 0 i j) /\ 0 < GridProofs.bheight (bx 0 i j)).
  { intros i j Hi' Hj. destruct (Hu _ (Hcell i j Hi' Hj)) as (x & x0 & y0 & x1 & y1 & Ex & Hx & Hlt1 & Hlt2). destruct (Bx' 0 i j Hi' Hj) as (y & Ey & Hy).
    assert (E0 : mix 0 gq gp = gq) by (apply nth_eq; [rewrite mix_length; congruence|]; intros n0; rewrite mix_nth by congruence; ring).
    assert (Hb : box_at y x0 y0 x1 y1) by (eapply (box_numbers q (T 0)); [unfold T; rewrite E0; exact Nq|exact Ex|exact Hx|exact Ey|exact Hy]).
    unfold bx. rewrite Ey, (span_at _ _ _ _ _ Hb). unfold GridProofs.bwidth, GridProofs.bheight, GridProofs.bleft, GridProofs.bright, GridProofs.bbottom, GridProofs.btop. cbn [fst snd]. lra. }
  (* a little way from [q] to [p] all is upright *)
  destruct (small_t (GridEndSpec.cells r c (fun i j => (GridProofs.bwidth (bx 0 i j), GridProofs.bwidth (bx 1 i j))) ++ GridEndSpec.cells r c (fun i j => (GridProofs.bheight (bx 0 i j), GridProofs.bheight (bx 1 i j))))) as (t & Ht & Small).
  { apply Forall_app. split; apply Forall_forall; intros ab Hin; apply cells_in in Hin as (i & j & Hi' & Hj & ->); cbn [fst]; now apply Up0. }
  assert (Up : forall s, 0 <= s <= t -> forall i j, (i < r)%nat -> (j < c)%nat -> exists x B, get_child (T s) (frame (key i j)) = Ok x /\ GridProofs.is_box x B /\ P_Grid.proper B).
  { intros s Hs' i j Hi' Hj. destruct (Bx' s i j Hi' Hj) as (x & Ex & Hx). exists x, (bx s i j). split; [exact Ex|]. split; [exact Hx|]. destruct (Mix s i j Hi' Hj) as [M1 M2].
    pose proof (Small s Hs') as F. apply Forall_app in F as [F1 F2]. rewrite Forall_forall in F1, F2.
    specialize (F1 _ (nth_error_In _ _ (cells_nth r c (fun i j => (GridProofs.bwidth (bx 0 i j), GridProofs.bwidth (bx 1 i j))) i j Hi' Hj))). specialize (F2 _ (nth_error_In _ _ (cells_nth r c (fun i j => (GridProofs.bheight (bx 0 i j), GridProofs.bheight (bx 1 i j))) i j Hi' Hj))).
    cbn [fst snd] in F1, F2. rewrite <- M1 in F1. rewrite <- M2 in F2. unfold P_Grid.proper. unfold GridProofs.bwidth, GridProofs.bheight in F1, F2. lra. }
  assert (Det : forall s, 0 <= s <= t -> forall i j, (i < r)%nat -> (j < c)%nat -> GridProofs.bwidth (bx s i j) = nth j (extents (unit_x w g) (ratios_x g)) 0 /\ GridProofs.bheight (bx s i j) = nth i (extents (unit_y h g) (ratios_y g)) 0).
  { intros s Hs' i j Hi' Hj. destruct (Seg s) as (z' & Ez' & Hz'). fold (T s) in Ez'.
    destruct (grid_boxes rid tw acts l (T s) z' fig w h r c key g Hr Hsh Hk (St s) (It s) Ez' Hz' (proj1 Hfig) (proj2 (proj2 Hfig)) (Fig _ _ (St s) Ez' Hz') Pr Pc (fun i j A B => proj1 (Hcell i j A B)) L1 L2 L3 L4 Ag (Up s Hs')) as ((fq & fb & _ & _ & _ & _ & Cells) & _).
    destruct (Cells i j Hi' Hj) as (x & B & Ex & HB & _ & _ & _ & _ & _ & R1 & R2). destruct (Bx' s i j Hi' Hj) as (y & Ey & Hy). rewrite Ex in Ey. injection Ey as <-.
    assert (bx s i j = B). { unfold bx. rewrite Ex, (span_at _ _ _ _ _ HB). now destruct B as [[[? ?] ?] ?]. } subst B. auto. }
  assert (Up1 : forall i j, (i < r)%nat -> (j < c)%nat -> exists x B, get_child p (frame (key i j)) = Ok x /\ GridProofs.is_box x B /\ P_Grid.proper B).
  { intros i j Hi' Hj. destruct (Det 0 ltac:(lra) i j Hi' Hj) as [D1 D2]. destruct (Det t ltac:(lra) i j Hi' Hj) as [D3 D4]. destruct (Mix t i j Hi' Hj) as [M1 M2]. destruct (Up0 i j Hi' Hj) as [U1 U2].
    assert (E1 : GridProofs.bwidth (bx 1 i j) = GridProofs.bwidth (bx 0 i j)) by (rewrite D3, <- D1 in M1; nra). assert (E2 : GridProofs.bheight (bx 1 i j) = GridProofs.bheight (bx 0 i j)) by (rewrite D4, <- D2 in M2; nra).
    destruct (Bx' 1 i j Hi' Hj) as (x & Ex & Hx). destruct (quad_moved _ p _ P1 P2 (proj1 (Hcell i j Hi' Hj))) as (y & Q0 & Q1 & Q2 & Q3 & Ey & Hy). exists y, (bx 1 i j). split; [exact Ey|]. split.
    - eapply (box_numbers (T 1) p); [|exact Ex|exact Hx|exact Ey|exact Hy]. assert (E3 : mix 1 gq gp = gp) by (apply nth_eq; [rewrite mix_length; congruence|]; intros n0; rewrite mix_nth by congruence; ring).
      intros path. unfold T. rewrite E3. symmetry. apply Np.
    - unfold P_Grid.proper. unfold GridProofs.bwidth, GridProofs.bheight in *. lra. }
  destruct (grid_core_upright rid tw acts l p z fig w h r c key g tr Hr Hsh Hk P1 P2 P3 P4 (proj1 Hfig) (proj2 (proj2 Hfig)) (Fig _ _ P1 P3 P4) W0 H0 Pr Pc Hn (fun i j A B => proj1 (Hcell i j A B)) L1 L2 L3 L4 Ag Hd Up1) as (R1 & R2 & R3 & _). auto.
Qed.

(** ** The figure of C92 *)
Lemma pool92 : exists L n, pool L n /\ In {| vid := 0; vdata := [] |} L /\ drawn L quad92 /\ drawn L (axes92 10) /\ drawn L (axes92 20).
Proof.
  assert (P0 : pool (F:=R) [{| vid := 0; vdata := [] |}] 1). { split; cbn; [intros a b [<-|[]] [<-|[]]; reflexivity|intros a [<-|[]]; cbn; lia]. }
  destruct (quad_built [{| vid := 0; vdata := [] |}] 1 VNone None quad92 10) as (L & (M1 & _) & Q1 & Q2); [exact P0|exact I|exact I|vm_compute; reflexivity|].
  destruct (axes_built _ 10 VNone None false false false false (axes92 10) 20 M1) as (L' & (M1' & _) & Q1' & Q2'); [exact I|exact I|vm_compute; reflexivity|].
  destruct (axes_built _ 20 VNone None false false false false (axes92 20) 30 M1') as (L'' & (M1'' & _) & Q1'' & Q2''); [exact I|exact I|vm_compute; reflexivity|].
  exists (L'' ++ L' ++ L ++ [{| vid := 0; vdata := [] |}]), 30%nat. split; [exact M1''|]. split; [apply in_or_app; right; apply in_or_app; right; apply in_or_app; right; left; reflexivity|].
  split; [|split; [|split; [exact Q1''|exact Q2'']]]; (split; [assumption|]); intros w H; apply in_or_app; right; [apply in_or_app; right; now apply Q2|now apply Q2'].
Qed.
Lemma shipped_layout92 : shipped_layout acts92 l92.
Proof.
  destruct pool92 as (L & n & P1 & P2 & P3 & P4 & P5). exists 0%nat, false, L, n. split; [exact runs92|]. split; [exact shipped92|]. split; [exact keys92|]. split; [exact P1|]. split; [exact P2|].
  unfold acts92. repeat (apply Forall_cons; [cbn [given_prims]; repeat (apply Forall_cons; [first [exact P3|exact P4|exact P5]|]); apply Forall_nil|]). apply Forall_nil.
Qed.
Lemma figure92 : quad_in (l_prim l92) "Figure".
Proof.
  apply (C79_quads_qualify 0 acts92 l92 (AddPrim quad92 "Figure") "Figure" quad92 runs92 flat92); [now left|split; reflexivity|reflexivity|].
  apply (built_quad_closed 1 VNone None quad92 10 I). vm_compute. reflexivity.
Qed.
Lemma squares92 Q : In Q ["Figure"; "A/Frame"; "B/Frame"]%string -> boxed_square acts92 l92 Q.
Proof.
  intros HQ. split; [|split].
  - cbn [In] in HQ. destruct HQ as [<-|[<-|[<-|[]]]]; [exact figure92|apply (frame92 "A" 10 20)|apply (frame92 "B" 20 30)]; try reflexivity; try (vm_compute; reflexivity); [now left| |right; now left|]; unfold acts92; cbn [In]; tauto.
  - rewrite prim92. cbn [In] in HQ. destruct HQ as [<-|[<-|[<-|[]]]]; (eexists; split; [lazy -[IZR]; reflexivity|]);
    (eexists _, _, _, _, _; split; [reflexivity|]); repeat split; eexists _, _, _; (split; [reflexivity|]); split; eexists _, _; reflexivity.
  - apply asked92; [vm_compute; reflexivity|]. rewrite added92. cbn [In] in HQ. destruct HQ as [<-|[<-|[<-|[]]]]; cbn [In]; tauto.
Qed.
Lemma upright92 Q : boxed_square acts92 l92 Q -> upright p92 Q.
Proof.
  intros (_ & _ & c & _ & H). destruct boxes92 as (f & a & b & Ef & Bf & Ea & Ba & Eb & Bb). rewrite added92 in H. cbn [In] in H.
  repeat (destruct H as [H|H]; [apply pair_equal_spec in H as [H Hp]; apply pair_equal_spec in H as [_ Hk]; try discriminate Hp|]); [..|contradiction];
    apply (f_equal (fun ks => nth 0 ks ""%string)) in Hk; cbn [nth] in Hk; subst Q; eexists _, _, _, _, _; (split; [eassumption|]); (split; [eassumption|lra]).
Qed.
Lemma affine92 rc : In rc [Box; crWidth; crHeight; crInnerMargin "left"; crInnerMargin "top"; crInnerMargin "right"; crInnerMargin "bottom"] -> affine_constraint (ok_cons rc).
Proof.
  assert (G : forallb (fun rc : result cons => if rc then true else false) [Box; crWidth; crHeight; crInnerMargin "left"; crInnerMargin "top"; crInnerMargin "right"; crInnerMargin "bottom"] = true) by (vm_compute; reflexivity).
  rewrite forallb_forall in G. intros H. left. rewrite <- (ok_of _ (G rc H)). unfold affine_shipped, sides. cbn [map flat_map]. apply in_or_app. right. cbn [In List.app] in *. tauto.
Qed.
Lemma plain92 c ks ps : In (c, ks, ps) (LayoutSpec.added acts92) -> plain_request acts92 l92 c ks ps.
Proof.
  rewrite added92. cbn [In]. intros H.
  repeat (destruct H as [H|H]; [apply pair_equal_spec in H as [H <-]; apply pair_equal_spec in H as [<- <-]|]); [..|contradiction].
  6: { apply (plain_grid _ _ 1 2 _ _ _ _ _ _ [3/2] []); [lia|lia|apply ok_of; vm_compute; reflexivity| |reflexivity|now left|now left|reflexivity|reflexivity].
       apply Forall_cons; [apply squares92; cbn [In]; tauto|]. apply Forall_cons; [apply squares92; cbn [In]; tauto|]. apply Forall_nil. }
  all: apply plain_affine, affine92; cbn [In]; tauto.
Qed.
Lemma axes_in92 k n m : In (AddPrim (axes92 n) k) acts92 -> noslash k = true -> mk_axes (F:=R) n VNone None false false false false = Ok (axes92 n, m) -> axes_in (l_prim l92) k.
Proof. intros Ha Hk Hm. eapply (C100_axes_qualify 0 acts92 l92 _ k (axes92 n) n VNone false false false false m runs92 flat92 Ha); [split; reflexivity|exact Hk|exact Hm]. Qed.
(** Two axes side by side, from unit squares: one iteration gives the tree that satisfies all,
    drawn as asked. *)
Example C99_case : exists bk zq, shipped_layout acts92 l92 /\ exact_on bk l92 /\
  (forall c ks ps, In (c, ks, ps) (LayoutSpec.added acts92) -> plain_request acts92 l92 c ks ps) /\
  same_structure (l_prim l92) p92 /\ ids_consistent p92 /\ layout_residual l92 p92 = Ok zq /\ zeros zq /\
  (forall Q, boxed_square acts92 l92 Q -> upright p92 Q) /\
  boxed_square acts92 l92 "Figure" /\ sized acts92 "Figure" 8 4 /\
  (forall i j, (i < 1)%nat -> (j < 2)%nat -> axes_in (l_prim l92) (key92 i j) /\ boxed_square acts92 l92 (frame (key92 i j))) /\
  asked_grid acts92 "Figure" 1 2 key92 request92 /\
  exists p info tr, newton_solve bk l92 0 0 1 = Ok (p, info) /\
    subplots p "Figure" (Some ["A"; "B"]%string) = (tr, Ok tt) /\ sizes tr = [(8, 4)] /\
      map (fun kr => inches 8 4 (snd kr)) (positions tr) =
        [{| m_left := 1; m_right := 5; m_bottom := 1; m_top := 1 |}; {| m_left := 4; m_right := 1; m_bottom := 1; m_top := 1 |}].
Proof.
  destruct C82_ideal_backend as [bk Hbk]. destruct (Hbk (length (initial_global (l_prim l92)))) as [H _]. specialize (H (global_res l92)). change (exact_on bk l92) in H.
  destruct C92_case as (z & tr0 & _ & _ & _ & S1 & S2 & Z1 & Z2 & _ & Sz & Nd & _ & Ag & _).
  assert (Qc : forall i j, (i < 1)%nat -> (j < 2)%nat -> axes_in (l_prim l92) (key92 i j) /\ boxed_square acts92 l92 (frame (key92 i j))).
  { intros i j _ Hj. split; [destruct j as [|[|j]]; [apply (axes_in92 "A" 10 20)|apply (axes_in92 "B" 20 30)|lia]; try reflexivity; try (vm_compute; reflexivity); unfold acts92; cbn [In]; tauto|]. apply squares92. destruct j as [|[|j]]; [| |lia]; cbn [key92 frame append In]; tauto. }
  exists bk, z. split; [exact shipped_layout92|]. split; [exact H|]. split; [exact plain92|]. split; [exact S1|]. split; [exact S2|]. split; [exact Z1|]. split; [exact Z2|]. split; [exact upright92|].
  split; [apply squares92; now left|]. split; [exact Sz|]. split; [exact Qc|]. split; [exact Ag|].
  destruct (C99_grid acts92 l92 bk p92 z 0 0 0 "Figure" 8 4 1 2 key92 request92 shipped_layout92 H plain92 S1 S2 Z1 Z2 upright92 (squares92 _ (or_introl eq_refl)) Sz ltac:(lra) ltac:(lra) ltac:(lia) ltac:(lia) Nd Qc eq_refl eq_refl eq_refl eq_refl Ag) as (p & info & tr & E & D & R1 & _ & R3).
  exists p, info, tr. split; [exact E|]. split; [exact D|]. split; [exact R1|]. rewrite R3.
  unfold GridEndSpec.cells, cell_margins, unit_x, unit_y, offset, extents, sum_of, request92. cbn [seq flat_map map List.app around m_left m_right m_bottom m_top ratios_x ratios_y gaps_x gaps_y firstn fold_right nth].
  repeat (apply f_equal2; [f_equal; field|]). reflexivity.
Qed.

Print Assumptions C99_one_step.
Print Assumptions C99_grid.
