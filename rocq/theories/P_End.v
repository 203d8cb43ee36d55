(** C79: what a solved layout guarantees, and what is then drawn. *)
From Coq Require Import Reals Lra.
From Verif Require Import GeomProofs P_Geom CompProofs P_Comp ConsProofs TreeLemmas MplProofs P_Mpl.
From Verif Require Export P_Affine EndProofs.
Local Open Scope R_scope.

(** The residual vector of a layout at [p] is within [e] exactly if the residual of every
    constraint that was added is, on the primitives its keys name in [p]; and it is zero
    exactly if every constraint is satisfied. *)
Theorem C79_every_constraint rid tw acts (l : layout) p z : runs (empty_layout rid) acts l ->
  Forall (shipped_act tw) acts -> Forall top_key acts -> same_structure (l_prim l) p -> layout_residual l p = Ok z ->
  (forall e, Forall (fun x => Rabs x <= e) z <->
     forall c ks ps, In (c, ks, ps) (LayoutSpec.added acts) ->
       exists prims r, mapM (get_child p) ks = Ok prims /\ call c prims ps = Ok r /\ Forall (fun x => Rabs x <= e) r) /\
  (zeros z <-> forall c ks ps, In (c, ks, ps) (LayoutSpec.added acts) -> exists prims, mapM (get_child p) ks = Ok prims /\ vanishes c prims ps).
Proof.
  intros Hr Hs Hk Hp Hz. split; [intros e; eapply residual_every; eassumption|]. unfold zeros. rewrite (residual_every rid tw acts l _ p z Hr Hs Hk Hp Hz).
  split; intros H c ks ps Hin; destruct (H c ks ps Hin) as (prims & Hx).
  - destruct Hx as (r & E1 & E2 & E3). exists prims. split; [exact E1|]. exists r. auto.
  - destruct Hx as (E1 & r & E2 & E3). exists prims, r. auto.
Qed.

(** The figure drawn from a tree at which the residual of the layout is within [e]: if the
    layout asks for a figure of [w] by [h] inches and for axes with these inner margins, the
    figure has this size, and the axes these margins in inches, up to [2 * e]. *)
Theorem C79_figure rid tw acts (l : layout) p z e fig w h keys ms tr :
  runs (empty_layout rid) acts l -> Forall (shipped_act tw) acts -> Forall top_key acts ->
  same_structure (l_prim l) p -> ids_consistent p -> layout_residual l p = Ok z -> Forall (fun x => Rabs x <= e) z ->
  quad_in (l_prim l) fig -> sized acts fig w h ->
  NoDup keys -> Forall2 (fun k m => quad_in (l_prim l) (k ++ "/Frame")%string /\ framed acts fig k m) keys ms ->
  subplots p fig (Some keys) = (tr, Ok tt) ->
  exists w' h', sizes tr = [(w', h')] /\ near (2 * e) w' w /\ near (2 * e) h' h /\ map fst (positions tr) = keys /\
    Forall2 (fun kr m => near_margins (2 * e) (inches w' h' (snd kr)) m) (positions tr) ms.
Proof. apply figure_drawn. Qed.
Lemma near_0 x y : near (2 * 0) x y -> x = y.
Proof. unfold near. rewrite Rmult_0_r. intros H. apply Rabs_within in H. lra. Qed.
(** Exactly, if all constraints are satisfied. *)
Theorem C79_figure_exact rid tw acts (l : layout) p z fig w h keys ms tr :
  runs (empty_layout rid) acts l -> Forall (shipped_act tw) acts -> Forall top_key acts ->
  same_structure (l_prim l) p -> ids_consistent p -> layout_residual l p = Ok z -> zeros z ->
  quad_in (l_prim l) fig -> sized acts fig w h ->
  NoDup keys -> Forall2 (fun k m => quad_in (l_prim l) (k ++ "/Frame")%string /\ framed acts fig k m) keys ms ->
  subplots p fig (Some keys) = (tr, Ok tt) ->
  sizes tr = [(w, h)] /\ map fst (positions tr) = keys /\ map (fun kr => inches w h (snd kr)) (positions tr) = ms.
Proof.
  intros Hr Hs Hk Hp Hi Hz Hzz Hf Hsz Hn Hm Hd.
  assert (He : Forall (fun x => Rabs x <= 0) z). { eapply Forall_impl; [|exact Hzz]. intros x ->. rewrite Rabs_R0. lra. }
  destruct (figure_drawn rid tw acts l p z 0 fig w h keys ms tr Hr Hs Hk Hp Hi Hz He Hf Hsz Hn Hm Hd) as (w' & h' & D1 & Dw & Dh & D2 & D3).
  apply near_0 in Dw, Dh. subst w' h'. split; [exact D1|]. split; [exact D2|].
  clear -D3. induction D3 as [|kr m ps ms (N1 & N2 & N3 & N4) _ IH]; [reflexivity|]. cbn [map]. f_equal; [|exact IH].
  apply near_0 in N1, N2, N3, N4. destruct m as [a b c d], (inches w h (snd kr)) as [a' b' c' d']. cbn [m_left m_right m_bottom m_top] in *. congruence.
Qed.

(** The tree that [solve] returns qualifies, whatever the method, backend and tolerances. *)
Theorem C79_solver_output rid (acts : list (action R)) L n step minimizer abs_tol rel_tol max_iter method p info :
  let l := after (empty_layout rid) acts in
  pool L n -> In {| vid := rid; vdata := [] |} L ->
  Forall (fun a => Forall (drawn L) (given_prims a) /\ Forall (fun c : cons => wf c /\ slashfree c) (given_cons a)) acts ->
  (forall g r d, step g r = Ok d -> length d = length g) ->
  (forall f x0 k, Forall (fun fx => length (snd fx) = length x0) (minimizer f x0 k)) ->
  solve step minimizer l abs_tol rel_tol max_iter method = Ok (p, info) ->
  same_structure (l_prim l) p /\ ids_consistent p.
Proof.
  intros l [Hp _] Hr Ha Hst Hm H.
  assert (Hsane : sane_layout l).
  { apply after_sane; [apply empty_sane|]. eapply Forall_impl; [|exact Ha]. intros a [H1 H2]. split; [|exact H2].
    eapply Forall_impl; [|exact H1]. intros q Hq. apply Hq. }
  destruct Hsane as ([Hw Hs] & _).
  assert (Hi : ids_consistent (l_prim l)).
  { assert (G : forall w, In w (held (l_prim l)) -> In w L).
    { intros w Hw'. apply after_held in Hw' as [Hw'|(a & q & H1 & H2 & H3)].
      - destruct Hw' as [<-|[]]. exact Hr.
      - rewrite Forall_forall in Ha. destruct (Ha a H1) as [Ha' _]. rewrite Forall_forall in Ha'. now apply (Ha' q H2). }
    intros a b H1 H2. apply Hp; now apply G. }
  split; [eapply C58_structure; eassumption|eapply solve_ids; eassumption].
Qed.

(** Quadrilaterals made by the constructors and added at slash-free keys qualify, as do
    the frames of axes. *)
Definition flat_keys (a : action R) : Prop :=
  match a with AddPrim _ k => noslash k = true | AddPrims d => Forall (fun k => noslash k = true) (map fst d) | AddConstraint _ _ _ _ => True end.
Definition gives (a : action R) (key : string) (q : prim) : Prop :=
  match a with AddPrim p k => k = key /\ p = q | AddPrims d => In (key, q) d | AddConstraint _ _ _ _ => False end.
Lemma flat_append (l l' : layout) a : act l a = (l', Ok tt) -> flat_keys a ->
  exists more, nch (l_prim l') = nch (l_prim l) ++ more /\ (NoDup (map fst (nch (l_prim l))) -> NoDup (map fst (nch (l_prim l')))) /\
    forall key q, gives a key q -> In (key, q) more.
Proof.
  assert (P : forall (l l' : layout) p k, add_prim l p k = (l', Ok tt) -> noslash k = true ->
    nch (l_prim l') = nch (l_prim l) ++ [(k, p)] /\ (NoDup (map fst (nch (l_prim l))) -> NoDup (map fst (nch (l_prim l'))))).
  { clear. intros l l' p k H Hk. apply add_prim_trees in H as (_ & _ & _ & H). apply add_child_top in H as [E Hn]; [|assumption]. rewrite E. cbn [nch]. split; [reflexivity|].
    intros Hd. rewrite map_app. cbn. apply snoc_NoDup; assumption. }
  intros H Hf. destruct a as [p k|d|c ks ps k]; cbn [act flat_keys gives] in *.
  - destruct (P l l' p k H Hf) as [E N]. exists [(k, p)]. split; [exact E|]. split; [exact N|]. intros key q [-> ->]. now left.
  - revert l H. induction d as [|[k p] d IH]; intros l H; cbn [add_prims] in H.
    + injection H as <-. exists []. rewrite app_nil_r. split; [reflexivity|]. split; [auto|intros key q []].
    + destruct (add_prim l p k) as [l1 [[]|]] eqn:E; [|discriminate]. inversion Hf as [|? ? Hk Hf']; subst. destruct (P l l1 p k E Hk) as [E1 N1].
      destruct (IH Hf' _ H) as (more & E2 & N2 & G2). exists ((k, p) :: more). rewrite E2, E1, <- app_assoc. split; [reflexivity|]. split.
      * intros Hd. rewrite app_assoc, <- E1, <- E2. auto.
      * intros key q [Hin|Hin]; [left; exact Hin|right; now apply G2].
  - exists []. rewrite (add_constraint_prim _ _ _ _ _ _ _ H), app_nil_r. split; [reflexivity|]. split; [auto|intros key q []].
Qed.
Lemma flat_given acts : forall (l l' : layout), runs l acts l' -> Forall flat_keys acts -> NoDup (map fst (nch (l_prim l))) ->
  NoDup (map fst (nch (l_prim l'))) /\ (exists more, nch (l_prim l') = nch (l_prim l) ++ more) /\
  forall a key q, In a acts -> gives a key q -> In (key, q) (nch (l_prim l')).
Proof.
  induction acts as [|a acts IH]; intros l l' H Hf Hn; inversion H as [|? ? l1 ? ? Ha Hr]; subst.
  - split; [exact Hn|]. split; [exists []; now rewrite app_nil_r|intros a key q []].
  - inversion Hf as [|? ? Hf1 Hf2]; subst. destruct (flat_append l l1 a Ha Hf1) as (m1 & E1 & N1 & G1). destruct (IH l1 l' Hr Hf2 (N1 Hn)) as (N2 & (m2 & E2) & G2).
    split; [exact N2|]. split; [exists (m1 ++ m2); now rewrite E2, E1, app_assoc|]. intros b key q [->|Hin] Hg.
    + rewrite E2, E1. apply in_or_app. left. apply in_or_app. right. now apply G1.
    + eapply G2; eassumption.
Qed.
Theorem C79_quads_qualify rid acts (l : layout) a key q : runs (empty_layout rid) acts l -> Forall flat_keys acts -> In a acts -> gives a key q ->
  noslash key = true ->
  (closed_quad q -> quad_in (l_prim l) key) /\
  (forall f, dget "Frame" (nch q) = Some f -> closed_quad f -> quad_in (l_prim l) (key ++ "/Frame")%string) /\
  (forall nxt v n, mk_quad nxt v None = Ok (q, n) -> closed_quad q) /\
  (forall nxt v ps n, Forall (fun p : prim => ntype p = TPoint /\ length (vdata (nval p)) = 2%nat) ps -> mk_quad nxt v (Some ps) = Ok (q, n) -> closed_quad q) /\
  (forall nxt v x y tx ty n, mk_axes nxt v None x y tx ty = Ok (q, n) -> exists f, dget "Frame" (nch q) = Some f /\ closed_quad f).
Proof.
  intros Hr Hf Ha Hg Hk. destruct (flat_given acts (empty_layout rid) l Hr Hf) as (N & _ & G); [constructor|]. specialize (G a key q Ha Hg).
  assert (E : get_child (l_prim l) key = Ok q) by (apply dget_get_child; [exact Hk|]; apply In_dget; assumption).
  split; [|split; [|split; [|split]]].
  - intros Hc. exists q. auto.
  - intros f Ef Hc. exists f. split; [|exact Hc]. change (key ++ "/Frame")%string with (key ++ String slash "Frame")%string.
    apply (child_path (l_prim l) key "Frame" q f E). now apply dget_get_child.
  - intros nxt v n. apply (built_quad_closed nxt v None). exact I.
  - intros nxt v ps n Hps. now apply (built_quad_closed nxt v (Some ps)).
  - intros nxt v x y tx ty n H. unfold mk_axes in H. destruct (take_value nxt v []) as [value m]. unfold axes_default in H.
    destruct (mk_quad_point m x) as [[a1 n1]|]; [|discriminate]. cbn [bind] in H.
    destruct (mk_quad_point n1 (x && tx)) as [[b1 n2]|]; [|discriminate]. cbn [bind] in H.
    destruct (mk_quad_point n2 y) as [[c1 n3]|]; [|discriminate]. cbn [bind] in H.
    destruct (mk_quad_point n3 (y && ty)) as [[d1 n4]|]; [|discriminate]. cbn [bind] in H.
    destruct (mk_quad n4 _ _) as [[f n5]|] eqn:Ef; [|discriminate]. cbn [bind] in H.
    apply built_quad_closed in Ef; [|exact I].
    destruct (finish_prim _ _ _ _) as [r|] eqn:Er; [|discriminate]. injection H as <- _. exists f. split; [|exact Ef].
    unfold finish_prim in Er. apply mk_primnode_Ok in Er as [-> _]; [|discriminate]. cbn [nch].
    rewrite dict_of_nodup; [reflexivity|]. rewrite map_fst_zip_firstn. pose proof (axes_keys_NoDup x y tx ty) as Hnd.
    match goal with |- NoDup (firstn ?k _) => rewrite <- (firstn_skipn k (axes_keys x y tx ty)) in Hnd; revert Hnd; generalize (firstn k (axes_keys x y tx ty)), (skipn k (axes_keys x y tx ty)) end.
    intros u. induction u as [|b u IHu]; intros w H; [constructor|]. cbn in H. inversion H as [|? ? H1 H2]; subst. constructor; [intros Hin; apply H1, in_or_app; now left|eapply IHu; exact H2].
Qed.

Lemma affine_named rid acts L n l : l = after (empty_layout rid) acts -> pool L n -> In {| vid := rid; vdata := [] |} L ->
  Forall (fun a => Forall (drawn L) (given_prims a) /\ Forall affine_constraint (given_cons a)) acts ->
  forall q z, same_structure (l_prim l) q -> ids_consistent q -> layout_residual l q = Ok z -> zeros z ->
  forall step, solves_linear_systems (length (initial_global (l_prim l))) (global_res l) step ->
  forall abs_tol rel_tol max_iter, (1 <= max_iter)%nat ->
  exists p info z', solve_newton step l abs_tol rel_tol max_iter = Ok (p, info) /\ layout_residual l p = Ok z' /\ zeros z'.
Proof. intros -> H1 H2 H3. exact (C60_affine_layouts rid acts L n H1 H2 H3). Qed.

Lemma Ok_inj {A} (x y : A) : Ok x = Ok y -> x = y.
Proof. now intros [= ->]. Qed.
Lemma solved_length step (l : layout) abs_tol rel_tol max_iter : forall s s', (2 <= length (ns_g s))%nat ->
  newton_loop (global_res l) step abs_tol rel_tol max_iter s = Ok s' -> length (ns_g s') = length (ns_g s).
Proof.
  assert (V : forall a b r : list R, (2 <= length a)%nat -> vadd a b = Ok r -> length r = length a).
  { intros a b r Ha E. unfold vadd, bcast2 in E. destruct (Nat.eqb_spec (length a) (length b)) as [El|_].
    - apply mapM_length in E. rewrite zip_length in E. lia.
    - destruct a as [|x [|y a]]; [cbn in Ha; lia..|]. destruct b as [|z [|z' b]]; [discriminate| |discriminate]. apply mapM_length in E. now rewrite E. }
  induction max_iter as [|m IH]; intros s s' Hl E; cbn [newton_loop] in E; [now injection E as <-|].
  destruct (_ && _)%bool; [|now injection E as <-]. destruct (newton_body _ _ _) as [s1|] eqn:Eb; [|discriminate]. cbn [bind] in E.
  assert (L1 : length (ns_g s1) = length (ns_g s)).
  { unfold newton_body in Eb. destruct (global_res l (ns_g s)) as [r|]; [|discriminate]. cbn [bind] in Eb. destruct (step _ _) as [d|]; [|discriminate]. cbn [bind] in Eb.
    destruct (vadd (ns_g s) d) as [g|] eqn:Eg; [|discriminate]. cbn [bind] in Eb. destruct (norm r); [|discriminate]. injection Eb as <-. cbn [ns_g]. eapply V; eassumption. }
  rewrite (IH s1 s'); [exact L1|lia|exact E].
Qed.
Lemma solved_vector step (l : layout) abs_tol rel_tol max_iter p info : wf (l_prim l) -> slashfree (l_prim l) -> (2 <= length (initial_global (l_prim l)))%nat ->
  solve_newton step l abs_tol rel_tol max_iter = Ok (p, info) ->
  exists g, length g = length (initial_global (l_prim l)) /\ p = new_tree (l_prim l) g.
Proof.
  intros Hw Hs Hl E. unfold solve_newton in E. destruct (newton_loop _ _ _ _ _ _) as [s|] eqn:El; [|discriminate]. cbn [bind] in E.
  rewrite tree_of_global_ok in E by assumption. cbn [bind] in E. injection E as <- _.
  apply solved_length in El; [|exact Hl]. exists (ns_g s). auto.
Qed.
Lemma residual_vector (l : layout) g z : wf (l_prim l) -> slashfree (l_prim l) -> global_res l g = Ok z -> layout_residual l (new_tree (l_prim l) g) = Ok z.
Proof. intros Hw Hs E. unfold global_res in E. rewrite tree_of_global_ok in E by assumption. exact E. Qed.
Lemma sixteen {A} (d : list A) : length d = 16%nat ->
  exists a b c e f g h i a' b' c' e' f' g' h' i', d = [a; b; c; e; f; g; h; i; a'; b'; c'; e'; f'; g'; h'; i'].
Proof. do 16 (destruct d as [|? d]; [discriminate|]). destruct d; [|discriminate]. intros _. repeat eexists. Qed.


Lemma pool_consistent rid acts L n l : l = after (empty_layout rid) acts -> pool L n -> In {| vid := rid; vdata := [] |} L ->
  Forall (fun a => Forall (drawn L) (given_prims a) /\ Forall affine_constraint (given_cons a)) acts ->
  wf (l_prim l) /\ slashfree (l_prim l) /\ ids_consistent (l_prim l).
Proof.
  intros -> P1 P2 P3.
  assert (S : sane_layout (after (empty_layout rid) acts)).
  { apply after_sane; [apply empty_sane|]. eapply Forall_impl; [|exact P3]. intros a [H1 H2]. split.
    - eapply Forall_impl; [|exact H1]. intros q Hq. apply Hq.
    - eapply Forall_impl; [|exact H2]. exact affine_constraint_tidy. }
  destruct S as ([S1 S2] & _). split; [exact S1|]. split; [exact S2|].
  assert (G : forall w, In w (held (l_prim (after (empty_layout rid) acts))) -> In w L).
  { intros w Hw'. apply after_held in Hw' as [Hw'|(a & q & H1 & H2 & H3)].
    - destruct Hw' as [<-|[]]. exact P2.
    - rewrite Forall_forall in P3. destruct (P3 a H1) as [Ha' _]. rewrite Forall_forall in Ha'. now apply (Ha' q H2). }
  intros a b H1 H2. exact (proj1 P1 a b (G _ H1) (G _ H2)).
Qed.

(** ** The README: a figure of [W] by [H] inches with one axes *)
Section Readme.
  Variables W H ml mr mb mt : R.
  Definition readme_quad : prim := match mk_quad (F:=R) 1 VNone None with Ok (p, _) => p | Err _ => Node TPrimNode {| vid := 0; vdata := [] |} [] end.
  Definition readme_axes : prim := match mk_axes (F:=R) 10 VNone None false false false false with Ok (p, _) => p | Err _ => Node TPrimNode {| vid := 0; vdata := [] |} [] end.
  (** README.md:40-75; all constraint keys are generated. *)
  Definition readme : list (action R) :=
    [AddPrim readme_quad "Figure";
     AddConstraint (ok_cons Box) ["Figure"%string] [] "";
     AddConstraint (ok_cons crWidth) ["Figure"%string] [PFlt W] "";
     AddConstraint (ok_cons crHeight) ["Figure"%string] [PFlt H] "";
     AddPrim readme_axes "MyAxes";
     AddConstraint (ok_cons Box) ["MyAxes/Frame"%string] [] "";
     AddConstraint (ok_cons (crInnerMargin "bottom")) ["MyAxes/Frame"%string; "Figure"%string] [PFlt mb] "";
     AddConstraint (ok_cons (crInnerMargin "top")) ["MyAxes/Frame"%string; "Figure"%string] [PFlt mt] "";
     AddConstraint (ok_cons (crInnerMargin "left")) ["MyAxes/Frame"%string; "Figure"%string] [PFlt ml] "";
     AddConstraint (ok_cons (crInnerMargin "right")) ["MyAxes/Frame"%string; "Figure"%string] [PFlt mr] ""].
  Definition readme_layout : layout := after (empty_layout 0) readme.

  Lemma readme_runs : runs (empty_layout 0) readme readme_layout.
  Proof. apply all_ok_runs. vm_compute. reflexivity. Qed.
  Lemma readme_prim : l_prim readme_layout = Node TPrimNode {| vid := 0; vdata := [] |} [("Figure", readme_quad); ("MyAxes", readme_axes)].
  Proof. vm_compute. reflexivity. Qed.
  Lemma readme_res a b c d e f u v a' b' c' d' e' f' u' v' :
    global_res readme_layout [a; b; c; d; e; f; u; v; a'; b'; c'; d'; e'; f'; u'; v'] =
    Ok [d - b; v - f; a - u; e - c; c - a - W; f - d - H; d' - b'; v' - f'; a' - u'; e' - c';
        (b' + d') / 2 - (b + d) / 2 - mb; (f + v) / 2 - (f' + v') / 2 - mt; (u' + a') / 2 - (u + a) / 2 - ml; (c + e) / 2 - (c' + e') / 2 - mr].
  Proof.
    eassert (E : global_res readme_layout [a; b; c; d; e; f; u; v; a'; b'; c'; d'; e'; f'; u'; v'] = Ok _).
    { lazy -[IZR Rplus Rminus Rmult Ropp Rlt_dec Req_EM_T Rdiv Rinv sqrt]. destruct (Req_EM_T 2 0) as [X|_]; [exfalso; lra|]. lazy -[IZR Rplus Rminus Rmult Ropp Rlt_dec Req_EM_T Rdiv Rinv sqrt]. reflexivity. }
    rewrite E. clear E. f_equal. repeat (apply (f_equal2 (@Datatypes.cons R)); [lra|]). reflexivity.
  Qed.

  Lemma readme_drawn a b c d e f u v a' b' c' d' e' f' u' v' : e - a <> 0 -> f - b <> 0 ->
    exists tr, subplots (new_tree (l_prim readme_layout) [a; b; c; d; e; f; u; v; a'; b'; c'; d'; e'; f'; u'; v']) "Figure" None = (tr, Ok tt) /\
      sizes tr = [(e - a, f - b)] /\
      positions tr = [("MyAxes"%string, ((a' - a) / (e - a), (b' - b) / (f - b), (e' - a) / (e - a) - (a' - a) / (e - a), (f' - b) / (f - b) - (b' - b) / (f - b)))].
  Proof.
    intros Hx Hy. rewrite readme_prim.
    lazy -[IZR Rplus Rminus Rmult Ropp Rlt_dec Req_EM_T Rdiv Rinv sqrt].
    destruct (Req_EM_T (e - a) 0) as [X|_]; [contradiction|]. destruct (Req_EM_T (f - b) 0) as [X|_]; [contradiction|].
    eexists. split; [reflexivity|]. split; reflexivity.
  Qed.

  Lemma readme_affine : forall rc, In rc [Box; crWidth; crHeight; crInnerMargin "bottom"; crInnerMargin "top"; crInnerMargin "left"; crInnerMargin "right"] ->
    affine_constraint (ok_cons rc).
  Proof.
    intros rc Hin. left. rewrite <- ok_of.
    - unfold affine_shipped. apply in_or_app. right. apply in_or_app. cbn [In] in Hin.
      destruct Hin as [<-|[<-|[<-|Hin]]]; [left; cbn [In]; tauto..|right].
      do 3 (apply in_or_app; right). apply in_or_app. left. unfold sides. cbn [map In]. tauto.
    - assert (G : forallb (fun rc : result cons => if rc then true else false) [Box; crWidth; crHeight; crInnerMargin "bottom"; crInnerMargin "top"; crInnerMargin "left"; crInnerMargin "right"] = true) by (vm_compute; reflexivity).
      rewrite forallb_forall in G. now apply G.
  Qed.
  Lemma readme_pool : exists L n, pool L n /\ In {| vid := 0; vdata := [] |} L /\
    Forall (fun a => Forall (drawn L) (given_prims a) /\ Forall affine_constraint (given_cons a)) readme.
  Proof.
    assert (P0 : pool (F:=R) [{| vid := 0; vdata := [] |}] 1).
    { split; cbn; [intros a b [<-|[]] [<-|[]]; reflexivity|intros a [<-|[]]; cbn; lia]. }
    destruct (quad_built [{| vid := 0; vdata := [] |}] 1 VNone None readme_quad 10) as (L & (M1 & M2 & M3) & Hsn & Hq); [exact P0|exact I|exact I|vm_compute; reflexivity|].
    set (L1 := (L ++ [{| vid := 0; vdata := [] |}])%list) in *.
    destruct (axes_built L1 10 VNone None false false false false readme_axes 20) as (L2 & (N1 & N2 & N3) & Hsa & Ha); [exact M1|exact I|exact I|vm_compute; reflexivity|].
    exists (L2 ++ L1)%list, 20%nat. split; [exact N1|]. split; [apply in_or_app; right; apply in_or_app; right; now left|].
    assert (Dq : drawn (L2 ++ L1)%list readme_quad) by (apply drawn_more; split; assumption).
    assert (Da : drawn (L2 ++ L1)%list readme_axes) by (split; assumption).
    unfold readme. repeat (apply Forall_cons; [split; cbn [given_prims given_cons]; repeat (apply Forall_cons; [first [exact Dq | exact Da | apply readme_affine; cbn [In]; tauto]|]); apply Forall_nil|]). apply Forall_nil.
  Qed.
  Lemma readme_named : readme_layout = after (empty_layout 0) readme.
  Proof. reflexivity. Qed.
  Lemma readme_size : length (initial_global (l_prim readme_layout)) = 16%nat.
  Proof. rewrite readme_prim. vm_compute. reflexivity. Qed.
  (** The README program, for every size of the figure and all margins: each call succeeds,
      Newton's method with a backend that solves the linear systems returns a tree, and
      drawing this tree sets the size of the figure and puts the axes where the margins say. *)
  Theorem C79_readme step abs_tol rel_tol max_iter : W <> 0 -> H <> 0 -> (1 <= max_iter)%nat ->
    solves_linear_systems 16 (global_res readme_layout) step ->
    runs (empty_layout 0) readme readme_layout /\
    exists p info tr, solve_newton step readme_layout abs_tol rel_tol max_iter = Ok (p, info) /\
      subplots p "Figure" None = (tr, Ok tt) /\ sizes tr = [(W, H)] /\
      positions tr = [("MyAxes"%string, (ml / W, mb / H, (W - ml - mr) / W, (H - mb - mt) / H))].
  Proof.
    intros HW HH Hm Hst. split; [apply readme_runs|]. destruct readme_pool as (L & n & P1 & P2 & P3). destruct (pool_consistent 0 readme L n readme_layout readme_named P1 P2 P3) as (S1 & S2 & S3).
    rewrite <- readme_size in Hst.
    set (gg := [0; 0; W; 0; W; H; 0; H; ml; mb; W - mr; mb; W - mr; H - mt; ml; H - mt]).
    assert (G : exists z, layout_residual readme_layout (new_tree (l_prim readme_layout) gg) = Ok z /\ zeros z).
    { eexists. split.
      - exact (residual_vector _ _ _ S1 S2 (readme_res 0 0 W 0 W H 0 H ml mb (W - mr) mb (W - mr) (H - mt) ml (H - mt))).
      - repeat (apply Forall_cons; [lra|]). apply Forall_nil. }
    destruct G as (z & Gz & Hz).
    assert (Ht : same_structure (l_prim readme_layout) (new_tree (l_prim readme_layout) gg)).
    { apply new_structure; [assumption|assumption|assumption|now rewrite readme_size]. }
    assert (Hi : ids_consistent (new_tree (l_prim readme_layout) gg)) by (apply new_ids; assumption).
    pose proof (affine_named 0 readme L n readme_layout readme_named P1 P2 P3) as C.
    destruct (C _ z Ht Hi Gz Hz step Hst abs_tol rel_tol max_iter Hm) as (p & info & z' & E1 & E2 & E3).
    destruct (solved_vector _ _ _ _ _ _ _ S1 S2 (ltac:(rewrite readme_size; lia)) E1) as (g & El & Ep). rewrite readme_size in El.
    destruct (sixteen _ El) as (a & b & c & d & e & f & u & v & a' & b' & c' & d' & e' & f' & u' & v' & Eg). rewrite Eg in Ep.
    rewrite Ep, (residual_vector _ _ _ S1 S2 (readme_res a b c d e f u v a' b' c' d' e' f' u' v')) in E2. apply Ok_inj in E2. rewrite <- E2 in E3. clear E2 C.
    unfold zeros in E3. repeat (pose proof (Forall_inv E3); apply Forall_inv_tail in E3).
    assert (Ew : e - a = W) by lra. assert (Eh : f - b = H) by lra.
    destruct (readme_drawn a b c d e f u v a' b' c' d' e' f' u' v') as (tr & D1 & D2 & D3); [lra..|].
    exists p, info, tr. split; [exact E1|]. split; [rewrite Ep; exact D1|]. rewrite D2, D3, Ew, Eh. split; [reflexivity|].
    assert (Q1 : a' - a = ml) by lra. assert (Q2 : b' - b = mb) by lra. assert (Q3 : e' - a = W - mr) by lra. assert (Q4 : f' - b = H - mt) by lra.
    rewrite Q1, Q2, Q3, Q4. do 2 f_equal. repeat apply (f_equal2 pair); try reflexivity; unfold Rdiv; lra.
  Qed.

  (** *** The hypotheses can be met *)
  (** A backend for this layout: the linear system solved by hand. *)
  Definition readme_step (g r : list R) : result (list R) :=
    match r with
    | [r1; r2; r3; r4; r5; r6; r7; r8; r9; r10; r11; r12; r13; r14] =>
        let s := 2 * r12 + 2 * (- r1 - r6) - r2 in let t := 2 * r14 - 2 * r5 - r4 in
        Ok [0; 0; - r5; - r1; - r5 - r4; - r1 - r6; r3; - r1 - r6 - r2;
            (- 2 * r13 + r3 - r9) / 2; (- 2 * r11 - r1 + r7) / 2; (t + r10) / 2; (- 2 * r11 - r1 - r7) / 2;
            (t - r10) / 2; (s + r8) / 2; (- 2 * r13 + r3 + r9) / 2; (s - r8) / 2]
    | _ => Err ValueErr
    end.
  Example C79_readme_case : solves_linear_systems 16 (global_res readme_layout) readme_step.
  Proof.
    intros g r Hg Er _. destruct (sixteen _ Hg) as (a & b & c & d & e & f & u & v & a' & b' & c' & d' & e' & f' & u' & v' & ->).
    rewrite readme_res in Er. apply Ok_inj in Er. subst r.
    eexists. split; [reflexivity|]. split; [reflexivity|]. cbn [map]. eexists 1, (fun t => _). split; [lra|]. split.
    - intros t _. unfold shifted. cbn [map zip fst snd]. split; [apply readme_res|reflexivity].
    - assert (Lin : forall A B (h : R -> R), (forall t, h t = A + t * B) -> derivable_pt_lim h 0 B).
      { intros A B h Hh. apply (limit_local (fun t => A + t * B) h 0 1); [lra|intros; symmetry; apply Hh|apply limit_line]. }
      assert (Gen : forall A h, (forall t, h t = A * (1 - t)) -> derivable_pt_lim h 0 (- A)) by (intros A h Hh; apply (Lin A); intros t; rewrite Hh; ring).
      intros i. do 14 (destruct i as [|i]; [cbn [nth]; apply Gen; intros t; field|]). cbn [nth]. destruct i; apply derivable_pt_lim_const.
  Qed.

  Lemma number_flt x : number (PFlt x) x.
  Proof. split; reflexivity. Qed.
  Lemma asked_of (rc : result cons) ks ps : (if rc then true else false) = true -> In (ok_cons rc, ks, ps) (LayoutSpec.added readme) -> asked readme rc ks ps.
  Proof. intros H1 H2. exists (ok_cons rc). split; [now apply ok_of|exact H2]. Qed.
  Lemma readme_added : LayoutSpec.added readme =
    [(ok_cons Box, ["Figure"%string], []); (ok_cons crWidth, ["Figure"%string], [PFlt W]); (ok_cons crHeight, ["Figure"%string], [PFlt H]);
     (ok_cons Box, ["MyAxes/Frame"%string], []);
     (ok_cons (crInnerMargin "bottom"), ["MyAxes/Frame"%string; "Figure"%string], [PFlt mb]);
     (ok_cons (crInnerMargin "top"), ["MyAxes/Frame"%string; "Figure"%string], [PFlt mt]);
     (ok_cons (crInnerMargin "left"), ["MyAxes/Frame"%string; "Figure"%string], [PFlt ml]);
     (ok_cons (crInnerMargin "right"), ["MyAxes/Frame"%string; "Figure"%string], [PFlt mr])].
  Proof. reflexivity. Qed.
  (** The hypotheses of C79_figure on the layout, for the README. *)
  Example C79_figure_case : runs (empty_layout 0) readme readme_layout /\ Forall (shipped_act false) readme /\ Forall top_key readme /\
    quad_in (l_prim readme_layout) "Figure" /\ sized readme "Figure" W H /\
    NoDup ["MyAxes"%string] /\
    Forall2 (fun k m => quad_in (l_prim readme_layout) (k ++ "/Frame")%string /\ framed readme "Figure" k m) ["MyAxes"%string]
      [{| m_left := ml; m_right := mr; m_bottom := mb; m_top := mt |}].
  Proof.
    split; [apply readme_runs|]. split; [|split; [|split; [|split; [|split]]]].
    - unfold readme. repeat (apply Forall_cons; [first [exact I|cbn [shipped_act]]|]); [..|apply Forall_nil].
      all: try (apply sh_dimension; [|left; reflexivity]; rewrite <- ok_of; [unfold dimensions, margins; cbn [map app In]; tauto|vm_compute; reflexivity]).
      all: apply sh_plain; [rewrite <- ok_of; [unfold plain; cbn [In app map]; tauto|vm_compute; reflexivity]|vm_compute; reflexivity].
    - unfold readme. repeat (apply Forall_cons; [first [exact I|reflexivity]|]). apply Forall_nil.
    - apply (C79_quads_qualify 0 readme readme_layout (AddPrim readme_quad "Figure") "Figure" readme_quad readme_runs); [..|].
      + unfold readme. repeat (apply Forall_cons; [first [exact I|reflexivity]|]). apply Forall_nil.
      + now left.
      + split; reflexivity.
      + reflexivity.
      + apply (built_quad_closed 1 VNone None readme_quad 10 I). vm_compute. reflexivity.
    - split; [|split; eexists; (split; [apply number_flt|])]; apply asked_of; try (vm_compute; reflexivity); rewrite readme_added; cbn [In]; tauto.
    - constructor; [intros []|constructor].
    - constructor; [|constructor]. split.
      + assert (Q : exists f, dget "Frame" (nch readme_axes) = Some f /\ closed_quad f).
        { eapply (C79_quads_qualify 0 readme readme_layout (AddPrim readme_axes "MyAxes") "MyAxes" readme_axes readme_runs) with (nxt := 10%nat) (n := 20%nat) (v := VNone) (x := false) (y := false) (tx := false) (ty := false).
          - unfold readme. repeat (apply Forall_cons; [first [exact I|reflexivity]|]). apply Forall_nil.
          - unfold readme. cbn [In]. tauto.
          - split; reflexivity.
          - reflexivity.
          - vm_compute. reflexivity. }
        destruct Q as (fr & Q1 & Q2).
        eapply (C79_quads_qualify 0 readme readme_layout (AddPrim readme_axes "MyAxes") "MyAxes" readme_axes readme_runs); [..|exact Q1|exact Q2].
        * unfold readme. repeat (apply Forall_cons; [first [exact I|reflexivity]|]). apply Forall_nil.
        * unfold readme. cbn [In]. tauto.
        * split; reflexivity.
        * reflexivity.
      + split; [apply asked_of; [vm_compute; reflexivity|]; rewrite readme_added; cbn [In]; tauto|].
        change ("MyAxes" ++ "/Frame")%string with "MyAxes/Frame"%string.
        intros side Hs. cbn [In] in Hs. destruct Hs as [<-|[<-|[<-|[<-|[]]]]];
          [exists (PFlt ml)|exists (PFlt mr)|exists (PFlt mb)|exists (PFlt mt)]; (split; [apply number_flt|]); apply asked_of; try (vm_compute; reflexivity); rewrite readme_added; cbn [In]; tauto.
  Qed.
End Readme.

Print Assumptions C79_every_constraint.
Print Assumptions C79_figure.
Print Assumptions C79_figure_exact.
Print Assumptions C79_solver_output.
Print Assumptions C79_quads_qualify.
Print Assumptions C79_readme.
