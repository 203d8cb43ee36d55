(** * C100: drawing a layout succeeds *)
From Coq Require Import Reals Lra.
From Verif Require Import GeomProofs P_Geom CompProofs P_Comp ConsProofs TreeLemmas MplProofs P_Mpl CtorProofs EndProofs P_End ShippedProofs BackendSpec P_Backend P_Wf AllocProofs.
From Verif Require Export DrawSpec.
From Verif Require Import P_Affine.
Local Open Scope R_scope.

Lemma quad_rect (q : prim) P0 P1 P2 P3 fl fb w h : quad_at q P0 P1 P2 P3 -> w <> 0 -> h <> 0 ->
  exists r, rect_from_box q [fl; fb] [w; h] = Ok r.
Proof.
  intros H Hw Hh. destruct (quad_corners _ _ _ _ _ H) as (p0 & p2 & G0 & G2 & D0 & D2). unfold rect_from_box.
  rewrite G0. cbn [bind]. rewrite D0, sub2_ok. cbn [bind]. rewrite div2_ok by assumption. cbn [bind unpack2].
  rewrite G2. cbn [bind]. rewrite D2, sub2_ok. cbn [bind]. rewrite div2_ok by assumption. eexists. reflexivity.
Qed.
(** The parts of an Axes in a tree of the same structure. *)
Lemma moved_axes (root p : prim) key : same_structure root p -> ids_consistent p -> axes_in root key ->
  exists a f u, get_child p key = Ok a /\ dget "Frame" (nch a) = Some f /\ quad_is f u /\ forall pre, In pre axis_names -> axis_fine p key pre.
Proof.
  intros Hs Hi (a & Ea & _ & (f & Ef & Cf) & Hpre). rewrite get_child_walk in Ea. destruct (walk (split_all key) root) as [a'|] eqn:Wa; [|discriminate]. injection Ea as ->.
  assert (Wb : exists b, walk (split_all key) p = Some b /\ nkeys b = nkeys a).
  { pose proof (proj1 Hs (split_all key)) as E. rewrite Wa in E. destruct (walk (split_all key) p) as [b|]; [|discriminate]. cbn in E. exists b. injection E as _ E _. auto. }
  destruct Wb as (b & Wb & Kb). assert (Gb : get_child p key = Ok b) by now rewrite get_child_walk, Wb.
  assert (Part : forall name x, dget name (nch a) = Some x -> closed_quad x -> exists y u, dget name (nch b) = Some y /\ quad_is y u).
  { intros name x Hx Cx. assert (Wx : walk (split_all key ++ [name]) root = Some x) by (rewrite walk_app, Wa; cbn [walk]; now rewrite Hx).
    destruct (moved_quad root p (split_all key ++ [name]) Hs Hi x Wx Cx) as (y & P0 & P1 & P2 & P3 & Wy & Hy). rewrite walk_app, Wb in Wy. cbn [walk] in Wy.
    destruct (dget name (nch b)) as [z|] eqn:Ez; [|discriminate]. injection Wy as ->. exists y, (P0, P1, P2, P3). auto. }
  assert (Gone : forall name, dget name (nch a) = None -> dget name (nch b) = None).
  { intros name Hx. pose proof (proj1 Hs (split_all key ++ [name])%list) as E. rewrite !walk_app, Wa, Wb in E. cbn [walk] in E. rewrite Hx in E. now destruct (dget name (nch b)). }
  destruct (Part _ _ Ef Cf) as (y & u & Ey & Hy). exists b, y, u. split; [exact Gb|]. split; [exact Ey|]. split; [exact Hy|].
  intros pre Hp. destruct (Hpre pre Hp) as [HA HL]. split.
  - destruct HL as [HL|(x & HL & i & C1 & _ & C3)]; [left; exists b; auto|]. right.
    pose proof (proj1 Hs (split_all key ++ [(pre ++ "AxisLabel")%string])%list) as E. rewrite !walk_app, Wa, Wb in E. cbn [walk] in E. rewrite HL in E.
    destruct (dget (pre ++ "AxisLabel") (nch b)) as [z|] eqn:Ez; [|discriminate]. cbn in E. injection E as E1 _ E3. destruct z as [tz [iz dz] cz]. cbn in E1, E3. rewrite C1 in E1. rewrite C3 in E3.
    destruct dz as [|x0 [|y0 [|? ?]]]; try discriminate. subst tz. exists (x0, y0), b, (Node TPoint {| vid := iz; vdata := [x0; y0] |} cz). split; [exact Gb|]. split; [exact Ez|]. eexists _, _. reflexivity.
  - destruct HA as [HA|(x & HA & Cx)]; [left; exists b; auto|]. right. destruct (Part _ _ HA Cx) as (z & v & Ez & Hz). exists b, z, v. auto.
Qed.
Lemma update_draws (root p : prim) fig fq P0 P1 P2 P3 axs : same_structure root p -> ids_consistent p ->
  get_child p fig = Ok fq -> quad_at fq P0 P1 P2 P3 -> fst P2 <> fst P0 -> snd P2 <> snd P0 ->
  (forall key, In key axs -> axes_in root key) -> exists tr, update_subplots p fig axs = (tr, Ok tt).
Proof.
  intros Hs Hi Gf Hf Hw Hh Hk. unfold update_subplots, width_and_height_from_quad. destruct (quad_corners _ _ _ _ _ Hf) as (p0 & p2 & K0 & K2 & D0 & D2).
  rewrite Gf. cbn [bind]. rewrite K0. cbn [bind]. rewrite D0. cbn [bind unpack2]. rewrite K2. cbn [bind]. rewrite D2. cbn [bind unpack2].
  eapply mbind_total; [eexists; reflexivity|]. cbv beta iota. eapply mbind_total; [eexists; reflexivity|]. apply mseq_run. intros key Hin.
  destruct (moved_axes root p key Hs Hi (Hk key Hin)) as (a & f & u & Ga & Gq & Hu & Fine).
  change (key ++ "/Frame")%string with (key ++ String slash "Frame")%string. rewrite (child_path p key _ a _ Ga (dget_get_child a "Frame" _ eq_refl Gq)). cbn [bind].
  assert (Hw' : fst P2 - fst P0 <> 0) by lra. assert (Hh' : snd P2 - snd P0 <> 0) by lra.
  destruct u as [[[U0 U1] U2] U3]. destruct (quad_rect f U0 U1 U2 U3 (fst P0) (snd P0) _ _ Hu Hw' Hh') as [[[[x y] w] h] Er]. cbn [nsub NumR]. rewrite Er. cbn [bind mlift mbind mcall].
  destruct (mseq_run (update_axis p key f [fst P2 - fst P0; snd P2 - snd P0]) ["X"; "Y"]) as [t' E].
  { intros pre Hpre. apply (axis_runs p key f (U0, U1, U2, U3)); auto. }
  rewrite E. eauto.
Qed.
Lemma subplots_from (p : prim) fig keys : let ks := match keys with Some ks => ks | None => filter (contains_sub "Axes") (nkeys p) end in
  (exists tr, update_subplots p fig (dkeys (dict_of (map (fun k => (k, tt)) ks))) = (tr, Ok tt)) -> exists tr, subplots p fig keys = (tr, Ok tt).
Proof.
  intros ks H. unfold subplots. eapply mbind_total; [eexists; reflexivity|]. fold ks. eapply mbind_total; [apply mseq_run; intros x _; eexists; reflexivity|]. exact H.
Qed.
Lemma dict_keys_in (ks : list string) k : In k (dkeys (dict_of (map (fun k => (k, tt)) ks))) -> In k ks.
Proof.
  intros H. unfold dkeys in H. apply (proj1 (Trans2Proofs.dict_of_keys_In _ _)) in H. rewrite map_map in H. cbn in H. now rewrite map_id in H.
Qed.

Lemma quad_point_parts m b l n : mk_quad_point (F:=R) m b = Ok (l, n) -> if b then exists q p i, l = [q; p] /\ closed_quad q /\ corner p i else l = [].
Proof.
  unfold mk_quad_point. destruct b; [|now intros [= <- _]]. destruct (mk_quad m VNone None) as [[q m1]|] eqn:Eq; [|discriminate]. cbn [bind].
  destruct (mk_point m1 VNone) as [[p m2]|] eqn:Ep; [|discriminate]. cbn [bind]. intros [= <- _]. exists q, p, m1. split; [reflexivity|]. split; [now apply (built_quad_closed _ _ None _ _ I Eq)|].
  vm_compute in Ep. injection Ep as <- _. repeat split.
Qed.
Lemma built_axes_parts nxt v x y tx ty (q : prim) n : mk_axes nxt v None x y tx ty = Ok (q, n) ->
  ntype q = TAxes /\ (exists f, dget "Frame" (nch q) = Some f /\ closed_quad f) /\
  forall pre, In pre axis_names ->
      (dget (pre ++ "Axis") (nch q) = None \/ exists c, dget (pre ++ "Axis") (nch q) = Some c /\ closed_quad c) /\
      (dget (pre ++ "AxisLabel") (nch q) = None \/ exists c, dget (pre ++ "AxisLabel") (nch q) = Some c /\ exists i, corner c i).
Proof.
  intros H. unfold mk_axes in H. destruct (take_value nxt v []) as [value m]. unfold axes_default in H.
  destruct (mk_quad_point m x) as [[a1 n1]|] eqn:E1; [|discriminate]. cbn [bind] in H.
  destruct (mk_quad_point n1 (x && tx)) as [[b1 n2]|] eqn:E2; [|discriminate]. cbn [bind] in H.
  destruct (mk_quad_point n2 y) as [[c1 n3]|] eqn:E3; [|discriminate]. cbn [bind] in H.
  destruct (mk_quad_point n3 (y && ty)) as [[d1 n4]|] eqn:E4; [|discriminate]. cbn [bind] in H.
  destruct (mk_quad n4 _ _) as [[f n5]|] eqn:Ef; [|discriminate]. cbn [bind] in H.
  apply built_quad_closed in Ef; [|exact I].
  destruct (finish_prim _ _ _ _) as [r|] eqn:Er; [|discriminate]. injection H as <- _. unfold finish_prim in Er. apply mk_primnode_Ok in Er as [-> _]; [|discriminate]. cbn [nch ntype].
  apply quad_point_parts in E1, E2, E3, E4. split; [reflexivity|]. split.
  - exists f. split; [|exact Ef].
    destruct x; cbn [andb] in *; [destruct E1 as (qa & pa & ia & -> & Qa & Pa)|subst a1]; (destruct tx; cbn [andb] in *; [try (destruct E2 as (qb & pb & ib & -> & Qb & Pb))|]; try subst b1);
    (destruct y; cbn [andb] in *; [destruct E3 as (qc & pc & ic & -> & Qc & Pc)|subst c1]); (destruct ty; cbn [andb] in *; [try (destruct E4 as (qd & pd & id & -> & Qd & Pd))|]; try subst d1); reflexivity.
  - intros pre Hp. cbn [axis_names In] in Hp.
    destruct x; cbn [andb] in *; [destruct E1 as (qa & pa & ia & -> & Qa & Pa)|subst a1]; (destruct tx; cbn [andb] in *; [try (destruct E2 as (qb & pb & ib & -> & Qb & Pb))|]; try subst b1);
    (destruct y; cbn [andb] in *; [destruct E3 as (qc & pc & ic & -> & Qc & Pc)|subst c1]); (destruct ty; cbn [andb] in *; [try (destruct E4 as (qd & pd & id & -> & Qd & Pd))|]; try subst d1);
    (destruct Hp as [<-|[<-|[]]]; (split; [first [left; reflexivity|right; eexists; split; [reflexivity|assumption]]|first [left; reflexivity|right; eexists; split; [reflexivity|eexists; eassumption]]])).
Qed.

(** Axes(...), whatever axes and twin axes it is asked to have, added to a layout. *)
Theorem C100_axes_qualify rid acts (l : layout) a key q nxt v x y tx ty n : runs (empty_layout rid) acts l -> Forall flat_keys acts -> In a acts -> gives a key q ->
  noslash key = true -> mk_axes nxt v None x y tx ty = Ok (q, n) -> axes_in (l_prim l) key.
Proof.
  intros Hr Hf Ha Hg Hk Hm. destruct (flat_given acts (empty_layout rid) l Hr Hf) as (N & _ & G); [constructor|]. specialize (G a key q Ha Hg).
  exists q. split; [apply dget_get_child; [exact Hk|]; apply In_dget; assumption|]. now apply (built_axes_parts nxt v x y tx ty q n).
Qed.
(** Drawing any tree with the structure of the layout's (solved or not) succeeds, if the
    corners of the figure differ in both coordinates. *)
Theorem C100_draws (root p : prim) fig fq P0 P1 P2 P3 keys : same_structure root p -> ids_consistent p ->
  get_child p fig = Ok fq -> quad_at fq P0 P1 P2 P3 -> fst P2 <> fst P0 -> snd P2 <> snd P0 ->
  (forall key, In key keys -> axes_in root key) ->
  (exists tr, subplots p fig (Some keys) = (tr, Ok tt)) /\ (exists tr, update_subplots p fig keys = (tr, Ok tt)).
Proof.
  intros Hs Hi Gf Hf Hw Hh Hk. split; [apply subplots_from|]; eapply update_draws; eauto. intros key Hin. now apply Hk, dict_keys_in.
Qed.
(** The same for the axes found by their names. *)
Theorem C100_draws_named (root p : prim) fig fq P0 P1 P2 P3 : same_structure root p -> ids_consistent p ->
  get_child p fig = Ok fq -> quad_at fq P0 P1 P2 P3 -> fst P2 <> fst P0 -> snd P2 <> snd P0 ->
  (forall key, In key (nkeys root) -> (exists a b, key = a ++ "Axes" ++ b)%string -> axes_in root key) ->
  exists tr, subplots p fig None = (tr, Ok tt).
Proof.
  intros Hs Hi Gf Hf Hw Hh Hk. apply subplots_from. eapply update_draws; eauto. intros key Hin. apply dict_keys_in in Hin. cbv zeta in Hin. apply filter_In in Hin as [H1 H2]. apply Hk.
  - pose proof (proj1 Hs []) as E. cbn in E. injection E as _ E _. now rewrite E.
  - now apply contains_sub_spec.
Qed.
(** The layout asks for a figure of [w] by [h] inches; at [p] the residual is within [e]. *)
Theorem C100_solved rid tw acts (l : layout) p z e fig w h keys :
  runs (empty_layout rid) acts l -> Forall (shipped_act tw) acts -> Forall top_key acts ->
  same_structure (l_prim l) p -> ids_consistent p -> layout_residual l p = Ok z -> Forall (fun x => Rabs x <= e) z ->
  quad_in (l_prim l) fig -> sized acts fig w h -> 2 * e < Rabs w -> 2 * e < Rabs h ->
  (forall key, In key keys -> axes_in (l_prim l) key) ->
  exists tr, subplots p fig (Some keys) = (tr, Ok tt).
Proof.
  intros Hr Hs Hk Hp Hi Hz He Hfig (SB & (vw & [nw1 nw2] & SW) & (vh & [nh1 nh2] & SH)) Hw Hh Hax.
  assert (Ev : forall c ks ps, asked acts c ks ps -> exists c' prims r, c = Ok c' /\ mapM (get_child p) ks = Ok prims /\ call c' prims ps = Ok r /\ Forall (fun x => Rabs x <= e) r).
  { intros c ks ps (c' & -> & Hin). destruct (proj1 (proj1 (C79_every_constraint rid tw acts l p z Hr Hs Hk Hp Hz) e) He _ _ _ Hin) as (prims & r & E1 & E2 & E3). eauto 8. }
  destruct (quad_moved _ p fig Hp Hi Hfig) as (fq & G0 & G1 & G2 & G3 & Gf & Hf).
  destruct (Ev _ _ _ SB) as (c & prims & r & E1 & E2 & E3 & E4). cbn [mapM] in E2. rewrite Gf in E2. cbn [bind] in E2. injection E2 as <-.
  destruct (box_value _ _ _ _ _ Hf) as (c' & E1' & E3'). rewrite E1 in E1'. injection E1' as <-. rewrite E3 in E3'. injection E3' as ->.
  inversion_clear E4 as [|? ? B1 E5]. inversion_clear E5 as [|? ? B2 E4]. inversion_clear E4 as [|? ? B3 E5]. inversion_clear E5 as [|? ? B4 E4].
  destruct (Ev _ _ _ SW) as (c1 & prims & r & F1 & E2 & F3 & F4). cbn [mapM] in E2. rewrite Gf in E2. cbn [bind] in E2. injection E2 as <-.
  destruct (C42_width _ _ _ _ _ _ _ Hf nw1 nw2) as (c' & F1' & F3' & _). rewrite F1 in F1'. injection F1' as <-. rewrite F3 in F3'. injection F3' as ->. inversion_clear F4 as [|? ? B5 _].
  destruct (Ev _ _ _ SH) as (c2 & prims & r & H1 & E2 & H3 & H4). cbn [mapM] in E2. rewrite Gf in E2. cbn [bind] in E2. injection E2 as <-.
  destruct (C42_height _ _ _ _ _ _ _ Hf nh1 nh2) as (c' & H1' & H3' & _). rewrite H1 in H1'. injection H1' as <-. rewrite H3 in H3'. injection H3' as ->. inversion_clear H4 as [|? ? B6 _].
  apply Rabs_within in B1, B2, B3, B4, B5, B6.
  apply (C100_draws (l_prim l) p fig fq G0 G1 G2 G3 keys Hp Hi Gf Hf); [| |exact Hax].
  - intros X. apply (Rlt_not_le _ _ Hw). apply Rabs_within. lra.
  - intros X. apply (Rlt_not_le _ _ Hh). apply Rabs_within. lra.
Qed.
(** Build, solve (by either method, with any backend), draw: if the solver leaves a residual
    within [e], drawing succeeds and the figure and its axes have the requested size and
    margins up to [2 * e]. *)
Theorem C100_workflow acts (l : layout) step minimizer abs_tol rel_tol max_iter method p info z e fig w h keys ms :
  shipped_layout acts l ->
  (forall g r d, step g r = Ok d -> length d = length g) -> (forall f x0 k, Forall (fun fx => length (snd fx) = length x0) (minimizer f x0 k)) ->
  solve step minimizer l abs_tol rel_tol max_iter method = Ok (p, info) ->
  layout_residual l p = Ok z -> Forall (fun x => Rabs x <= e) z ->
  quad_in (l_prim l) fig -> sized acts fig w h -> 2 * e < Rabs w -> 2 * e < Rabs h ->
  NoDup keys -> Forall2 (fun k m => axes_in (l_prim l) k /\ framed acts fig k m) keys ms ->
  exists tr w' h', subplots p fig (Some keys) = (tr, Ok tt) /\ sizes tr = [(w', h')] /\ near (2 * e) w' w /\ near (2 * e) h' h /\
    map fst (positions tr) = keys /\ Forall2 (fun kr m => near_margins (2 * e) (inches w' h' (snd kr)) m) (positions tr) ms.
Proof.
  intros Hl Hst Hm H Hz He Hf Hsz Hw Hh Hn Hk. pose proof Hl as (rid & tw & L & n & Hr & Hs & Htop & P1 & P2 & P3).
  assert (Q : same_structure (l_prim l) p /\ ids_consistent p).
  { pose proof (runs_after _ _ _ Hr) as Ea. rewrite <- Ea in H |- *. eapply (C79_solver_output rid acts L n); try eassumption.
    rewrite Forall_forall in *. intros a Ha. split; [now apply P3|]. apply Forall_forall. intros c Hc. specialize (Hs a Ha). destruct a as [| |c' ks ps key]; cbn [given_cons] in Hc; try contradiction. destruct Hc as [<-|[]]. cbn [shipped_act] in Hs.
    eapply C71_shipped_constraints. exact Hs. }
  destruct Q as [Q1 Q2].
  destruct (C100_solved rid tw acts l p z e fig w h keys Hr Hs Htop Q1 Q2 Hz He Hf Hsz Hw Hh) as [tr Htr].
  { intros key Hin. clear -Hk Hin. induction Hk as [|k m ks ms [Hk _] _ IH]; [contradiction|]. destruct Hin as [<-|Hin]; auto. }
  exists tr. destruct (C79_figure rid tw acts l p z e fig w h keys ms tr Hr Hs Htop Q1 Q2 Hz He Hf Hsz Hn) as (w' & h' & D); [|exact Htr|exists w', h'; auto].
  clear -Hk. induction Hk as [|k m ks ms [Hk1 Hk2] _ IH]; constructor; [|exact IH]. split; [|exact Hk2]. destruct Hk1 as (a & Ea & _ & (f & Ef & Cf) & _). exists f. split; [|exact Cf].
  change (k ++ "/Frame")%string with (k ++ String slash "Frame")%string. apply (child_path _ _ _ a f Ea). now apply dget_get_child.
Qed.

(** ** The README's layout, and an Axes with axes, labels and twin axes before solving *)
Lemma readme_axes_in W H ml mr mb mt : axes_in (l_prim (readme_layout W H ml mr mb mt)) "MyAxes".
Proof.
  eapply (C100_axes_qualify 0 (readme W H ml mr mb mt) _ (AddPrim readme_axes "MyAxes") "MyAxes" readme_axes 10 VNone false false false false 20 (readme_runs W H ml mr mb mt)).
  - unfold readme. repeat (apply Forall_cons; [first [exact I|reflexivity]|]). apply Forall_nil.
  - unfold readme. cbn [In]. tauto.
  - split; reflexivity.
  - reflexivity.
  - vm_compute. reflexivity.
Qed.
Definition step100 (g r : list R) : result (list R) :=
  if Nat.eqb (length g) 16 then readme_step g r else Err ValueErr.
Lemma step100_length g r d : step100 g r = Ok d -> length d = length g.
Proof.
  unfold step100. destruct (Nat.eqb (length g) 16) eqn:E; [|discriminate]. apply Nat.eqb_eq in E. rewrite E. unfold readme_step.
  do 14 (destruct r as [|? r]; [discriminate|]). destruct r; [|discriminate]. now intros [= <-].
Qed.
Example C100_workflow_case W H ml mr mb mt : W <> 0 -> H <> 0 -> let l := readme_layout W H ml mr mb mt in
  exists p info z, shipped_layout (readme W H ml mr mb mt) l /\ solve step100 (fun _ x0 _ => []) l 0 0 1 "newton" = Ok (p, info) /\
    layout_residual l p = Ok z /\ Forall (fun x => Rabs x <= 0) z /\
    quad_in (l_prim l) "Figure" /\ sized (readme W H ml mr mb mt) "Figure" W H /\ 2 * 0 < Rabs W /\ 2 * 0 < Rabs H /\
    Forall2 (fun k m => axes_in (l_prim l) k /\ framed (readme W H ml mr mb mt) "Figure" k m) ["MyAxes"%string] [{| m_left := ml; m_right := mr; m_bottom := mb; m_top := mt |}].
Proof.
  intros HW HH l. destruct (C79_figure_case W H ml mr mb mt) as (R1 & R2 & R3 & R4 & R5 & _ & R6). destruct (readme_pool W H ml mr mb mt) as (L & n & P1 & P2 & P3).
  assert (Sh : shipped_layout (readme W H ml mr mb mt) l).
  { exists 0%nat, false, L, n. split; [exact R1|]. split; [exact R2|]. split; [exact R3|]. split; [exact P1|]. split; [exact P2|]. eapply Forall_impl; [|exact P3]. intros a [Ha _]. exact Ha. }
  destruct (shipped_sane _ _ Sh) as (S1 & S2 & S3).
  assert (St : solves_linear_systems (length (initial_global (l_prim l))) (global_res l) step100).
  { unfold l. rewrite readme_size. intros g r Hg Er Hd. destruct (C79_readme_case W H ml mr mb mt g r Hg Er Hd) as (d & E & D). exists d. split; [|exact D]. unfold step100. rewrite Hg. exact E. }
  set (gg := [0; 0; W; 0; W; H; 0; H; ml; mb; W - mr; mb; W - mr; H - mt; ml; H - mt]).
  assert (G : exists z, layout_residual l (new_tree (l_prim l) gg) = Ok z /\ zeros z).
  { eexists. split; [exact (residual_vector _ _ _ S1 S2 (readme_res W H ml mr mb mt 0 0 W 0 W H 0 H ml mb (W - mr) mb (W - mr) (H - mt) ml (H - mt)))|]. repeat (apply Forall_cons; [lra|]). apply Forall_nil. }
  destruct G as (z0 & Gz & Hz).
  assert (Ht : same_structure (l_prim l) (new_tree (l_prim l) gg)) by (apply new_structure; try assumption; unfold l; now rewrite readme_size).
  assert (Hi : ids_consistent (new_tree (l_prim l) gg)) by (apply new_ids; assumption).
  destruct (affine_named 0 _ L n l (readme_named W H ml mr mb mt) P1 P2 P3 _ z0 Ht Hi Gz Hz step100 St 0 0 1%nat (le_n 1)) as (p & info & z & E1 & E2 & E3).
  exists p, info, z. split; [exact Sh|]. split; [exact E1|]. split; [exact E2|]. split; [eapply Forall_impl; [|exact E3]; intros x ->; rewrite Rabs_R0; lra|].
  split; [exact R4|]. split; [exact R5|]. pose proof (Rabs_pos_lt W HW). pose proof (Rabs_pos_lt H HH). split; [lra|]. split; [lra|].
  constructor; [|constructor]. split; [apply readme_axes_in|]. now inversion_clear R6 as [|? ? ? ? [_ X] _].
Qed.
Definition axes100 : prim := match mk_axes (F:=R) 10 VNone None true true true false with Ok (p, _) => p | Err _ => readme_quad end.
Definition acts100 : list (action R) := [AddPrim readme_quad "Figure"; AddPrim axes100 "TopAxes"].
Definition l100 : layout := after (empty_layout 0) acts100.
Example C100_case : exists fq, get_child (l_prim l100) "Figure" = Ok fq /\ box_at fq 0 0 1 1 /\ nkeys axes100 = ["Frame"; "XAxis"; "XAxisLabel"; "YAxis"; "YAxisLabel"; "TwinXAxis"; "TwinXAxisLabel"]%string /\
  (forall key, In key (nkeys (l_prim l100)) -> (exists a b, key = a ++ "Axes" ++ b)%string -> axes_in (l_prim l100) key) /\
  (exists tr, subplots (l_prim l100) "Figure" None = (tr, Ok tt)).
Proof.
  assert (B : exists fq, get_child (l_prim l100) "Figure" = Ok fq /\ box_at fq 0 0 1 1).
  { eexists. split; [lazy -[IZR]; reflexivity|]. eexists _, _, _, _, _; split; [reflexivity|]. repeat split; eexists _, _, _; (split; [reflexivity|]); split; eexists _, _; reflexivity. }
  destruct B as (fq & Ef & Bf). exists fq. split; [exact Ef|]. split; [exact Bf|]. split; [vm_compute; reflexivity|].
  assert (A : axes_in (l_prim l100) "TopAxes").
  { eapply (C100_axes_qualify 0 acts100 l100 (AddPrim axes100 "TopAxes") "TopAxes" axes100 10 VNone true true true false).
    - apply all_ok_runs. vm_compute. reflexivity.
    - unfold acts100. repeat (apply Forall_cons; [reflexivity|]). apply Forall_nil.
    - right. now left.
    - split; reflexivity.
    - reflexivity.
    - vm_compute. reflexivity. }
  assert (N : forall key, In key (nkeys (l_prim l100)) -> (exists a b, key = a ++ "Axes" ++ b)%string -> axes_in (l_prim l100) key).
  { intros key Hk Hs. change (nkeys (l_prim l100)) with ["Figure"; "TopAxes"]%string in Hk. destruct Hk as [<-|[<-|[]]]; [|exact A]. apply contains_sub_spec in Hs. vm_compute in Hs. discriminate. }
  split; [exact N|].
  assert (Sh : ids_consistent (l_prim l100)).
  { assert (P0 : pool (F:=R) [{| vid := 0; vdata := [] |}] 1). { split; cbn; [intros a b [<-|[]] [<-|[]]; reflexivity|intros a [<-|[]]; cbn; lia]. }
    destruct (quad_built [{| vid := 0; vdata := [] |}] 1 VNone None readme_quad 10) as (L & (M1 & _) & Q1 & Q2); [exact P0|exact I|exact I|vm_compute; reflexivity|].
    assert (Hm : exists n, mk_axes (F:=R) 10 VNone None true true true false = Ok (axes100, n)) by (eexists; vm_compute; reflexivity). destruct Hm as [m Hm].
    destruct (axes_built _ 10 VNone None true true true false axes100 m M1) as (L' & (M1' & _) & Q1' & Q2'); [exact I|exact I|exact Hm|].
    eapply (C71_arrays_consistent 0 acts100); [exact M1'|apply in_or_app; right; apply in_or_app; right; now left|].
    unfold acts100. apply Forall_cons; [|apply Forall_cons; [|apply Forall_nil]]; cbn [given_prims]; (apply Forall_cons; [|apply Forall_nil]); (split; [assumption|]); [intros w Hw; apply in_or_app; right; now apply Q2|exact Q2']. }
  apply (C100_draws_named (l_prim l100) (l_prim l100) "Figure" fq _ _ _ _ (same_structure_refl _) Sh Ef Bf); [cbn; lra|cbn; lra|exact N].
Qed.

Print Assumptions C100_axes_qualify.
Print Assumptions C100_draws.
Print Assumptions C100_draws_named.
Print Assumptions C100_solved.
Print Assumptions C100_workflow.
