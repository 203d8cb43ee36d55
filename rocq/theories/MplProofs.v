(** What update_subplots does, call by call. *)
From Coq Require Import Reals Lra.
From Verif Require Import GeomProofs P_Geom CompProofs ConsProofs TreeLemmas.
From Verif Require Export MplSpec.
Local Open Scope R_scope.
Notation prim := (prim R).

(** ** The monad *)
Lemma mbind_ok {A B} (m : M (F:=R) A) (f : A -> M B) t b : mbind m f = (t, Ok b) ->
  exists t1 t2 a, m = (t1, Ok a) /\ f a = (t2, Ok b) /\ t = t1 ++ t2.
Proof.
  destruct m as [t1 [a|e]]; cbn; [|discriminate]. destruct (f a) as [t2 r] eqn:E. intros H. inversion H; subst. eauto 8.
Qed.
Lemma mbind_run {A B} (m : M (F:=R) A) (f : A -> M B) t1 a : m = (t1, Ok a) ->
  mbind m f = (t1 ++ fst (f a), snd (f a)).
Proof. intros ->. cbn. now destruct (f a). Qed.
Lemma mbind_total {A B} (m : M (F:=R) A) (f : A -> M B) a b : (exists t1, m = (t1, Ok a)) -> (exists t, f a = (t, Ok b)) ->
  exists t, mbind m f = (t, Ok b).
Proof. intros [t1 ->] [t E]. cbn. rewrite E. eauto. Qed.
Lemma mseq_ok {A} (f : A -> M (F:=R) unit) l t u : mseq f l = (t, Ok u) ->
  exists ts, t = List.concat ts /\ Forall2 (fun x tx => f x = (tx, Ok tt)) l ts.
Proof.
  revert t. induction l as [|x l IH]; intros t H.
  - inversion H. exists []. split; [reflexivity|constructor].
  - apply mbind_ok in H as (t1 & t2 & a & H1 & H2 & ->). destruct (IH _ H2) as (ts & -> & Hts).
    exists (t1 :: ts). split; [reflexivity|]. constructor; [now destruct a|assumption].
Qed.
Lemma mseq_run {A} (f : A -> M (F:=R) unit) l : (forall x, In x l -> exists t, f x = (t, Ok tt)) ->
  exists t, mseq f l = (t, Ok tt).
Proof.
  induction l as [|x l IH]; intros H; cbn; [unfold mret; eauto|].
  destruct (H x (or_introl eq_refl)) as [t ->]. destruct IH as [t' E]; [intros y Hy; apply H; now right|].
  cbn. rewrite E. eauto.
Qed.
Lemma mlift_ok {A} (r : result A) t a : mlift (F:=R) r = (t, Ok a) -> t = [] /\ r = Ok a.
Proof. intros H. inversion H. auto. Qed.

(** ** Looking up parts *)
Lemma child_path (root : prim) key name a q : get_child root key = Ok a -> get_child a name = Ok q ->
  get_child root (key ++ String slash name) = Ok q.
Proof. intros H1 H2. apply (proj2 (get_child_app root key name a H1)). exact H2. Qed.
Lemma contains_simple (a : prim) name : noslash name = true -> contains a name = Ok (dmem name (nch a)).
Proof.
  intros H. unfold contains. cbn [contains_f].
  assert (E : split1 name = (name, None)).
  { revert H. clear. induction name as [|c s IH]; [reflexivity|]. cbn. destruct (Ascii.eqb c slash) eqn:Ec; cbn; [discriminate|]. intros H. now rewrite IH. }
  rewrite E. reflexivity.
Qed.

(** Corners of a box. *)
Lemma box_corners q l b r t : box_at q l b r t ->
  exists p0 p2, get_child q "Line0/Point0" = Ok p0 /\ get_child q "Line1/Point1" = Ok p2 /\
    vdata (nval p0) = [l; b] /\ vdata (nval p2) = [r; t].
Proof.
  intros (v & l0 & l1 & l2 & l3 & -> & (w0 & a0 & b0 & -> & A0 & _) & (w1 & a1 & b1 & -> & _ & B1) & _).
  exists a0, b1. destruct A0 as (? & ? & ->), B1 as (? & ? & ->). repeat split; reflexivity.
Qed.
Lemma box_size q l b r t : box_at q l b r t -> width_and_height_from_quad q = Ok (r - l, t - b).
Proof.
  intros H. destruct (box_corners _ _ _ _ _ H) as (p0 & p2 & G0 & G2 & D0 & D2). unfold width_and_height_from_quad.
  rewrite G0. cbn [bind]. rewrite D0. cbn [bind unpack2]. rewrite G2. cbn [bind]. rewrite D2. reflexivity.
Qed.
Lemma div_ok (x y : R) : y <> 0 -> ndiv x y = Ok (x / y).
Proof. intros H. cbn [ndiv NumR]. unfold Rdiv_r. destruct (Req_EM_T y 0); [contradiction|reflexivity]. Qed.
Lemma div2_ok (x y w h : R) : w <> 0 -> h <> 0 -> bcast2 ndiv [x; y] [w; h] = Ok [x / w; y / h].
Proof. intros Hw Hh. unfold bcast2. cbn [length Nat.eqb zip mapM fst snd]. rewrite (div_ok x w Hw). cbn [bind]. rewrite (div_ok y h Hh). reflexivity. Qed.
Lemma sub2_ok (x y w h : R) : vsub [x; y] [w; h] = Ok [x - w; y - h].
Proof. reflexivity. Qed.
Lemma box_rect q l b r t fl fb w h : box_at q l b r t -> w <> 0 -> h <> 0 ->
  rect_from_box q [fl; fb] [w; h] = Ok ((l - fl) / w, (b - fb) / h, (r - fl) / w - (l - fl) / w, (t - fb) / h - (b - fb) / h).
Proof.
  intros H Hw Hh. destruct (box_corners _ _ _ _ _ H) as (p0 & p2 & G0 & G2 & D0 & D2). unfold rect_from_box.
  rewrite G0. cbn [bind]. rewrite D0, sub2_ok. cbn [bind]. rewrite div2_ok by assumption. cbn [bind unpack2].
  rewrite G2. cbn [bind]. rewrite D2, sub2_ok. cbn [bind]. rewrite div2_ok by assumption. reflexivity.
Qed.

(** ** One axis *)
Definition label_part (root : prim) key w h pre (t : list (mplcall R)) : Prop :=
  (part_missing root key (pre ++ "AxisLabel") /\ t = []) \/
  exists a p, get_child root key = Ok a /\ dget (pre ++ "AxisLabel")%string (nch a) = Some p /\
    exists x y, t = [SetLabelCoords key pre x y] /\ forall P, point_at p P -> x * w = fst P /\ y * h = snd P.
Definition tick_part (root : prim) key (quad : prim) pre (t : list (mplcall R)) : Prop :=
  (part_missing root key (pre ++ "Axis") /\ t = []) \/
  exists a q s, get_child root key = Ok a /\ dget (pre ++ "Axis")%string (nch a) = Some q /\
    find_axis_position quad q = Ok s /\ t = [SetTicksPosition key pre s].

Lemma axis_done root key quad w h pre t : In pre axis_names -> w <> 0 -> h <> 0 ->
  update_axis root key quad [w; h] pre = (t, Ok tt) ->
  exists t1 t2, t = t1 ++ t2 /\ label_part root key w h pre t1 /\ tick_part root key quad pre t2.
Proof.
  intros Hpre Hw Hh H. assert (N1 : noslash (pre ++ "AxisLabel") = true) by (destruct Hpre as [<-|[<-|[]]]; reflexivity).
  assert (N2 : noslash (pre ++ "Axis") = true) by (destruct Hpre as [<-|[<-|[]]]; reflexivity). clear Hpre.
  unfold update_axis in H.
  apply mbind_ok in H as (t0 & t' & has & E1 & H & ->). apply mlift_ok in E1 as [-> E1].
  destruct (get_child root key) as [a|] eqn:Ea; [|discriminate]. cbn [bind] in E1. rewrite (contains_simple a _ N1) in E1.
  apply mbind_ok in H as (t1 & t2 & u & H1 & H & ->). exists t1, t2. split; [reflexivity|].
  apply mbind_ok in H as (t3 & t4 & has2 & E2 & H & ->). apply mlift_ok in E2 as [-> E2].
  cbn [bind] in E2. rewrite (contains_simple a _ N2) in E2. cbn [app]. split.
  - unfold dmem in E1. destruct (dget (pre ++ "AxisLabel")%string (nch a)) as [p|] eqn:Ep.
    + right. exists a, p. split; [exact Ea|]. split; [exact Ep|]. injection E1 as <-.
      apply mbind_ok in H1 as (u1 & u2 & xy & E3 & H1 & ->). apply mlift_ok in E3 as [-> E3]. injection H1 as <- <-.
      exists (fst xy), (snd xy). split; [reflexivity|]. intros P (i & ch & ->).
      change (key ++ "/" ++ pre ++ "AxisLabel")%string with (key ++ String slash (pre ++ "AxisLabel"))%string in E3.
      rewrite (child_path root key _ a _ Ea (dget_get_child _ _ _ N1 Ep)) in E3. cbn [bind nval vdata] in E3.
      rewrite div2_ok in E3 by assumption. cbn [bind unpack2] in E3. injection E3 as <-. cbn [fst snd]. split; field; assumption.
    + left. injection E1 as <-. split; [exists a; auto|]. now injection H1.
  - unfold dmem in E2. destruct (dget (pre ++ "Axis")%string (nch a)) as [q|] eqn:Eq.
    + right. injection E2 as <-. apply mbind_ok in H as (u1 & u2 & s & E3 & H & ->). apply mlift_ok in E3 as [-> E3]. injection H as <-.
      change (key ++ "/" ++ pre ++ "Axis")%string with (key ++ String slash (pre ++ "Axis"))%string in E3.
      rewrite (child_path root key _ a _ Ea (dget_get_child _ _ _ N2 Eq)) in E3. cbn [bind] in E3.
      exists a, q, s. auto.
    + left. injection E2 as <-. split; [exists a; auto|]. now injection H.
Qed.

(** ** Tick side *)
(** How far the edge [e] is from being the edge [f] reversed. *)
Definition mismatch (e f : pt * pt) : R :=
  sqrt (inner (vec (snd e) (fst f)) (vec (snd e) (fst f)) + inner (vec (fst e) (snd f)) (vec (fst e) (snd f))).
Lemma inner_self u : 0 <= inner u u.
Proof. unfold inner. pose proof (Rle_0_sqr (fst u)). pose proof (Rle_0_sqr (snd u)). unfold Rsqr in *. lra. Qed.
Lemma mismatch_pos e f : 0 <= mismatch e f.
Proof. apply sqrt_pos. Qed.
Lemma inner_zero u : inner u u = 0 -> u = (0, 0).
Proof. intros H. apply (proj1 (len_zero u)). unfold len. rewrite H. apply sqrt_0. Qed.
Lemma mismatch_zero e f : mismatch e f = 0 <-> e = (snd f, fst f).
Proof.
  destruct e as [[a b] [c d]], f as [[a' b'] [c' d']]. unfold mismatch. cbn [fst snd]. split.
  - intros H. apply sqrt_eq_0 in H; [|apply Rplus_le_le_0_compat; apply inner_self].
    pose proof (inner_self (vec (c, d) (a', b'))). pose proof (inner_self (vec (a, b) (c', d'))).
    assert (E1 : inner (vec (c, d) (a', b')) (vec (c, d) (a', b')) = 0) by lra.
    assert (E2 : inner (vec (a, b) (c', d')) (vec (a, b) (c', d')) = 0) by lra.
    apply inner_zero in E1, E2. unfold vec in *. cbn [fst snd] in *. inversion E1. inversion E2. repeat f_equal; lra.
  - intros E. inversion E. subst. unfold inner, vec. cbn [fst snd]. rewrite <- sqrt_0. f_equal. ring.
Qed.
Lemma reversed_lines l m A B C D : line_at l A B -> line_at m C D ->
  exists r, call CoincidentLines [l; m] [PDict true] = Ok r /\ norm r = Ok (mismatch (A, B) (C, D)).
Proof.
  intros Hl Hm.
  destruct (line_point0 l A B Hl) as (pA & G0 & _ & PA). destruct (line_point1 l A B Hl) as (pB & G1 & PB).
  destruct (line_point0 m C D Hm) as (pC & G2 & _ & PC). destruct (line_point1 m C D Hm) as (pD & G3 & PD).
  eexists. split.
  - apply call_leaf; [typed|nonode|reflexivity|]. unfold leaf_value, coincident_lines. cbn [truthy bind].
    rewrite G0, G1, G2, G3. cbn [bind]. rewrite (coincident_value pC pB C B PC PB). cbn [bind]. rewrite (coincident_value pD pA D A PD PA). cbn [bind]. eexists; split; reflexivity.
  - unfold norm. cbn [map nsum fold_right nsqrt NumR nmul nadd app]. unfold Rsqrt_r, n0. cbn [nofZ NumR].
    match goal with |- (if Rlt_dec ?a 0 then _ else _) = Ok ?c => assert (E : a = inner (vec B C) (vec B C) + inner (vec A D) (vec A D)) by (unfold inner, vec; cbn [fst snd]; ring) end.
    rewrite E. destruct (Rlt_dec _ 0) as [H|_]; [exfalso; pose proof (inner_self (vec B C)); pose proof (inner_self (vec A D)); lra|]. reflexivity.
Qed.
(** [np.argmin] over four reals. *)
Lemma argmin4 (a b c d : R) : exists i, argmin [a; b; c; d] = i /\ (i < 4)%nat /\
  (forall j, (j < 4)%nat -> nth i [a; b; c; d] 0 <= nth j [a; b; c; d] 0) /\
  (forall j, (j < i)%nat -> nth i [a; b; c; d] 0 < nth j [a; b; c; d] 0).
Proof.
  assert (Lt : forall x y, Rltb x y = true -> x < y) by (intros x y; unfold Rltb; destruct (Rlt_dec x y); [auto|discriminate]).
  assert (Ge : forall x y, Rltb x y = false -> y <= x) by (intros x y; unfold Rltb; destruct (Rlt_dec x y); [discriminate|intros _; lra]).
  unfold argmin. cbn [argmin_from nltb NumR].
  repeat match goal with |- context [Rltb ?x ?y] => let E := fresh "E" in destruct (Rltb x y) eqn:E; [apply Lt in E|apply Ge in E] end;
    (eexists; split; [reflexivity|]; split; [lia|]; split; intros j Hj; do 4 (destruct j as [|j]; [cbn [nth]; first [lra|lia]|]); lia).
Qed.
Definition side_order : list string := ["bottom"; "top"; "left"; "right"].
Lemma find_axis_position_value p q u v : quad_is p u -> quad_is q v ->
  exists i, (i < 4)%nat /\ find_axis_position p q = Ok (nth i side_order EmptyString) /\
    let m s := mismatch (edge s u) (edge (across s) v) in
    (forall j, (j < 4)%nat -> m (nth i side_order EmptyString) <= m (nth j side_order EmptyString)) /\
    (forall j, (j < i)%nat -> m (nth i side_order EmptyString) < m (nth j side_order EmptyString)).
Proof.
  intros Hp Hq. destruct u as [[[P0 P1] P2] P3], v as [[[Q0 Q1] Q2] Q3]. unfold quad_is in *.
  destruct (quad_line0 _ _ _ _ _ Hp) as (p0 & G0 & L0). destruct (quad_line1 _ _ _ _ _ Hp) as (p1 & G1 & L1).
  destruct (quad_line2 _ _ _ _ _ Hp) as (p2 & G2 & L2). destruct (quad_line3 _ _ _ _ _ Hp) as (p3 & G3 & L3).
  destruct (quad_line0 _ _ _ _ _ Hq) as (q0 & K0 & M0). destruct (quad_line1 _ _ _ _ _ Hq) as (q1 & K1 & M1).
  destruct (quad_line2 _ _ _ _ _ Hq) as (q2 & K2 & M2). destruct (quad_line3 _ _ _ _ _ Hq) as (q3 & K3 & M3).
  destruct (reversed_lines _ _ _ _ _ _ L0 M2) as (r0 & E0 & N0). destruct (reversed_lines _ _ _ _ _ _ L2 M0) as (r1 & E1 & N1).
  destruct (reversed_lines _ _ _ _ _ _ L3 M1) as (r2 & E2 & N2). destruct (reversed_lines _ _ _ _ _ _ L1 M3) as (r3 & E3 & N3).
  destruct (argmin4 (mismatch (P0, P1) (Q2, Q3)) (mismatch (P2, P3) (Q0, Q1)) (mismatch (P3, P0) (Q1, Q2)) (mismatch (P1, P2) (Q3, Q0))) as (i & Ei & Hi & Hmin & Hfirst).
  exists i. split; [exact Hi|]. split.
  - unfold find_axis_position. rewrite G0, G1, G2, G3. cbn [bind]. rewrite K0, K1, K2, K3. cbn [bind].
    rewrite E0. cbn [bind]. rewrite E1. cbn [bind]. rewrite E2. cbn [bind]. rewrite E3. cbn [bind mapM].
    rewrite N0. cbn [bind]. rewrite N1. cbn [bind]. rewrite N2. cbn [bind]. rewrite N3. cbn [bind]. rewrite Ei.
    do 4 (destruct i as [|i]; [reflexivity|]). lia.
  - cbv zeta. split; intros j Hj.
    + specialize (Hmin j Hj). do 4 (destruct i as [|i]; [do 4 (destruct j as [|j]; [exact Hmin|]); lia|]). lia.
    + specialize (Hfirst j Hj). do 4 (destruct i as [|i]; [do 4 (destruct j as [|j]; [exact Hfirst|]); lia|]). lia.
Qed.

(** ** One axes key, and the whole run *)
Definition body (root : prim) (fig_origin : list R) (w h : R) (key : string) : M (F:=R) unit :=
  mbind (mlift (quad <- get_child root (key ++ "/Frame")%string ;;
                r <- rect_from_box quad fig_origin [w; h] ;; Ok (quad, r))) (fun qr =>
  let '(quad, (xmin, ymin, width, height)) := qr in
  mbind (mcall (SetPosition key xmin ymin width height)) (fun _ =>
  mseq (update_axis root key quad [w; h]) ["X"; "Y"])).

Lemma body_done root fl fb fr ft key l b r t tr : fr <> fl -> ft <> fb -> part_box root key "Frame" (l, b, r, t) ->
  body root [fl; fb] (fr - fl) (ft - fb) key = (tr, Ok tt) ->
  exists q rect tx ty, box_at q l b r t /\ covers fl fb fr ft rect (l, b, r, t) /\
    tr = (let '(x, y, w, h) := rect in SetPosition key x y w h) :: tx ++ ty /\
    update_axis root key q [fr - fl; ft - fb] "X" = (tx, Ok tt) /\ update_axis root key q [fr - fl; ft - fb] "Y" = (ty, Ok tt) /\
    (exists a, get_child root key = Ok a /\ dget "Frame" (nch a) = Some q).
Proof.
  intros Hw Hh (a & q & Ga & Gq & Hq) H. unfold body in H.
  apply mbind_ok in H as (t0 & t' & qr & E1 & H & ->). apply mlift_ok in E1 as [-> E1].
  change (key ++ "/Frame")%string with (key ++ String slash "Frame")%string in E1.
  rewrite (child_path root key _ a _ Ga (dget_get_child a "Frame" _ eq_refl Gq)) in E1. cbn [bind] in E1.
  rewrite (box_rect q l b r t fl fb (fr - fl) (ft - fb) Hq) in E1 by lra. cbn [bind] in E1. injection E1 as <-.
  apply mbind_ok in H as (t1 & t2 & u & E2 & H & ->). injection E2 as <- <-.
  apply mseq_ok in H as (ts & -> & Hts). inversion Hts as [|? tx ? ? HX Hts1]; subst. inversion Hts1 as [|? ty ? ? HY Hts2]; subst. inversion Hts2; subst.
  eexists q, (_, _, _, _), tx, ty. split; [exact Hq|]. split; [|split; [cbn; now rewrite app_nil_r|]].
  - cbn. unfold shown. split; f_equal; field; lra.
  - eauto.
Qed.
Lemma run_done root fig fl fb fr ft axs tr : box_in root fig fl fb fr ft -> update_subplots root fig axs = (tr, Ok tt) ->
  exists ts, tr = SetSizeInches (fr - fl) (ft - fb) :: List.concat ts /\
    Forall2 (fun key t => body root [fl; fb] (fr - fl) (ft - fb) key = (t, Ok tt)) axs ts.
Proof.
  intros (q & Gq & Hq) H. unfold update_subplots in H.
  apply mbind_ok in H as (t0 & t' & owh & E1 & H & ->). apply mlift_ok in E1 as [-> E1].
  destruct (box_corners _ _ _ _ _ Hq) as (p0 & _ & G0 & _ & D0 & _).
  rewrite Gq in E1. cbn [bind] in E1. rewrite G0 in E1. cbn [bind] in E1. rewrite (box_size _ _ _ _ _ Hq) in E1. cbn [bind] in E1. rewrite D0 in E1. injection E1 as <-.
  apply mbind_ok in H as (t1 & t2 & u & E2 & H & ->). injection E2 as <- <-.
  apply mseq_ok in H as (ts & -> & Hts). exists ts. split; [reflexivity|exact Hts].
Qed.

(** ** Totality *)
Definition axis_fine (root : prim) key pre : Prop :=
  (part_missing root key (pre ++ "AxisLabel") \/ exists P, part_point root key (pre ++ "AxisLabel") P) /\
  (part_missing root key (pre ++ "Axis") \/ part_quad root key (pre ++ "Axis")).
Lemma axis_runs root key q u w h pre : In pre axis_names -> w <> 0 -> h <> 0 -> quad_is q u -> axis_fine root key pre ->
  exists t, update_axis root key q [w; h] pre = (t, Ok tt).
Proof.
  intros Hpre Hw Hh Hq [HL HA]. assert (N1 : noslash (pre ++ "AxisLabel") = true) by (destruct Hpre as [<-|[<-|[]]]; reflexivity).
  assert (N2 : noslash (pre ++ "Axis") = true) by (destruct Hpre as [<-|[<-|[]]]; reflexivity). clear Hpre.
  assert (Ha : exists a, get_child root key = Ok a) by (destruct HL as [(a & E & _)|(P & a & p & E & _)]; eauto). destruct Ha as [a Ea].
  unfold update_axis. rewrite Ea. cbn [bind]. rewrite !contains_simple by assumption. unfold dmem.
  eapply mbind_total; [eexists; reflexivity|]. apply (mbind_total _ _ tt).
  { destruct HL as [(a' & E & Hd)|(P & a' & p & E & Hd & i & ch & ->)]; assert (a' = a) by congruence; subst a'; rewrite Hd.
    - eexists; reflexivity.
    - change (key ++ "/" ++ pre ++ "AxisLabel")%string with (key ++ String slash (pre ++ "AxisLabel"))%string.
      rewrite (child_path root key _ a _ Ea (dget_get_child _ _ _ N1 Hd)). cbn [bind nval vdata]. rewrite div2_ok by assumption. eexists; reflexivity. }
  eapply mbind_total; [eexists; reflexivity|].
  destruct HA as [(a' & E & Hd)|(a' & q' & v & E & Hd & Hv)]; assert (a' = a) by congruence; subst a'; rewrite Hd.
  - eexists; reflexivity.
  - change (key ++ "/" ++ pre ++ "Axis")%string with (key ++ String slash (pre ++ "Axis"))%string.
    rewrite (child_path root key _ a _ Ea (dget_get_child _ _ _ N2 Hd)). cbn [bind].
    destruct (find_axis_position_value q q' u v Hq Hv) as (i & _ & Ef & _). rewrite Ef. eexists; reflexivity.
Qed.
Lemma body_runs root fl fb fr ft key e : fr <> fl -> ft <> fb -> part_box root key "Frame" e ->
  (forall pre, In pre axis_names -> axis_fine root key pre) -> exists tr, body root [fl; fb] (fr - fl) (ft - fb) key = (tr, Ok tt).
Proof.
  destruct e as [[[l b] r] t]. intros Hw Hh (a & q & Ga & Gq & Hq) Hf. unfold body.
  change (key ++ "/Frame")%string with (key ++ String slash "Frame")%string.
  rewrite (child_path root key _ a _ Ga (dget_get_child a "Frame" _ eq_refl Gq)). cbn [bind].
  rewrite (box_rect q l b r t fl fb (fr - fl) (ft - fb) Hq) by lra. cbn [bind mlift mbind mcall].
  destruct (mseq_run (update_axis root key q [fr - fl; ft - fb]) ["X"; "Y"]) as [tt' E].
  { intros pre Hpre. apply (axis_runs root key q (box_vertices l b r t)); auto; lra. }
  change ["X"; "Y"] with axis_names in E |- *. cbn [axis_names] in *. rewrite E. eauto.
Qed.
Lemma update_subplots_runs root fig fl fb fr ft axs : fr <> fl -> ft <> fb -> box_in root fig fl fb fr ft ->
  (forall key, In key axs -> (exists e, part_box root key "Frame" e) /\ forall pre, In pre axis_names -> axis_fine root key pre) ->
  exists tr, update_subplots root fig axs = (tr, Ok tt).
Proof.
  intros Hw Hh (q & Gq & Hq) Hall. unfold update_subplots.
  destruct (box_corners _ _ _ _ _ Hq) as (p0 & _ & G0 & _ & D0 & _).
  rewrite Gq. cbn [bind]. rewrite G0. cbn [bind]. rewrite (box_size _ _ _ _ _ Hq). cbn [bind]. rewrite D0. eapply mbind_total; [eexists; reflexivity|]. cbv beta iota.
  eapply mbind_total; [eexists; reflexivity|].
  destruct (mseq_run (body root [fl; fb] (fr - fl) (ft - fb)) axs) as [t E].
  { intros key Hk. destruct (Hall key Hk) as [[e He] Hf]. now apply (body_runs root fl fb fr ft key e). }
  exists t. exact E.
Qed.
