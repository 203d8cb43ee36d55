(** C74: what the primitive constructors make of their default and given arguments.
    Vocabulary: [point_at], [line_at], [quad_at], [box_at] (GeomSpec.v). *)
From Coq Require Import Reals Lra.
From Verif Require Export NeatProofs DofProofs GeomSpec.
Local Open Scope R_scope.

(** Vertex [i] of the regular polygon with [size] vertices on the unit circle. *)
Definition circle_vertex (size i : nat) : pt :=
  (cos (2 * PI * INR i / INR size), sin (2 * PI * INR i / INR size)).

Theorem C74_point nxt x y :
  (exists p n, mk_point nxt VNone = Ok (p, n) /\ point_at p (0, 0)) /\
  (exists p n, mk_point nxt (VSeq [x; y]) = Ok (p, n) /\ point_at p (x, y)).
Proof.
  split; eexists _, _; (split; [reflexivity|]); eexists _, _; reflexivity.
Qed.
Theorem C74_line nxt :
  (exists l n, mk_line nxt VNone None = Ok (l, n) /\ line_at l (0, 0) (0, 1)) /\
  (forall a b P Q, point_at a P -> point_at b Q -> exists l n, mk_line nxt VNone (Some [a; b]) = Ok (l, n) /\
     line_at l P Q /\ map snd (nch l) = [a; b]).
Proof.
  split.
  - eexists _, _. split; [reflexivity|]. do 3 eexists. split; [reflexivity|]. split; eexists _, _; reflexivity.
  - intros a b P Q (i & ch & ->) (j & ch' & ->). eexists _, _. split; [reflexivity|]. split; [|reflexivity].
    do 3 eexists. split; [reflexivity|]. split; eexists _, _; reflexivity.
Qed.
Theorem C74_quadrilateral nxt :
  (exists q n, mk_quad nxt VNone None = Ok (q, n) /\ box_at q 0 0 1 1) /\
  (forall a b c d A B C D, point_at a A -> point_at b B -> point_at c C -> point_at d D ->
     exists q n, mk_quad nxt VNone (Some [a; b; c; d]) = Ok (q, n) /\ quad_at q A B C D).
Proof.
  split.
  - eexists _, _. split; [reflexivity|]. do 5 eexists. split; [reflexivity|].
    repeat split; do 3 eexists; (split; [reflexivity|]); split; eexists _, _; reflexivity.
  - intros a b c d A B C D (i & ch & ->) (i1 & ch1 & ->) (i2 & ch2 & ->) (i3 & ch3 & ->).
    eexists _, _. split; [reflexivity|]. do 5 eexists. split; [reflexivity|].
    repeat split; do 3 eexists; (split; [reflexivity|]); split; eexists _, _; reflexivity.
Qed.

Lemma default_points size : size <> 0%nat -> forall is nxt, exists ps n,
  mapM_alloc (fun nxt i => '(x, y) <- ncircle size i ;; mk_point nxt (VSeq [x; y])) nxt is = Ok (ps, n) /\
  length ps = length is /\
  (forall k i, nth_error is k = Some i -> exists p, nth_error ps k = Some p /\ point_at p (circle_vertex size i)) /\
  Forall (fun p : prim R => ntype p = TPoint) ps.
Proof.
  intros Hs. induction is as [|i is IH]; intros nxt.
  - exists [], nxt. repeat split; [|constructor]. intros [|k]; discriminate.
  - assert (Hc : ncircle size i = Ok (circle_vertex size i)).
    { cbn. unfold Rcircle, circle_vertex. destruct size as [|size]; [congruence|].
      replace (2 * PI / INR (S size) * INR i) with (2 * PI * INR i / INR (S size)) by (unfold Rdiv; ring).
      reflexivity. }
    cbn [mapM_alloc]. rewrite Hc. cbn [bind].
    destruct (circle_vertex size i) as [x y] eqn:Ev.
    destruct (proj2 (C74_point nxt x y)) as (p & n & -> & Hp). cbn [bind].
    destruct (IH n) as (ps & m & -> & Hl & Hn & Ht). cbn [bind]. exists (p :: ps), m.
    split; [reflexivity|]. split; [cbn; now rewrite Hl|]. split.
    + intros [|k] j Hj; cbn in Hj; [injection Hj as <-; exists p; rewrite Ev; now split|]. exact (Hn k j Hj).
    + constructor; [|exact Ht]. destruct Hp as (a & b & ->). reflexivity.
Qed.
Theorem C74_polygon nxt size : size <> 0%nat -> exists p n,
  mk_polygon nxt VNone None size = Ok (p, n) /\
  nkeys p = map (fun i => ("Line" ++ dec i)%string) (seq 0 size) /\
  forall i, (i < size)%nat -> exists line, get_child p ("Line" ++ dec i) = Ok line /\
    line_at line (circle_vertex size i) (circle_vertex size ((i + 1) mod size)).
Proof.
  intros Hs. destruct (default_points size Hs (seq 0 size) (S nxt)) as (ps & n & Hd & Hl & Hn & Ht).
  rewrite seq_length in Hl.
  unfold mk_polygon. cbn [take_value bind]. unfold polygon_default.
  destruct (Nat.eqb_spec size 0) as [?|_]; [contradiction|]. rewrite Hd. cbn [bind].
  rewrite polygon_children_ok by exact Ht. cbn [bind]. unfold finish_prim.
  fold (poly_dict n ps). rewrite poly_dict_of. rewrite mk_primnode_conf; [|discriminate|].
  2:{ split; [reflexivity|]. rewrite child_types_tys. unfold dvals. cbn [nch]. rewrite poly_dict_vals, tys_poly_lines.
      apply Forall_forall. intros t Hin. now apply repeat_spec in Hin. }
  cbn [bind]. eexists _, _. split; [reflexivity|].
  destruct (polygon_loop TPolygon {| vid := nxt; vdata := [] |} n ps) as (K & L & _). cbv zeta in *.
  rewrite Hl in *. split; [exact K|]. intros i Hi.
  destruct (Hn i i) as (a & Ea & Ha); [now rewrite nth_error_seq|].
  destruct (Hn ((i + 1) mod size)%nat ((i + 1) mod size)%nat) as (b & Eb & Hb).
  { rewrite nth_error_seq; [reflexivity|]. now apply Nat.mod_upper_bound. }
  destruct (L i a b Ea Eb) as (line & G & T & C). exists line. split; [exact G|].
  destruct line as [t v ch]. cbn in T, C. subst t ch. exists v, a, b. now split.
Qed.
Theorem C74_polygon_zero nxt : mk_polygon (F:=R) nxt VNone None 0 = Err NonFinite.
Proof. reflexivity. Qed.

Lemma quad_point_default nxt b ps n : mk_quad_point nxt b = Ok (ps, n) ->
  Forall (fun c => (ntype c = TQuad -> box_at c 0 0 1 1) /\ (ntype c = TPoint -> point_at c (0, 0))) ps.
Proof.
  destruct b; cbn [mk_quad_point].
  - destruct (proj1 (C74_quadrilateral nxt)) as (q & m & -> & Hq). cbn [bind].
    destruct (proj1 (C74_point m 0 0)) as (p & k & -> & Hp). cbn [bind]. intros H.
    assert (ps = [q; p]) as -> by congruence.
    constructor; [|constructor; [|constructor]]; split; intros T; try assumption.
    + destruct Hq as (? & ? & ? & ? & ? & -> & _). discriminate.
    + destruct Hp as (? & ? & ->). discriminate.
  - intros H. assert (ps = []) as -> by congruence. constructor.
Qed.
(** Every box of a default Axes is the unit square, every label sits at the origin (the
    keys and classes are C15). *)
Theorem C74_axes nxt x y tx ty a n : mk_axes nxt VNone None x y tx ty = Ok (a, n) ->
  forall key c, dget key (nch a) = Some c ->
    (ntype c = TQuad /\ box_at c 0 0 1 1) \/ (ntype c = TPoint /\ point_at c (0, 0)).
Proof.
  intros H key c Hc.
  destruct (axes_default_ok (F:=R) nxt x y tx ty) as (a' & n' & H' & D). rewrite H in H'.
  assert (a' = a) as -> by congruence. clear H'.
  assert (T : ntype c = TQuad \/ ntype c = TPoint).
  { apply dget_In in Hc. apply (in_map (fun kc => (fst kc, ntype (snd kc)))) in Hc.
    change (In (key, ntype c) (children_desc a)) in Hc. rewrite D in Hc. clear -Hc.
    destruct x, y, tx, ty; cbn in Hc; repeat destruct Hc as [Hc|Hc]; try contradiction;
      (left; congruence) || (right; congruence). }
  assert (G : (ntype c = TQuad -> box_at c 0 0 1 1) /\ (ntype c = TPoint -> point_at c (0, 0))).
  { apply dget_In in Hc. revert H. unfold mk_axes, axes_default. cbn [take_value bind].
    destruct (mk_quad_point (S nxt) x) as [[xs n1]|] eqn:E1; [|discriminate]. cbn [bind].
    destruct (mk_quad_point n1 (x && tx)) as [[txs n2]|] eqn:E2; [|discriminate]. cbn [bind].
    destruct (mk_quad_point n2 y) as [[ys n3]|] eqn:E3; [|discriminate]. cbn [bind].
    destruct (mk_quad_point n3 (y && ty)) as [[tys n4]|] eqn:E4; [|discriminate]. cbn [bind].
    destruct (proj1 (C74_quadrilateral n4)) as (q & m & -> & Hq). cbn [bind].
    destruct (finish_prim _ _ _ _) as [r|] eqn:E; [|discriminate]. cbn [bind]. intros H.
    assert (r = a) as -> by congruence. clear H.
    apply mk_primnode_Ok in E as [-> _]; [|discriminate]. cbn [nch] in Hc.
    assert (Hv : In c ([q] ++ (xs ++ ys) ++ (txs ++ tys))).
    { apply dict_of_In in Hc. now apply zip_In in Hc. }
    clear -Hv E1 E2 E3 E4 Hq. apply quad_point_default in E1, E2, E3, E4.
    assert (A : Forall (fun c => (ntype c = TQuad -> box_at c 0 0 1 1) /\ (ntype c = TPoint -> point_at c (0, 0)))
                  ([q] ++ (xs ++ ys) ++ (txs ++ tys))).
    { repeat (apply Forall_app; split; try assumption). constructor; [|constructor]. split; [auto|].
      destruct Hq as (? & ? & ? & ? & ? & -> & _). discriminate. }
    rewrite Forall_forall in A. now apply A. }
  destruct T as [T|T]; [left|right]; split; auto; now apply G.
Qed.

Example C74_case : exists a n, mk_axes (F:=R) 0 VNone None true false true false = Ok (a, n) /\
  (exists q, dget "TwinXAxis" (nch a) = Some q /\ box_at q 0 0 1 1) /\
  (exists p, dget "XAxisLabel" (nch a) = Some p /\ point_at p (0, 0)) /\ dget "YAxis" (nch a) = None.
Proof.
  eexists _, _. split; [cbv; reflexivity|]. split; [|split; [|reflexivity]].
  - eexists. split; [reflexivity|]. do 5 eexists. split; [reflexivity|].
    repeat split; do 3 eexists; (split; [reflexivity|]); split; eexists _, _; reflexivity.
  - eexists. split; [reflexivity|]. eexists _, _. reflexivity.
Qed.
Example C74_square : circle_vertex 4 1 = (cos (PI / 2), sin (PI / 2)).
Proof. unfold circle_vertex. cbn [INR]. f_equal; f_equal; field. Qed.

Print Assumptions C74_point.
Print Assumptions C74_line.
Print Assumptions C74_quadrilateral.
Print Assumptions C74_polygon.
Print Assumptions C74_polygon_zero.
Print Assumptions C74_axes.
