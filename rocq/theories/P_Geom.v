(** Properties C34-C40: point, line and point/line constraints, over the real numbers.
    Vocabulary (GeomSpec.v): [point_at p P], [line_at l P Q] (where a primitive is),
    [vanishes] (all residuals zero), [vec], [inner], [cross], [len], [mid].  In every
    theorem [k] is the number the target [t] stands for. *)
From Coq Require Import Reals Lra.
From Verif Require Import GeomProofs.
Local Open Scope R_scope.

Lemma vanishes_call (c : cons) prims params r : call c prims params = Ok r -> (vanishes c prims params <-> Forall (fun x => x = 0) r).
Proof. intros H. split; [intros (r' & H' & F); rewrite H in H'; inversion H'; subst; assumption|intros F; exists r; auto]. Qed.
Lemma vanishes1 (c : cons) prims params r : call c prims params = Ok [r] -> (vanishes c prims params <-> r = 0).
Proof. intros H. rewrite (vanishes_call _ _ _ _ H). split; [intros F; now inversion F|intros E; repeat constructor; assumption]. Qed.
Lemma vanishes2 (c : cons) prims params r s : call c prims params = Ok [r; s] -> (vanishes c prims params <-> r = 0 /\ s = 0).
Proof.
  intros H. rewrite (vanishes_call _ _ _ _ H). split; [intros F; inversion F as [|? ? ? F']; inversion F'; auto|intros [E1 E2]; repeat constructor; assumption].
Qed.
Lemma vanishes4 (c : cons) prims params r s u w : call c prims params = Ok [r; s; u; w] -> (vanishes c prims params <-> r = 0 /\ s = 0 /\ u = 0 /\ w = 0).
Proof.
  intros H. rewrite (vanishes_call _ _ _ _ H). split.
  - intros F. inversion F as [|? ? ? F1]; inversion F1 as [|? ? ? F2]; inversion F2 as [|? ? ? F3]; inversion F3; auto.
  - intros (E1 & E2 & E3 & E4). repeat constructor; assumption.
Qed.

Lemma typed1 (p : prim) t : issubclass (ntype p) t = true -> Forall2 (fun p t => issubclass (ntype p) t = true) [p] [t].
Proof. repeat constructor; assumption. Qed.
Lemma typed2 (p q : prim) t u : issubclass (ntype p) t = true -> issubclass (ntype q) u = true ->
  Forall2 (fun p t => issubclass (ntype p) t = true) [p; q] [t; u].
Proof. repeat constructor; assumption. Qed.
Lemma point_type p P : point_at p P -> issubclass (ntype p) TPoint = true.
Proof. intros (? & ? & ->). reflexivity. Qed.
Lemma line_type p P Q : line_at p P Q -> issubclass (ntype p) TLine = true.
Proof. intros (? & ? & ? & -> & _). reflexivity. Qed.
Lemma quad_type p P Q S T : quad_at p P Q S T -> issubclass (ntype p) TQuad = true.
Proof. intros (? & ? & ? & ? & ? & -> & _). reflexivity. Qed.
Ltac typed := first [apply typed2|apply typed1]; first [eapply point_type; eassumption|eapply line_type; eassumption|eapply quad_type; eassumption].
Ltac nonode := cbn; intuition discriminate.

(** The constraint of a single-output leaf with a number target. *)
Lemma leaf_constraint1 (c0 : cons) name s f prims params x t k : c0 = mk_leaf name s f ->
  Forall2 (fun p t => issubclass (ntype p) t = true) prims (prim_types s) -> ~ In TNode (prim_types s) ->
  length params = nparams s -> leaf_value f prims params [x] -> num_of t = Some k ->
  exists c, transform_constraint c0 = Ok c /\ call c prims (params ++ [t]) = Ok [x - k].
Proof.
  intros -> H1 H2 H3 H4 H5. destruct (call_leaf_constraint name s f prims params [x] t [k]) as (c & C1 & C2); auto.
  - now apply num_atleast.
  - exists c. split; [exact C1|exact C2].
Qed.

(** ** C34 *)
Theorem C34_fix p P a b : point_at p P ->
  exists c, crFix = Ok c /\ call c [p] [PA1 [a; b]] = Ok [fst P - a; snd P - b] /\ (vanishes c [p] [PA1 [a; b]] <-> P = (a, b)).
Proof.
  intros Hp. destruct (call_leaf_constraint "Coordinate" (msig [TPoint] 2 0) coordinate_assem [p] [] [fst P; snd P] (PA1 [a; b]) [a; b]) as (c & C1 & C2);
    [typed|nonode|reflexivity|now apply coordinate_value|reflexivity|reflexivity|].
  exists c. split; [exact C1|]. split; [exact C2|]. rewrite (vanishes2 _ _ _ _ _ C2). destruct P as [x y]. cbn. split; [intros []; f_equal; lra|].
  intros E. inversion E. lra.
Qed.
Theorem C34_coincident p q P Q : point_at p P -> point_at q Q ->
  call Coincident [p; q] [] = Ok [fst Q - fst P; snd Q - snd P] /\ (vanishes Coincident [p; q] [] <-> P = Q).
Proof.
  intros Hp Hq. assert (C : call Coincident [p; q] [] = Ok [fst Q - fst P; snd Q - snd P]).
  { apply call_leaf; [typed|nonode|reflexivity|]. eexists. split; [unfold no_params; rewrite (coincident_value p q P Q Hp Hq); reflexivity|reflexivity]. }
  split; [exact C|]. rewrite (vanishes2 _ _ _ _ _ C). destruct P, Q; cbn. split; [intros []; f_equal; lra|]. intros E; inversion E; lra.
Qed.
Theorem C34_directed_distance p q P Q d t k : point_at p P -> point_at q Q -> num_of t = Some k ->
  exists c, crDirectedDistance = Ok c /\
    call c [p; q] [PA1 [fst d; snd d]; t] = Ok [inner (vec P Q) d - k] /\
    (vanishes c [p; q] [PA1 [fst d; snd d]; t] <-> inner (vec P Q) d = k).
Proof.
  intros Hp Hq Ht. edestruct (leaf_constraint1 DirectedDistance _ _ _ [p; q] ([PA1 [fst d; snd d]]) (inner (vec P Q) d) t k eq_refl) as (c & C1 & C2);
    [typed|nonode|reflexivity| |exact Ht|].
  { eexists. split; [apply (directed_distance_value p q P Q Hp Hq)|reflexivity]. }
  exists c. split; [exact C1|]. cbn [app] in C2. split; [exact C2|]. rewrite (vanishes1 _ _ _ _ C2). lra.
Qed.
Theorem C34_x_distance p q P Q t k : point_at p P -> point_at q Q -> num_of t = Some k ->
  exists c, crXDistance = Ok c /\ call c [p; q] [t] = Ok [(fst Q - fst P) - k] /\ (vanishes c [p; q] [t] <-> fst Q - fst P = k).
Proof.
  intros Hp Hq Ht. edestruct (leaf_constraint1 XDistance _ _ _ [p; q] (@nil pyval) (inner (vec P Q) (1, 0)) t k eq_refl) as (c & C1 & C2);
    [typed|nonode|reflexivity| |exact Ht|].
  { eexists. split; [apply (directed_distance_value p q P Q Hp Hq (1, 0))|reflexivity]. }
  exists c. split; [exact C1|]. cbn [app] in C2.
  replace (inner (vec P Q) (1, 0)) with (fst Q - fst P) in C2 by (unfold inner, vec; cbn; ring).
  split; [exact C2|]. rewrite (vanishes1 _ _ _ _ C2). lra.
Qed.
Theorem C34_y_distance p q P Q t k : point_at p P -> point_at q Q -> num_of t = Some k ->
  exists c, crYDistance = Ok c /\ call c [p; q] [t] = Ok [(snd Q - snd P) - k] /\ (vanishes c [p; q] [t] <-> snd Q - snd P = k).
Proof.
  intros Hp Hq Ht. edestruct (leaf_constraint1 YDistance _ _ _ [p; q] (@nil pyval) (inner (vec P Q) (0, 1)) t k eq_refl) as (c & C1 & C2);
    [typed|nonode|reflexivity| |exact Ht|].
  { eexists. split; [apply (directed_distance_value p q P Q Hp Hq (0, 1))|reflexivity]. }
  exists c. split; [exact C1|]. cbn [app] in C2.
  replace (inner (vec P Q) (0, 1)) with (snd Q - snd P) in C2 by (unfold inner, vec; cbn; ring).
  split; [exact C2|]. rewrite (vanishes1 _ _ _ _ C2). lra.
Qed.

(** ** C35 *)
Theorem C35_length l P Q t k : line_at l P Q -> num_of t = Some k ->
  exists c, crLength = Ok c /\ call c [l] [t] = Ok [len (vec P Q) - k] /\ (vanishes c [l] [t] <-> len (vec P Q) = k).
Proof.
  intros Hl Ht. edestruct (leaf_constraint1 Length _ _ _ [l] (@nil pyval) (len (vec P Q)) t k eq_refl) as (c & C1 & C2);
    [typed|nonode|reflexivity| |exact Ht|].
  { eexists. split; [unfold no_params; rewrite (line_length_value l P Q Hl); reflexivity|reflexivity]. }
  exists c. split; [exact C1|]. cbn [app] in C2. split; [exact C2|]. rewrite (vanishes1 _ _ _ _ C2). lra.
Qed.
Theorem C35_directed_length l P Q d t k : line_at l P Q -> num_of t = Some k ->
  exists c, crDirectedLength = Ok c /\ call c [l] [PA1 [fst d; snd d]; t] = Ok [inner (vec P Q) d - k] /\
    (vanishes c [l] [PA1 [fst d; snd d]; t] <-> inner (vec P Q) d = k).
Proof.
  intros Hl Ht. edestruct (leaf_constraint1 DirectedLength _ _ _ [l] ([PA1 [fst d; snd d]]) (inner (vec P Q) d) t k eq_refl) as (c & C1 & C2);
    [typed|nonode|reflexivity| |exact Ht|].
  { eexists. split; [apply (directed_length_value l P Q Hl)|reflexivity]. }
  exists c. split; [exact C1|]. cbn [app] in C2. split; [exact C2|]. rewrite (vanishes1 _ _ _ _ C2). lra.
Qed.
Theorem C35_x_length l P Q t k : line_at l P Q -> num_of t = Some k ->
  exists c, crXLength = Ok c /\ call c [l] [t] = Ok [(fst Q - fst P) - k] /\ (vanishes c [l] [t] <-> fst Q - fst P = k).
Proof.
  intros Hl Ht. edestruct (leaf_constraint1 XLength _ _ _ [l] (@nil pyval) (inner (vec P Q) (1, 0)) t k eq_refl) as (c & C1 & C2);
    [typed|nonode|reflexivity| |exact Ht|].
  { eexists. split; [apply (directed_length_value l P Q Hl (1, 0))|reflexivity]. }
  exists c. split; [exact C1|]. cbn [app] in C2.
  replace (inner (vec P Q) (1, 0)) with (fst Q - fst P) in C2 by (unfold inner, vec; cbn; ring).
  split; [exact C2|]. rewrite (vanishes1 _ _ _ _ C2). lra.
Qed.
Theorem C35_y_length l P Q t k : line_at l P Q -> num_of t = Some k ->
  exists c, crYLength = Ok c /\ call c [l] [t] = Ok [(snd Q - snd P) - k] /\ (vanishes c [l] [t] <-> snd Q - snd P = k).
Proof.
  intros Hl Ht. edestruct (leaf_constraint1 YLength _ _ _ [l] (@nil pyval) (inner (vec P Q) (0, 1)) t k eq_refl) as (c & C1 & C2);
    [typed|nonode|reflexivity| |exact Ht|].
  { eexists. split; [apply (directed_length_value l P Q Hl (0, 1))|reflexivity]. }
  exists c. split; [exact C1|]. cbn [app] in C2.
  replace (inner (vec P Q) (0, 1)) with (snd Q - snd P) in C2 by (unfold inner, vec; cbn; ring).
  split; [exact C2|]. rewrite (vanishes1 _ _ _ _ C2). lra.
Qed.
Lemma horizontal_value l P Q : line_at l P Q -> leaf_value (no_params (fun prims => directed_length prims (PA1 ey))) [l] [] [snd Q - snd P].
Proof.
  intros Hl. eexists. split; [apply (directed_length_value l P Q Hl (0, 1))|].
  replace (inner (vec P Q) (0, 1)) with (snd Q - snd P) by (unfold inner, vec; cbn; ring). reflexivity.
Qed.
Lemma vertical_value l P Q : line_at l P Q -> leaf_value (no_params (fun prims => directed_length prims (PA1 ex))) [l] [] [fst Q - fst P].
Proof.
  intros Hl. eexists. split; [apply (directed_length_value l P Q Hl (1, 0))|].
  replace (inner (vec P Q) (1, 0)) with (fst Q - fst P) by (unfold inner, vec; cbn; ring). reflexivity.
Qed.
Theorem C35_horizontal l P Q : line_at l P Q ->
  call Horizontal [l] [] = Ok [snd Q - snd P] /\ (vanishes Horizontal [l] [] <-> snd P = snd Q).
Proof.
  intros Hl. assert (C : call Horizontal [l] [] = Ok [snd Q - snd P]) by (apply call_leaf; [typed|nonode|reflexivity|now apply horizontal_value]).
  split; [exact C|]. rewrite (vanishes1 _ _ _ _ C). lra.
Qed.
Theorem C35_vertical l P Q : line_at l P Q ->
  call Vertical [l] [] = Ok [fst Q - fst P] /\ (vanishes Vertical [l] [] <-> fst P = fst Q).
Proof.
  intros Hl. assert (C : call Vertical [l] [] = Ok [fst Q - fst P]) by (apply call_leaf; [typed|nonode|reflexivity|now apply vertical_value]).
  split; [exact C|]. rewrite (vanishes1 _ _ _ _ C). lra.
Qed.

(** ** C36 *)
Section TwoLines.
Variables (l m : prim) (A B C D : pt).
Hypothesis Hl : line_at l A B.
Hypothesis Hm : line_at m C D.

Lemma length_leaf : leaf_value (no_params (fun prims => match prims with [line] => x <- line_length line ;; Ok (PA0 x) | _ => Err ValueErr end)) [l] [] [len (vec A B)].
Proof. eexists. split; [unfold no_params; rewrite (line_length_value l A B Hl); reflexivity|reflexivity]. Qed.
End TwoLines.

Lemma relative_length_denote l m A B C D t k : line_at l A B -> line_at m C D -> num_of t = Some k ->
  exists c, RelativeLength = Ok c /\ csig (nval c) = msig [TLine; TLine] 1 1 /\
    denote c [l; m] [t] = Ok [[len (vec A B) - k * len (vec C D)]].
Proof.
  intros Hl Hm Ht.
  pose proof (length_leaf l A B Hl) as Ll. pose proof (length_leaf m C D Hm) as Lm.
  set (Len := Length (F:=R)).
  assert (W : wf Len) by apply wf_leaf.
  assert (F0 : fits Len []) by (now apply fits_leaf).
  (* -1 * |m| *)
  set (neg := tmap (sc_node "ScalarMultipleConstruction" (fun x y => py_mul y x) minus1) Len).
  assert (E1 : transform_scalar_mul Len (OVal (PInt (-1))) = Ok neg).
  { unfold transform_scalar_mul, to_scalar. cbn [is_number]. unfold transform_partial, Scalar. cbn [nval ntype nch csig cpk cisa cparams prim_types value_size nparams].
    rewrite mk_cons_ok; [|reflexivity|exact (fun H => H)]. cbn [bind]. now apply transform_scalar_tmap. }
  assert (D1 : denote neg [m] ([] ++ []) = Ok [[-1 * len (vec C D)]]).
  { eapply (denote_scalar _ _ _ _ _ _ minus1_operand (mul_entrywise (F:=R) (N:=NumR) mult_IZR (PInt (-1)) (-1)%R eq_refl)); [exact F0|reflexivity|exact (denote_leaf _ _ _ _ _ _ Lm)|reflexivity]. }
  assert (F1 : fits neg ([] ++ [])) by (apply fits_scalar; [reflexivity|reflexivity|exact F0]).
  set (sc := tmap (sc_node "ScalarMultipleConstruction" (fun x y => py_mul y x) Scalar) neg).
  assert (E2 : transform_scalar_mul neg (OCons Scalar) = Ok sc).
  { unfold transform_scalar_mul, to_scalar. cbn [is_kind ntype Scalar cisa existsb ckind_eqb orb bind]. apply transform_scalar_tmap. now apply tmap_wf. }
  assert (So : scalar_operand (Scalar (F:=R)) [t] t) by (constructor; reflexivity).
  assert (D2 : denote sc [m] ([] ++ [t]) = Ok [[k * (-1 * len (vec C D))]]).
  { eapply (denote_scalar _ _ _ _ _ _ So (mul_entrywise (F:=R) (N:=NumR) mult_IZR t k Ht)); [exact F1|reflexivity|exact D1|reflexivity]. }
  assert (F2 : fits sc ([] ++ [t])) by (apply fits_scalar; [reflexivity|reflexivity|exact F1]).
  assert (Su : summable Len sc) by (repeat constructor).
  exists (tsum Len sc). split.
  { unfold RelativeLength. fold Len. rewrite E1. cbn [bind]. rewrite E2. cbn [bind].
    destruct (transform_sum_cases Len sc W) as [[_ H]|[H _]]; [exact H|contradiction]. }
  split; [reflexivity|].
  replace (len (vec A B) - k * len (vec C D)) with (len (vec A B) + k * (-1 * len (vec C D))) by ring.
  change [[len (vec A B) + k * (-1 * len (vec C D))]] with (bpluss [[len (vec A B)]] [[k * (-1 * len (vec C D))]]).
  apply (denote_sum (F:=R) (N:=NumR) plus_IZR Len sc [l] [m] [] [t]); auto.
  + constructor; [right; constructor|constructor].
  + exact (denote_leaf _ _ _ _ _ _ Ll).
  + constructor; [left; reflexivity|constructor].
Qed.
Theorem C36_relative_length l m A B C D t k : line_at l A B -> line_at m C D -> num_of t = Some k ->
  exists c, RelativeLength = Ok c /\ call c [l; m] [t] = Ok [len (vec A B) - k * len (vec C D)] /\
    (vanishes c [l; m] [t] <-> len (vec A B) = k * len (vec C D)).
Proof.
  intros Hl Hm Ht. destruct (relative_length_denote l m A B C D t k Hl Hm Ht) as (c & E & Es & D0). exists c. split; [exact E|].
  assert (Cc : call c [l; m] [t] = Ok [len (vec A B) - k * len (vec C D)]).
  { change [len (vec A B) - k * len (vec C D)] with (List.concat [[len (vec A B) - k * len (vec C D)]]). apply call_denote; [| |exact D0].
    - repeat constructor; [destruct Hl as (? & ? & ? & -> & _)|destruct Hm as (? & ? & ? & -> & _)]; discriminate.
    - unfold valid_args. rewrite Es. split; [typed|reflexivity]. }
  split; [exact Cc|]. rewrite (vanishes1 _ _ _ _ Cc). lra.
Qed.

Lemma midpoint_distance_value l m A B C D d : line_at l A B -> line_at m C D ->
  midpoint_directed_distance [l; m] (PA1 [fst d; snd d]) = Ok (PA0 (inner (vec (mid A B) (mid C D)) d)).
Proof.
  intros Hl Hm. unfold midpoint_directed_distance. rewrite (midpoint_value l A B Hl), (midpoint_value m C D Hm). cbn. do 2 f_equal.
  unfold inner, vec; cbn. ring.
Qed.
Theorem C36_midpoint_x l m A B C D t k : line_at l A B -> line_at m C D -> num_of t = Some k ->
  exists c, crMidpointXDistance = Ok c /\ call c [l; m] [t] = Ok [(fst (mid C D) - fst (mid A B)) - k] /\
    (vanishes c [l; m] [t] <-> fst (mid C D) - fst (mid A B) = k).
Proof.
  intros Hl Hm Ht. edestruct (leaf_constraint1 MidpointXDistance _ _ _ [l; m] (@nil pyval) (inner (vec (mid A B) (mid C D)) (1, 0)) t k eq_refl) as (c & C1 & C2);
    [typed|nonode|reflexivity| |exact Ht|].
  { eexists. split; [apply (midpoint_distance_value l m A B C D (1, 0) Hl Hm)|reflexivity]. }
  exists c. split; [exact C1|]. cbn [app] in C2.
  replace (inner (vec (mid A B) (mid C D)) (1, 0)) with (fst (mid C D) - fst (mid A B)) in C2 by (unfold inner, vec; cbn [fst snd]; ring).
  split; [exact C2|]. rewrite (vanishes1 _ _ _ _ C2). lra.
Qed.
Theorem C36_midpoint_y l m A B C D t k : line_at l A B -> line_at m C D -> num_of t = Some k ->
  exists c, crMidpointYDistance = Ok c /\ call c [l; m] [t] = Ok [(snd (mid C D) - snd (mid A B)) - k] /\
    (vanishes c [l; m] [t] <-> snd (mid C D) - snd (mid A B) = k).
Proof.
  intros Hl Hm Ht. edestruct (leaf_constraint1 MidpointYDistance _ _ _ [l; m] (@nil pyval) (inner (vec (mid A B) (mid C D)) (0, 1)) t k eq_refl) as (c & C1 & C2);
    [typed|nonode|reflexivity| |exact Ht|].
  { eexists. split; [apply (midpoint_distance_value l m A B C D (0, 1) Hl Hm)|reflexivity]. }
  exists c. split; [exact C1|]. cbn [app] in C2.
  replace (inner (vec (mid A B) (mid C D)) (0, 1)) with (snd (mid C D) - snd (mid A B)) in C2 by (unfold inner, vec; cbn [fst snd]; ring).
  split; [exact C2|]. rewrite (vanishes1 _ _ _ _ C2). lra.
Qed.
Theorem C36_orthogonal l m A B C D : line_at l A B -> line_at m C D ->
  call Orthogonal [l; m] [] = Ok [inner (vec A B) (vec C D)] /\ (vanishes Orthogonal [l; m] [] <-> inner (vec A B) (vec C D) = 0).
Proof.
  intros Hl Hm. assert (E : call Orthogonal [l; m] [] = Ok [inner (vec A B) (vec C D)]).
  { apply call_leaf; [typed|nonode|reflexivity|]. eexists. split.
    - unfold no_params. rewrite (line_vector_value l A B Hl), (line_vector_value m C D Hm). cbn. reflexivity.
    - cbn. f_equal. f_equal. unfold inner, vec; cbn. ring. }
  split; [exact E|]. now rewrite (vanishes1 _ _ _ _ E).
Qed.
Lemma parallel_value l m A B C D : line_at l A B -> line_at m C D -> parallel l m = Ok (cross (vec A B) (vec C D)).
Proof. intros Hl Hm. unfold parallel. rewrite (line_vector_value l A B Hl), (line_vector_value m C D Hm). reflexivity. Qed.
(** Linear dependence of two plane vectors. *)
Definition dependent (u v : pt) : Prop :=
  exists a b, (a, b) <> (0, 0) /\ a * fst u + b * fst v = 0 /\ a * snd u + b * snd v = 0.
Lemma cross_dependent u v : cross u v = 0 <-> dependent u v.
Proof.
  unfold cross, dependent. destruct u as [a b], v as [c d]. cbn [fst snd]. split.
  - intros H. destruct (Req_EM_T a 0) as [Ha|Ha]; [destruct (Req_EM_T b 0) as [Hb|Hb]|].
    + subst. exists 1, 0. split; [intros E; inversion E; lra|lra].
    + exists d, (- b). split; [intros E; inversion E; lra|]. split; [lra|ring].
    + exists c, (- a). split; [intros E; inversion E; lra|]. split; [ring|lra].
  - intros (x & y & Hne & H1 & H2).
    assert (Hx : x * (a * d - b * c) = 0) by (replace (x * (a * d - b * c)) with ((x * a + y * c) * d - (x * b + y * d) * c) by ring; rewrite H1, H2; ring).
    assert (Hy : y * (a * d - b * c) = 0) by (replace (y * (a * d - b * c)) with ((x * b + y * d) * a - (x * a + y * c) * b) by ring; rewrite H1, H2; ring).
    apply Rmult_integral in Hx as [Hx|Hx]; [|exact Hx]. apply Rmult_integral in Hy as [Hy|Hy]; [|exact Hy]. subst. contradiction.
Qed.
Theorem C36_parallel l m A B C D : line_at l A B -> line_at m C D ->
  call Parallel [l; m] [] = Ok [cross (vec A B) (vec C D)] /\ (vanishes Parallel [l; m] [] <-> dependent (vec A B) (vec C D)).
Proof.
  intros Hl Hm. assert (E : call Parallel [l; m] [] = Ok [cross (vec A B) (vec C D)]).
  { apply call_leaf; [typed|nonode|reflexivity|]. eexists. split; [unfold no_params; rewrite (parallel_value l m A B C D Hl Hm); reflexivity|reflexivity]. }
  split; [exact E|]. rewrite (vanishes1 _ _ _ _ E). apply cross_dependent.
Qed.

(** ** C38 *)
(** [P] is on the infinite line through [A] and [B]. *)
Definition on_line (A B P : pt) : Prop := exists s, P = (fst A + s * fst (vec A B), snd A + s * snd (vec A B)).
Lemma on_line_cross A B P : A <> B -> (on_line A B P <-> cross (vec A B) (vec A P) = 0).
Proof.
  intros Hne. unfold on_line, cross, vec. destruct A as [a b], B as [c d], P as [x y]. cbn [fst snd]. split.
  - intros (s & E). inversion E; subst. ring.
  - intros H. destruct (Req_EM_T (c - a) 0) as [E1|E1].
    + assert (E2 : d - b <> 0). { intros E2. apply Hne. f_equal; lra. }
      exists ((y - b) / (d - b)). rewrite E1 in *. f_equal; [|field; assumption].
      assert (Hx : (d - b) * (x - a) = 0) by lra. apply Rmult_integral in Hx as [|]; [contradiction|]. lra.
    + exists ((x - a) / (c - a)). f_equal; [field; assumption|].
      assert (E : (y - b) * (c - a) = (d - b) * (x - a)) by lra.
      replace ((x - a) / (c - a) * (d - b)) with (((d - b) * (x - a)) / (c - a)) by (field; assumption).
      rewrite <- E. field. assumption.
Qed.
Theorem C38_collinear l m A B C D : line_at l A B -> line_at m C D ->
  call Collinear [l; m] [] = Ok [cross (vec A B) (vec C D); cross (vec A B) (vec C A)] /\
  (A <> B -> (vanishes Collinear [l; m] [] <-> on_line A B C /\ on_line A B D)).
Proof.
  intros Hl Hm. assert (E : call Collinear [l; m] [] = Ok [cross (vec A B) (vec C D); cross (vec A B) (vec C A)]).
  { apply call_leaf; [typed|nonode|reflexivity|].
    destruct (line_point0 l A B Hl) as (a & _ & Ha & HaA). destruct (line_point0 m C D Hm) as (c & _ & Hc & HcC).
    assert (HL : exists v, mk_line 0 VNone (Some [c; a]) = Ok (Node TLine v [("Point0", c); ("Point1", a)], snd (Node TLine v [("Point0", c); ("Point1", a)], 1%nat)) \/
       exists n, mk_line 0 VNone (Some [c; a]) = Ok (Node TLine v [("Point0", c); ("Point1", a)], n)).
    { destruct HaA as (? & ? & ->), HcC as (? & ? & ->). eexists. right. eexists. reflexivity. }
    destruct HL as (v & HL).
    assert (HL' : exists n, mk_line 0 VNone (Some [c; a]) = Ok (Node TLine v [("Point0", c); ("Point1", a)], n)) by (destruct HL as [H|H]; eauto).
    destruct HL' as (n & HL').
    assert (H2 : line_at (Node TLine v [("Point0", c); ("Point1", a)]) C A) by (exists v, c, a; auto).
    eexists. split.
    - unfold no_params. rewrite Hc. cbn [bind]. rewrite Ha. cbn [bind]. rewrite HL'. cbn [bind].
      rewrite (parallel_value l m A B C D Hl Hm). cbn [bind]. rewrite (parallel_value l _ A B C A Hl H2). reflexivity.
    - reflexivity. }
  split; [exact E|]. intros Hne. rewrite (vanishes2 _ _ _ _ _ E). rewrite !on_line_cross by assumption.
  assert (X1 : cross (vec A B) (vec C A) = - cross (vec A B) (vec A C)) by (unfold cross, vec; cbn; ring).
  assert (X2 : cross (vec A B) (vec C D) = cross (vec A B) (vec A D) - cross (vec A B) (vec A C)) by (unfold cross, vec; cbn; ring).
  rewrite X1, X2. split; intros [H1 H2]; split; lra.
Qed.

(** ** C39 *)
Theorem C39_coincident_lines l m A B C D rev b : line_at l A B -> line_at m C D -> truthy rev = Ok b ->
  (exists r, call CoincidentLines [l; m] [rev] = Ok r) /\
  (vanishes CoincidentLines [l; m] [rev] <-> if b : bool then A = D /\ B = C else A = C /\ B = D).
Proof.
  intros Hl Hm Hb.
  destruct (line_point0 l A B Hl) as (pA & G0 & _ & PA). destruct (line_point1 l A B Hl) as (pB & G1 & PB).
  destruct (line_point0 m C D Hm) as (pC & G2 & _ & PC). destruct (line_point1 m C D Hm) as (pD & G3 & PD).
  assert (E : call CoincidentLines [l; m] [rev] = Ok
      (if b then [fst B - fst C; snd B - snd C; fst A - fst D; snd A - snd D]
       else [fst A - fst C; snd A - snd C; fst B - fst D; snd B - snd D])).
  { apply call_leaf; [typed|nonode|reflexivity|]. unfold leaf_value, coincident_lines. rewrite Hb. cbn [bind].
    rewrite G0, G1, G2, G3. cbn [bind]. destruct b.
    - rewrite (coincident_value pC pB C B PC PB). cbn [bind]. rewrite (coincident_value pD pA D A PD PA). cbn [bind]. eexists; split; reflexivity.
    - rewrite (coincident_value pC pA C A PC PA). cbn [bind]. rewrite (coincident_value pD pB D B PD PB). cbn [bind]. eexists; split; reflexivity. }
  split; [eauto|]. destruct A as [a1 a2], B as [b1 b2], C as [c1 c2], D as [d1 d2]. cbn [fst snd] in E.
  destruct b; rewrite (vanishes4 _ _ _ _ _ _ _ E); split.
  - intros (?&?&?&?). split; f_equal; lra.
  - intros [E1 E2]; inversion E1; inversion E2; lra.
  - intros (?&?&?&?). split; f_equal; lra.
  - intros [E1 E2]; inversion E1; inversion E2; lra.
Qed.

(** ** C40 *)
(** Signed projection of [P] on the direction of [A]-[B], measured from [A]; signed
    distance of [P] to the left of the line from [A] to [B]. *)
Definition projection (A B P : pt) : R := inner (vec A P) (vec A B) / len (vec A B).
Definition left_distance (A B P : pt) : R := cross (vec A B) (vec A P) / len (vec A B).

Lemma point_on_line_value p l P A B rev b : point_at p P -> line_at l A B -> A <> B -> truthy rev = Ok b ->
  point_on_line_distance p l rev = Ok (if b then projection B A P else projection A B P).
Proof.
  intros Hp Hl Hne Hb.
  assert (Hz : len (vec A B) <> 0). { rewrite len_zero. unfold vec. intros E. inversion E. apply Hne. destruct A, B; cbn in *; f_equal; lra. }
  assert (Hs : len (vec B A) = len (vec A B)) by (unfold len, inner, vec; cbn; f_equal; ring).
  destruct (line_point0 l A B Hl) as (pA & G0 & _ & PA). destruct (line_point1 l A B Hl) as (pB & G1 & PB).
  unfold point_on_line_distance. rewrite Hb. cbn [bind]. rewrite G0, G1. cbn [bind]. rewrite (unit_line_vector_value l A B Hl Hz). cbn [bind].
  destruct Hp as (? & ? & ->), PA as (? & ? & ->), PB as (? & ? & ->). destruct b; cbn; f_equal; unfold projection, inner, vec; cbn [fst snd];
    fold (vec A B); fold (vec B A).
  - rewrite Hs. unfold n0. cbn. field. exact Hz.
  - unfold n0. cbn. field. exact Hz.
Qed.
Lemma point_to_line_value p l P A B rev b : point_at p P -> line_at l A B -> A <> B -> truthy rev = Ok b ->
  point_to_line_distance p l rev = Ok (if b then - left_distance A B P else left_distance A B P).
Proof.
  intros Hp Hl Hne Hb.
  assert (Hz : len (vec A B) <> 0). { rewrite len_zero. unfold vec. intros E. inversion E. apply Hne. destruct A, B; cbn in *; f_equal; lra. }
  destruct (line_point0 l A B Hl) as (pA & G0 & _ & PA).
  unfold point_to_line_distance. rewrite (unit_line_vector_value l A B Hl Hz). cbn [bind]. rewrite Hb. cbn [bind]. rewrite G0. cbn [bind].
  destruct Hp as (? & ? & ->), PA as (? & ? & ->). destruct b; cbn; f_equal; unfold left_distance, cross, vec, n0, n1; cbn [fst snd nofZ NumR];
    fold (vec A B); field; exact Hz.
Qed.
Section PointLine.
Variables (p l : prim) (P A B : pt) (rev t : pyval) (b : bool) (k : R).
Hypothesis Hp : point_at p P.
Hypothesis Hl : line_at l A B.
Hypothesis Hne : A <> B.
Hypothesis Hb : truthy rev = Ok b.
Hypothesis Ht : num_of t = Some k.

Theorem C40_point_on_line :
  call PointOnLineDistance [p; l] [rev] = Ok [if b then projection B A P else projection A B P] /\
  exists c, crPointOnLineDistance = Ok c /\ call c [p; l] [rev; t] = Ok [(if b then projection B A P else projection A B P) - k] /\
    (vanishes c [p; l] [rev; t] <-> (if b then projection B A P else projection A B P) = k).
Proof.
  assert (V : leaf_value (fun prims params => match prims, params with [p; l], [rev] => d <- point_on_line_distance p l rev ;; Ok (PA0 d) | _, _ => Err TypeErr end)
    [p; l] [rev] [if b then projection B A P else projection A B P]).
  { eexists. split; [rewrite (point_on_line_value p l P A B rev b Hp Hl Hne Hb); reflexivity|reflexivity]. }
  split.
  - apply call_leaf; [typed|nonode|reflexivity|exact V].
  - edestruct (leaf_constraint1 PointOnLineDistance _ _ _ [p; l] ([rev]) (if b then projection B A P else projection A B P) t k eq_refl) as (c & C1 & C2);
      [typed|nonode|reflexivity|exact V|exact Ht|]. exists c. split; [exact C1|]. cbn [app] in C2. split; [exact C2|]. rewrite (vanishes1 _ _ _ _ C2). lra.
Qed.
Theorem C40_point_to_line :
  call PointToLineDistance [p; l] [rev] = Ok [if b then - left_distance A B P else left_distance A B P] /\
  exists c, crPointToLineDistance = Ok c /\ call c [p; l] [rev; t] = Ok [(if b then - left_distance A B P else left_distance A B P) - k] /\
    (vanishes c [p; l] [rev; t] <-> (if b then - left_distance A B P else left_distance A B P) = k).
Proof.
  assert (V : leaf_value (fun prims params => match prims, params with [p; l], [rev] => d <- point_to_line_distance p l rev ;; Ok (PA0 d) | _, _ => Err TypeErr end)
    [p; l] [rev] [if b then - left_distance A B P else left_distance A B P]).
  { eexists. split; [rewrite (point_to_line_value p l P A B rev b Hp Hl Hne Hb); reflexivity|reflexivity]. }
  split.
  - apply call_leaf; [typed|nonode|reflexivity|exact V].
  - edestruct (leaf_constraint1 PointToLineDistance _ _ _ [p; l] ([rev]) (if b then - left_distance A B P else left_distance A B P) t k eq_refl) as (c & C1 & C2);
      [typed|nonode|reflexivity|exact V|exact Ht|]. exists c. split; [exact C1|]. cbn [app] in C2. split; [exact C2|]. rewrite (vanishes1 _ _ _ _ C2). lra.
Qed.
Theorem C40_relative_point_on_line :
  call RelativePointOnLineDistance [p; l] [rev] = Ok [(if b then projection B A P else projection A B P) / len (vec A B)] /\
  exists c, crRelativePointOnLineDistance = Ok c /\ call c [p; l] [rev; t] = Ok [(if b then projection B A P else projection A B P) / len (vec A B) - k] /\
    (vanishes c [p; l] [rev; t] <-> (if b then projection B A P else projection A B P) / len (vec A B) = k).
Proof.
  assert (Hz : len (vec A B) <> 0). { rewrite len_zero. unfold vec. intros E. inversion E. apply Hne. destruct A, B; cbn in *; f_equal; lra. }
  assert (V : leaf_value (fun prims params => match prims, params with [p; l], [rev] =>
             d <- point_on_line_distance p l rev ;; len <- line_length l ;; r <- ndiv d len ;; Ok (PA1 [r]) | _, _ => Err TypeErr end)
    [p; l] [rev] [(if b then projection B A P else projection A B P) / len (vec A B)]).
  { eexists. split; [rewrite (point_on_line_value p l P A B rev b Hp Hl Hne Hb); cbn [bind]; rewrite (line_length_value l A B Hl); cbn [bind ndiv NumR];
      unfold Rdiv_r; destruct (Req_EM_T (len (vec A B)) 0); [contradiction|reflexivity]|reflexivity]. }
  split.
  - apply call_leaf; [typed|nonode|reflexivity|exact V].
  - edestruct (leaf_constraint1 RelativePointOnLineDistance _ _ _ [p; l] ([rev]) ((if b then projection B A P else projection A B P) / len (vec A B)) t k eq_refl) as (c & C1 & C2);
      [typed|nonode|reflexivity|exact V|exact Ht|]. exists c. split; [exact C1|]. cbn [app] in C2. split; [exact C2|]. rewrite (vanishes1 _ _ _ _ C2). lra.
Qed.
End PointLine.
(** Reversing: the two projections add up to the length. *)
Theorem C40_reversing A B P : A <> B ->
  projection B A P = len (vec A B) - projection A B P /\ left_distance B A P = - left_distance A B P /\
  projection B A P / len (vec A B) = 1 - projection A B P / len (vec A B).
Proof.
  intros Hne.
  assert (Hz : len (vec A B) <> 0). { rewrite len_zero. unfold vec. intros E. inversion E. apply Hne. destruct A, B; cbn in *; f_equal; lra. }
  assert (Hs : len (vec B A) = len (vec A B)) by (unfold len, inner, vec; cbn; f_equal; ring).
  pose proof (len_sqr (vec A B)) as Hq.
  assert (E1 : projection B A P = len (vec A B) - projection A B P).
  { unfold projection. rewrite Hs. apply Rmult_eq_reg_r with (len (vec A B)); [|exact Hz].
    replace ((len (vec A B) - inner (vec A P) (vec A B) / len (vec A B)) * len (vec A B)) with (len (vec A B) * len (vec A B) - inner (vec A P) (vec A B)) by (field; exact Hz).
    rewrite Hq. unfold Rdiv. rewrite Rmult_assoc, Rinv_l by exact Hz. unfold inner, vec; cbn. ring. }
  split; [exact E1|]. split.
  - unfold left_distance. rewrite Hs. apply Rmult_eq_reg_r with (len (vec A B)); [|exact Hz].
    replace (- (cross (vec A B) (vec A P) / len (vec A B)) * len (vec A B)) with (- cross (vec A B) (vec A P)) by (field; exact Hz).
    unfold Rdiv. rewrite Rmult_assoc, Rinv_l by exact Hz. unfold cross, vec; cbn. ring.
  - rewrite E1. field. exact Hz.
Qed.

(** ** Cases meeting the hypotheses *)
Definition gpt (i : nat) (x y : R) : prim := Node TPoint {| vid := i; vdata := [x; y] |} [].
Definition gline (x0 y0 x1 y1 : R) : prim := Node TLine {| vid := 0; vdata := [] |} [("Point0", gpt 1 x0 y0); ("Point1", gpt 2 x1 y1)].
Lemma gpt_at i x y : point_at (gpt i x y) (x, y).
Proof. exists i, []. reflexivity. Qed.
Lemma gline_at a b c d : line_at (gline a b c d) (a, b) (c, d).
Proof. exists {| vid := 0; vdata := [] |}, (gpt 1 a b), (gpt 2 c d). split; [reflexivity|]. split; apply gpt_at. Qed.
(** Primitives made by the constructors satisfy the "where is it" predicates. *)
Lemma mk_point_at n x y p n' : mk_point n (VSeq [x; y]) = Ok (p, n') -> point_at p (x, y).
Proof. cbn. intros H. inversion H. eexists _, _. reflexivity. Qed.
Lemma mk_line_at n a b P Q l n' : point_at a P -> point_at b Q -> mk_line n VNone (Some [a; b]) = Ok (l, n') -> line_at l P Q.
Proof.
  intros HA HB H. pose proof HA as (i & ch & ->). pose proof HB as (i' & ch' & ->). cbn in H. inversion H. eexists _, _, _. split; [reflexivity|]. split; assumption.
Qed.
(** Every hypothesis of C34-C40 together: points, two lines, a non-degenerate first
    line, a target number and both values of [reverse]; one satisfied and one violated
    instance. *)
Example C34_case : point_at (gpt 3 1 2) (1, 2) /\ line_at (gline 0 1 3 5) (0, 1) (3, 5) /\ ((0, 1) : pt) <> (3, 5) /\
  num_of (PInt 3 : pyval) = Some 3 /\ truthy (PBool true : pyval) = Ok true /\ truthy (PInt 0 : pyval) = Ok false.
Proof. repeat split; [apply gpt_at|apply gline_at|intros E; inversion E; lra]. Qed.
Example C39_case : vanishes CoincidentLines [gline 0 1 3 5; gline 3 5 0 1] [PBool true] /\
  ~ vanishes CoincidentLines [gline 0 1 3 5; gline 3 5 0 1] [PBool false].
Proof.
  split; [rewrite (proj2 (C39_coincident_lines _ _ _ _ _ _ (PBool true) true (gline_at 0 1 3 5) (gline_at 3 5 0 1) eq_refl)); auto|].
  rewrite (proj2 (C39_coincident_lines _ _ _ _ _ _ (PBool false) false (gline_at 0 1 3 5) (gline_at 3 5 0 1) eq_refl)). intros [E _]; inversion E; lra.
Qed.
Example C38_case : vanishes Collinear [gline 0 0 1 2; gline 2 4 3 6] [] /\ ~ vanishes Collinear [gline 0 0 1 2; gline 2 4 3 7] [].
Proof.
  split; rewrite (proj2 (C38_collinear _ _ _ _ _ _ (gline_at _ _ _ _) (gline_at _ _ _ _))); try (intros E; inversion E; lra).
  - split; [exists 2|exists 3]; unfold vec; cbn; f_equal; lra.
  - intros [_ (s & E)]. unfold vec in E; cbn in E. inversion E. lra.
Qed.

Print Assumptions C34_fix.
Print Assumptions C34_coincident.
Print Assumptions C34_directed_distance.
Print Assumptions C34_x_distance.
Print Assumptions C34_y_distance.
Print Assumptions C35_length.
Print Assumptions C35_directed_length.
Print Assumptions C35_x_length.
Print Assumptions C35_y_length.
Print Assumptions C35_horizontal.
Print Assumptions C35_vertical.
Print Assumptions C36_relative_length.
Print Assumptions C36_midpoint_x.
Print Assumptions C36_midpoint_y.
Print Assumptions C36_orthogonal.
Print Assumptions C36_parallel.
Print Assumptions C38_collinear.
Print Assumptions C39_coincident_lines.
Print Assumptions C40_point_on_line.
Print Assumptions C40_point_to_line.
Print Assumptions C40_relative_point_on_line.
Print Assumptions C40_reversing.
