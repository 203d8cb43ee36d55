(** C96: what the constructions of constructions.py measure.  Vocabulary: GeomSpec.v
    ([point_at], [line_at], [quad_at], [box_at], [vec], [inner], [len], [mid]). *)
From Coq Require Import Reals Lra.
From Verif Require Import GeomProofs P_Geom CompProofs P_Comp CstrProofs ConsProofs P_Affine.
Local Open Scope R_scope.

Lemma call_one (nm : string) s f prims params (x : R) : Forall2 (fun p t => issubclass (ntype p) t = true) prims (prim_types s) -> ~ In TNode (prim_types s) ->
  length params = nparams s -> f prims params = Ok (PA0 x) -> call (mk_leaf nm s f) prims params = Ok [x].
Proof. intros H1 H2 H3 H4. apply call_leaf; auto. eexists. split; [exact H4|reflexivity]. Qed.
Lemma call_two (nm : string) s f prims params (l : list R) : Forall2 (fun p t => issubclass (ntype p) t = true) prims (prim_types s) -> ~ In TNode (prim_types s) ->
  length params = nparams s -> f prims params = Ok (PA1 l) -> call (mk_leaf nm s f) prims params = Ok l.
Proof. intros H1 H2 H3 H4. apply call_leaf; auto. eexists. split; [exact H4|reflexivity]. Qed.

(** ** Points *)
Theorem C96_points p q P Q d : point_at p P -> point_at q Q ->
  call Coordinate [p] [] = Ok [fst P; snd P] /\
  call DirectedDistance [p; q] [PA1 [fst d; snd d]] = Ok [inner (vec P Q) d] /\
  call XDistance [p; q] [] = Ok [fst Q - fst P] /\ call YDistance [p; q] [] = Ok [snd Q - snd P].
Proof.
  intros Hp Hq. split; [apply call_leaf; [typed|nonode|reflexivity|now apply coordinate_value]|]. split; [|split].
  - apply call_one; [typed|nonode|reflexivity|]. apply (directed_distance_value p q P Q Hp Hq).
  - replace (fst Q - fst P) with (inner (vec P Q) (1, 0)) by (unfold inner, vec; cbn; ring). apply call_one; [typed|nonode|reflexivity|]. apply (directed_distance_value p q P Q Hp Hq (1, 0)).
  - replace (snd Q - snd P) with (inner (vec P Q) (0, 1)) by (unfold inner, vec; cbn; ring). apply call_one; [typed|nonode|reflexivity|]. apply (directed_distance_value p q P Q Hp Hq (0, 1)).
Qed.
(** ** Lines *)
Theorem C96_lines l P Q d : line_at l P Q ->
  call LineVector [l] [] = Ok [fst Q - fst P; snd Q - snd P] /\ call Length [l] [] = Ok [len (vec P Q)] /\
  call DirectedLength [l] [PA1 [fst d; snd d]] = Ok [inner (vec P Q) d] /\
  call XLength [l] [] = Ok [fst Q - fst P] /\ call YLength [l] [] = Ok [snd Q - snd P] /\
  call Midpoint [l] [] = Ok [(fst P + fst Q) / 2; (snd P + snd Q) / 2].
Proof.
  intros Hl. split; [|split; [|split; [|split; [|split]]]].
  - apply call_two; [typed|nonode|reflexivity|]. unfold no_params, line_vector_assem. rewrite (line_vector_value l P Q Hl). reflexivity.
  - apply call_one; [typed|nonode|reflexivity|]. unfold no_params. rewrite (line_length_value l P Q Hl). reflexivity.
  - apply call_one; [typed|nonode|reflexivity|]. apply (directed_length_value l P Q Hl).
  - apply call_leaf; [typed|nonode|reflexivity|]. now apply vertical_value.
  - apply call_leaf; [typed|nonode|reflexivity|]. now apply horizontal_value.
  - apply call_two; [typed|nonode|reflexivity|]. unfold no_params. rewrite (midpoint_value l P Q Hl). reflexivity.
Qed.
(** The unit vector: of length one, along the line. *)
Theorem C96_unit l P Q : line_at l P Q -> P <> Q ->
  exists u, call UnitLineVector [l] [] = Ok [fst u; snd u] /\ len u = 1 /\ vec P Q = (len (vec P Q) * fst u, len (vec P Q) * snd u).
Proof.
  intros Hl Hne. assert (Hz : len (vec P Q) <> 0). { rewrite len_zero. unfold vec. intros E. inversion E. apply Hne. destruct P, Q; cbn in *; f_equal; lra. }
  exists (fst (vec P Q) / len (vec P Q), snd (vec P Q) / len (vec P Q)). cbn [fst snd]. split; [|split].
  - apply call_two; [typed|nonode|reflexivity|]. unfold no_params. rewrite (unit_line_vector_value l P Q Hl Hz). reflexivity.
  - unfold len at 1. unfold inner at 1. cbn [fst snd].
    replace (fst (vec P Q) / len (vec P Q) * (fst (vec P Q) / len (vec P Q)) + snd (vec P Q) / len (vec P Q) * (snd (vec P Q) / len (vec P Q)))
      with (inner (vec P Q) (vec P Q) / (len (vec P Q) * len (vec P Q))) by (unfold inner; field; exact Hz).
    assert (E : len (vec P Q) * len (vec P Q) = inner (vec P Q) (vec P Q)) by (unfold len; apply sqrt_sqrt; unfold inner; nra).
    rewrite E. rewrite <- E at 1. rewrite <- E. replace (len (vec P Q) * len (vec P Q) / (len (vec P Q) * len (vec P Q))) with 1 by (field; exact Hz). apply sqrt_1.
  - destruct (vec P Q) as [a b] eqn:Ev. cbn [fst snd]. f_equal; field; exact Hz.
Qed.
(** ** Pairs of lines *)
Theorem C96_midpoints l m A B C D d : line_at l A B -> line_at m C D ->
  call MidpointDirectedDistance [l; m] [PA1 [fst d; snd d]] = Ok [inner (vec (mid A B) (mid C D)) d] /\
  call MidpointXDistance [l; m] [] = Ok [fst (mid C D) - fst (mid A B)] /\
  call MidpointYDistance [l; m] [] = Ok [snd (mid C D) - snd (mid A B)].
Proof.
  intros Hl Hm. split; [|split].
  - apply call_one; [typed|nonode|reflexivity|]. now apply (midpoint_distance_value l m A B C D).
  - apply call_leaf; [typed|nonode|reflexivity|]. now apply midpoint_x_leaf.
  - apply call_leaf; [typed|nonode|reflexivity|]. now apply midpoint_y_leaf.
Qed.

(** ** Quadrilaterals *)
Lemma call_one_child name ts key nm s f ks prims sel x : Forall2 (fun p t => issubclass (ntype p) t = true) prims ts -> ~ In TNode ts ->
  mapM (select prims) ks = Ok sel -> leaf_value f sel [] [x] -> call (single name ts key nm s f ks) prims [] = Ok [x].
Proof.
  intros H1 H2 Hsel Hf. change [x] with (List.concat [[]; [x]]). apply call_denote; [now apply (types_not_node _ ts)|split; [exact H1|reflexivity]|].
  unfold single. rewrite denote_unfold. unfold assem1. cbn [cassem compound_cls length Nat.eqb bind atleast_1d cpk mapM]. rewrite Hsel. cbn [bind cparams empties List.repeat denotes].
  unfold empties. cbn [bind List.repeat denotes]. rewrite (denote_leaf nm s f sel [] [x] Hf). reflexivity.
Qed.
Theorem C96_quad q P0 P1 P2 P3 : quad_at q P0 P1 P2 P3 ->
  (exists w, Width = Ok w /\ call w [q] [] = Ok [fst P1 - fst P0]) /\ (exists h, Height = Ok h /\ call h [q] [] = Ok [snd P2 - snd P1]) /\
  (P1 <> P2 -> call AspectRatio [q] [] = Ok [len (vec P0 P1) / len (vec P1 P2)]).
Proof.
  intros Hq. destruct (quad_line0 _ _ _ _ _ Hq) as (l0 & G0 & L0). destruct (quad_line1 _ _ _ _ _ Hq) as (l1 & G1 & L1). split; [|split].
  - eexists. split; [reflexivity|]. apply (call_one_child "Width" [TQuad] "Width" "XLength" (msig [TLine] 1 0) _ ["arg0/Line0"] [q] [l0]); [typed|nonode| |now apply vertical_value].
    cbn [mapM]. rewrite (sel0 q [] "Line0" l0 G0 : select [q] "arg0/Line0" = Ok l0). reflexivity.
  - eexists. split; [reflexivity|]. apply (call_one_child "Height" [TQuad] "Height" "YLength" (msig [TLine] 1 0) _ ["arg0/Line1"] [q] [l1]); [typed|nonode| |now apply horizontal_value].
    cbn [mapM]. rewrite (sel0 q [] "Line1" l1 G1 : select [q] "arg0/Line1" = Ok l1). reflexivity.
  - intros Hne. assert (Hz : len (vec P1 P2) <> 0). { rewrite len_zero. unfold vec. intros E. inversion E. apply Hne. destruct P1, P2; cbn in *; f_equal; lra. }
    apply call_one; [typed|nonode|reflexivity|]. unfold no_params. rewrite G0. cbn [bind]. rewrite (line_length_value _ _ _ L0). cbn [bind].
    rewrite G1. cbn [bind]. rewrite (line_length_value _ _ _ L1). cbn [bind ndiv NumR]. unfold Rdiv_r. destruct (Req_EM_T (len (vec P1 P2)) 0); [contradiction|reflexivity].
Qed.
Theorem C96_margins side p q l0 b0 r0 t0 l1 b1 r1 t1 : In side sides -> box_at p l0 b0 r0 t0 -> box_at q l1 b1 r1 t1 ->
  (exists c, InnerMargin side = Ok c /\ call c [p; q] [] = Ok [inner_gap side l0 b0 r0 t0 l1 b1 r1 t1]) /\
  (exists c, OuterMargin side = Ok c /\ call c [p; q] [] = Ok [outer_gap side l0 b0 r0 t0 l1 b1 r1 t1]).
Proof.
  intros Hside Hp Hq.
  destruct (quad_line0 _ _ _ _ _ Hp) as (p0 & G0 & L0). destruct (quad_line1 _ _ _ _ _ Hp) as (p1 & G1 & L1).
  destruct (quad_line2 _ _ _ _ _ Hp) as (p2 & G2 & L2). destruct (quad_line3 _ _ _ _ _ Hp) as (p3 & G3 & L3).
  destruct (quad_line0 _ _ _ _ _ Hq) as (q0 & K0 & M0). destruct (quad_line1 _ _ _ _ _ Hq) as (q1 & K1 & M1).
  destruct (quad_line2 _ _ _ _ _ Hq) as (q2 & K2 & M2). destruct (quad_line3 _ _ _ _ _ Hq) as (q3 & K3 & M3).
  pose proof (sel0 p [q] _ _ G0 : select [p; q] "arg0/Line0" = _) as S0. pose proof (sel0 p [q] _ _ G1 : select [p; q] "arg0/Line1" = _) as S1.
  pose proof (sel0 p [q] _ _ G2 : select [p; q] "arg0/Line2" = _) as S2. pose proof (sel0 p [q] _ _ G3 : select [p; q] "arg0/Line3" = _) as S3.
  pose proof (sel1 p q [] _ _ K0 : select [p; q] "arg1/Line0" = _) as U0. pose proof (sel1 p q [] _ _ K1 : select [p; q] "arg1/Line1" = _) as U1.
  pose proof (sel1 p q [] _ _ K2 : select [p; q] "arg1/Line2" = _) as U2. pose proof (sel1 p q [] _ _ K3 : select [p; q] "arg1/Line3" = _) as U3.
  assert (X : forall name key ks l m A B C D, mapM (select [p; q]) ks = Ok [l; m] -> line_at l A B -> line_at m C D ->
    call (single name [TQuad; TQuad] key "MidpointXDistance" (msig [TLine; TLine] 1 0) (no_params (fun prims => midpoint_directed_distance prims (PA1 ex))) ks) [p; q] [] = Ok [fst (mid C D) - fst (mid A B)]).
  { intros name key ks l m A B C D Hs Hl Hm. apply (call_one_child name [TQuad; TQuad] key "MidpointXDistance" (msig [TLine; TLine] 1 0) _ ks [p; q] [l; m]); [typed|nonode|exact Hs|now apply midpoint_x_leaf]. }
  assert (Y : forall name key ks l m A B C D, mapM (select [p; q]) ks = Ok [l; m] -> line_at l A B -> line_at m C D ->
    call (single name [TQuad; TQuad] key "MidpointYDistance" (msig [TLine; TLine] 1 0) (no_params (fun prims => midpoint_directed_distance prims (PA1 ey))) ks) [p; q] [] = Ok [snd (mid C D) - snd (mid A B)]).
  { intros name key ks l m A B C D Hs Hl Hm. apply (call_one_child name [TQuad; TQuad] key "MidpointYDistance" (msig [TLine; TLine] 1 0) _ ks [p; q] [l; m]); [typed|nonode|exact Hs|now apply midpoint_y_leaf]. }
  destruct Hside as [<-|[<-|[<-|[<-|[]]]]]; unfold inner_gap, outer_gap; cbn [String.eqb Ascii.eqb Bool.eqb].
  - split; eexists; (split; [reflexivity|]).
    + etransitivity; [exact (X "InnerMargin"%string "LeftMargin"%string ["arg1/Line3"; "arg0/Line3"]%string q3 p3 _ _ _ _ ltac:(cbn [mapM]; now rewrite U3, S3) M3 L3)|]. now rewrite !mid_v.
    + etransitivity; [exact (X "OuterMargin"%string "LeftMargin"%string ["arg1/Line1"; "arg0/Line3"]%string q1 p3 _ _ _ _ ltac:(cbn [mapM]; now rewrite U1, S3) M1 L3)|]. now rewrite !mid_v.
  - split; eexists; (split; [reflexivity|]).
    + etransitivity; [exact (X "InnerMargin"%string "RightMargin"%string ["arg0/Line1"; "arg1/Line1"]%string p1 q1 _ _ _ _ ltac:(cbn [mapM]; now rewrite S1, U1) L1 M1)|]. now rewrite !mid_v.
    + etransitivity; [exact (X "OuterMargin"%string "RightMargin"%string ["arg0/Line1"; "arg1/Line3"]%string p1 q3 _ _ _ _ ltac:(cbn [mapM]; now rewrite S1, U3) L1 M3)|]. now rewrite !mid_v.
  - split; eexists; (split; [reflexivity|]).
    + etransitivity; [exact (Y "InnerMargin"%string "BottomMargin"%string ["arg1/Line0"; "arg0/Line0"]%string q0 p0 _ _ _ _ ltac:(cbn [mapM]; now rewrite U0, S0) M0 L0)|]. now rewrite !mid_h.
    + etransitivity; [exact (Y "OuterMargin"%string "BottomMargin"%string ["arg1/Line2"; "arg0/Line0"]%string q2 p0 _ _ _ _ ltac:(cbn [mapM]; now rewrite U2, S0) M2 L0)|]. now rewrite !mid_h.
  - split; eexists; (split; [reflexivity|]).
    + etransitivity; [exact (Y "InnerMargin"%string "TopMargin"%string ["arg0/Line2"; "arg1/Line2"]%string p2 q2 _ _ _ _ ltac:(cbn [mapM]; now rewrite S2, U2) L2 M2)|]. now rewrite !mid_h.
    + etransitivity; [exact (Y "OuterMargin"%string "TopMargin"%string ["arg0/Line2"; "arg1/Line0"]%string p2 q0 _ _ _ _ ltac:(cbn [mapM]; now rewrite S2, U0) L2 M0)|]. now rewrite !mid_h.
Qed.

(** ** Directions must have two components *)
Lemma dot_wrong (a b : R) d : length d <> 2%nat -> dot [a; b] (PA1 d) = Err TypeErr.
Proof. intros H. unfold dot, dot_list. cbn [length]. destruct d as [|x [|y [|z d]]]; try reflexivity. now contradict H. Qed.
Lemma call_fails (nm : string) s f (prims : list prim) params e : Forall2 (fun p t => issubclass (ntype p) t = true) prims (prim_types s) -> ~ In TNode (prim_types s) ->
  f prims params = Err e -> exists e', call (mk_leaf nm s f) prims params = Err e'.
Proof.
  intros H1 H2 H3. destruct (call (mk_leaf nm s f) prims params) as [v|e'] eqn:E; [|eauto]. exfalso.
  assert (Ha : length params = nparams s). { unfold call in E. inv_bind E. destruct x. inv_bind E. destruct x. match goal with H : cvalidate_params _ _ = Ok tt |- _ => apply valid_params_iff in H; exact H end. }
  apply denote_call in E as (_ & outs & D & _); [|now apply (types_not_node _ (prim_types s))|].
  - unfold mk_leaf in D. rewrite denote_unfold in D. unfold assem1 in D. cbn [cassem] in D. rewrite H3 in D. discriminate.
  - exact (fits_arity _ _ (fits_leaf nm s f params Ha)).
Qed.
Theorem C96_direction p q P Q l A B m C D d : point_at p P -> point_at q Q -> line_at l A B -> line_at m C D -> length d <> 2%nat ->
  (exists e, call DirectedDistance [p; q] [PA1 d] = Err e) /\ (exists e, call DirectedLength [l] [PA1 d] = Err e) /\
  (exists e, call MidpointDirectedDistance [l; m] [PA1 d] = Err e).
Proof.
  intros Hp Hq Hl Hm Hd. split; [|split].
  - eapply call_fails; [typed|nonode|]. unfold directed_distance. destruct Hp as (? & ? & ->), Hq as (? & ? & ->). cbn [coord nval vdata]. unfold vsub, bcast2. cbn [length Nat.eqb zip mapM fst snd bind]. apply dot_wrong, Hd.
  - eapply call_fails; [typed|nonode|]. unfold directed_length. rewrite (line_vector_value l A B Hl). cbn [bind]. apply dot_wrong, Hd.
  - eapply call_fails; [typed|nonode|]. unfold midpoint_directed_distance. rewrite (midpoint_value l A B Hl), (midpoint_value m C D Hm). cbn [bind]. unfold vsub, bcast2. cbn [length Nat.eqb zip mapM fst snd bind]. apply dot_wrong, Hd.
Qed.

(** ** Constants *)
(** [Scalar] returns its argument; a [Vector] over one node of any declared size returns
    whatever it is given. *)
Theorem C96_constant (x : R) (l : list R) n : call Scalar [] [PFlt x] = Ok [x] /\
  (exists c, mk_vector (Node tt n []) = Ok c /\ call c [] [PA1 l] = Ok l /\ call c [] [PFlt x] = Ok [x]).
Proof.
  split; [reflexivity|]. eexists. split; [reflexivity|]. split.
  - cbn. now rewrite app_nil_r.
  - cbn. destruct n; [reflexivity|]. cbn [List.repeat mapM bind]. unfold arith2. cbn [to_operand bind nmul NumR]. rewrite (mapM_Ok_map (fun y => x * y)). reflexivity.
Qed.
(** The size node with the given root size and leaves of the given names and sizes. *)
Definition size_node (root : nat) (kids : list (string * nat)) : node AffineLayout.cls nat :=
  Node vector_cls root (map (fun kn => (fst kn, Node vector_cls (snd kn) [])) kids).
(** A [Vector] over a node with children returns the whole array and then its parts again:
    the FIXME of constructions.py:661-662. *)
Lemma concat_cut (l : list R) sizes : List.concat (cut l sizes) = firstn (list_sum sizes) l.
Proof.
  revert l. induction sizes as [|n s IH]; intros l; [reflexivity|]. cbn [cut List.concat list_sum fold_right]. rewrite IH. fold (list_sum s).
  rewrite <- (firstn_skipn n l) at 3. rewrite firstn_app. rewrite firstn_firstn. destruct (Nat.le_gt_cases n (length l)) as [H|H].
  - rewrite firstn_length, (Nat.min_l n) by exact H. replace (Nat.min (n + list_sum s) n) with n by lia. f_equal. f_equal. lia.
  - rewrite (skipn_all2 l) by lia. rewrite !firstn_nil, !app_nil_r. f_equal. lia.
Qed.
Theorem C96_vector root kids (l : list R) : NoDup (map fst kids) -> ~ In EmptyString (map fst kids) ->
  exists c, mk_vector (size_node root kids) = Ok c /\ call c [] [PA1 l] = Ok (l ++ firstn (list_sum (map snd kids)) l).
Proof.
  intros _ Hk. exists (vtree (size_node root kids)). split.
  - apply mk_vector_ok. constructor; [now rewrite map_map|]. apply Forall_forall. intros kc Hin. apply in_map_iff in Hin as (kn & <- & _). constructor; [easy|constructor].
  - set (c := Node vector_cls {| cpk := []; cparams := fun _ => Ok []; csig := {| prim_types := []; nparams := 0; value_size := root |} |}
      (map (fun kn => (fst kn, mk_leaf "" {| prim_types := []; nparams := 0; value_size := snd kn |} vector_assem)) kids) : cons).
    assert (Hc : size_tree c = size_node root kids). { unfold size_tree, c, size_node. cbn [tmap fst snd nval csig value_size]. f_equal. rewrite map_map. apply map_ext. reflexivity. }
    assert (Hs : shallow c). { unfold shallow, c. cbn [nch]. apply Forall_forall. intros kc Hin. apply in_map_iff in Hin as (kn & <- & _). reflexivity. }
    rewrite <- Hc. replace (l ++ firstn (list_sum (map snd kids)) l) with (List.concat (l :: cut l (map (fun kc => value_size (csig (nval (snd kc)))) (nch c)))).
    + apply call_denote; [constructor| |now apply denote_vector_array]. split; [constructor|reflexivity].
    + cbn [List.concat]. rewrite concat_cut. unfold c. cbn [nch]. rewrite map_map. reflexivity.
Qed.
Theorem C96_vector_refuted : exists c, mk_vector (size_node 0 [("A", 1%nat); ("B", 1%nat)]%string) = Ok c /\ call c [] [PA1 [3; 5]] = Ok [3; 5; 3; 5].
Proof. destruct (C96_vector 0 [("A", 1%nat); ("B", 1%nat)]%string [3; 5]) as (c & H1 & H2); [repeat constructor; cbn; intuition congruence|cbn; intuition congruence|]. exists c. split; [exact H1|exact H2]. Qed.

(** ** A case: the 4 by 2 rectangle at (1, 1) inside the 8 by 6 one at the origin, and the
    line from (0, 0) to (3, 4). *)
Example C96_case : (exists c, InnerMargin "left" = Ok c /\ call c [gbox 1 1 5 3; gbox 0 0 8 6] [] = Ok [1]) /\
  (exists c, InnerMargin "top" = Ok c /\ call c [gbox 1 1 5 3; gbox 0 0 8 6] [] = Ok [3]) /\
  (exists w, Width = Ok w /\ call w [gbox 1 1 5 3] [] = Ok [4]) /\
  call Length [gline 0 0 3 4] [] = Ok [5].
Proof.
  split; [|split; [|split]].
  - destruct (C96_margins "left" _ _ _ _ _ _ _ _ _ _ ltac:(cbn; tauto) (gbox_at 1 1 5 3) (gbox_at 0 0 8 6)) as ((c & H & V) & _). exists c. split; [exact H|]. rewrite V. unfold inner_gap. cbn. do 2 f_equal. lra.
  - destruct (C96_margins "top" _ _ _ _ _ _ _ _ _ _ ltac:(cbn; tauto) (gbox_at 1 1 5 3) (gbox_at 0 0 8 6)) as ((c & H & V) & _). exists c. split; [exact H|]. rewrite V. unfold inner_gap. cbn. do 2 f_equal. lra.
  - destruct (C96_quad _ _ _ _ _ (gbox_at 1 1 5 3)) as ((w & H & V) & _). exists w. split; [exact H|]. rewrite V. cbn. do 2 f_equal. lra.
  - destruct (C96_lines _ (0, 0) (3, 4) (0, 0) (gline_at 0 0 3 4)) as (_ & H & _). rewrite H. do 2 f_equal. unfold len, inner, vec. cbn [fst snd].
    replace ((3 - 0) * (3 - 0) + (4 - 0) * (4 - 0)) with (5 * 5) by ring. apply sqrt_square. lra.
Qed.
Print Assumptions C96_points.
Print Assumptions C96_lines.
Print Assumptions C96_unit.
Print Assumptions C96_midpoints.
Print Assumptions C96_quad.
Print Assumptions C96_margins.
Print Assumptions C96_direction.
Print Assumptions C96_constant.
Print Assumptions C96_vector.
Print Assumptions C96_vector_refuted.
