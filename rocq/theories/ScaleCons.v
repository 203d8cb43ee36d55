(** Constraints of scaled primitives. *)
From Coq Require Import Reals Lra.
From Verif Require Export ScaleProofs CstrR ShippedSpec.
Local Open Scope R_scope.

Section ScaleCons.
  Notation prim := (prim R).
  Notation pyval := (pyval R).
  Notation cons := (cons R).
  Notation cls := (cls R).
  Variable k : R.
  Hypothesis Hk : 0 < k.
  Notation scale := (scale k).
  Notation ks := (map (Rmult k)).
  Notation pos := (fun d : R => 0 < d).
  Notation scaling := (scaling k pos).
  Notation scalings := (scalings k pos).

  (** ** Values *)
  Definition pv (d : R) (v v' : pyval) : Prop :=
    (exists x, v = PA0 x /\ v' = PA0 (d * x)) \/ (exists l, v = PA1 l /\ v' = PA1 (map (Rmult d) l)).
  Definition hom (d : R) (f : list prim -> list pyval -> result pyval) (ps ps' : list pyval) : Prop :=
    forall prims, rrel (pv d) (f prims ps) (f (map scale prims) ps').
  Lemma times_map d l : 0 < d -> times pos l (map (Rmult d) l).
  Proof. intros Hd. induction l; constructor; [eauto|assumption]. Qed.
  Lemma hom_node d name kinds f ps ps' : 0 < d -> hom d f ps ps' -> node_rel k pos {| cname := name; cisa := kinds; cassem := f |} ps ps'.
  Proof.
    intros Hd H prims. specialize (H prims). unfold assem1. cbn [cassem]. destruct (f prims ps), (f (map scale prims) ps'); cbn [rrel] in H; try contradiction; [|now subst].
    cbn [bind]. destruct H as [(x & -> & ->)|(l & -> & ->)]; cbn; [constructor; [eauto|constructor]|now apply times_map].
  Qed.
  Lemma leaf_scaling d name s f ps ps' : 0 < d -> length ps = length ps' -> hom d f ps ps' -> scaling (mk_leaf name s f) ps ps'.
  Proof. intros Hd L H. unfold mk_leaf. eapply scaling_node; [exact L|reflexivity|reflexivity|eapply hom_node; eassumption|constructor]. Qed.

  (** ** Targets *)
  Definition target (d : R) (t t' : pyval) : Prop :=
    (exists x, num_of t = Some x /\ num_of t' = Some (d * x)) \/ (exists l, t = PA1 l /\ t' = PA1 (map (Rmult d) l)).
  Definition neg (t : pyval) : result pyval := y <- vector_assem (@nil prim) [PInt (-1)] ;; x <- vector_assem (@nil prim) [t] ;; py_mul y x.
  Lemma neg_num t x : num_of t = Some x -> exists w, neg t = Ok w /\ num_of w = Some (- x).
  Proof.
    intros H. destruct t; try discriminate; cbn in H; injection H as <-; eexists; (split; [reflexivity|]); cbn -[IZR Z.mul]; f_equal; try lra.
    rewrite <- opp_IZR. reflexivity.
  Qed.
  Lemma add_num0 a w y : num_of w = Some y -> py_add (PA0 a) w = Ok (PA0 (a + y)).
  Proof. intros H. destruct w; try discriminate; cbn in H; injection H as <-; reflexivity. Qed.
  Lemma mapM_ok {A B} (f : A -> B) l : mapM (fun x => Ok (f x)) l = Ok (map f l).
  Proof. induction l as [|x l IH]; [reflexivity|]. cbn [mapM]. rewrite IH. reflexivity. Qed.
  Lemma add_num1 l w y : num_of w = Some y -> py_add (PA1 l) w = Ok (PA1 (map (fun x => x + y) l)).
  Proof.
    intros H. assert (E : py_add (PA1 l) w = arith2 (fun x y => Ok (x + y)) (PA1 l) w) by (destruct w, l; try discriminate; reflexivity).
    rewrite E. unfold arith2. assert (O : exists b, to_operand w = Ok (Num.N0 b y)) by (destruct w; try discriminate; cbn in *; injection H as <-; eauto). destruct O as [b ->]. cbn [to_operand bind]. now rewrite (mapM_ok (fun x => x + y)).
  Qed.
  Lemma add_arr v l : py_add v (PA1 l) = arith2 (fun x y => Ok (x + y)) v (PA1 l).
  Proof. destruct v as [| | | |[|]| | | |]; reflexivity. Qed.
  Lemma add_target d v v' t t' : pv d v v' -> target d t t' ->
    rrel (pv d) (y <- neg t ;; py_add v y) (y <- neg t' ;; py_add v' y).
  Proof.
    intros Hv [(x & H & H')|(l & -> & ->)].
    - destruct (neg_num _ _ H) as (w & -> & W), (neg_num _ _ H') as (w' & -> & W'). cbn [bind]. destruct Hv as [(a & -> & ->)|(m & -> & ->)].
      + rewrite (add_num0 _ _ _ W), (add_num0 _ _ _ W'). left. eexists. split; [reflexivity|]. f_equal. lra.
      + rewrite (add_num1 _ _ _ W), (add_num1 _ _ _ W'). right. eexists. split; [reflexivity|]. f_equal. rewrite !map_map. apply map_ext. intros y. lra.
    - assert (Ng : forall m, neg (PA1 m) = Ok (PA1 (map (Rmult (-1)) m))) by (intros m; unfold neg; cbn [vector_assem bind py_mul]; unfold arith2; cbn [to_operand bind]; now rewrite (mapM_ok (Rmult (-1)))).
      rewrite !Ng. cbn [bind]. rewrite !add_arr. destruct Hv as [(a & -> & ->)|(m & -> & ->)]; unfold arith2; cbn [to_operand bind].
      + rewrite (mapM_ok (Rplus a)), (mapM_ok (Rplus (d * a))). right. eexists. split; [reflexivity|]. f_equal. rewrite !map_map. apply map_ext. intros y. lra.
      + assert (E : map (Rmult (-1)) (map (Rmult d) l) = map (Rmult d) (map (Rmult (-1)) l)) by (rewrite !map_map; apply map_ext; intros y; lra). rewrite E. generalize (map (Rmult (-1)) l). clear. intros u.
        assert (B : bcast2 (fun x y => Ok (x + y)) (map (Rmult d) m) (map (Rmult d) u) = fwd (map (Rmult d)) (bcast2 (fun x y => Ok (x + y)) m u)).
        { apply bcast_scale. intros x y. cbn. f_equal. lra. }
        rewrite B. destruct (bcast2 _ m u); [|reflexivity]. right. eexists. split; reflexivity.
  Qed.
  Lemma target_params d t t' sz : target d t t' -> exists a a', vector_child_params sz [] [] [t] = Ok a /\ vector_child_params sz [] [] [t'] = Ok a'.
  Proof.
    intros H. assert (G : forall u, (exists x, num_of u = Some x) \/ (exists l, u = PA1 l) -> exists a, vector_child_params (F:=R) sz [] [] [u] = Ok a).
    { intros u [[x Hx]|[l ->]]; [|eexists; reflexivity]. destruct u; try discriminate; cbn [vector_child_params is_number]; try (eexists; reflexivity); unfold arith2; cbn [to_operand bind]; rewrite (mapM_ok (Rmult _)); eexists; reflexivity. }
    destruct H as [(x & H & H')|(l & -> & ->)].
    - destruct (G t), (G t'); eauto.
    - destruct (G (PA1 l)), (G (PA1 (map (Rmult d) l))); eauto.
  Qed.
  Lemma firstn_exact {A} (a b : list A) n : length a = n -> firstn n (a ++ b) = a.
  Proof. intros <-. rewrite firstn_app, Nat.sub_diag, firstn_all. cbn. apply app_nil_r. Qed.
  Lemma skipn_exact {A} (a b : list A) n : length a = n -> skipn n (a ++ b) = b.
  Proof. intros <-. rewrite skipn_app, Nat.sub_diag, skipn_all. reflexivity. Qed.
  Definition cr_leaf name s f : cons := tsum (mk_leaf name s f) (neg_vector (mk_leaf name s f)).
  Lemma cr_leaf_ok name s f : transform_constraint (mk_leaf (F:=R) name s f) = Ok (cr_leaf name s f).
  Proof. apply constraint_ok; constructor; cbn; try constructor; tauto. Qed.
  Lemma cr_leaf_scaling d name s f ps ps' t t' : 0 < d -> length ps = nparams s -> length ps' = nparams s -> hom d f ps ps' -> target d t t' ->
    scaling (cr_leaf name s f) (ps ++ [t]) (ps' ++ [t']).
  Proof.
    intros Hd L L' H T. unfold cr_leaf, mk_leaf, neg_vector, size_tree. cbn [tmap vtree map length]. rewrite tsum_unfold. cbn [tsums].
    assert (Sp : forall qs (q : pyval), length qs = nparams s -> split (nparams s) 1 (qs ++ [q]) = (qs, [q])).
    { intros qs q Lq. unfold split, chunk, slice. cbn. rewrite Nat.sub_0_r, (firstn_exact qs _ _ Lq), (skipn_exact qs _ _ Lq). replace (nparams s + 1 - nparams s)%nat with 1%nat by lia. reflexivity. }
    destruct (target_params d t t' (value_size s + 0) T) as (a & a' & Ea & Ea').
    assert (P : forall qs q b, length qs = nparams s -> vector_child_params (F:=R) (value_size s + 0) [] [] [q] = Ok b -> 
      cparams (snd (sum_parts (Node {| cname := name; cisa := []; cassem := f |} {| cpk := []; cparams := fun _ => Ok []; csig := s |} [])
       (Node (fst (sc_node "ScalarMultipleConstruction" (fun x y => py_mul y x) (minus1 (F:=R)) (Node vector_cls {| cpk := []; cparams := vector_child_params (tree_sum (Node (vector_cls (F:=R)) (value_size s) [])) [] []; csig := {| prim_types := []; nparams := 1; value_size := value_size s |} |} [])))
        (snd (sc_node "ScalarMultipleConstruction" (fun x y => py_mul y x) (minus1 (F:=R)) (Node vector_cls {| cpk := []; cparams := vector_child_params (tree_sum (Node (vector_cls (F:=R)) (value_size s) [])) [] []; csig := {| prim_types := []; nparams := 1; value_size := value_size s |} |} []))) []))) (qs ++ [q]) = Ok []).
    { intros qs q b Lq Eb. unfold sum_parts. cbn [snd cparams nval csig sc_node scalar_node fst nparams concatenate_signature]. change (nparams (csig (nval (minus1 (F:=R))))) with 0%nat. rewrite ?Nat.add_0_r. 
      match goal with |- context [split (nparams s) ?n _] => replace n with 1%nat by reflexivity end. rewrite Sp by exact Lq. cbn [bind]. 
      change (split 1 0 [q]) with ([q], @nil pyval). cbn [bind]. change (tree_sum (Node vector_cls (value_size s) [])) with (value_size s + 0)%nat. rewrite Eb. reflexivity. }
    eapply scaling_node; [rewrite !app_length; cbn [length]; lia|eapply P; eassumption|eapply P; eassumption| |constructor].
    change (fst (sum_parts ?a ?b)) with (fst (sum_parts a b)). unfold sum_parts at 1. cbn [fst].
    eapply hom_node; [exact Hd|]. intros prims. cbn [nval csig prim_types nparams ntype cassem sc_node scalar_node fst snd concatenate_signature].
    change (nparams (csig (nval (minus1 (F:=R))))) with 0%nat. rewrite ?Nat.add_0_r.
    match goal with |- context [split (nparams s) ?n _] => replace n with 1%nat by reflexivity end. rewrite !Sp by assumption.
    match goal with |- context [split ?n ?m (map scale prims)] => replace (split n m (map scale prims)) with (let (u, v) := split n m prims in (map scale u, map scale v)) by (unfold split, chunk, slice; cbn; now rewrite !skipn_map, !firstn_map); destruct (split n m prims) as [u v] end.
    specialize (H u). destruct (f u ps) as [x|], (f (map scale u) ps') as [x'|]; cbn [rrel] in H; try contradiction; [|now subst]. cbn [bind].
    pose proof (add_target d x x' t t' H T) as A. exact A.
  Qed.

  (** ** The leaves *)
  Lemma scale_line_vector p : line_vector (scale p) = fwd ks (line_vector p).
  Proof. unfold line_vector. rewrite scale_nvalues. destruct (nvalues p) as [|u [|v [|]]]; try reflexivity. cbn [map]. rewrite !scale_coord. apply vsub_scale. Qed.
  Lemma scale_length p : line_length (scale p) = fwd (Rmult k) (line_length p).
  Proof. unfold line_length. rewrite scale_line_vector. destruct (line_vector p); [|reflexivity]. cbn [fwd bind]. now apply norm_scale. Qed.
  Lemma scale_unit p : unit_line_vector (scale p) = unit_line_vector p.
  Proof.
    unfold unit_line_vector. rewrite scale_line_vector. destruct (line_vector p) as [v|]; [|reflexivity]. cbn [fwd bind]. rewrite norm_scale by exact Hk. destruct (norm v) as [n|]; [|reflexivity]. cbn [fwd bind].
    induction v as [|x v IH]; [reflexivity|]. cbn [map mapM]. rewrite IH. cbn [ndiv NumR]. rewrite div_scale by exact Hk. reflexivity.
  Qed.
  Lemma scale_angle p : direction_angle (scale p) = direction_angle p.
  Proof. unfold direction_angle. now rewrite scale_unit. Qed.
  Lemma cross_scale a b : @cross2 R NumR (ks a) (ks b) = fwd (Rmult (k * k)) (cross2 a b).
  Proof. destruct a as [|? [|? [|]]], b as [|? [|? [|]]]; try reflexivity. cbn. f_equal. ring. Qed.
  Lemma scale_parallel p q : parallel (scale p) (scale q) = fwd (Rmult (k * k)) (parallel p q).
  Proof. unfold parallel. rewrite !scale_line_vector. destruct (line_vector p); [|reflexivity]. cbn [fwd bind]. destruct (line_vector q); [|reflexivity]. cbn [fwd bind]. apply cross_scale. Qed.
  Lemma scale_midpoint p : midpoint (scale p) = fwd ks (midpoint p).
  Proof.
    unfold midpoint. destruct (@nhalf R NumR) as [h|]; [|reflexivity]. cbn [bind]. rewrite !scale_get. destruct (get_child p "Point0"); [|reflexivity]. cbn [fwd bind]. destruct (get_child p "Point1"); [|reflexivity]. cbn [fwd bind].
    rewrite !scale_coord, vadd_scale. destruct (vadd _ _); [|reflexivity]. cbn [fwd bind]. f_equal. unfold vscale. rewrite !map_map. apply map_ext. intros x. cbn. ring.
  Qed.
  Lemma dot_list_scale a b : @dot_list R NumR (ks a) b = fwd (Rmult k) (dot_list a b).
  Proof.
    unfold dot_list. rewrite map_length. destruct (Nat.eqb _ _); [|reflexivity]. cbn [fwd]. f_equal. unfold nsum. revert b. induction a as [|x a IH]; intros [|y b]; cbn [map zip fold_right fst snd nmul nadd NumR]; try (cbn; ring). rewrite IH. cbn. ring.
  Qed.
  Lemma dot_list_scale2 a b : @dot_list R NumR (ks a) (ks b) = fwd (Rmult (k * k)) (dot_list a b).
  Proof.
    rewrite dot_list_scale. unfold dot_list. rewrite map_length. destruct (Nat.eqb _ _); [|reflexivity]. cbn [fwd]. f_equal. unfold nsum. revert b. induction a as [|x a IH]; intros [|y b]; cbn [map zip fold_right fst snd nmul nadd NumR]; try (cbn; ring). rewrite Rmult_plus_distr_l, IH. cbn. ring.
  Qed.
  Lemma dot_scale a b : rrel (pv k) (dot a (PA1 b)) (dot (ks a) (PA1 b)).
  Proof. cbn [dot]. rewrite dot_list_scale. destruct (dot_list a b); [|reflexivity]. left. eexists. split; reflexivity. Qed.
  Lemma scale_onl p q r : point_on_line_distance (scale p) (scale q) r = fwd (Rmult k) (point_on_line_distance p q r).
  Proof.
    unfold point_on_line_distance. destruct (truthy r) as [[]|]; try reflexivity; cbn [bind]; rewrite scale_get; (destruct (get_child _ _); [|reflexivity]); cbn [fwd bind];
      rewrite scale_unit; (destruct (unit_line_vector q); [|reflexivity]); cbn [bind]; rewrite !scale_coord, vsub_scale; (destruct (vsub _ _); [|reflexivity]); cbn [fwd bind]; apply dot_list_scale.
  Qed.
  Lemma scale_tol p q r : point_to_line_distance (scale p) (scale q) r = fwd (Rmult k) (point_to_line_distance p q r).
  Proof.
    unfold point_to_line_distance. rewrite scale_unit. destruct (unit_line_vector q); [|reflexivity]. cbn [bind]. destruct (truthy r) as [x|]; [|reflexivity]. cbn [bind].
    match goal with |- bind ?x _ = _ => destruct x; [|reflexivity] end. cbn [bind]. rewrite scale_get. destruct (get_child _ _); [|reflexivity]. cbn [fwd bind].
    rewrite !scale_coord, vsub_scale. destruct (vsub _ _); [|reflexivity]. cbn [fwd bind]. apply dot_list_scale.
  Qed.
  Lemma scale_mk_line u v : (x <- mk_line 0 VNone (Some [scale u; scale v]) ;; Ok (line_vector (fst x))) = (x <- mk_line 0 VNone (Some [u; v]) ;; Ok (fwd ks (line_vector (fst x)))).
  Proof.
    unfold mk_line. cbn [take_value bind]. unfold finish_prim. change (dict_of (zip ["Point0"; "Point1"]%string [scale u; scale v])) with [("Point0"%string, scale u); ("Point1"%string, scale v)].
    change (dict_of (zip ["Point0"; "Point1"]%string [u; v])) with [("Point0"%string, u); ("Point1"%string, v)]. unfold mk_primnode. cbn [forallb snd dvals map]. rewrite !scale_type.
    change [scale u; scale v] with (map scale [u; v]).
    destruct (negb _); [reflexivity|]. cbn [signature_of]. destruct (negb _); [reflexivity|]. cbn [existsb map]. change [scale u; scale v] with (map scale [u; v]). rewrite scale_validate.
    destruct (_ || _)%bool; [|reflexivity]. cbn [bind fst]. unfold line_vector, nvalues, dvals. cbn [nch map snd]. rewrite !scale_coord, vsub_scale. reflexivity.
  Qed.

  Notation homk := (hom k).
  Ltac one := intros prims; destruct prims as [|p [|]]; try reflexivity; cbn [map no_params].
  Ltac two := intros prims; destruct prims as [|p [|q [|]]]; try reflexivity; cbn [map no_params].
  Lemma hom_coordinate : homk coordinate_assem [] [].
  Proof. one. cbn. rewrite scale_coord. right. eauto. Qed.
  Lemma hom_dd l : homk (fun prims params => match params with [d] => directed_distance prims d | _ => Err TypeErr end) [PA1 l] [PA1 l].
  Proof. two. unfold directed_distance. rewrite !scale_coord, vsub_scale. destruct (vsub _ _); [|reflexivity]. cbn [fwd bind]. apply dot_scale. Qed.
  Lemma hom_xy l : homk (no_params (fun prims => directed_distance prims (PA1 l))) [] [].
  Proof. two. unfold directed_distance. rewrite !scale_coord, vsub_scale. destruct (vsub _ _); [|reflexivity]. cbn [fwd bind]. apply dot_scale. Qed.
  Lemma hom_length : homk (no_params (fun prims => match prims with [line] => l <- line_length line ;; Ok (PA0 l) | _ => Err ValueErr end)) [] [].
  Proof. one. rewrite scale_length. destruct (line_length p); [|reflexivity]. cbn. left. eauto. Qed.
  Lemma hom_dl l : homk (fun prims params => match params with [d] => directed_length prims d | _ => Err TypeErr end) [PA1 l] [PA1 l].
  Proof. one. unfold directed_length. rewrite scale_line_vector. destruct (line_vector p); [|reflexivity]. cbn [fwd bind]. apply dot_scale. Qed.
  Lemma hom_xl l : homk (no_params (fun prims => directed_length prims (PA1 l))) [] [].
  Proof. one. unfold directed_length. rewrite scale_line_vector. destruct (line_vector p); [|reflexivity]. cbn [fwd bind]. apply dot_scale. Qed.
  Lemma hom_md l : homk (no_params (fun prims => midpoint_directed_distance prims (PA1 l))) [] [].
  Proof.
    two. unfold midpoint_directed_distance. rewrite !scale_midpoint. destruct (midpoint q); [|reflexivity]. cbn [fwd bind]. destruct (midpoint p); [|reflexivity]. cbn [fwd bind]. rewrite vsub_scale. destruct (vsub _ _); [|reflexivity]. cbn [fwd bind]. apply dot_scale.
  Qed.
  Lemma pv_same v : match v with PA0 _ | PA1 _ => True | _ => False end -> pv 1 v v.
  Proof. destruct v; try contradiction; intros _; [left|right]; eexists; (split; [reflexivity|]); f_equal; [lra|]. erewrite map_ext; [symmetry; apply map_id|]. intros x. lra. Qed.
  Lemma hom_angle : hom 1 (no_params (angle_assem (F:=R))) [] [].
  Proof. two. cbn [angle_assem]. rewrite !scale_angle. destruct (direction_angle p); [|reflexivity]. cbn [bind]. destruct (direction_angle q); [|reflexivity]. cbn [bind rrel]. now apply pv_same. Qed.
  Lemma hom_onl r : homk (cassem (ntype PointOnLineDistance)) [r] [r].
  Proof. two. cbn [PointOnLineDistance mk_leaf ntype cassem]. rewrite scale_onl. destruct (point_on_line_distance p q r); [|reflexivity]. left. eexists; split; reflexivity. Qed.
  Lemma hom_tol r : homk (cassem (ntype PointToLineDistance)) [r] [r].
  Proof. two. cbn [PointToLineDistance mk_leaf ntype cassem]. rewrite scale_tol. destruct (point_to_line_distance p q r); [|reflexivity]. left. eexists; split; reflexivity. Qed.
  Lemma hom_rel ps : hom 1 (cassem (ntype RelativePointOnLineDistance)) ps ps.
  Proof.
    two. cbn [RelativePointOnLineDistance mk_leaf ntype cassem]. destruct ps as [|r [|]]; try reflexivity. rewrite scale_onl, scale_length. destruct (point_on_line_distance p q r); [|reflexivity]. cbn [fwd bind]. destruct (line_length q); [|reflexivity]. cbn [fwd bind]. cbn [ndiv NumR]. rewrite div_scale by exact Hk.
    destruct (Rdiv_r _ _); [|reflexivity]. cbn [bind rrel]. now apply pv_same.
  Qed.
  Lemma hom_aspect : hom 1 (cassem (ntype AspectRatio)) [] [].
  Proof.
    one. cbn [AspectRatio mk_leaf ntype cassem no_params]. rewrite !scale_get. destruct (get_child p "Line0") as [a|]; [|reflexivity]. cbn [fwd bind]. rewrite scale_length. destruct (line_length a); [|reflexivity]. cbn [fwd bind].
    destruct (get_child p "Line1") as [b|]; [|reflexivity]. cbn [fwd bind]. rewrite scale_length. destruct (line_length b); [|reflexivity]. cbn [fwd bind]. cbn [ndiv NumR]. rewrite div_scale by exact Hk.
    destruct (Rdiv_r _ _); [|reflexivity]. cbn [bind rrel]. now apply pv_same.
  Qed.
  Lemma hom_coincident : homk (cassem (ntype Coincident)) [] [].
  Proof. two. cbn [Coincident mk_leaf ntype cassem no_params]. unfold coincident. rewrite !scale_coord, vsub_scale. destruct (vsub _ _); [|reflexivity]. right. eexists; split; reflexivity. Qed.
  Lemma hom_orthogonal : hom (k * k) (cassem (ntype Orthogonal)) [] [].
  Proof.
    two. cbn [Orthogonal mk_leaf ntype cassem no_params]. rewrite !scale_line_vector. destruct (line_vector p); [|reflexivity]. cbn [fwd bind]. destruct (line_vector q); [|reflexivity]. cbn [fwd bind dot]. rewrite dot_list_scale2. destruct (dot_list _ _); [|reflexivity].
    left. eexists; split; reflexivity.
  Qed.
  Lemma hom_parallel : hom (k * k) (cassem (ntype Parallel)) [] [].
  Proof. two. cbn [Parallel mk_leaf ntype cassem no_params]. rewrite scale_parallel. destruct (parallel p q); [|reflexivity]. left. eexists; split; reflexivity. Qed.
  Lemma hom_collinear : hom (k * k) (cassem (ntype Collinear)) [] [].
  Proof.
    two. cbn [Collinear mk_leaf ntype cassem no_params]. rewrite !scale_int. destruct (get_int q 0) as [s1|]; [|reflexivity]. cbn [fwd bind]. destruct (get_int p 0) as [s0|]; [|reflexivity]. cbn [fwd bind]. rewrite scale_parallel.
    pose proof (scale_mk_line s1 s0) as L. destruct (mk_line 0 VNone (Some [scale s1; scale s0])) as [[x n]|], (mk_line 0 VNone (Some [s1; s0])) as [[y m]|]; cbn [bind fst] in *; try discriminate; [|injection L as ->; reflexivity].
    destruct (parallel p q); [|reflexivity]. cbn [fwd bind]. injection L as L. unfold parallel. rewrite scale_line_vector, L. destruct (line_vector p); [|reflexivity]. cbn [fwd bind]. destruct (line_vector y); [|reflexivity]. cbn [fwd bind]. rewrite cross_scale. destruct (cross2 _ _); [|reflexivity].
    right. eexists; split; reflexivity.
  Qed.
  Lemma hom_cl ps : homk (cassem (ntype CoincidentLines)) ps ps.
  Proof.
    two. cbn [CoincidentLines mk_leaf ntype cassem]. destruct ps as [|r [|]]; try reflexivity. rewrite lines_scale. destruct (coincident_lines p q r) as [v|] eqn:E; [|reflexivity]. cbn [fwd rrel].
    unfold coincident_lines in E. do 5 inv_bind E. destruct x; do 2 inv_bind E; injection E as <-; right; eexists; split; reflexivity.
  Qed.
End ScaleCons.
