(** Properties C12-C19 and C30: primitives of [primitives.py], unique values, packing.
    Vocabulary: [conforms] (what each class promises about its own vector and child
    types), [axes_children] (expected children of an Axes), both in CtorProofs.v;
    [walk], [wf], [slashfree], [same_shape] in Spec.v. *)
From Coq Require Import QArith.
From Verif Require Import DofProofs Inst.
Local Open Scope nat_scope.

(** The class statements of primitives.py (79,276,303,330,387,436; the abstract classes in
    between left out), and the subclass relation they generate. *)
Definition base_class (c : ptype) : option ptype :=
  match c with
  | TNode => None
  | TPrimNode => Some TNode
  | TPoint | TLine | TPolygon | TAxes => Some TPrimNode
  | TQuad => Some TPolygon
  end.
Inductive is_a : ptype -> ptype -> Prop :=
| is_a_self c : is_a c c
| is_a_base c b d : base_class c = Some b -> is_a b d -> is_a c d.

(** The class tests of the validations follow that relation. *)
Theorem C13_class_tests a b : issubclass a b = true <-> is_a a b.
Proof.
  split.
  - destruct a, b; cbn; intros H; try discriminate H; try apply is_a_self;
      (eapply is_a_base; [reflexivity|]); try apply is_a_self;
      (eapply is_a_base; [reflexivity|]); try apply is_a_self;
      (eapply is_a_base; [reflexivity|]); apply is_a_self.
  - induction 1 as [c|c b d Hb _ IH]; [now destruct c|]. destruct c; try discriminate Hb;
      injection Hb as <-; destruct d; (reflexivity || discriminate IH).
Qed.
Print Assumptions C13_class_tests.

Section Props.
Context {F : Type} {N : Num F}.
Notation prim := (prim F).

(** ** C12 *)
(** A polygon (or quadrilateral) built from the points [ps]. *)
Theorem C12_polygon_is_a_loop nxt v (ps : list prim) size poly n :
  mk_polygon nxt v (Some ps) size = Ok (poly, n) \/ mk_quad nxt v (Some ps) = Ok (poly, n) ->
  nkeys poly = map (fun i => ("Line" ++ dec i)%string) (seq 0 (length ps)) /\
  (forall i a b, nth_error ps i = Some a -> nth_error ps ((i + 1) mod length ps) = Some b ->
     exists line, get_child poly ("Line" ++ dec i) = Ok line /\ ntype line = TLine /\
       nch line = [("Point0", a); ("Point1", b)]) /\
  (forall i, i < length ps -> exists l1 l2 e,
     get_child poly ("Line" ++ dec i) = Ok l1 /\
     get_child poly ("Line" ++ dec ((i + 1) mod length ps)) = Ok l2 /\
     get_child l1 "Point1" = Ok e /\ get_child l2 "Point0" = Ok e).
Proof.
  intros [H|H]; [apply mk_polygon_Ok in H|apply mk_quad_Ok in H];
    destruct H as (value & m & -> & _); apply polygon_loop.
Qed.

(** ** C13 *)
(** Whatever a constructor returns satisfies the class's signature. *)
Theorem C13_returned_primitives_conform :
  (forall nxt v (p : prim) n, mk_point nxt v = Ok (p, n) -> ntype p = TPoint /\ conforms p) /\
  (forall nxt v ps (p : prim) n, mk_line nxt v ps = Ok (p, n) -> ntype p = TLine /\ conforms p) /\
  (forall nxt v ps size (p : prim) n, mk_polygon nxt v ps size = Ok (p, n) -> ntype p = TPolygon /\ conforms p) /\
  (forall nxt v ps (p : prim) n, mk_quad nxt v ps = Ok (p, n) -> ntype p = TQuad /\ conforms p) /\
  (forall nxt v ps x y tx ty (p : prim) n, mk_axes nxt v ps x y tx ty = Ok (p, n) -> ntype p = TAxes /\ conforms p).
Proof.
  exact (conj mk_point_conf (conj mk_line_conf (conj mk_polygon_conf (conj mk_quad_conf mk_axes_conf)))).
Qed.
(** The base constructor accepts exactly the conforming arguments. *)
Theorem C13_base_constructor t v (ch : dict prim) : t <> TNode ->
  (mk_primnode t v ch = Ok (Node t v ch) /\ conforms (Node t v ch)) \/
  ((mk_primnode t v ch = Err ValueErr \/ mk_primnode t v ch = Err AssertErr) /\ ~ conforms (Node t v ch)).
Proof. exact (mk_primnode_spec t v ch). Qed.
(** Which arguments are accepted: Point takes two numbers, Polygon any points, Line uses
    its first two primitives (surplus ones are ignored, [C13_line_surplus_ignored]).
    (Quadrilateral: C14; Axes: C15.) *)
Theorem C13_arguments :
  (forall nxt v, (exists p n, mk_point nxt v = Ok (p, n)) <-> length (val_data v [n0; n0]) = 2) /\
  (forall nxt v (ps : list prim), (exists p n, mk_line nxt v (Some ps) = Ok (p, n)) <->
      val_data v [] = [] /\ map (@ntype _ _) (firstn 2 ps) = [TPoint; TPoint]) /\
  (forall nxt v (ps : list prim) size, (exists p n, mk_polygon nxt v (Some ps) size = Ok (p, n)) <->
      val_data v [] = [] /\ Forall (fun p => ntype p = TPoint) ps).
Proof. exact (conj point_accepts (conj line_accepts polygon_accepts)). Qed.

(** ** C14 *)
Theorem C14_quad_takes_four nxt (ps : list prim) : Forall (fun p => ntype p = TPoint) ps ->
  ((exists q n, mk_quad nxt VNone (Some ps) = Ok (q, n)) <-> length ps = 4) /\
  (length ps <> 4 -> mk_quad nxt VNone (Some ps) = Err ValueErr).
Proof.
  intros H. pose proof (mk_quad_iff nxt ps H) as Hq. destruct (Nat.eqb_spec (length ps) 4) as [E|E].
  - split; [split; eauto|contradiction].
  - split; [split; [intros (q & n & Hc); rewrite Hq in Hc; discriminate|contradiction]|auto].
Qed.

(** ** C15 *)
Theorem C15_axes_default nxt x y tx ty : exists p n, mk_axes (F:=F) nxt VNone None x y tx ty = Ok (p, n) /\
  map (fun kc => (fst kc, ntype (snd kc))) (nch p) = axes_children x y tx ty.
Proof. exact (axes_default_ok nxt x y tx ty). Qed.
(** Supplied primitives: as many as there are requested children are used, in order
    (surplus ones are ignored, see [C15_surplus_ignored]); they are accepted exactly when
    they are a frame followed by (axis, label) pairs. *)
Theorem C15_axes_given nxt (ps : list prim) x y tx ty :
  let used := firstn (length (axes_children x y tx ty)) ps in
  ((exists p n, mk_axes nxt VNone (Some ps) x y tx ty = Ok (p, n)) <->
   (exists pairs, map (@ntype _ _) used = TQuad :: List.concat (List.repeat [TQuad; TPoint] pairs))) /\
  (forall p n, mk_axes nxt VNone (Some ps) x y tx ty = Ok (p, n) ->
     map snd (nch p) = used /\ map fst (nch p) = firstn (length ps) (map fst (axes_children x y tx ty))).
Proof.
  intros used. destruct (axes_given_any nxt ps x y tx ty) as [H1 H2]. split; [exact H1|].
  intros p n H. rewrite (H2 p n H). split; [|apply map_fst_zip_firstn].
  rewrite map_snd_zip_firstn, map_length. reflexivity.
Qed.
(** With the right number of primitives: exactly the requested children, or an error. *)
Theorem C15_axes_given_all nxt (ps : list prim) x y tx ty :
  length ps = length (axes_children x y tx ty) ->
  (map (@ntype _ _) ps = map snd (axes_children x y tx ty) ->
     exists p n, mk_axes nxt VNone (Some ps) x y tx ty = Ok (p, n) /\
       map (fun kc => (fst kc, ntype (snd kc))) (nch p) = axes_children x y tx ty /\ map snd (nch p) = ps) /\
  (map (@ntype _ _) ps <> map snd (axes_children x y tx ty) ->
     exists e, mk_axes nxt VNone (Some ps) x y tx ty = Err e).
Proof.
  intros Hl. pose proof (axes_given nxt ps x y tx ty Hl) as H. destruct (list_eq_dec _ _ _); split; intros; auto; contradiction.
Qed.

(** ** C16, C17 *)
Theorem C16_unique_values (root : prim) : wf root -> slashfree root -> ids_consistent root ->
  let (m, vals) := filter_unique root in
  dkeys m = map fst (iter_flat EmptyString root) /\
  (forall k n, In (k, n) (iter_flat EmptyString root) ->
     exists i, dget k m = Some i /\ nth_error vals i = Some (nval n)) /\
  (forall k1 n1 i1 k2 n2 i2, In (k1, n1) (iter_flat EmptyString root) -> In (k2, n2) (iter_flat EmptyString root) ->
     dget k1 m = Some i1 -> dget k2 m = Some i2 -> (i1 = i2 <-> vid (nval n1) = vid (nval n2))) /\
  NoDup (map vid vals) /\
  (forall v, In v vals -> exists k n, In (k, n) (iter_flat EmptyString root) /\ nval n = v).
Proof. exact (filter_spec root). Qed.

Theorem C17_rebuild_identity (root : prim) : wf root -> slashfree root -> ids_consistent root ->
  build_prim (flatten EmptyString root) (fst (filter_unique root)) (snd (filter_unique root)) = Ok root.
Proof. exact (rebuild_same root). Qed.
Theorem C17_rebuild_new_values (root : prim) values : wf root -> slashfree root ->
  length values = length (snd (filter_unique root)) ->
  exists new, build_prim (flatten EmptyString root) (fst (filter_unique root)) values = Ok new /\
    same_shape root new /\
    (forall p n, walk p root = Some n -> exists n' i, walk p new = Some n' /\ ntype n' = ntype n /\
        dget (path_key EmptyString p) (fst (filter_unique root)) = Some i /\
        nth_error values i = Some (nval n')) /\
    (forall p1 (n1 n1' : prim) p2 (n2 n2' : prim), walk p1 root = Some n1 -> walk p2 root = Some n2 ->
        walk p1 new = Some n1' -> walk p2 new = Some n2' ->
        vid (nval n1) = vid (nval n2) -> nval n1' = nval n2').
Proof. exact (rebuild_new root values). Qed.

(** ** C18 *)
(** The points exist (their arrays were allocated before [nxt]) and are distinct
    objects; [t] is any class the constructor gives the polygon. *)
Theorem C18_polygon_unknowns nxt (ps : list prim) size poly n :
  Forall (fun p => ntype p = TPoint /\ nch p = [] /\ length (vdata (nval p)) = 2 /\ vid (nval p) < nxt) ps ->
  NoDup (map (fun p => vid (nval p)) ps) ->
  mk_polygon nxt VNone (Some ps) size = Ok (poly, n) ->
  initial_global poly = List.concat (map (fun p => vdata (nval p)) ps) /\
  length (initial_global poly) = 2 * length ps.
Proof.
  intros Hp Hn H. assert (Ht : Forall (fun p : prim => ntype p = TPoint) ps).
  { eapply Forall_impl; [|exact Hp]. intros a Ha; apply Ha. }
  rewrite (mk_polygon_ok nxt ps size Ht) in H. inversion H; subst. exact (polygon_dof TPolygon nxt ps Hp Hn).
Qed.

(** ** C19 *)
Theorem C19_pack_unpack (values : list (pv F)) :
  slices values (global_of values) = map vdata values /\
  (forall g, length g = length (global_of values) ->
     List.concat (slices values g) = g /\ map (@length F) (slices values g) = map (fun v => length (vdata v)) values).
Proof. exact (pack_unpack values). Qed.
End Props.

(** ** C30 *)
Theorem C30_chunk {A} (l : list A) sizes : 
  length (chunk l sizes) = length sizes /\
  (fold_right Nat.add 0 sizes = length l ->
   List.concat (chunk l sizes) = l /\ map (@length A) (chunk l sizes) = sizes).
Proof.
  unfold chunk. rewrite chunk_cut. exact (conj (cut_length l sizes) (cut_spec l sizes)).
Qed.

(** ** Refutations and cases, over the rationals *)
Definition pt (i : nat) (x y : Q) : prim Q := Node TPoint {| vid := i; vdata := [x; y] |} [].
Definition tri : list (prim Q) := [pt 1 0 0; pt 2 1 0; pt 3 0 1].

(** A Line of three points is accepted. *)
Theorem C13_line_surplus_ignored : exists l n, mk_line 9 (VNone (F:=Q)) (Some tri) = Ok (l, n).
Proof. exact (ex_intro _ _ (ex_intro _ _ eq_refl)). Qed.
(** [Axes(prims=(quad, quad, point))] with both axes off is accepted and drops two of
    the given primitives. *)
Theorem C15_surplus_ignored : exists q n a m, mk_quad (F:=Q) 0 VNone None = Ok (q, n) /\
  mk_axes n VNone (Some [q; q; pt 1 0 0]) false false false false = Ok (a, m) /\
  map (fun kc => (fst kc, ntype (snd kc))) (nch a) = [("Frame", TQuad)].
Proof. do 4 eexists. split; [|split]; [cbv; reflexivity|cbv; reflexivity|reflexivity]. Qed.

Example C12_case : exists p n, mk_polygon 9 (VNone (F:=Q)) (Some tri) 3 = Ok (p, n) /\
  nkeys p = ["Line0"; "Line1"; "Line2"].
Proof. do 2 eexists. split; reflexivity. Qed.
Example C13_case : mk_line 9 (VNone (F:=Q)) (Some [pt 1 0 0]) = Err ValueErr /\
  mk_point 9 (VSeq [0%Q]) = Err AssertErr /\ (exists p n, mk_point 9 (VSeq [1%Q; 2%Q]) = Ok (p, n)).
Proof. split; [reflexivity|]. split; [reflexivity|]. do 2 eexists. reflexivity. Qed.
Example C14_case : mk_quad 9 (VNone (F:=Q)) (Some tri) = Err ValueErr /\ Forall (fun p => ntype p = TPoint) tri.
Proof. split; [reflexivity|repeat constructor]. Qed.
Example C15_case : axes_children true true false true =
  [("Frame", TQuad); ("XAxis", TQuad); ("XAxisLabel", TPoint); ("YAxis", TQuad); ("YAxisLabel", TPoint);
   ("TwinYAxis", TQuad); ("TwinYAxisLabel", TPoint)].
Proof. reflexivity. Qed.
Definition tri_poly : prim Q := Node TPolygon {| vid := 9; vdata := [] |} (poly_dict 10 tri).
Example C16_case : mk_polygon 9 (VNone (F:=Q)) (Some tri) 3 = Ok (tri_poly, 13) /\
  wf tri_poly /\ slashfree tri_poly /\ ids_consistent tri_poly /\
  length (preorder tri_poly) = 10 /\ length (snd (filter_unique tri_poly)) = 7.
Proof.
  split; [reflexivity|]. destruct (poly_wf TPolygon {| vid := 9; vdata := [] |} 10 tri) as [Hw Hs]; [repeat constructor|].
  split; [exact Hw|]. split; [exact Hs|]. split; [|split; reflexivity].
  intros a b Ha Hb Hid. change (node_values tri_poly) with (map (@nval ptype (pv Q)) (preorder tri_poly)) in *.
  cbn in Ha, Hb. repeat destruct Ha as [<-|Ha]; try contradiction;
    repeat destruct Hb as [<-|Hb]; try contradiction; cbn in Hid; (reflexivity || discriminate).
Qed.
Example C18_case : Forall (fun p : prim Q => ntype p = TPoint /\ nch p = [] /\ length (vdata (nval p)) = 2 /\ vid (nval p) < 9) tri /\
  NoDup (map (fun p : prim Q => vid (nval p)) tri) /\ initial_global tri_poly = [0; 0; 1; 0; 0; 1]%Q.
Proof. repeat split; repeat constructor; cbn; try lia; intuition lia. Qed.
Example C30_case : chunk [1; 2; 3; 4] [1; 3] = [[1]; [2; 3; 4]].
Proof. reflexivity. Qed.

Print Assumptions C12_polygon_is_a_loop.
Print Assumptions C13_returned_primitives_conform.
Print Assumptions C13_base_constructor.
Print Assumptions C13_arguments.
Print Assumptions C14_quad_takes_four.
Print Assumptions C15_axes_default.
Print Assumptions C15_axes_given.
Print Assumptions C15_axes_given_all.
Print Assumptions C16_unique_values.
Print Assumptions C17_rebuild_identity.
Print Assumptions C17_rebuild_new_values.
Print Assumptions C18_polygon_unknowns.
Print Assumptions C19_pack_unpack.
Print Assumptions C30_chunk.
Print Assumptions C13_line_surplus_ignored.
Print Assumptions C15_surplus_ignored.
