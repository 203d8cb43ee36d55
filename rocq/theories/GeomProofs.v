(** Values of the shipped single-node constructions over the reals. *)
From Coq Require Import Reals Lra.
From Verif Require Export GeomSpec ConsSpec.
Local Open Scope R_scope.
Notation prim := (prim R).
Notation pyval := (pyval R).
Notation cons := (cons R).

(** ** Leaves *)
Lemma fits_leaf name s f (params : list pyval) : length params = nparams s -> fits (mk_leaf name s f) params.
Proof.
  intros H. constructor; cbn; auto.
  - intros [|i] k c ks Hx; discriminate.
  - intros cps Hc. inversion Hc; subst. split; [cbn; lia|]. intros [|i] k c ks Hx; discriminate.
Qed.
Lemma wf_leaf name s (f : list prim -> list pyval -> result pyval) : wf (mk_leaf name s f).
Proof. constructor; constructor. Qed.
Lemma named_leaf name s (f : list prim -> list pyval -> result pyval) : named (mk_leaf name s f).
Proof. constructor; [exact (fun x => x)|constructor]. Qed.

(** [f prims params] has the value [o]. *)
Definition leaf_value (f : list prim -> list pyval -> result pyval) prims params (o : list R) : Prop :=
  exists x, f prims params = Ok x /\ atleast_1d x = Ok o.
Lemma denote_leaf name s f prims params o : leaf_value f prims params o -> denote (mk_leaf name s f) prims params = Ok [o].
Proof.
  intros (x & H1 & H2). unfold mk_leaf. rewrite denote_unfold. unfold assem1. cbn [cassem]. rewrite H1. cbn [bind]. rewrite H2. reflexivity.
Qed.
Lemma types_not_node (prims : list prim) ts : Forall2 (fun p t => issubclass (ntype p) t = true) prims ts -> ~ In TNode ts ->
  Forall (fun p => ntype p <> TNode) prims.
Proof.
  induction 1 as [|p t prims ts H _ IH]; intros Hn; constructor.
  - intros E. rewrite E in H. destruct t; cbn in H; try discriminate. apply Hn. now left.
  - apply IH. intros Hi. apply Hn. now right.
Qed.
Lemma call_leaf name s f prims params o :
  Forall2 (fun p t => issubclass (ntype p) t = true) prims (prim_types s) -> ~ In TNode (prim_types s) ->
  length params = nparams s -> leaf_value f prims params o -> call (mk_leaf name s f) prims params = Ok o.
Proof.
  intros H1 H2 H3 H4. rewrite <- (app_nil_r o). change (o ++ []) with (List.concat [o]). apply call_denote.
  - now apply (types_not_node _ (prim_types s)).
  - split; assumption.
  - now apply denote_leaf.
Qed.
(** The constraint derived from a leaf. *)
Lemma call_leaf_constraint name s f prims params o t l :
  Forall2 (fun p t => issubclass (ntype p) t = true) prims (prim_types s) -> ~ In TNode (prim_types s) ->
  length params = nparams s -> leaf_value f prims params o ->
  atleast_1d t = Ok l -> length l = length o ->
  exists k, transform_constraint (mk_leaf name s f) = Ok k /\
    call k prims (params ++ [t]) = Ok (map (fun yx => fst yx - snd yx) (zip o l)).
Proof.
  intros H1 H2 H3 H4 H5 H6. apply constraint_leaf; auto.
  - now apply fits_leaf.
  - now apply (types_not_node _ (prim_types s)).
  - now apply call_leaf.
Qed.

(** ** Values *)
Ltac open_at := repeat match goal with
  | H : point_at ?p _ |- _ => let i := fresh "i" in let ch := fresh "ch" in destruct H as (i & ch & ->)
  | H : line_at ?p _ _ |- _ => let v := fresh "v" in let a := fresh "a" in let b := fresh "b" in destruct H as (v & a & b & -> & ? & ?)
  | H : quad_at ?p _ _ _ _ |- _ => let v := fresh "v" in let l0 := fresh "l" in let l1 := fresh "l" in let l2 := fresh "l" in let l3 := fresh "l" in
       destruct H as (v & l0 & l1 & l2 & l3 & -> & ? & ? & ? & ?)
  end.

Lemma coordinate_value p P : point_at p P -> leaf_value coordinate_assem [p] [] [fst P; snd P].
Proof. intros Hp. open_at. eexists. split; reflexivity. Qed.
Section Values.
  Variables (p q : prim) (P Q : pt).
  Hypothesis Hp : point_at p P.
  Hypothesis Hq : point_at q Q.

  Lemma directed_distance_value d : directed_distance [p; q] (PA1 [fst d; snd d]) = Ok (PA0 (inner (vec P Q) d)).
  Proof. open_at. cbn. do 2 f_equal. unfold inner, vec; cbn. ring. Qed.
  Lemma coincident_value : coincident p q = Ok [fst Q - fst P; snd Q - snd P].
  Proof. open_at. reflexivity. Qed.
End Values.

Section LineValues.
  Variables (l : prim) (P Q : pt).
  Hypothesis Hl : line_at l P Q.

  Lemma line_vector_value : line_vector l = Ok [fst (vec P Q); snd (vec P Q)].
  Proof. open_at. reflexivity. Qed.
  Lemma norm_value u : norm [fst u; snd u] = Ok (len u).
  Proof.
    unfold norm. cbn [map nsum fold_right nsqrt NumR nmul nadd]. unfold Rsqrt_r, n0. cbn [nofZ NumR].
    replace (fst u * fst u + (snd u * snd u + IZR 0)) with (inner u u) by (unfold inner; cbn; ring).
    destruct (Rlt_dec (inner u u) 0) as [H|]; [|reflexivity]. exfalso. unfold inner in H.
    pose proof (Rle_0_sqr (fst u)). pose proof (Rle_0_sqr (snd u)). unfold Rsqr in *. lra.
  Qed.
  Lemma line_length_value : line_length l = Ok (len (vec P Q)).
  Proof. unfold line_length. rewrite line_vector_value. cbn [bind]. apply norm_value. Qed.
  Lemma directed_length_value d : directed_length [l] (PA1 [fst d; snd d]) = Ok (PA0 (inner (vec P Q) d)).
  Proof.
    unfold directed_length. rewrite line_vector_value. cbn. do 2 f_equal. unfold inner; cbn. ring.
  Qed.
  Lemma midpoint_value : midpoint l = Ok [fst (mid P Q); snd (mid P Q)].
  Proof.
    open_at. unfold midpoint, nhalf. cbn [ndiv NumR]. unfold Rdiv_r, n1. cbn [nofZ NumR].
    destruct (Req_EM_T 2 0) as [H|_]; [lra|]. cbn [bind]. cbn. unfold mid, n1; cbn. f_equal. f_equal; [|f_equal]; field.
  Qed.
  Lemma unit_line_vector_value : len (vec P Q) <> 0 ->
    unit_line_vector l = Ok [fst (vec P Q) / len (vec P Q); snd (vec P Q) / len (vec P Q)].
  Proof.
    intros H. unfold unit_line_vector. rewrite line_vector_value. cbn [bind]. rewrite norm_value. cbn [bind mapM ndiv NumR].
    unfold Rdiv_r. destruct (Req_EM_T (len (vec P Q)) 0); [contradiction|]. reflexivity.
  Qed.
  Lemma line_point0 : exists a, get_child l "Point0" = Ok a /\ get_int l 0 = Ok a /\ point_at a P.
  Proof. destruct Hl as (v & a & b & -> & Ha & _). exists a. repeat split; auto. Qed.
  Lemma line_point1 : exists b, get_child l "Point1" = Ok b /\ point_at b Q.
  Proof. destruct Hl as (v & a & b & -> & _ & Hb). exists b. repeat split; auto. Qed.
End LineValues.

Lemma len_pos u : 0 <= len u.
Proof. apply sqrt_pos. Qed.
Lemma len_zero u : len u = 0 <-> u = (0, 0).
Proof.
  unfold len, inner. destruct u as [x y]; cbn. pose proof (Rle_0_sqr x). pose proof (Rle_0_sqr y). unfold Rsqr in *. split.
  - intros H1. apply sqrt_eq_0 in H1; [|lra]. assert (x * x = 0) by lra. assert (y * y = 0) by lra.
    f_equal; [now apply Rmult_integral in H2 as []|now apply Rmult_integral in H3 as []].
  - intros E. inversion E; subst. replace (0*0+0*0) with 0 by ring. apply sqrt_0.
Qed.
Lemma len_sqr u : len u * len u = inner u u.
Proof. apply sqrt_sqrt. unfold inner. pose proof (Rle_0_sqr (fst u)). pose proof (Rle_0_sqr (snd u)). unfold Rsqr in *. lra. Qed.
