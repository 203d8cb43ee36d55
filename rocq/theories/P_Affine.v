(** C60: layouts of affine constraints are solved in one step. *)
From Coq Require Import Reals Lra.
From Verif Require Export AffineLayout AllocProofs P_Converged.
Local Open Scope R_scope.
Local Open Scope nat_scope.

Notation prim := (prim R).
Notation cons := (cons R).
Notation layout := (layout R).

(** The constraints with affine residuals: those of the list [affine_shipped] in
    AffineList.v, and margin arrays of every length. *)
Definition affine_constraint (c : cons) : Prop := In (Ok c) affine_shipped \/ exists n side, In side sides /\ OuterMarginArray n side = Ok c.

Lemma affine_constraint_ok c : affine_constraint c -> affine_cons c.
Proof.
  intros [H|(n & side & _ & H)]; [|eapply array_affine; eassumption]. pose proof affine_shipped_affine as M. rewrite Forall_forall in M. now apply (M _ H).
Qed.

Lemma affine_constraint_tidy c : affine_constraint c -> wf c /\ slashfree c.
Proof.
  assert (S : forallb (fun rc => match rc with Ok c => tidyb c | Err _ => true end) affine_shipped = true) by (vm_compute; reflexivity). rewrite forallb_forall in S.
  intros [H|(n & side & Hs & H)]; [apply S, tidyb_ok in H as (H1 & H2 & _); now split|].
  apply array_slim in H as [(H1 & H2 & _) _]; [now split|]. revert Hs. unfold sides. cbn [In]. tauto.
Qed.

(** Any history of calls (failing ones included) of well-formed primitives with arrays of
    one store, and of affine constraints.  If some tree of the same structure satisfies
    all constraints, Newton's method with a backend that solves the linear systems returns
    primitives that satisfy all constraints exactly, whatever the tolerances. *)
Theorem C60_affine_layouts rid (acts : list (action R)) L n :
  pool L n -> In {| vid := rid; vdata := [] |} L ->
  Forall (fun a => Forall (drawn L) (given_prims a) /\ Forall affine_constraint (given_cons a)) acts ->
  let l := after (empty_layout rid) acts in
  forall q z, same_structure (l_prim l) q -> ids_consistent q -> layout_residual l q = Ok z -> zeros z ->
  forall step, solves_linear_systems (length (initial_global (l_prim l))) (global_res l) step ->
  forall abs_tol rel_tol max_iter, 1 <= max_iter ->
  exists p info z', solve_newton step l abs_tol rel_tol max_iter = Ok (p, info) /\
    layout_residual l p = Ok z' /\ zeros z'.
Proof.
  intros [Hp _] Hr Ha l q z Hq Hiq Ez Hz step Hst abs_tol rel_tol max_iter Hm.
  assert (Hsane : sane_layout l).
  { apply after_sane; [apply empty_sane|]. eapply Forall_impl; [|exact Ha]. intros a [H1 H2]. split.
    - eapply Forall_impl; [|exact H1]. intros p H. apply H.
    - eapply Forall_impl; [|exact H2]. exact affine_constraint_tidy. }
  destruct Hsane as ([Hw Hs] & _).
  assert (Hi : ids_consistent (l_prim l)).
  { assert (G : forall w, In w (held (l_prim l)) -> In w L).
    { intros w Hw'. apply after_held in Hw' as [Hw'|(a & p & H1 & H2 & H3)].
      - destruct Hw' as [<-|[]]. exact Hr.
      - rewrite Forall_forall in Ha. destruct (Ha a H1) as [Ha' _]. rewrite Forall_forall in Ha'. now apply (Ha' p H2). }
    intros a b H1 H2. apply Hp; now apply G. }
  assert (Hc : Forall affine_cls (kinds (l_cons l))).
  { apply Forall_forall. intros t Ht. apply after_kinds in Ht as [[<-|[]]|(a & c & H1 & H2 & H3)].
    - apply const_affine. intros al bl ps. reflexivity.
    - rewrite Forall_forall in Ha. destruct (Ha a H1) as [_ Ha']. rewrite Forall_forall in Ha'. pose proof (Ha' c H2) as Hac. apply affine_constraint_ok in Hac.
      unfold affine_cons in Hac. unfold kinds in H3. apply in_map_iff in H3 as (m & <- & Hmm). rewrite Forall_forall in Hac. now apply Hac. }
  destruct (affine_layout l q z Hw Hs Hi Hc Hq Hiq Ez) as (Haff & gs & Hgs & Egs).
  eapply affine_solve; eassumption.
Qed.

(** A figure: a quadrilateral fixed at the origin, a box of width 3 and height 4. *)
Definition quad60 : prim := match mk_quad (F:=R) 1 VNone None with Ok (p, _) => p | Err _ => Node TPrimNode {| vid := 0; vdata := [] |} [] end.
Definition acts60 : list (action R) :=
  [AddPrim quad60 "Q"; AddConstraint (ok_cons Box) ["Q"%string] [] "B"; AddConstraint (ok_cons crFix) ["Q/Line0/Point0"%string] [PA1 [0%R;0%R]] "F";
   AddConstraint (ok_cons crWidth) ["Q"%string] [PFlt 3%R] "W"; AddConstraint (ok_cons crHeight) ["Q"%string] [PFlt 4%R] "H"].
Definition l60 : layout := after (empty_layout 0) acts60.
Lemma runs60 : runs (empty_layout 0) acts60 l60.
Proof. apply all_ok_runs. vm_compute. reflexivity. Qed.
Local Open Scope R_scope.
Lemma res60 a b c d e f g h : global_res l60 [a;b;c;d;e;f;g;h] = Ok [d - b; h - f; a - g; e - c; a; b; c - a - 3; f - d - 4].
Proof.
  transitivity (Ok [(c - a) * 0 + ((d - b) * 1 + 0); (g - e) * 0 + ((h - f) * 1 + 0); (a - g) * 1 + ((b - h) * 0 + 0); (e - c) * 1 + ((f - d) * 0 + 0);
     a + -1 * 0; b + -1 * 0; (c - a) * 1 + ((d - b) * 0 + 0) + -1 * (3 * 1); (e - c) * 0 + ((f - d) * 1 + 0) + -1 * (4 * 1)]).
  - lazy -[IZR Rplus Rminus Rmult Ropp Rlt_dec Req_EM_T Rdiv sqrt]. reflexivity.
  - do 2 f_equal; [lra|]. f_equal; [lra|]. f_equal; [lra|]. f_equal; [lra|]. f_equal; [lra|]. f_equal; [lra|]. f_equal; [lra|]. f_equal; lra.
Qed.
Lemma eight_list {A} (d : list A) : length d = 8%nat -> exists a b c e f g h i, d = [a; b; c; e; f; g; h; i].
Proof. do 8 (destruct d as [|? d]; [discriminate|]). destruct d; [|discriminate]. intros _. repeat eexists. Qed.
(** The linear system solved by hand. *)
Definition step60 (g r : list R) : result (list R) :=
  match r with
  | [b; t; l; r; x; y; w; h] => Ok [-x; -y; -x - w; -y - b; -x - w - r; -y - b - h; -x + l; -y - b - h - t]
  | _ => Err ValueErr
  end.
Lemma ok_of (rc : result cons) : (if rc then true else false) = true -> rc = Ok (ok_cons rc).
Proof. destruct rc; [reflexivity|discriminate]. Qed.
Lemma affine60 : forall rc, In rc [Box; crFix; crWidth; crHeight] -> affine_constraint (ok_cons rc).
Proof.
  intros rc H. left. rewrite <- ok_of.
  - unfold affine_shipped. apply in_or_app. right. apply in_or_app. left. cbn [In] in *. tauto.
  - assert (G : forallb (fun rc : result cons => if rc then true else false) [Box; crFix; crWidth; crHeight] = true) by (vm_compute; reflexivity). rewrite forallb_forall in G. now apply G.
Qed.
Definition goal60 : prim := new_tree (l_prim l60) [0; 0; 3; 0; 3; 4; 0; 4].
Example C60_case : exists L n,
  pool L n /\ In {| vid := 0; vdata := [] |} L /\
  Forall (fun a => Forall (drawn L) (given_prims a) /\ Forall affine_constraint (given_cons a)) acts60 /\
  runs (empty_layout 0) acts60 l60 /\
  (exists z, same_structure (l_prim l60) goal60 /\ ids_consistent goal60 /\ layout_residual l60 goal60 = Ok z /\ zeros z) /\
  solves_linear_systems (length (initial_global (l_prim l60))) (global_res l60) step60.
Proof.
  assert (P0 : pool (F:=R) [{| vid := 0; vdata := [] |}] 1).
  { split; cbn; [intros a b [<-|[]] [<-|[]]; reflexivity|intros a [<-|[]]; cbn; lia]. }
  destruct (quad_built [{| vid := 0; vdata := [] |}] 1 VNone None quad60 10) as (L & (M1 & M2 & M3) & Hsn & Hq); [exact P0|exact I|exact I|vm_compute; reflexivity|].
  exists (L ++ [{| vid := 0; vdata := [] |}])%list, 10%nat. split; [exact M1|]. split; [apply in_or_app; right; now left|].
  assert (Hd : drawn (L ++ [{| vid := 0; vdata := [] |}])%list quad60) by (split; assumption).
  split; [|split; [exact runs60|split]].
  - unfold acts60. repeat (apply Forall_cons; [split; cbn [given_prims given_cons]; repeat (apply Forall_cons; [first [exact Hd | apply affine60; cbn [In]; tauto]|]); apply Forall_nil|]). apply Forall_nil.
  - assert (G : wf (l_prim l60) /\ slashfree (l_prim l60) /\ ids_consistent (l_prim l60)).
    { assert (S : sane_layout l60). { apply after_sane; [apply empty_sane|]. unfold acts60. repeat (apply Forall_cons; [split; cbn [given_prims given_cons]; repeat (apply Forall_cons; [first [exact Hsn | apply affine_constraint_tidy, affine60; cbn [In]; tauto]|]); apply Forall_nil|]). apply Forall_nil. }
      destruct S as ([S1 S2] & _). split; [exact S1|]. split; [exact S2|]. intros x y Hx Hy. vm_compute in Hx, Hy. intros E. intuition (subst; cbn in E; try discriminate; reflexivity). }
    destruct G as (G1 & G2 & G3). exists [0 - 0; 4 - 4; 0 - 0; 3 - 3; 0; 0; 3 - 0 - 3; 4 - 0 - 4]. split; [apply new_structure; try assumption; reflexivity|]. split; [|split].
    + intros x y Hx Hy. vm_compute in Hx, Hy. intros E. intuition (subst; cbn in E; try discriminate; reflexivity).
    + pose proof (res60 0 0 3 0 3 4 0 4) as E. unfold global_res in E. rewrite tree_of_global_ok in E by assumption. exact E.
    + repeat (apply Forall_cons; [lra|]). apply Forall_nil.
  - intros g r Hg Er _. apply eight_list in Hg as (a & b & c & d & e & f & u & v & ->). rewrite res60 in Er. injection Er as <-.
    eexists. split; [reflexivity|]. split; [reflexivity|]. cbn [map]. eexists 1, (fun t => _). split; [lra|]. split.
    + intros t _. unfold shifted. cbn [map zip fst snd]. split; [apply res60|reflexivity].
    + assert (Lin : forall A B (h : R -> R), (forall t, h t = A + t * B) -> derivable_pt_lim h 0 B).
      { intros A B h Hh. apply (limit_local (fun t => A + t * B) h 0 1); [lra|intros; symmetry; apply Hh|apply limit_line]. }
      intros i. destruct i as [|[|[|[|[|[|[|[|i]]]]]]]]; cbn [nth].
      9: destruct i; apply derivable_pt_lim_const.
      * apply (Lin (d - b)). intros; lra.
      * apply (Lin (v - f)). intros; lra.
      * apply (Lin (a - u)). intros; lra.
      * apply (Lin (e - c)). intros; lra.
      * apply (Lin a). intros; lra.
      * apply (Lin b). intros; lra.
      * apply (Lin (c - a - 3)). intros; lra.
      * apply (Lin (f - d - 4)). intros; lra.
Qed.

Print Assumptions C60_affine_layouts.
