(** Layouts on unit squares: linearisation of the whole residual at the start. *)
From Coq Require Import Reals Lra.
From Verif Require Import P_Station P_Implied BackendLocal BackendOrder EndProofs P_End AffineLayout P_Expr.
From Verif Require Export OneStep OneStepSpec.
From Verif Require Import P_Affine.
Local Open Scope R_scope.

(** ** Boxes of trees with the same numbers *)
Lemma corners (q : prim) P0 P1 P2 P3 : quad_at q P0 P1 P2 P3 ->
  option_map (fun n => vdata (nval n)) (walk ["Line0"; "Point0"]%string q) = Some [fst P0; snd P0] /\
  option_map (fun n => vdata (nval n)) (walk ["Line1"; "Point0"]%string q) = Some [fst P1; snd P1] /\
  option_map (fun n => vdata (nval n)) (walk ["Line2"; "Point0"]%string q) = Some [fst P2; snd P2] /\
  option_map (fun n => vdata (nval n)) (walk ["Line3"; "Point0"]%string q) = Some [fst P3; snd P3].
Proof.
  intros (v & l0 & l1 & l2 & l3 & -> & (v0 & a0 & b0 & -> & (? & ? & ->) & _) & (v1 & a1 & b1 & -> & (? & ? & ->) & _) & (v2 & a2 & b2 & -> & (? & ? & ->) & _) & (v3 & a3 & b3 & -> & (? & ? & ->) & _)).
  repeat split; reflexivity.
Qed.
Lemma box_numbers (p p' : prim) Q q q' l b r t P0 P1 P2 P3 : same_numbers p p' -> get_child p Q = Ok q -> box_at q l b r t -> get_child p' Q = Ok q' -> quad_at q' P0 P1 P2 P3 -> box_at q' l b r t.
Proof.
  intros Hn E H E' H'. rewrite get_child_walk in E, E'. destruct (walk (split_all Q) p) as [x|] eqn:W; [|discriminate]. injection E as ->. destruct (walk (split_all Q) p') as [x|] eqn:W'; [|discriminate]. injection E' as ->.
  destruct (corners _ _ _ _ _ H) as (A0 & A1 & A2 & A3), (corners _ _ _ _ _ H') as (B0 & B1 & B2 & B3).
  assert (S : forall path, option_map (fun n : prim => vdata (nval n)) (walk path q) = option_map (fun n => vdata (nval n)) (walk path q')).
  { intros path. pose proof (Hn (split_all Q ++ path)%list) as X. rewrite !walk_app, W, W' in X. exact X. }
  rewrite S in A0, A1, A2, A3. rewrite B0 in A0. rewrite B1 in A1. rewrite B2 in A2. rewrite B3 in A3. destruct P0, P1, P2, P3. cbn [fst snd] in *. injection A0 as -> ->. injection A1 as -> ->. injection A2 as -> ->. injection A3 as -> ->. exact H'.
Qed.

Section Layout.
  Context (rid : nat) (tw : bool) (acts : list (action R)) (l : layout) (Hr : runs (empty_layout rid) acts l) (Hsh : Forall (shipped_act tw) acts) (Hk : Forall top_key acts).
  Context (Hw : wf (l_prim l)) (Hs : slashfree (l_prim l)) (Hi : ids_consistent (l_prim l)).
  Notation root := (l_prim l).
  Notation n := (length (initial_global (l_prim l))).
  Notation g0 := (initial_global (l_prim l)).
  Context (gq : list R) (Hq : length gq = n).
  Context (Hup : forall Q, boxed_square acts l Q -> upright (new_tree root gq) Q).
  Notation tree := (fun g => new_tree root g).
  Definition square (Q : string) : family := child_of tree Q.
  Definition straight (g : list R) : Prop := forall Q, boxed_square acts l Q -> straight_quad (square Q g).
  Notation fam := (fam n g0 gq straight).
  Lemma tree_blended : blended n tree.
  Proof. intros s g h Hg Hh. now apply new_blend. Qed.
  Lemma square_child Q : boxed_square acts l Q -> forall g, length g = n -> get_child (new_tree root g) Q = Ok (square Q g).
  Proof. intros H g Hg. destruct (Hup Q H) as (q & a & b & r & t & E & _). exact (proj2 (child_blended n gq Hq tree Q q tree_blended E) g Hg). Qed.
  Lemma square_quad Q : boxed_square acts l Q -> forall g, length g = n -> exists P0 P1 P2 P3, quad_at (square Q g) P0 P1 P2 P3.
  Proof.
    intros H g Hg. destruct (quad_moved root (new_tree root g) Q) as (q & P0 & P1 & P2 & P3 & E & Hq4); [now apply new_structure|now apply new_ids|apply H|].
    rewrite (square_child Q H g Hg) in E. injection E as ->. eauto.
  Qed.
  Lemma square_fam Q : boxed_square acts l Q -> fam Square (square Q).
  Proof.
    intros H. destruct (Hup Q H) as (q & a & b & r & t & E & Hb & Hlr & Hbt). split; [exact (proj1 (child_blended n gq Hq tree Q q tree_blended E))|]. split; [now apply square_quad|]. split; [|split].
    - destruct H as (H1 & (q0 & E0 & B0) & H3). assert (H : boxed_square acts l Q) by (split; [exact H1|split; eauto]). destruct (square_quad Q H g0 eq_refl) as (P0 & P1 & P2 & P3 & Hs4).
      eapply (box_numbers root (new_tree root g0) Q); [now apply new_numbers|exact E0|exact B0|now apply square_child|exact Hs4].
    - intros g _ St. now apply St.
    - exists a, b, r, t. rewrite (square_child Q H gq Hq) in E. injection E as ->. auto.
  Qed.
  (** What keys select. *)
  Definition names (key : string) (K : kind) : Prop := exists P, fam K P /\ forall g, length g = n -> get_child (new_tree root g) key = Ok (P g).
  Lemma names_square Q : boxed_square acts l Q -> names Q Square.
  Proof. intros H. exists (square Q). split; [now apply square_fam|now apply square_child]. Qed.
  Lemma names_edge Q j : boxed_square acts l Q -> (j < 4)%nat -> names (edge Q (side_name j)) (Side j).
  Proof.
    intros H Hj. destruct (side_fam n g0 gq eq_refl Hq straight (square Q) j Hj (square_fam Q H)) as [F G]. exists (child_of (square Q) (side_name j)). split; [exact F|]. intros g Hg.
    apply (get_child_app (new_tree root g) Q (side_name j) (square Q g)); [now apply square_child|now apply G].
  Qed.
  Lemma side_number side : In side side_names -> exists j, (j < 4)%nat /\ side = side_name j.
  Proof. unfold side_names. cbn [In]. intros [<-|[<-|[<-|[<-|[]]]]]; [exists 0%nat|exists 1%nat|exists 2%nat|exists 3%nat]; split; try lia; reflexivity. Qed.
  Lemma names_all ks Ks : Forall2 names ks Ks -> exists Ps, Forall2 fam Ks Ps /\ forall g, length g = n -> mapM (get_child (new_tree root g)) ks = Ok (at_ Ps g).
  Proof.
    induction 1 as [|k K ks Ks (P & F & E) _ (Ps & Fs & Es)]; [exists []; split; [constructor|reflexivity]|]. exists (P :: Ps). split; [now constructor|]. intros g Hg. cbn [mapM]. rewrite (E g Hg), (Es g Hg). reflexivity.
  Qed.
  (** ** One request *)
  Definition req (x : cons * list string * list (pyval R)) (g : list R) : result (list R) :=
    let '(c, ks, ps) := x in prims <- mapM (get_child (new_tree root g)) ks ;; flat c prims ps.
  Lemma plain_handles c ks ps : plain_request acts l c ks ps -> affine_cons c \/ exists Ks, Forall2 names ks Ks /\ handles Ks c ps.
  Proof.
    intros [c' ks' ps' H|Q Q' side H H' Hsd|c' Q Q' side side' v k Ec H H' Hsd Hsd' Hv|c' Q side v k Ec H Hsd Hv|c' Q Q' Ec H H'|r m c' Qs Ec H HL|r m c' Qs v1 v2 v3 v4 ws hs L1 L2 Ec H HL N1 N2 M1 M2].
    - left. now apply affine_constraint_ok.
    - right. destruct (side_number _ Hsd) as (j & Hj & ->). exists [Side j; Side j]. split; [repeat constructor; now apply names_edge|apply h_collinear].
    - right. destruct (side_number _ Hsd) as (j & Hj & ->), (side_number _ Hsd') as (j' & Hj' & ->). exists [Side j; Side j']. split; [repeat constructor; now apply names_edge|eapply h_ratio; [exact Ec|apply Hv]].
    - right. destruct (side_number _ Hsd) as (j & Hj & ->). exists [Side j]. split; [repeat constructor; now apply names_edge|eapply h_length; [exact Ec|apply Hv]].
    - right. exists [Square; Square]. split; [repeat constructor; now apply names_square|]. destruct Ec as [Ec|Ec]; [apply (handles_align true); exact Ec|apply (handles_align false); exact Ec].
    - right. exists (List.repeat Square (r * m)). split; [|now apply handles_rectilinear]. rewrite <- HL. clear -H Hup Hq Hw Hs Hi. induction H; cbn; constructor; auto. now apply names_square.
    - right. exists (List.repeat Square (r * m)). split; [rewrite <- HL; clear -H Hup Hq Hw Hs Hi; induction H; cbn; constructor; auto; now apply names_square|].
      assert (T : forall v xs, numbers v xs -> py_tuple v = Ok (map PFlt xs)) by (intros v xs [->| ->]; reflexivity).
      eapply handles_grid; try eassumption; now apply T.
  Qed.
  Definition easy_or_straight (x : cons * list string * list (pyval R)) (g : list R) : Prop := affine_cons (fst (fst x)) \/ straight g.
  Lemma affine_met x m : affine_cons (fst (fst x)) -> met (req x) gq -> tangent n g0 (req x) m -> forall g, length g = n -> zeros (m g) -> met (req x) g.
  Proof.
    destruct x as [[c ks] ps]. cbn [fst]. intros Ha Hm T g Hg Hz.
    assert (Tri : forall s g h, length g = n -> length h = n -> tri s (req (c, ks, ps) g) (req (c, ks, ps) h) (req (c, ks, ps) (mix s g h))).
    { clear g Hg Hz. intros s g h Hg Hh r E. unfold req in *. inv_bind E. destruct (lookups_blend s _ _ _ (tree_blended s g h Hg Hh) ks x E0) as (q2 & q3 & -> & -> & A). cbn [bind]. exact (denote_tri s c Ha x q2 q3 ps A r E). }
    assert (A : affine n (req (c, ks, ps))).
    { destruct Hm as (z & Ez & _). assert (K : forall g, length g = n -> exists r, req (c, ks, ps) g = Ok r) by (intros h Hh; destruct (Tri 0 gq h Hq Hh z Ez) as (r & E & _); eauto).
      intros s h1 h2 L1 L2. destruct (K h1 L1) as [a Ea]. destruct (Tri s h1 h2 L1 L2 a Ea) as (b & Eb & L & Em). exists a, b. auto. }
    destruct T as (Am & E0 & D). assert (Ld : length (minus g g0) = n) by (rewrite minus_length; congruence).
    destruct (affine_step n _ A g0 (minus g g0) _ _ eq_refl E0 (D _ Ld)) as (r1 & E1 & L1 & L2 & Hn). rewrite minus_shift in E1, L2, Hn by congruence.
    exists r1. split; [exact E1|]. replace r1 with (m g); [exact Hz|]. destruct (affine_parts n m 0 g g0 Am Hg eq_refl) as [L _].
    apply nth_eq; [congruence|]. intros i. rewrite Hn, nth_minus by congruence. lra.
  Qed.
  Lemma req_handled x : (let '(c, ks, ps) := x in plain_request acts l c ks ps) -> met (req x) gq ->
    exists m, tangent n g0 (req x) m /\ zeros (m gq) /\ forall g, length g = n -> easy_or_straight x g -> zeros (m g) -> met (req x) g.
  Proof.
    intros Hp Hm. assert (H : handled n g0 gq straight (req x)).
    { destruct x as [[c ks] ps]. destruct (plain_handles c ks ps Hp) as [Ha|(Ks & HK & Hh)].
      - apply (handled_affine n g0 gq eq_refl Hq). intros s g h Hg Hh r E. unfold req in *. inv_bind E. destruct (lookups_blend s _ _ _ (tree_blended s g h Hg Hh) ks x E0) as (q2 & q3 & -> & -> & A). cbn [bind]. exact (denote_tri s c Ha x q2 q3 ps A r E).
      - destruct (names_all ks Ks HK) as (Ps & HF & HE). apply (handled_ext n g0 gq eq_refl Hq straight (fun g => flat c (at_ Ps g) ps)); [|now apply (handles_handled n g0 gq eq_refl Hq straight Ks)].
        intros g Hg. unfold req. now rewrite (HE g Hg). }
    destruct (H Hm) as (m & T & Z & S). exists m. split; [exact T|]. split; [exact Z|]. intros g Hg [Ha|St] Hz; [now apply (affine_met x m)|now apply S].
  Qed.
  (** ** All requests *)
  Fixpoint reqs (xs : list (cons * list string * list (pyval R))) (g : list R) : result (list R) :=
    match xs with [] => Ok [] | x :: xs => a <- req x g ;; b <- reqs xs g ;; Ok (a ++ b)%list end.
  Lemma reqs_handled xs : Forall (fun x => let '(c, ks, ps) := x in plain_request acts l c ks ps) xs -> Forall (fun x => met (req x) gq) xs ->
    exists m, tangent n g0 (reqs xs) m /\ zeros (m gq) /\ forall g, length g = n -> zeros (m g) -> Forall (fun x => easy_or_straight x g -> met (req x) g) xs.
  Proof.
    induction xs as [|x xs IH]; intros Hp Hm; [exists (fun _ => []); split; [apply (tangent_nil n g0 eq_refl)|]; split; constructor|].
    inversion_clear Hp as [|? ? P1 P2]. inversion_clear Hm as [|? ? M1 M2]. destruct (req_handled x P1 M1) as (m1 & T1 & Z1 & S1). destruct (IH P2 M2) as (m2 & T2 & Z2 & S2).
    exists (fun g => m1 g ++ m2 g)%list. split; [exact (tangent_app n g0 eq_refl (req x) (reqs xs) m1 m2 T1 T2)|]. split; [now apply zeros_app|]. intros g Hg Hz. apply zeros_app in Hz as [A B]. constructor; [intros; now apply S1|now apply S2].
  Qed.
  (** Requests and their values. *)
  Lemma typed_new x g : In x (LayoutSpec.added acts) -> length g = n -> typed_at (new_tree root g) x.
  Proof.
    intros Hx Hg. assert (Hcl : Forall classes acts) by (eapply Forall_impl; [|exact Hsh]; apply shipped_classes). apply (structure_typed root); [now apply new_structure|].
    pose proof (typed_runs _ _ _ Hr Hcl) as Ht. rewrite Forall_forall in Ht. now apply Ht.
  Qed.
  Lemma req_value x g v : In x (LayoutSpec.added acts) -> length g = n -> req x g = Ok v -> LayoutSpec.value_at (new_tree root g) x v.
  Proof.
    intros Hx Hg E. pose proof (typed_new x g Hx Hg) as T. destruct x as [[c ks] ps]. destruct T as (prims & Ep & V & Nn). exists prims. split; [exact Ep|]. unfold req in E. rewrite Ep in E. cbn [bind] in E. unfold flat in E. inv_bind E. injection E as <-. now apply call_denote.
  Qed.
  Lemma value_req x g v : In x (LayoutSpec.added acts) -> length g = n -> LayoutSpec.value_at (new_tree root g) x v -> req x g = Ok v.
  Proof.
    intros Hx Hg H. pose proof (typed_new x g Hx Hg) as T. destruct x as [[c ks] ps]. destruct T as (prims & Ep & V & Nn). destruct H as (prims' & Ep' & Ec). rewrite Ep in Ep'. injection Ep' as <-. unfold req. rewrite Ep. cbn [bind].
    apply flat_call; try assumption. apply in_flat_map in Hx as (a & Ha & Hx). destruct a as [| |c0 ks0 ps0 k0]; [destruct Hx|destruct Hx|]. destruct Hx as [Hx|[]]. apply pair_equal_spec in Hx as [Hx <-]. apply pair_equal_spec in Hx as [<- _].
    rewrite Forall_forall in Hsh. specialize (Hsh _ Ha). cbn in Hsh. eapply ready_arity, shipped_ready, Hsh.
  Qed.
  Lemma reqs_values xs g z : incl xs (LayoutSpec.added acts) -> length g = n -> reqs xs g = Ok z -> exists vs, Forall2 (LayoutSpec.value_at (new_tree root g)) xs vs /\ z = List.concat vs.
  Proof.
    revert z. induction xs as [|x xs IH]; intros z Hx Hg E; [injection E as <-; exists []; split; [constructor|reflexivity]|]. cbn [reqs] in E. inv_bind E. inv_bind E. injection E as <-.
    destruct (IH _ (fun y Hy => Hx y (or_intror Hy)) Hg E1) as (vs & V & ->). exists (x0 :: vs). split; [constructor; [apply req_value; [apply Hx; now left|exact Hg|exact E0]|exact V]|reflexivity].
  Qed.
  Lemma reqs_global g z : LayoutSpec.added acts <> [] -> length g = n -> reqs (LayoutSpec.added acts) g = Ok z -> global_res l g = Ok z.
  Proof. intros Hne Hg E. apply (residual_values_at rid tw acts l Hr Hsh Hk Hw Hs Hi); [exact Hg|]. split; [exact Hne|]. now apply reqs_values; [apply incl_refl|..]. Qed.
End Layout.
Lemma tangent_defined n g0 (H0 : length g0 = n) f f' m : (forall g z, length g = n -> f g = Ok z -> f' g = Ok z) -> tangent n g0 f m -> tangent n g0 f' m.
Proof.
  intros E (A & B & D). split; [exact A|]. split; [now apply E|]. intros d Hd. destruct (D d Hd) as (L & eps & rs & He & H1 & H2). split; [exact L|]. exists eps, rs. split; [exact He|]. split; [|exact H2].
  intros t Ht. destruct (H1 t Ht) as [K1 K2]. split; [|exact K2]. apply E; [now apply shift_len|exact K1].
Qed.
