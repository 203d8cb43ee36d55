(** Constraint trees on unit squares: their linearisation at the start. *)
From Coq Require Import Reals Lra.
From Verif Require Import GeomProofs P_Geom CompProofs ConsProofs Trans2Proofs GridProofs.
From Verif Require Export Tangent.
From Verif Require Import P_Affine.
Local Open Scope R_scope.
Notation pyval := (pyval R).
Notation cls := (cls R).

(** ** The value of a tree of affine constructions *)
Section Denote.
  Context (s : R).
  Lemma blend_nth al bl ml i : all_blend s al bl ml ->
    match nth_error al i, nth_error bl i, nth_error ml i with
    | Some a, Some b, Some m => blend s a b m
    | None, None, None => True
    | _, _, _ => False
    end.
  Proof. intros H. revert i. induction H as [|a b m al bl ml Ha H IH]; intros [|i]; cbn; auto. apply IH. Qed.
  Lemma select_blend al bl ml key x : all_blend s al bl ml -> select al key = Ok x ->
    exists y z, select bl key = Ok y /\ select ml key = Ok z /\ blend s x y z.
  Proof.
    intros H. unfold select. destruct (split1 key) as [a rest]. destruct (argnum_from_key a) as [i|]; [|discriminate]. cbn [bind].
    pose proof (blend_nth al bl ml i H) as B. destruct (nth_error al i) as [p|], (nth_error bl i) as [q|], (nth_error ml i) as [r|]; try contradiction; try discriminate.
    destruct rest as [k|]; [|intros E; injection E as <-; eauto]. pose proof (blend_get_child s k p q r B) as G. intros E. rewrite E in G.
    destruct (get_child q k), (get_child r k); try contradiction. eauto.
  Qed.
  Lemma selects_blend al bl ml keys xs : all_blend s al bl ml -> mapM (select al) keys = Ok xs ->
    exists ys zs, mapM (select bl) keys = Ok ys /\ mapM (select ml) keys = Ok zs /\ all_blend s xs ys zs.
  Proof.
    intros H. revert xs. induction keys as [|k keys IH]; intros xs E; cbn [mapM] in *.
    - injection E as <-. exists [], []. repeat split; constructor.
    - inv_bind E. inv_bind E. injection E as <-. destruct (select_blend _ _ _ _ _ H E0) as (y & z & -> & -> & B). destruct (IH _ E1) as (ys & zs & -> & -> & Bs).
      cbn [bind]. do 2 eexists. split; [reflexivity|]. split; [reflexivity|]. now constructor.
  Qed.
  Definition flat (c : cons) prims ps : result (list R) := outs <- denote c prims ps ;; Ok (List.concat outs).
  Definition flats ch sels cps : result (list R) := outs <- denotes ch sels cps ;; Ok (List.concat (A:=R) outs).
  Lemma flat_unfold t v ch prims ps : flat (Node t v ch) prims ps =
    (own <- assem1 t prims ps ;; sels <- mapM (mapM (select prims)) (cpk v) ;; cps <- cparams v ps ;; rest <- flats ch sels cps ;; Ok (own ++ rest)%list).
  Proof.
    unfold flat, flats. rewrite denote_unfold. destruct (assem1 t prims ps); [|reflexivity]. cbn [bind]. destruct (mapM _ (cpk v)); [|reflexivity]. cbn [bind]. destruct (cparams v ps); [|reflexivity]. cbn [bind].
    destruct (denotes _ _ _); reflexivity.
  Qed.
  Lemma flats_unfold k c ch sel sels p cps : flats ((k, c) :: ch) (sel :: sels) (p :: cps) = (a <- flat c sel p ;; b <- flats ch sels cps ;; Ok (a ++ b)%list).
  Proof.
    unfold flat, flats. cbn [denotes]. destruct (denote c sel p); [|reflexivity]. cbn [bind]. destruct (denotes ch sels cps); [|reflexivity]. cbn [bind]. now rewrite concat_app.
  Qed.
  Lemma tri_app x1 x2 x3 y1 y2 y3 : tri s x1 x2 x3 -> tri s y1 y2 y3 -> tri s (a <- x1 ;; b <- y1 ;; Ok (a ++ b)%list) (a <- x2 ;; b <- y2 ;; Ok (a ++ b)%list) (a <- x3 ;; b <- y3 ;; Ok (a ++ b)%list).
  Proof.
    intros X Y. apply tri_bind; [exact X|]. intros a1 a2 La. apply tri_bind; [exact Y|]. intros b1 b2 Lb.
    replace (mix s a1 a2 ++ mix s b1 b2)%list with (mix s (a1 ++ b1) (a2 ++ b2)); [apply tri_Ok; rewrite !app_length; lia|]. unfold mix. now rewrite zip_app, map_app.
  Qed.
  Lemma own_tri t al bl ml ps : affine_cls t -> all_blend s al bl ml -> tri s (assem1 t al ps) (assem1 t bl ps) (assem1 t ml ps).
  Proof. intros H B. unfold assem1. apply atleast_tri. now apply H. Qed.
  Lemma denote_tri (c : cons) : affine_cons c -> forall al bl ml ps, all_blend s al bl ml -> tri s (flat c al ps) (flat c bl ps) (flat c ml ps).
  Proof.
    induction c as [t v ch IH] using node_ind'. intros Ha al bl ml ps B r E. rewrite !flat_unfold. rewrite flat_unfold in E. unfold affine_cons in Ha. cbn [preorder] in Ha. inversion Ha as [|? ? Ht Hc]; subst.
    inv_bind E. destruct (own_tri t al bl ml ps Ht B x E0) as (y & -> & Lxy & ->). cbn [bind]. inv_bind E. rename x0 into xs. rename E1 into Es.
    assert (S : exists ys zs, mapM (mapM (select bl)) (cpk v) = Ok ys /\ mapM (mapM (select ml)) (cpk v) = Ok zs /\ length xs = length ys /\ length xs = length zs /\
      forall i a b c, nth_error xs i = Some a -> nth_error ys i = Some b -> nth_error zs i = Some c -> all_blend s a b c).
    { clear -B Es. revert xs Es. induction (cpk v) as [|k ks IH]; intros xs E; cbn [mapM] in *.
      - injection E as <-. exists [], []. repeat split. intros [|i]; discriminate.
      - inv_bind E. inv_bind E. injection E as <-. destruct (selects_blend _ _ _ _ _ B E0) as (y & z & -> & -> & Bb). destruct (IH _ E1) as (ys & zs & -> & -> & L1 & L2 & Bs). cbn [bind].
        do 2 eexists. split; [reflexivity|]. split; [reflexivity|]. cbn. split; [lia|]. split; [lia|]. intros [|i] a b c Ha Hb Hc; cbn in *; [injection Ha as <-; injection Hb as <-; injection Hc as <-; exact Bb|eauto]. }
    destruct S as (ys & zs & -> & -> & L1 & L2 & Bs). cbn [bind]. inv_bind E. rewrite E1. cbn [bind]. inv_bind E. injection E as <-.
    assert (T : tri s (flats ch xs x0) (flats ch ys x0) (flats ch zs x0)).
    { clear -IH Hc L1 L2 Bs. revert xs ys zs x0 L1 L2 Bs. induction ch as [|[k c] ch IHc]; intros xs ys zs cps L1 L2 Bs; [apply (tri_Ok s [] []); reflexivity|].
      destruct xs as [|x xs]; [apply tri_Err|]. destruct ys as [|y ys]; [discriminate|]. destruct zs as [|z zs]; [discriminate|]. destruct cps as [|p cps]; [apply tri_Err|]. rewrite !flats_unfold.
      cbn in Hc. apply Forall_app in Hc as [H1 H2]. inversion IH; subst. apply tri_app; [apply H3; [exact H1|]; apply (Bs 0%nat); reflexivity|]. apply IHc; auto. intros i a b d. apply (Bs (S i)). }
    destruct (T x1 E2) as (x2 & -> & L3 & ->). cbn [bind]. exists (y ++ x2)%list. split; [reflexivity|]. split; [rewrite !app_length; lia|]. unfold mix. now rewrite zip_app, map_app.
  Qed.
End Denote.

Lemma Forall2_at {A B} (R : A -> B -> Prop) l m i x : Forall2 R l m -> nth_error l i = Some x -> exists y, nth_error m i = Some y /\ R x y.
Proof. intros H. revert i. induction H; intros [|i] E; cbn in *; try discriminate; [injection E as <-; eauto|eauto]. Qed.

(** ** Squares and their sides *)
Definition side_name (j : nat) : string := match j with O => "Line0" | 1%nat => "Line1" | 2%nat => "Line2" | _ => "Line3" end.
Definition side_start (j : nat) : pt := match j with O => (0, 0) | 1%nat => (1, 0) | 2%nat => (1, 1) | _ => (0, 1) end.
Definition side_dir (j : nat) : pt := match j with O => (1, 0) | 1%nat => (0, 1) | 2%nat => (-1, 0) | _ => (0, -1) end.
Definition along (k : R) (u : pt) : pt := (k * fst u, k * snd u).
Definition straight_quad (q : prim) : Prop := exists l b r t, box_at q l b r t.
Definition upright_quad (q : prim) : Prop := exists l b r t, box_at q l b r t /\ l < r /\ b < t.

Section Families.
  Context (n : nat) (g0 gq : list R) (H0 : length g0 = n) (Hq : length gq = n) (straight : list R -> Prop).
  (** Primitives that depend on the vector. *)
  Definition family := list R -> prim.
  Definition blended (P : family) : Prop := forall s g h, length g = n -> length h = n -> blend s (P g) (P h) (P (mix s g h)).
  Definition at_ (Ps : list family) (g : list R) : list prim := map (fun P => P g) Ps.
  Lemma blended_all s Ps g h : Forall blended Ps -> length g = n -> length h = n -> all_blend s (at_ Ps g) (at_ Ps h) (at_ Ps (mix s g h)).
  Proof. intros H Hg Hh. induction H as [|P Ps HP _ IH]; cbn; constructor; auto. Qed.
  Inductive kind := Square | Side (j : nat).
  Definition fam (K : kind) (P : family) : Prop := blended P /\
    match K with
    | Square => (forall g, length g = n -> exists P0 P1 P2 P3, quad_at (P g) P0 P1 P2 P3) /\ box_at (P g0) 0 0 1 1 /\ (forall g, length g = n -> straight g -> straight_quad (P g)) /\ upright_quad (P gq)
    | Side j => exists A B, (forall g, length g = n -> line_at (P g) (A g) (B g)) /\ A g0 = side_start j /\ vec (A g0) (B g0) = side_dir j /\
        (forall g, length g = n -> straight g -> exists k, vec (A g) (B g) = along k (side_dir j)) /\ (exists k, 0 < k /\ vec (A gq) (B gq) = along k (side_dir j))
    end.
  Lemma fam_blended K P : fam K P -> blended P.
  Proof. now intros []. Qed.
  Definition child_of (P : family) (r : string) : family := fun g => match get_child (P g) r with Ok x => x | Err _ => P g end.
  Lemma child_blended P r x : blended P -> get_child (P gq) r = Ok x -> blended (child_of P r) /\ forall g, length g = n -> get_child (P g) r = Ok (child_of P r g).
  Proof.
    intros HP E. assert (G : forall g, length g = n -> get_child (P g) r = Ok (child_of P r g)).
    { intros g Hg. unfold child_of. pose proof (blend_get_child 0 r _ _ _ (HP 0 gq g Hq Hg)) as B. rewrite E in B. destruct (get_child (P g) r); [reflexivity|]. destruct (get_child _ r); contradiction. }
    split; [|exact G]. intros s g h Hg Hh. pose proof (blend_get_child s r _ _ _ (HP s g h Hg Hh)) as B. rewrite !G in B; [exact B| |exact Hh|exact Hg]. rewrite mix_length; congruence.
  Qed.
  (** The line on side [j] of a quadrilateral, as points. *)
  Definition first_pt (p : prim) : pt := match nch p with (_, a) :: _ => match vdata (nval a) with [x; y] => (x, y) | _ => (0, 0) end | _ => (0, 0) end.
  Definition second_pt (p : prim) : pt := match nch p with _ :: (_, a) :: _ => match vdata (nval a) with [x; y] => (x, y) | _ => (0, 0) end | _ => (0, 0) end.
  Lemma line_pts l A B : line_at l A B -> first_pt l = A /\ second_pt l = B.
  Proof. intros (v & a & b & -> & (i & ch & ->) & (j & ch' & ->)). destruct A, B. split; reflexivity. Qed.
  Lemma line_own l A B : line_at l A B -> line_at l (first_pt l) (second_pt l).
  Proof. intros H. destruct (line_pts _ _ _ H) as [-> ->]. exact H. Qed.
  Lemma quad_side q P0 P1 P2 P3 j : (j < 4)%nat -> quad_at q P0 P1 P2 P3 -> exists l A B, get_child q (side_name j) = Ok l /\ line_at l A B.
  Proof.
    intros Hj H. destruct j as [|[|[|[|j]]]]; [destruct (quad_line0 _ _ _ _ _ H) as (l & E & L)|destruct (quad_line1 _ _ _ _ _ H) as (l & E & L)|destruct (quad_line2 _ _ _ _ _ H) as (l & E & L)|destruct (quad_line3 _ _ _ _ _ H) as (l & E & L)|lia]; eauto.
  Qed.
  Lemma box_side q l b r t j x : (j < 4)%nat -> box_at q l b r t -> get_child q (side_name j) = Ok x ->
    first_pt x = (match j with O => (l, b) | 1%nat => (r, b) | 2%nat => (r, t) | _ => (l, t) end) /\
    vec (first_pt x) (second_pt x) = along (match j with O => r - l | 1%nat => t - b | 2%nat => r - l | _ => t - b end) (side_dir j).
  Proof.
    intros Hj H E. destruct j as [|[|[|[|j]]]]; [destruct (quad_line0 _ _ _ _ _ H) as (x' & E' & L)|destruct (quad_line1 _ _ _ _ _ H) as (x' & E' & L)|destruct (quad_line2 _ _ _ _ _ H) as (x' & E' & L)|destruct (quad_line3 _ _ _ _ _ H) as (x' & E' & L)|lia];
      cbn [side_name] in E; rewrite E in E'; injection E' as <-; destruct (line_pts _ _ _ L) as [-> ->]; (split; [reflexivity|]); unfold vec, along; cbn; f_equal; ring.
  Qed.
  Lemma side_fam P j : (j < 4)%nat -> fam Square P -> fam (Side j) (child_of P (side_name j)) /\ forall g, length g = n -> get_child (P g) (side_name j) = Ok (child_of P (side_name j) g).
  Proof.
    intros Hj (HP & HQ & Hs & Hst & (l & b & r & t & Hb & Hlr & Hbt)). destruct (HQ gq Hq) as (P0 & P1 & P2 & P3 & Hq4). destruct (quad_side _ _ _ _ _ j Hj Hq4) as (x & A & B & E & _).
    destruct (child_blended P _ x HP E) as [Bl G]. split; [|exact G]. split; [exact Bl|]. set (C := child_of P (side_name j)) in *.
    exists (fun g => first_pt (C g)), (fun g => second_pt (C g)). split.
    { intros g Hg. destruct (HQ g Hg) as (R0 & R1 & R2 & R3 & Hr). destruct (quad_side _ _ _ _ _ j Hj Hr) as (y & A' & B' & E' & L). rewrite (G g Hg) in E'. injection E' as ->. now apply line_own in L. }
    destruct (box_side _ _ _ _ _ j _ Hj Hs (G g0 H0)) as [S1 S2]. split; [rewrite S1; destruct j as [|[|[|j]]]; reflexivity|]. split.
    { rewrite S2. unfold along. destruct j as [|[|[|j]]]; cbn; f_equal; ring. }
    split.
    - intros g Hg St. destruct (Hst g Hg St) as (l' & b' & r' & t' & Hb'). eexists. apply (box_side _ _ _ _ _ j _ Hj Hb' (G g Hg)).
    - eexists. split; [|apply (box_side _ _ _ _ _ j _ Hj Hb (G gq Hq))]. destruct j as [|[|[|j]]]; lra.
  Qed.
  Lemma level_point (C : family) a : blended C -> (forall g, length g = n -> point_at (C g) (a g)) -> levelpt n a.
  Proof.
    intros HB H. assert (E : forall s g h, length g = n -> length h = n -> a (mix s g h) = ((1 - s) * fst (a g) + s * fst (a h), (1 - s) * snd (a g) + s * snd (a h))).
    { intros s g h Hg Hh. destruct (H g Hg) as (i1 & c1 & E1). destruct (H h Hh) as (i2 & c2 & E2). assert (Hm : length (mix s g h) = n) by (rewrite mix_length; congruence). destruct (H _ Hm) as (i3 & c3 & E3).
      pose proof (HB s g h Hg Hh) as B. rewrite E1, E2, E3 in B. destruct (a (mix s g h)) as [x y], (a g), (a h). inversion B as [? ? ? ? ? ? ? ? ? L D _]; subst. cbn in *. injection D as -> ->. reflexivity. }
    split; intros s g h Hg Hh; now rewrite (E s g h Hg Hh).
  Qed.
  Lemma line_levels (P : family) A B : blended P -> (forall g, length g = n -> line_at (P g) (A g) (B g)) -> levelpt n A /\ levelpt n B.
  Proof.
    intros HP H. assert (C : forall r a, (forall g, length g = n -> exists x, get_child (P g) r = Ok x /\ point_at x (a g)) -> levelpt n a).
    { intros r a Ha. destruct (Ha gq Hq) as (x & E & _). destruct (child_blended P r x HP E) as [Bl G]. apply (level_point _ _ Bl). intros g Hg. destruct (Ha g Hg) as (y & Ey & Hy). rewrite (G g Hg) in Ey. injection Ey as <-. exact Hy. }
    split; [apply (C "Point0"%string)|apply (C "Point1"%string)]; intros g Hg; destruct (H g Hg) as (v & a & b & -> & Ha & Hb); [exists a|exists b]; split; auto.
  Qed.
  Lemma vec_level A B : levelpt n A -> levelpt n B -> levelpt n (fun g => vec (A g) (B g)).
  Proof.
    intros [A1 A2] [B1 B2]. split; intros s g h Hg Hh; cbn; [rewrite (A1 s g h), (B1 s g h) by assumption|rewrite (A2 s g h), (B2 s g h) by assumption]; ring.
  Qed.
  (** Kinds of what the keys of a child select. *)
  Inductive key_kind (Ks : list kind) : string -> kind -> Prop :=
  | key_arg i K : nth_error Ks i = Some K -> key_kind Ks (argk i) K
  | key_side i j : (j < 4)%nat -> nth_error Ks i = Some Square -> key_kind Ks (argk i ++ String slash (side_name j)) (Side j).
  Lemma select_family Ks Ps key K : Forall2 fam Ks Ps -> key_kind Ks key K -> exists P, fam K P /\ forall g, length g = n -> select (at_ Ps g) key = Ok (P g).
  Proof.
    intros HF HK. destruct HK as [i K Ei|i j Hj Ei].
    - destruct (Forall2_at _ _ _ _ _ HF Ei) as (P & EP & HP). exists P. split; [exact HP|]. intros g Hg. apply (select_arg _ i). unfold at_. rewrite nth_error_map. etransitivity; [apply f_equal; exact EP|reflexivity].
    - destruct (Forall2_at _ _ _ _ _ HF Ei) as (P & EP & HP). destruct (side_fam P j Hj HP) as [HC G]. exists (child_of P (side_name j)). split; [exact HC|]. intros g Hg.
      rewrite (select_path (at_ Ps g) i (P g)); [now apply G|]. unfold at_. rewrite nth_error_map. etransitivity; [apply f_equal; exact EP|reflexivity].
  Qed.
  Lemma select_families Ks Ps keys Ks' : Forall2 fam Ks Ps -> Forall2 (key_kind Ks) keys Ks' -> exists Ps', Forall2 fam Ks' Ps' /\ forall g, length g = n -> mapM (select (at_ Ps g)) keys = Ok (at_ Ps' g).
  Proof.
    intros HF HK. induction HK as [|key K keys Ks' H _ (Ps' & F' & E')]; [exists []; split; [constructor|reflexivity]|].
    destruct (select_family Ks Ps key K HF H) as (P & FP & EP). exists (P :: Ps'). split; [now constructor|]. intros g Hg. cbn [mapM]. rewrite EP, E' by exact Hg. reflexivity.
  Qed.
End Families.

(** ** Trees with a good linearisation *)
Inductive handles : list kind -> cons -> list pyval -> Prop :=
| h_affine Ks c ps : affine_cons c -> handles Ks c ps
| h_collinear j : handles [Side j; Side j] Collinear []
| h_ratio i j c t k : RelativeLength = Ok c -> num_of t = Some k -> handles [Side i; Side j] c [t]
| h_length j c t k : crLength = Ok c -> num_of t = Some k -> handles [Side j] c [t]
| h_node Ks t v ch ps (Kf : nat -> list kind) : affine_cls t -> length (cpk v) = length ch ->
    (forall i keys, nth_error (cpk v) i = Some keys -> Forall2 (key_kind Ks) keys (Kf i)) ->
    (forall cps i k c p, cparams v ps = Ok cps -> nth_error ch i = Some (k, c) -> nth_error cps i = Some p -> handles (Kf i) c p) ->
    handles Ks (Node t v ch) ps.

Lemma dir_unit j : inner (side_dir j) (side_dir j) = 1.
Proof. destruct j as [|[|[|j]]]; unfold inner; cbn; ring. Qed.
Lemma dir_len j : len (side_dir j) = 1.
Proof. unfold len. rewrite dir_unit. apply sqrt_1. Qed.
Lemma dir_nonzero j : side_dir j <> (0, 0).
Proof. intros E. pose proof (dir_unit j) as H. rewrite E in H. unfold inner in H. cbn in H. lra. Qed.
Lemma along_len k j : len (along k (side_dir j)) = Rabs k.
Proof.
  unfold len. replace (inner (along k (side_dir j)) (along k (side_dir j))) with (Rsqr k); [apply sqrt_Rsqr_abs|]. unfold Rsqr. transitivity (k * k * inner (side_dir j) (side_dir j)); [rewrite dir_unit; ring|]. unfold inner, along. cbn. ring.
Qed.
Lemma along_inner k j : inner (side_dir j) (along k (side_dir j)) = k.
Proof. transitivity (k * inner (side_dir j) (side_dir j)); [unfold inner, along; cbn; ring|]. rewrite dir_unit. ring. Qed.
Lemma zeros_1 x : zeros [x] <-> x = 0.
Proof. unfold zeros. split; [intros H; now inversion H|intros ->; now constructor]. Qed.
Lemma zeros_app a b : zeros (a ++ b) <-> zeros a /\ zeros b.
Proof. apply Forall_app. Qed.
Lemma flat_call (c : cons) prims ps v : Forall (fun p : prim => ntype p <> TNode) prims -> arity_ok c ps -> call c prims ps = Ok v -> flat c prims ps = Ok v.
Proof. intros H1 H2 H3. destruct (denote_call c prims ps v H1 H2 H3) as (_ & outs & D & ->). unfold flat. now rewrite D. Qed.
Lemma line_not_node (l : prim) A B : line_at l A B -> ntype l <> TNode.
Proof. intros (? & ? & ? & -> & _). discriminate. Qed.

Section Handled.
  Context (n : nat) (g0 gq : list R) (H0 : length g0 = n) (Hq : length gq = n) (straight : list R -> Prop).
  Notation fam := (fam n g0 gq straight).
  Definition met (f : list R -> result (list R)) (g : list R) : Prop := exists z, f g = Ok z /\ zeros z.
  Definition handled (f : list R -> result (list R)) : Prop := met f gq ->
    exists m, tangent n g0 f m /\ zeros (m gq) /\ forall g, length g = n -> straight g -> zeros (m g) -> met f g.
  Lemma handled_ext f f' : (forall g, length g = n -> f g = f' g) -> handled f -> handled f'.
  Proof.
    intros E H (z & Ez & Hz). destruct H as (m & T & Z & S); [exists z; rewrite E by exact Hq; auto|]. exists m. split; [now apply (tangent_ext n g0 H0 f f')|]. split; [exact Z|].
    intros g Hg Hs Hm. destruct (S g Hg Hs Hm) as (y & Ey & Hy). exists y. rewrite <- E; auto.
  Qed.
  Lemma handled_app f1 f2 : handled f1 -> handled f2 -> handled (fun g => a <- f1 g ;; b <- f2 g ;; Ok (a ++ b)%list).
  Proof.
    intros A B (z & Ez & Hz). cbn beta in Ez. inv_bind Ez. inv_bind Ez. injection Ez as <-. apply zeros_app in Hz as [Z1 Z2].
    destruct A as (m1 & T1 & M1 & S1); [exists x; auto|]. destruct B as (m2 & T2 & M2 & S2); [exists x0; auto|].
    exists (fun g => m1 g ++ m2 g)%list. split; [now apply (tangent_app n g0 H0)|]. split; [now apply zeros_app|]. intros g Hg Hs Hm. apply zeros_app in Hm as [N1 N2].
    destruct (S1 g Hg Hs N1) as (y1 & E1 & Y1), (S2 g Hg Hs N2) as (y2 & E2 & Y2). exists (y1 ++ y2)%list. rewrite E1. cbn [bind]. rewrite E2. split; [reflexivity|]. now apply zeros_app.
  Qed.
  Lemma handled_affine f : (forall s g h, length g = n -> length h = n -> tri s (f g) (f h) (f (mix s g h))) -> handled f.
  Proof.
    intros H (z & Ez & Hz). assert (A : affine n f).
    { assert (K : forall g, length g = n -> exists r, f g = Ok r) by (intros g Hg; destruct (H 0 gq g Hq Hg z Ez) as (r & E & _); eauto).
      intros s g h Hg Hh. destruct (K g Hg) as [a Ea]. destruct (H s g h Hg Hh a Ea) as (b & Eb & L & Em). exists a, b. auto. }
    eexists. split; [apply (affine_tangent n g0 H0 f A)|]. cbn beta. rewrite Ez. split; [exact Hz|]. intros g Hg _ Hm. destruct (affine_at _ _ A g Hg) as [r Er]. rewrite Er in Hm. exists r. auto.
  Qed.
  Lemma handled_nil : handled (fun _ => Ok []).
  Proof. apply handled_affine. intros s g h _ _. apply (tri_Ok s [] []). reflexivity. Qed.
  Theorem handles_handled Ks c ps : handles Ks c ps -> forall Ps, Forall2 fam Ks Ps -> handled (fun g => flat c (at_ Ps g) ps).
  Proof.
    induction 1 as [Ks c ps Ha|j|i j c t k Ec Ht|j c t k Ec Ht|Ks t v ch ps Kf Ht Hl Hk Hc IH]; intros Ps HF.
    - apply handled_affine. intros s g h Hg Hh. apply denote_tri; [exact Ha|]. apply (blended_all n); [|exact Hg|exact Hh]. clear -HF. induction HF; constructor; auto. eapply fam_blended; eassumption.
    - inversion HF as [|? P ? ? HP F1]; subst. inversion F1 as [|? Q ? ? HQ F2]; subst. inversion F2; subst. clear HF F1 F2.
      destruct HP as (BP & A & B & LP & SA & SU & StP & (a & Ha & Eqa)), HQ as (BQ & C & D & LQ & SC & SV & StQ & (b & Hb & Eqb)).
      destruct (line_levels n gq Hq P A B BP LP) as [LA LB]. destruct (line_levels n gq Hq Q C D BQ LQ) as [LC LD].
      apply handled_ext with (f := fun g => x <- Ok [cross (vec (A g) (B g)) (vec (C g) (D g))] ;; y <- Ok [cross (vec (A g) (B g)) (vec (C g) (A g))] ;; Ok (x ++ y)%list).
      { intros g Hg. cbn [bind app]. symmetry. apply flat_call; [repeat constructor; cbn; eapply line_not_node; auto|apply fits_arity, fits_leaf; reflexivity|]. apply (C38_collinear (P g) (Q g)); auto. }
      set (U := side_dir j) in *. assert (W : vec (C g0) (A g0) = (0, 0)) by (rewrite SA, SC; unfold vec; f_equal; ring).
      assert (cUU : cross U U = 0) by (unfold cross; ring).
      pose proof (cross_tangent n g0 H0 _ _ (vec_level n A B LA LB) (vec_level n C D LC LD)) as T1. pose proof (cross_tangent n g0 H0 _ _ (vec_level n A B LA LB) (vec_level n C A LC LA)) as T2. cbn beta in T1, T2. rewrite SU, SV in T1. rewrite SU, W in T2.
      apply handled_app; intros (z & Ez & Hz); injection Ez as <-; rewrite zeros_1 in Hz; eexists; (split; [eassumption|]); cbn beta; rewrite zeros_1; split.
      + rewrite Eqa, Eqb. fold U. unfold cross, along in *. cbn [fst snd]. nra.
      + intros g Hg Hs _. destruct (StP g Hg Hs) as (x & Ex), (StQ g Hg Hs) as (y & Ey). eexists. split; [reflexivity|]. rewrite zeros_1, Ex, Ey. fold U. unfold cross, along. cbn [fst snd]. ring.
      + rewrite Eqa in Hz |- *. fold U in Hz |- *. assert (E : a * cross U (vec (C gq) (A gq)) = 0) by (rewrite <- Hz; unfold cross, along; cbn [fst snd]; ring). apply Rmult_integral in E as [E|E]; [lra|]. rewrite E. unfold cross. cbn [fst snd]. ring.
      + intros g Hg Hs Hm. rewrite zeros_1 in Hm. destruct (StP g Hg Hs) as (x & Ex). rewrite Ex in Hm. fold U in Hm. eexists. split; [reflexivity|]. rewrite zeros_1, Ex. fold U.
        assert (E : cross U (vec (C g) (A g)) = 0) by (rewrite <- Hm; unfold cross; cbn [fst snd]; ring). transitivity (x * cross U (vec (C g) (A g))); [unfold cross, along; cbn [fst snd]; ring|rewrite E; ring].
    - inversion HF as [|? P ? ? HP F1]; subst. inversion F1 as [|? Q ? ? HQ F2]; subst. inversion F2; subst. clear HF F1 F2.
      destruct HP as (BP & A & B & LP & SA & SU & StP & (a & Ha & Eqa)), HQ as (BQ & C & D & LQ & SC & SV & StQ & (b & Hb & Eqb)).
      destruct (line_levels n gq Hq P A B BP LP) as [LA LB]. destruct (line_levels n gq Hq Q C D BQ LQ) as [LC LD].
      apply handled_ext with (f := fun g => Ok [len (vec (A g) (B g)) - k * len (vec (C g) (D g))]).
      { intros g Hg. destruct (relative_length_denote (P g) (Q g) _ _ _ _ t k (LP g Hg) (LQ g Hg) Ht) as (c' & E' & _ & De). rewrite Ec in E'. injection E' as <-. unfold flat. cbn [at_ map]. rewrite De. reflexivity. }
      intros (z & Ez & Hz). injection Ez as <-. rewrite zeros_1, Eqa, Eqb, !along_len, !Rabs_pos_eq in Hz by lra.
      assert (Hk : 0 <= k) by (destruct (Rle_or_lt 0 k); [assumption|]; nra).
      eexists. split; [apply (ratio_tangent n g0 H0 _ _ k (vec_level n A B LA LB) (vec_level n C D LC LD)); [rewrite SU|rewrite SV]; apply dir_nonzero|]. cbn beta. rewrite SU, SV, !dir_len. split.
      + rewrite zeros_1, Eqa, Eqb, !along_inner. unfold Rdiv. rewrite Rinv_1. lra.
      + intros g Hg Hs Hm. destruct (StP g Hg Hs) as (x & Ex), (StQ g Hg Hs) as (y & Ey). eexists. split; [reflexivity|]. rewrite zeros_1, Ex, Ey, !along_inner in Hm. rewrite zeros_1, Ex, Ey, !along_len.
        assert (E : x = k * y) by (unfold Rdiv in Hm; rewrite Rinv_1 in Hm; lra). rewrite E, Rabs_mult, (Rabs_pos_eq k Hk). ring.
    - inversion HF as [|? P ? ? HP F1]; subst. inversion F1; subst. clear HF F1.
      destruct HP as (BP & A & B & LP & SA & SU & StP & (a & Ha & Eqa)). destruct (line_levels n gq Hq P A B BP LP) as [LA LB].
      apply handled_ext with (f := fun g => Ok [len (vec (A g) (B g)) - k]).
      { intros g Hg. destruct (leaf_constraint_zeval Length _ _ _ [P g] [] (len (vec (A g) (B g))) t k eq_refl eq_refl eq_refl) as (c' & E' & _ & De & _); [|exact Ht|].
        - eexists. split; [unfold no_params; rewrite (line_length_value (P g) _ _ (LP g Hg)); reflexivity|reflexivity].
        - unfold crLength in Ec. rewrite Ec in E'. injection E' as <-. unfold flat. cbn [at_ map]. cbn [app] in De. rewrite De. reflexivity. }
      intros (z & Ez & Hz). injection Ez as <-. rewrite zeros_1, Eqa, along_len, Rabs_pos_eq in Hz by lra.
      eexists. split; [apply (length_tangent n g0 H0 _ k (vec_level n A B LA LB)); rewrite SU; apply dir_nonzero|]. cbn beta. rewrite SU, dir_len. split.
      + rewrite zeros_1, Eqa, along_inner. unfold Rdiv. rewrite Rinv_1. lra.
      + intros g Hg Hs Hm. destruct (StP g Hg Hs) as (x & Ex). eexists. split; [reflexivity|]. rewrite zeros_1, Ex, along_inner in Hm. rewrite zeros_1, Ex, along_len. unfold Rdiv in Hm. rewrite Rinv_1 in Hm. rewrite Rabs_pos_eq; lra.
    - assert (S : exists Pss, Forall2 (fun keys Ps' => forall g, length g = n -> mapM (select (at_ Ps g)) keys = Ok (at_ Ps' g)) (cpk v) Pss /\ forall i Ps', nth_error Pss i = Some Ps' -> Forall2 fam (Kf i) Ps').
      { clear -Hk HF H0 Hq. revert Kf Hk. induction (cpk v) as [|keys pks IH]; intros Kf Hk; [exists []; split; [constructor|intros [|i]; discriminate]|].
        destruct (select_families n g0 gq H0 Hq straight Ks Ps keys (Kf 0%nat) HF (Hk 0%nat keys eq_refl)) as (Ps' & F' & E'). destruct (IH (fun i => Kf (S i))) as (Pss & G1 & G2); [intros i; exact (Hk (S i))|].
        exists (Ps' :: Pss). split; [now constructor|]. intros [|i] Q EQ; cbn in EQ; [injection EQ as <-; exact F'|now apply (G2 i)]. }
      destruct S as (Pss & S1 & S2). assert (Sel : forall g, length g = n -> mapM (mapM (select (at_ Ps g))) (cpk v) = Ok (map (fun Ps' => at_ Ps' g) Pss)).
      { intros g Hg. clear -S1 Hg. induction S1 as [|keys Ps' pks Pss H _ IHS]; [reflexivity|]. cbn [mapM map]. rewrite (H g Hg), IHS. reflexivity. }
      destruct (cparams v ps) as [cps|e] eqn:Ecp.
      2: { intros (z & Ez & _). rewrite flat_unfold in Ez. inv_bind Ez. inv_bind Ez. rewrite Ecp in Ez. discriminate. }
      apply handled_ext with (f := fun g => a <- assem1 t (at_ Ps g) ps ;; b <- flats ch (map (fun Ps' => at_ Ps' g) Pss) cps ;; Ok (a ++ b)%list).
      { intros g Hg. rewrite flat_unfold, (Sel g Hg), Ecp. reflexivity. }
      apply handled_app.
      + apply handled_affine. intros s g h Hg Hh. apply own_tri; [exact Ht|]. apply (blended_all n); [|exact Hg|exact Hh]. clear -HF. induction HF; constructor; auto. eapply fam_blended; eassumption.
      + specialize (IH cps). clear -IH S2 H0 Hq. assert (IH' : forall i k c p Ps', nth_error ch i = Some (k, c) -> nth_error cps i = Some p -> nth_error Pss i = Some Ps' -> handled (fun g => flat c (at_ Ps' g) p)).
        { intros i k c p Ps' E1 E2 E3. eapply IH; [reflexivity|exact E1|exact E2|now apply S2]. }
        clear IH S2 Kf. revert Pss cps IH'. induction ch as [|[k c] ch IHc]; intros Pss cps IH'; [apply handled_nil|].
        destruct Pss as [|Ps' Pss]; [intros (z & Ez & _); discriminate|]. destruct cps as [|p cps]; [intros (z & Ez & _); discriminate|].
        apply handled_ext with (f := fun g => a <- flat c (at_ Ps' g) p ;; b <- flats ch (map (fun Ps' => at_ Ps' g) Pss) cps ;; Ok (a ++ b)%list).
        { intros g _. cbn [map]. now rewrite flats_unfold. }
        apply handled_app; [now apply (IH' 0%nat k)|]. apply IHc. intros i k' c' p' Q. apply (IH' (S i)).
  Qed.
End Handled.

(** ** The shipped constraints *)
Lemma compound_cls_affine name k : affine_cls (compound_cls (F:=R) name k).
Proof. exact (compound_affine name [] k). Qed.
Lemma handles_align (row : bool) (c : cons) : Align (F:=R) (if row then "AlignRow" else "AlignColumn")%string row = Ok c -> forall ps, handles [Square; Square] c ps.
Proof.
  intros E ps. unfold Align in E. destruct row; rewrite mk_construction_ok in E; try (repeat constructor; cbn; intuition discriminate); try (cbn; intuition discriminate); try (cbn; lia); try reflexivity; injection E as <-.
  - apply h_node with (Kf := fun i => match i with O => [Side 0; Side 0] | _ => [Side 2; Side 2] end); [apply compound_cls_affine|reflexivity| |].
    + intros [|[|i]] keys Ek; cbn in Ek; try (destruct i; discriminate); injection Ek as <-; repeat constructor; first [apply (key_side _ 0 0)|apply (key_side _ 1 0)|apply (key_side _ 0 2)|apply (key_side _ 1 2)]; first [reflexivity|lia].
    + intros cps i k c p Ep Ei Eq. cbn [cparams] in Ep. unfold empties in Ep. injection Ep as <-. destruct i as [|[|i]]; cbn in Ei, Eq; try (destruct i; discriminate); injection Ei as <- <-; injection Eq as <-; apply h_collinear.
  - apply h_node with (Kf := fun i => match i with O => [Side 3; Side 3] | _ => [Side 1; Side 1] end); [apply compound_cls_affine|reflexivity| |].
    + intros [|[|i]] keys Ek; cbn in Ek; try (destruct i; discriminate); injection Ek as <-; repeat constructor; first [apply (key_side _ 0 3)|apply (key_side _ 1 3)|apply (key_side _ 0 1)|apply (key_side _ 1 1)]; first [reflexivity|lia].
    + intros cps i k c p Ep Ei Eq. cbn [cparams] in Ep. unfold empties in Ep. injection Ep as <-. destruct i as [|[|i]]; cbn in Ei, Eq; try (destruct i; discriminate); injection Ei as <- <-; injection Eq as <-; apply h_collinear.
Qed.
Lemma nth_repeat_some {A} (x : A) i m : (i < m)%nat -> nth_error (List.repeat x m) i = Some x.
Proof. revert i. induction m; intros [|i] H; cbn; [lia|lia|reflexivity|apply IHm; lia]. Qed.
Lemma handles_mapped (c : cons) K m ps : length (prim_types (csig (nval c))) = 2%nat ->
  (forall i, (i < m - 1)%nat -> handles [K; K] c (slice (i * nparams (csig (nval c))) ((i + 1) * nparams (csig (nval c))) ps)) ->
  handles (List.repeat K m) (mapped c m) ps.
Proof.
  intros Hl H. unfold mapped. set (num := map_num c m). assert (Hn : num = (m - 1)%nat) by (unfold num, map_num; rewrite Hl; lia).
  apply h_node with (Kf := fun _ => [K; K]).
  - exact (empty_affine _ []).
  - cbn [cpk]. now rewrite !map_length.
  - intros i keys Ek. cbn [cpk] in Ek. rewrite nth_error_map in Ek. destruct (nth_error (seq 0 num) i) as [x|] eqn:Ex; [|discriminate]. cbn [option_map] in Ek. injection Ek as <-.
    assert (Hx : (x < m - 1)%nat) by (apply nth_error_In, in_seq in Ex; lia). replace (m - num)%nat with 1%nat by lia. cbn [seq map].
    constructor; [apply (key_arg _ x), nth_repeat_some; lia|]. constructor; [apply (key_arg _ num), nth_repeat_some; lia|constructor].
  - intros cps i k c' p Ep Ei Eq. cbn [cparams] in Ep. injection Ep as <-. rewrite nth_error_map in Ei, Eq. destruct (nth_error (seq 0 num) i) as [x|] eqn:Ex; [|discriminate]. cbn [option_map] in Ei, Eq. injection Ei as _ <-. injection Eq as <-.
    apply H. apply nth_error_In, in_seq in Ex. lia.
Qed.
Lemma zip_at {A B} (l : list A) (m : list B) i x y : nth_error (zip l m) i = Some (x, y) -> nth_error l i = Some x /\ nth_error m i = Some y.
Proof. revert m i. induction l as [|a l IH]; intros [|b m] [|i] E; cbn in *; try discriminate; [injection E as <- <-; auto|now apply IH]. Qed.
Lemma handles_mapped_align (row : bool) (c : cons) : Align (F:=R) (if row then "AlignRow" else "AlignColumn")%string row = Ok c -> csig (nval c) = msig [TQuad; TQuad] 0 0 -> forall m ps, handles (List.repeat Square m) (mapped c m) ps.
Proof. intros E S m ps. apply handles_mapped; [now rewrite S|]. intros i Hi. now apply (handles_align row). Qed.
Lemma arg_kinds (f : nat -> nat) is N : (forall i, In i is -> (f i < N)%nat) -> Forall2 (key_kind (List.repeat Square N)) (map (fun i => argk (f i)) is) (List.repeat Square (length is)).
Proof. intros H. induction is as [|i is IH]; cbn; constructor; [apply key_arg, nth_repeat_some, H; now left|]. apply IH. intros. apply H. now right. Qed.
Lemma side_kinds (f : nat -> nat) is N j : (j < 4)%nat -> (forall i, In i is -> (f i < N)%nat) ->
  Forall2 (key_kind (List.repeat Square N)) (map (fun i => (argk (f i) ++ String slash (side_name j))%string) is) (List.repeat (Side j) (length is)).
Proof. intros Hj H. induction is as [|i is IH]; cbn; constructor; [apply key_side; [exact Hj|]; apply nth_repeat_some, H; now left|]. apply IH. intros. apply H. now right. Qed.
Lemma handles_rectilinear r c rg : RectilinearGrid (F:=R) r c = Ok rg -> forall ps, handles (List.repeat Square (r * c)) rg ps.
Proof.
  intros E ps. unfold RectilinearGrid in E.
  destruct row_zeval as (row & Erow & Srow & _). destruct col_zeval as (col & Ecol & Scol & _).
  rewrite Erow, Ecol in E. cbn [bind] in E. rewrite !transform_map_ok, !repeat_length in E. cbn [bind] in E.
  rewrite mk_construction_ok in E.
  2: apply align_keys_NoDup.
  2: { rewrite in_app_iff, !in_map_iff. intros [(i & E' & _)|(i & E' & _)]; discriminate. }
  2: { rewrite !app_length, !repeat_length, !map_length, !seq_length. lia. }
  2: { rewrite !app_length, !repeat_length, !map_length, !seq_length. lia. }
  injection E as <-. apply h_node with (Kf := fun i => if Nat.ltb i r then List.repeat Square c else List.repeat Square r).
  - apply compound_cls_affine.
  - cbn [cpk]. rewrite zip_length, !app_length, !map_length, !seq_length, !repeat_length. lia.
  - intros i keys Ek. cbn [cpk] in Ek. destruct (Nat.ltb_spec i r) as [Hi|Hi].
    + rewrite nth_error_app1 in Ek by (rewrite map_length, seq_length; exact Hi). rewrite nth_error_map, nth_error_seq in Ek by exact Hi. cbn [option_map Nat.add] in Ek. injection Ek as <-.
      pose proof (arg_kinds (fun j => idx_1d [i; j] [r; c]) (seq 0 c) (r * c)) as K. rewrite seq_length in K. apply K. intros j Hj. apply in_seq in Hj. rewrite idx_2d. apply idx_bound; lia.
    + rewrite nth_error_app2 in Ek by (rewrite map_length, seq_length; exact Hi). rewrite map_length, seq_length in Ek.
      assert (Hi' : (i - r < c)%nat). { assert (nth_error (map (fun c0 => map (fun r0 => argk (idx_1d [r0; c0] [r; c])) (seq 0 r)) (seq 0 c)) (i - r) <> None) as Hx by congruence. apply nth_error_Some in Hx. now rewrite map_length, seq_length in Hx. }
      rewrite nth_error_map, nth_error_seq in Ek by exact Hi'. cbn [option_map Nat.add] in Ek. injection Ek as <-.
      pose proof (arg_kinds (fun j => idx_1d [j; (i - r)%nat] [r; c]) (seq 0 r) (r * c)) as K. rewrite seq_length in K. apply K. intros j Hj. apply in_seq in Hj. rewrite idx_2d. apply idx_bound; lia.
  - intros cps i k c0 p _ Ei _. apply zip_at in Ei as [_ Ei]. destruct (Nat.ltb_spec i r) as [Hi|Hi].
    + rewrite nth_error_app1 in Ei by (rewrite repeat_length; exact Hi). apply nth_error_In, repeat_spec in Ei. subst c0. now apply (handles_mapped_align true).
    + rewrite nth_error_app2 in Ei by (rewrite repeat_length; exact Hi). apply nth_error_In, repeat_spec in Ei. subst c0. now apply (handles_mapped_align false).
Qed.
Lemma slice_one (xs : list R) i : (i < length xs)%nat -> slice (i * 1) ((i + 1) * 1) (map PFlt xs) = [PFlt (nth i xs 0)].
Proof.
  rewrite !Nat.mul_1_r. unfold slice. replace (i + 1 - i)%nat with 1%nat by lia. revert xs. induction i as [|i IH]; intros [|x xs] H; cbn in *; try lia; [reflexivity|]. apply IH. lia.
Qed.
Lemma handles_ratios j rl m xs : (j < 4)%nat -> RelativeLength = Ok rl -> length xs = (m - 1)%nat -> handles (List.repeat (Side j) m) (mapped rl m) (map PFlt xs).
Proof.
  intros Hj E Hx. assert (S : csig (nval rl) = msig [TLine; TLine] 1 1).
  { destruct (relative_length_denote _ _ _ _ _ _ (PInt 0) 0 (gline_at 0 0 0 0) (gline_at 0 0 0 0) eq_refl) as (c' & E' & S & _). rewrite E in E'. injection E' as <-. exact S. }
  apply handles_mapped; rewrite S; [reflexivity|]. intros i Hi. cbn [nparams msig]. rewrite slice_one by lia. eapply h_ratio; [exact E|reflexivity].
Qed.
Lemma margin_array_affine m side c : OuterMarginArray (F:=R) m side = Ok c -> affine_cons c.
Proof. apply array_affine. Qed.
Lemma handles_grid r c g vw vh cw rh vcm vrm : (1 <= r)%nat -> (1 <= c)%nat -> Grid (F:=R) r c = Ok g -> py_tuple vw = Ok (map PFlt cw) -> py_tuple vh = Ok (map PFlt rh) -> length cw = (c - 1)%nat -> length rh = (r - 1)%nat ->
  handles (List.repeat Square (r * c)) g [vw; vh; vcm; vrm].
Proof.
  intros Hr Hc E Ew Eh Lw Lh. unfold Grid in E. inv_bind E. rename x into rg. inv_bind E. rename x into rl. rewrite !transform_map_ok, !repeat_length in E. cbn [bind] in E. inv_bind E. rename x into ca. inv_bind E. rename x into ra.
  rewrite mk_construction_ok in E; [|repeat constructor; cbn; intuition discriminate|cbn; intuition discriminate|cbn; lia|reflexivity]. injection E as <-.
  apply h_node with (Kf := fun i => match i with O => List.repeat Square (r * c) | 1%nat => List.repeat (Side 0) c | 2%nat => List.repeat (Side 1) r | 3%nat => List.repeat Square c | _ => List.repeat Square r end).
  - apply compound_cls_affine.
  - reflexivity.
  - intros i keys Ek. cbn [cpk] in Ek. destruct i as [|[|[|[|[|i]]]]]; cbn [nth_error] in Ek; try (destruct i; discriminate); injection Ek as <-.
    + pose proof (arg_kinds (fun i => i) (seq 0 (r * c)) (r * c)) as K. rewrite seq_length in K. apply K. intros i Hi. apply in_seq in Hi. lia.
    + pose proof (side_kinds (fun j => idx_1d [0%nat; j] [r; c]) (skipn 1 (seq 0 c) ++ firstn 1 (seq 0 c)) (r * c) 0 ltac:(lia)) as K. assert (Len : length (skipn 1 (seq 0 c) ++ firstn 1 (seq 0 c)) = c) by (rewrite rotated_seq, app_length, seq_length by exact Hc; cbn; lia). rewrite Len in K. apply K.
      intros j Hj. rewrite rotated_seq in Hj by exact Hc. rewrite idx_2d. apply idx_bound; [lia|]. apply in_app_or in Hj as [Hj|[<-|[]]]; [apply in_seq in Hj|]; lia.
    + pose proof (side_kinds (fun i => idx_1d [i; 0%nat] [r; c]) (skipn 1 (seq 0 r) ++ firstn 1 (seq 0 r)) (r * c) 1 ltac:(lia)) as K. assert (Len : length (skipn 1 (seq 0 r) ++ firstn 1 (seq 0 r)) = r) by (rewrite rotated_seq, app_length, seq_length by exact Hr; cbn; lia). rewrite Len in K. apply K.
      intros j Hj. rewrite rotated_seq in Hj by exact Hr. rewrite idx_2d. apply idx_bound; [|lia]. apply in_app_or in Hj as [Hj|[<-|[]]]; [apply in_seq in Hj|]; lia.
    + pose proof (arg_kinds (fun j => idx_1d [0%nat; j] [r; c]) (seq 0 c) (r * c)) as K. rewrite seq_length in K. apply K. intros j Hj. apply in_seq in Hj. rewrite idx_2d. apply idx_bound; lia.
    + pose proof (arg_kinds (fun i => idx_1d [i; 0%nat] [r; c]) (seq 0 r) (r * c)) as K. rewrite seq_length in K. apply K. intros j Hj. apply in_seq in Hj. rewrite idx_2d. apply idx_bound; lia.
  - intros cps i k c0 p Ep Ei Eq. cbn [cparams grid_params] in Ep. rewrite Ew, Eh in Ep. cbn [bind] in Ep. inv_bind Ep. inv_bind Ep. injection Ep as <-.
    destruct i as [|[|[|[|[|i]]]]]; cbn [nth_error zip] in Ei, Eq; try (destruct i; discriminate); injection Ei as <- <-; injection Eq as <-.
    + now apply (handles_rectilinear r c).
    + now apply handles_ratios; [lia|..].
    + now apply handles_ratios; [lia|..].
    + apply h_affine. now apply (margin_array_affine c "right").
    + apply h_affine. now apply (margin_array_affine r "bottom").
Qed.
