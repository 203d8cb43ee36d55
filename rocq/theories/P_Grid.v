(** Properties C44-C47: arrays and grids, for every number of rows and columns. *)
From Coq Require Import Reals Lra.
From Verif Require Import GeomProofs P_Geom CompProofs P_Comp GridProofs.
Local Open Scope R_scope.
Local Infix "<<" := Nat.lt (at level 70).

(** ** C44 *)
(** [prims] are the boxes [bs] (left, bottom, right, top), in order. *)
Theorem C44_outer_margin_array n side prims bs ts ks : In side sides ->
  length prims = n -> Forall2 is_box prims bs -> length ts = (n - 1)%nat -> Forall2 number_is ts ks ->
  exists c, OuterMarginArray n side = Ok c /\
    (vanishes c prims ts <->
     forall i b b' k, nth_error bs i = Some b -> nth_error bs (S i) = Some b' -> nth_error ks i = Some k -> gap side b b' = k).
Proof.
  intros Hs Hn Hb Ht Hk. destruct (margin_array_zeval n side Hs) as (c & C1 & C2 & C3). exists c. split; [exact C1|].
  destruct (boxes_valid prims bs Hb) as [V1 V2].
  rewrite zeval_vanishes; [reflexivity| | |exact V1].
  - eapply zeval_iff; [apply (C3 prims bs ts ks); assumption|]. apply Forall2_len in Hb as Lb. apply Forall2_len in Hk as Lk. split.
    + intros H i b b' k E1 E2 E3. assert (i < length ks)%nat by (apply nth_error_Some; congruence).
      specialize (H i ltac:(lia)). apply (nth_error_nth _ _ nobox) in E1, E2. apply (nth_error_nth _ _ 0) in E3. rewrite Nat.add_1_r in H. congruence.
    + intros H i Hi. apply (H i); [apply nth_error_nth'; lia|rewrite Nat.add_1_r; apply nth_error_nth'; lia|apply nth_error_nth'; lia].
  - unfold valid_args. rewrite C2. split; [rewrite <- Hn; exact V2|exact Ht].
Qed.

(** ** Grids *)
(** [prims] is the row-major list of an [r] x [c] arrangement of boxes [b i j]. *)
Definition arranged (r c : nat) (prims : list prim) (b : nat -> nat -> box) : Prop :=
  length prims = (r * c)%nat /\
  forall i j, i << r -> j << c -> exists q, nth_error prims (i * c + j) = Some q /\ is_box q (b i j).
(** Rows share bottom and top, columns share left and right. *)
Definition aligned (r c : nat) (b : nat -> nat -> box) : Prop :=
  (forall i j j', i << r -> j << c -> j' << c -> bbottom (b i j) = bbottom (b i j') /\ btop (b i j) = btop (b i j')) /\
  (forall i i' j, i << r -> i' << r -> j << c -> bleft (b i j) = bleft (b i' j) /\ bright (b i j) = bright (b i' j)).

Definition row_major (r c : nat) (b : nat -> nat -> box) : list box := map (fun k => b (k / c)%nat (k mod c)%nat) (seq 0 (r * c)).
Lemma row_major_nth r c b i j : i << r -> j << c -> nth (i * c + j) (row_major r c b) nobox = b i j.
Proof.
  unfold Nat.lt. intros Hi Hj. unfold row_major. rewrite nth_map_seq by (apply idx_bound; assumption).
  assert (E1 : ((i * c + j) / c = i)%nat) by (rewrite Nat.div_add_l, Nat.div_small by lia; lia).
  assert (E2 : ((i * c + j) mod c = j)%nat) by (rewrite (Nat.add_comm (i * c) j), Nat.mod_add, Nat.mod_small by lia; reflexivity).
  rewrite E1, E2. reflexivity.
Qed.
Lemma boxes_from (f : nat -> box) (prims : list prim) a :
  (forall k, (k < length prims)%nat -> exists q, nth_error prims k = Some q /\ is_box q (f (a + k)%nat)) ->
  Forall2 is_box prims (map f (seq a (length prims))).
Proof.
  revert a. induction prims as [|p prims IH]; intros a G; cbn; constructor.
  - destruct (G 0%nat ltac:(cbn; lia)) as (q & E & B). inversion E; subst. now rewrite Nat.add_0_r in B.
  - apply IH. intros k Hk. destruct (G (S k) ltac:(cbn; lia)) as (q & E & B). exists q. split; [exact E|]. now replace (S a + k)%nat with (a + S k)%nat by lia.
Qed.
Lemma arranged_boxes r c prims b : (1 <= c)%nat -> arranged r c prims b -> Forall2 is_box prims (row_major r c b).
Proof.
  intros Hc [Hl H].
  assert (G : forall k, (k < r * c)%nat -> exists q, nth_error prims k = Some q /\ is_box q (b (k / c)%nat (k mod c)%nat)).
  { intros k Hk. destruct (H (k / c)%nat (k mod c)%nat) as (q & E & B).
    - apply Nat.div_lt_upper_bound; lia.
    - apply Nat.mod_upper_bound. lia.
    - exists q. split; [|exact B]. rewrite <- E. f_equal. rewrite Nat.mul_comm. apply Nat.div_mod. lia. }
  unfold row_major. rewrite <- Hl in *. apply (boxes_from (fun k => b (k / c)%nat (k mod c)%nat) prims 0%nat). exact G.
Qed.
Lemma row_major_Forall r c b (P : box -> Prop) : (1 <= c)%nat -> (forall i j, i << r -> j << c -> P (b i j)) -> Forall P (row_major r c b).
Proof.
  intros Hc H. apply Forall_forall. intros x Hx. apply in_map_iff in Hx as (k & <- & Hk). apply in_seq in Hk.
  apply H; [apply Nat.div_lt_upper_bound; lia|apply Nat.mod_upper_bound; lia].
Qed.
Lemma aligned_last r c b : (1 <= r)%nat -> (1 <= c)%nat ->
  (((forall i j, (i < r)%nat -> (j < c - 1)%nat ->
        bbottom (nth (i * c + (c - 1)) (row_major r c b) nobox) = bbottom (nth (i * c + j) (row_major r c b) nobox) /\ btop (nth (i * c + (c - 1)) (row_major r c b) nobox) = btop (nth (i * c + j) (row_major r c b) nobox)) /\
    (forall i j, (i < r - 1)%nat -> (j < c)%nat ->
        bleft (nth ((r - 1) * c + j) (row_major r c b) nobox) = bleft (nth (i * c + j) (row_major r c b) nobox) /\ bright (nth ((r - 1) * c + j) (row_major r c b) nobox) = bright (nth (i * c + j) (row_major r c b) nobox)))
   <-> aligned r c b).
Proof.
  intros Hr Hc. unfold aligned, Nat.lt. split; intros [H1 H2]; split.
  - assert (G : forall i j, (i < r)%nat -> (j < c)%nat -> bbottom (b i (c - 1)%nat) = bbottom (b i j) /\ btop (b i (c - 1)%nat) = btop (b i j)).
    { intros i j Hi Hj. destruct (Nat.eq_dec j (c - 1)) as [->|Hne]; [auto|]. specialize (H1 i j Hi ltac:(lia)). rewrite !row_major_nth in H1 by (unfold Nat.lt; lia). exact H1. }
    intros i j j' Hi Hj Hj'. destruct (G i j Hi Hj), (G i j' Hi Hj'). split; congruence.
  - assert (G : forall i j, (i < r)%nat -> (j < c)%nat -> bleft (b (r - 1)%nat j) = bleft (b i j) /\ bright (b (r - 1)%nat j) = bright (b i j)).
    { intros i j Hi Hj. destruct (Nat.eq_dec i (r - 1)) as [->|Hne]; [auto|]. specialize (H2 i j ltac:(lia) Hj). rewrite !row_major_nth in H2 by (unfold Nat.lt; lia). exact H2. }
    intros i i' j Hi Hi' Hj. destruct (G i j Hi Hj), (G i' j Hi' Hj). split; congruence.
  - intros i j Hi Hj. rewrite !row_major_nth by (unfold Nat.lt; lia). apply H1; lia.
  - intros i j Hi Hj. rewrite !row_major_nth by (unfold Nat.lt; lia). apply H2; lia.
Qed.

(** ** C45 *)
Theorem C45_rectilinear_grid r c prims b : (1 <= r)%nat -> (1 <= c)%nat ->
  arranged r c prims b -> (forall i j, i << r -> j << c -> nondegenerate (b i j)) ->
  exists g, RectilinearGrid r c = Ok g /\ (vanishes g prims [] <-> aligned r c b).
Proof.
  intros Hr Hc Ha Hd. destruct (rectilinear_zeval r c Hr Hc) as (g & G1 & G2 & G3). exists g. split; [exact G1|].
  pose proof (arranged_boxes r c prims b Hc Ha) as Hb. destruct Ha as [Hl _]. destruct (boxes_valid _ _ Hb) as [V1 V2].
  rewrite zeval_vanishes; [reflexivity| | |exact V1].
  - eapply zeval_iff; [apply (G3 prims (row_major r c b) Hl Hb)|now apply aligned_last]. now apply row_major_Forall.
  - unfold valid_args. rewrite G2. split; [rewrite <- Hl; exact V2|reflexivity].
Qed.

(** ** C46 *)
(** A one-dimensional parameter: array or list. *)
Definition array_param (v : pyval) (xs : list R) : Prop := v = PA1 xs \/ v = PList xs.
Definition proper (b : box) : Prop := bleft b < bright b /\ bbottom b < btop b.
(** Sizes and gaps of a grid, relative to the first column and row. *)
Definition proportioned (r c : nat) (b : nat -> nat -> box) (cw rh cm rm : list R) : Prop :=
  (forall i j w, i << r -> S j << c -> nth_error cw j = Some w -> bwidth (b i (S j)) = w * bwidth (b i 0%nat)) /\
  (forall i j h, S i << r -> j << c -> nth_error rh i = Some h -> bheight (b (S i) j) = h * bheight (b 0%nat j)) /\
  (forall i j m, i << r -> S j << c -> nth_error cm j = Some m -> bleft (b i (S j)) - bright (b i j) = m) /\
  (forall i j m, S i << r -> j << c -> nth_error rm i = Some m -> bbottom (b i j) - btop (b (S i) j) = m).
Lemma array_tuple v xs : array_param v xs -> py_tuple v = Ok (map PFlt xs).
Proof. intros [-> | ->]; reflexivity. Qed.

Theorem C46_grid r c prims b vcw vrh vcm vrm cw rh cm rm : (1 <= r)%nat -> (1 <= c)%nat ->
  arranged r c prims b -> (forall i j, i << r -> j << c -> proper (b i j)) ->
  array_param vcw cw -> array_param vrh rh -> array_param vcm cm -> array_param vrm rm ->
  length cw = (c - 1)%nat -> length rh = (r - 1)%nat -> length cm = (c - 1)%nat -> length rm = (r - 1)%nat ->
  exists g, Grid r c = Ok g /\
    (vanishes g prims [vcw; vrh; vcm; vrm] <-> aligned r c b /\ proportioned r c b cw rh cm rm).
Proof.
  intros Hr Hc Ha Hp A1 A2 A3 A4 L1 L2 L3 L4. destruct (grid_zeval r c Hr Hc) as (g & G1 & G2 & G3). exists g. split; [exact G1|].
  pose proof (arranged_boxes r c prims b Hc Ha) as Hb. destruct Ha as [Hl _]. destruct (boxes_valid _ _ Hb) as [V1 V2].
  rewrite zeval_vanishes; [reflexivity| | |exact V1].
  2: { unfold valid_args. rewrite G2. split; [rewrite <- Hl; exact V2|reflexivity]. }
  eapply zeval_iff.
  - apply (G3 prims (row_major r c b) vcw vrh vcm vrm cw rh cm rm); auto using array_tuple.
    apply row_major_Forall; [assumption|]. intros i j Hi Hj. destruct (Hp i j Hi Hj). split; lra.
  - rewrite aligned_last by assumption.
    assert (Nth : forall i j, (i < r)%nat -> (j < c)%nat -> nth (i * c + j) (row_major r c b) nobox = b i j) by (intros; now apply row_major_nth).
    assert (N0 : forall j, (j < c)%nat -> nth j (row_major r c b) nobox = b 0%nat j) by (intros j Hj; apply (Nth 0%nat j); lia).
    assert (N1 : forall i, (i < r)%nat -> nth (i * c) (row_major r c b) nobox = b i 0%nat) by (intros i Hi; rewrite <- (Nat.add_0_r (i * c)); apply Nth; lia).
    assert (Pw : forall i j, (i < r)%nat -> (j < c)%nat -> Rabs (bwidth (b i j)) = bwidth (b i j)).
    { intros i j Hi Hj. destruct (Hp i j Hi Hj). unfold bwidth. apply Rabs_right. lra. }
    assert (Ph : forall i j, (i < r)%nat -> (j < c)%nat -> Rabs (bheight (b i j)) = bheight (b i j)).
    { intros i j Hi Hj. destruct (Hp i j Hi Hj). unfold bheight. apply Rabs_right. lra. }
    unfold proportioned, Nat.lt. split.
    + intros (Al & W & H & CM & RM). split; [exact Al|]. destruct Al as [R1 R2]. unfold Nat.lt in R1, R2.
      split; [|split; [|split]].
      * intros i j w Hi Hj E. assert (Hj' : (j < length cw)%nat) by (apply nth_error_Some; congruence). apply (nth_error_nth _ _ 0) in E.
        specialize (W j ltac:(lia)). rewrite Nat.add_1_r in W. rewrite (N0 (S j)), (N0 0%nat), !Pw, E in W by lia. unfold bwidth in *.
        destruct (R2 i 0%nat (S j) ltac:(lia) ltac:(lia) ltac:(lia)) as [-> ->]. destruct (R2 i 0%nat 0%nat ltac:(lia) ltac:(lia) ltac:(lia)) as [-> ->]. exact W.
      * intros i j h Hi Hj E. assert (Hi' : (i < length rh)%nat) by (apply nth_error_Some; congruence). apply (nth_error_nth _ _ 0) in E.
        specialize (H i ltac:(lia)). rewrite Nat.add_1_r in H. rewrite (N1 (S i)), (N0 0%nat), !Ph, E in H by lia. unfold bheight in *.
        destruct (R1 (S i) j 0%nat ltac:(lia) ltac:(lia) ltac:(lia)) as [-> ->]. destruct (R1 0%nat j 0%nat ltac:(lia) ltac:(lia) ltac:(lia)) as [-> ->]. exact H.
      * intros i j m Hi Hj E. assert (Hj' : (j < length cm)%nat) by (apply nth_error_Some; congruence). apply (nth_error_nth _ _ 0) in E.
        specialize (CM j ltac:(lia)). rewrite Nat.add_1_r in CM. rewrite (N0 (S j)), (N0 j), E in CM by lia. unfold gap, outer_gap in CM. cbn in CM.
        destruct (R2 i 0%nat (S j) ltac:(lia) ltac:(lia) ltac:(lia)) as [-> _]. destruct (R2 i 0%nat j ltac:(lia) ltac:(lia) ltac:(lia)) as [_ ->]. exact CM.
      * intros i j m Hi Hj E. assert (Hi' : (i < length rm)%nat) by (apply nth_error_Some; congruence). apply (nth_error_nth _ _ 0) in E.
        specialize (RM i ltac:(lia)). rewrite Nat.add_1_r in RM. rewrite (N1 (S i)), (N1 i), E in RM by lia. unfold gap, outer_gap in RM. cbn in RM.
        destruct (R1 i j 0%nat ltac:(lia) ltac:(lia) ltac:(lia)) as [-> _]. destruct (R1 (S i) j 0%nat ltac:(lia) ltac:(lia) ltac:(lia)) as [_ ->]. exact RM.
    + intros (Al & W & H & CM & RM). split; [exact Al|]. split; [|split; [|split]].
      * intros j Hj. rewrite Nat.add_1_r, (N0 (S j)), (N0 0%nat), !Pw by lia. apply W; [lia|lia|]. apply nth_error_nth'. lia.
      * intros i Hi. rewrite Nat.add_1_r, (N1 (S i)), (N0 0%nat), !Ph by lia. apply H; [lia|lia|]. apply nth_error_nth'. lia.
      * intros j Hj. rewrite Nat.add_1_r, (N0 (S j)), (N0 j) by lia. apply CM; [lia|lia|]. apply nth_error_nth'. lia.
      * intros i Hi. rewrite Nat.add_1_r, (N1 (S i)), (N1 i) by lia. apply RM; [lia|lia|]. apply nth_error_nth'. lia.
Qed.

(** ** C47 *)
Definition size (shape : list nat) : nat := fold_right Nat.mul 1%nat shape.
Definition in_shape (idx shape : list nat) : Prop := Forall2 (fun i n => i << n) idx shape.
(** Row-major position: the number of multi-indices before, in lexicographic order. *)
Fixpoint position (idx shape : list nat) : nat :=
  match idx, shape with
  | i :: idx', _ :: shape' => (i * size shape' + position idx' shape')%nat
  | _, _ => 0%nat
  end.
(** Up to two dimensions (all that the grids use), [idx_1d] is the row-major position
    and a bijection; with three dimensions it is neither (C47_three_dimensions_refuted). *)
Theorem C47_row_major idx shape : (length shape <= 2)%nat -> in_shape idx shape ->
  idx_1d idx shape = position idx shape /\ idx_1d idx shape << size shape.
Proof.
  intros H2 H. destruct shape as [|n [|m [|k shape]]]; cbn in H2; try lia.
  - inversion H; subst. cbn. split; [reflexivity|constructor].
  - inversion H as [|i ? idx' ? Hi H']; subst. inversion H'; subst. unfold idx_1d, Nat.lt in *. cbn. lia.
  - inversion H as [|i ? idx' ? Hi H']; subst. inversion H' as [|j ? idx'' ? Hj H'']; subst. inversion H''; subst. rewrite idx_2d. cbn. unfold Nat.lt in *.
    rewrite Nat.mul_1_r, Nat.mul_1_r. split; [lia|]. apply idx_bound; assumption.
Qed.
Theorem C47_bijective shape : (length shape <= 2)%nat ->
  (forall idx idx', in_shape idx shape -> in_shape idx' shape -> idx_1d idx shape = idx_1d idx' shape -> idx = idx') /\
  (forall k, k << size shape -> exists idx, in_shape idx shape /\ idx_1d idx shape = k).
Proof.
  intros H2. destruct shape as [|n [|m [|k shape]]]; cbn in H2; try lia.
  - split.
    + intros idx idx' H H' _. inversion H; inversion H'. reflexivity.
    + intros k Hk. cbn in Hk. exists []. split; [constructor|]. unfold Nat.lt in Hk. unfold idx_1d. cbn. lia.
  - split.
    + intros idx idx' H H' E. inversion H as [|i ? t ? Hi Ht]; subst. inversion Ht; subst. inversion H' as [|i' ? t' ? Hi' Ht']; subst. inversion Ht'; subst.
      unfold idx_1d in E. cbn in E. f_equal. lia.
    + intros k Hk. exists [k]. cbn in Hk. split; [repeat constructor; unfold Nat.lt in *; lia|]. unfold idx_1d. cbn. lia.
  - split.
    + intros idx idx' H H' E. inversion H as [|i ? t ? Hi Ht]; subst. inversion Ht as [|j ? u ? Hj Hu]; subst. inversion Hu; subst.
      inversion H' as [|i' ? t' ? Hi' Ht']; subst. inversion Ht' as [|j' ? u' ? Hj' Hu']; subst. inversion Hu'; subst.
      rewrite !idx_2d in E. unfold Nat.lt in *.
      assert (Ei : i = i').
      { apply (f_equal (fun x => (x / m)%nat)) in E. rewrite !Nat.div_add_l, !Nat.div_small in E by lia. lia. }
      subst i'. assert (j = j') by lia. subst. reflexivity.
    + intros k Hk. unfold Nat.lt in *. cbn in Hk. rewrite Nat.mul_1_r in Hk. assert (Hm : (0 < m)%nat) by nia.
      exists [k / m; k mod m]%nat. split.
      * constructor; [unfold Nat.lt; apply Nat.div_lt_upper_bound; lia|]. constructor; [unfold Nat.lt; apply Nat.mod_upper_bound; lia|constructor].
      * rewrite idx_2d, Nat.mul_comm. symmetry. apply Nat.div_mod. lia.
Qed.
Theorem C47_three_dimensions_refuted : exists shape idx idx', in_shape idx shape /\ in_shape idx' shape /\ idx <> idx' /\
  idx_1d idx shape = idx_1d idx' shape /\ idx_1d idx shape <> position idx shape.
Proof.
  exists [2; 2; 2]%nat, [1; 0; 0]%nat, [0; 1; 0]%nat.
  repeat split; try discriminate; repeat constructor.
Qed.

(** ** Cases meeting the hypotheses *)
(** A 2 x 2 grid of boxes with column widths 2, 1, row heights 1, 3 and gaps 1/2. *)
Definition cell (i j : nat) : box :=
  match i, j with
  | O, O => (0, 7, 2, 8) | O, _ => (5/2, 7, 7/2, 8)
  | _, O => (0, 3, 2, 6) | _, _ => (5/2, 3, 7/2, 6)
  end.
Definition cells : list prim := map (fun b => gbox (bleft b) (bbottom b) (bright b) (btop b)) [cell 0 0; cell 0 1; cell 1 0; cell 1 1].
Lemma cells_arranged : arranged 2 2 cells cell.
Proof.
  split; [reflexivity|]. intros i j Hi Hj. unfold Nat.lt in *.
  destruct i as [|[|i]]; [| |lia]; (destruct j as [|[|j]]; [| |lia]); (eexists; split; [reflexivity|apply gbox_at]).
Qed.
Lemma cells_proper i j : proper (cell i j).
Proof. destruct i, j; unfold proper, cell, bleft, bright, bbottom, btop; cbn; lra. Qed.
Example C46_case : exists g, Grid 2 2 = Ok g /\ vanishes g cells [PA1 [1/2]; PList [3]; PA1 [1/2]; PA1 [1]] /\
  ~ vanishes g cells [PA1 [1/2]; PList [3]; PA1 [1]; PA1 [1]].
Proof.
  destruct (C46_grid 2 2 cells cell (PA1 [1/2]) (PList [3]) (PA1 [1/2]) (PA1 [1]) [1/2] [3] [1/2] [1] ltac:(lia) ltac:(lia) cells_arranged
    (fun i j _ _ => cells_proper i j) (or_introl eq_refl) (or_intror eq_refl) (or_introl eq_refl) (or_introl eq_refl) eq_refl eq_refl eq_refl eq_refl) as (g & G & V).
  destruct (C46_grid 2 2 cells cell (PA1 [1/2]) (PList [3]) (PA1 [1]) (PA1 [1]) [1/2] [3] [1] [1] ltac:(lia) ltac:(lia) cells_arranged
    (fun i j _ _ => cells_proper i j) (or_introl eq_refl) (or_intror eq_refl) (or_introl eq_refl) (or_introl eq_refl) eq_refl eq_refl eq_refl eq_refl) as (g' & G' & V').
  rewrite G in G'. inversion G'; subst g'. exists g. split; [exact G|]. split.
  - apply V. unfold aligned, proportioned, Nat.lt. split; [split|split; [|split; [|split]]].
    + intros [|[|i]] [|[|j]] [|[|j']] ? ? ?; try lia; cbn; auto.
    + intros [|[|i]] [|[|i']] [|[|j]] ? ? ?; try lia; cbn; auto.
    + intros [|[|i]] [|j] w ? ? E; try lia; inversion E; subst; unfold bwidth; cbn; lra.
    + intros [|i] [|[|j]] w ? ? E; try lia; inversion E; subst; unfold bheight; cbn; lra.
    + intros [|[|i]] [|j] w ? ? E; try lia; inversion E; subst; cbn; lra.
    + intros [|i] [|[|j]] w ? ? E; try lia; inversion E; subst; cbn; lra.
  - rewrite V'. intros (_ & _ & _ & H & _). specialize (H 0%nat 0%nat 1 ltac:(unfold Nat.lt; lia) ltac:(unfold Nat.lt; lia) eq_refl). cbn in H. lra.
Qed.
Example C45_case : exists g, RectilinearGrid 2 2 = Ok g /\ vanishes g cells [].
Proof.
  destruct (C45_rectilinear_grid 2 2 cells cell ltac:(lia) ltac:(lia) cells_arranged) as (g & G & V).
  - intros i j _ _. destruct (cells_proper i j). split; lra.
  - exists g. split; [exact G|]. apply V. unfold aligned, Nat.lt. split.
    + intros [|[|i]] [|[|j]] [|[|j']] ? ? ?; try lia; cbn; auto.
    + intros [|[|i]] [|[|i']] [|[|j]] ? ? ?; try lia; cbn; auto.
Qed.
Example C44_case : Forall2 is_box (firstn 2 cells) [cell 0 0; cell 0 1] /\ Forall2 number_is [PFlt (1/2)] [1/2] /\ gap "right" (cell 0 0) (cell 0 1) = 1/2.
Proof.
  split; [repeat constructor; apply gbox_at|]. split; [repeat constructor|]. unfold gap, outer_gap; cbn. lra.
Qed.
Example C47_case : in_shape [1; 2]%nat [2; 3]%nat /\ idx_1d [1; 2]%nat [2; 3]%nat = 5%nat.
Proof. split; [repeat constructor|reflexivity]. Qed.

Print Assumptions C44_outer_margin_array.
Print Assumptions C45_rectilinear_grid.
Print Assumptions C46_grid.
Print Assumptions C47_row_major.
Print Assumptions C47_bijective.
Print Assumptions C47_three_dimensions_refuted.
