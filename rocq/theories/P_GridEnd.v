(** C92: a figure with a grid of axes. *)
From Coq Require Import Reals Lra.
From Verif Require Import GeomProofs P_Geom CompProofs P_Comp ConsProofs TreeLemmas MplProofs P_Mpl GridProofs P_Grid.
From Verif Require Export P_End GridEndSpec.
From Verif Require Import P_Affine.
Local Open Scope R_scope.

Lemma cells_length {X} r c (f : nat -> nat -> X) : length (GridEndSpec.cells r c f) = (r * c)%nat.
Proof.
  unfold GridEndSpec.cells. generalize 0%nat at 2. induction r as [|r IH]; intros a; [reflexivity|]. cbn [seq flat_map]. rewrite app_length, map_length, seq_length, IH. lia.
Qed.
Lemma cells_nth {X} r c (f : nat -> nat -> X) i j : (i < r)%nat -> (j < c)%nat -> nth_error (GridEndSpec.cells r c f) (i * c + j) = Some (f i j).
Proof.
  unfold GridEndSpec.cells. intros Hi Hj. enough (G : forall a, nth_error (flat_map (fun i => map (f i) (seq 0 c)) (seq a r)) (i * c + j) = Some (f (a + i)%nat j)) by apply (G 0%nat).
  revert i Hi. induction r as [|r IH]; intros i Hi a; [lia|]. cbn [seq flat_map]. destruct i as [|i].
  - rewrite nth_error_app1 by (rewrite map_length, seq_length; lia). rewrite nth_error_map, nth_error_seq by lia. cbn. now rewrite Nat.add_0_r.
  - rewrite nth_error_app2 by (rewrite map_length, seq_length; lia). rewrite map_length, seq_length. replace (S i * c + j - c)%nat with (i * c + j)%nat by lia.
    rewrite (IH i ltac:(lia) (S a)). do 2 f_equal. lia.
Qed.
Lemma cells_in {X} r c (f : nat -> nat -> X) x : In x (GridEndSpec.cells r c f) -> exists i j, (i < r)%nat /\ (j < c)%nat /\ x = f i j.
Proof.
  unfold GridEndSpec.cells. intros H. apply in_flat_map in H as (i & Hi & H). apply in_map_iff in H as (j & <- & Hj). apply in_seq in Hi, Hj. exists i, j. repeat split; lia.
Qed.
Lemma cells_map {X Y} r c (f : nat -> nat -> X) (g : X -> Y) : map g (GridEndSpec.cells r c f) = GridEndSpec.cells r c (fun i j => g (f i j)).
Proof.
  unfold GridEndSpec.cells. induction (seq 0 r) as [|i l IH]; [reflexivity|]. cbn. now rewrite map_app, map_map, IH.
Qed.

(** The box spanned by the first and third corner. *)
Definition span (q : prim) : box :=
  match get_child q "Line0/Point0", get_child q "Line1/Point1" with
  | Ok a, Ok b => match vdata (nval a), vdata (nval b) with [x; y], [u; v] => (x, y, u, v) | _, _ => nobox end
  | _, _ => nobox
  end.
Lemma span_at q P0 P1 P2 P3 : quad_at q P0 P1 P2 P3 -> span q = (fst P0, snd P0, fst P2, snd P2).
Proof. intros H. destruct (quad_corners _ _ _ _ _ H) as (a & b & E1 & E2 & D1 & D2). unfold span. now rewrite E1, E2, D1, D2. Qed.
Lemma boxed q P0 P1 P2 P3 : quad_at q P0 P1 P2 P3 -> (exists c, Box = Ok c /\ vanishes c [q] []) -> is_box q (span q).
Proof.
  intros Hq (c & Ec & r & Er & Hr). destruct (box_value _ _ _ _ _ Hq) as (c' & Ec' & E). rewrite Ec in Ec'. injection Ec' as <-. rewrite Er in E. injection E as ->.
  inversion_clear Hr as [|? ? A1 Hr']. inversion_clear Hr' as [|? ? A2 Hr]. inversion_clear Hr as [|? ? A3 Hr']. inversion_clear Hr' as [|? ? A4 _].
  rewrite (span_at _ _ _ _ _ Hq). unfold is_box, box_at, bleft, bbottom, bright, btop. cbn [fst snd].
  destruct P0 as [x0 y0], P1 as [x1 y1], P2 as [x2 y2], P3 as [x3 y3]. cbn [fst snd] in *.
  replace y0 with y1 by lra. replace x2 with x1 by lra. replace x0 with x3 by lra. replace y2 with y3 by lra.
  replace x0 with x3 in Hq by lra. replace y0 with y1 in Hq by lra. replace x2 with x1 in Hq by lra. replace y2 with y3 in Hq by lra. exact Hq.
Qed.

(** Positions of consecutive intervals of given sizes and gaps. *)
Lemma sum_of_snoc l x : sum_of (l ++ [x]) = sum_of l + x.
Proof. induction l as [|a l IH]; cbn [sum_of fold_right List.app]; [lra|]. unfold sum_of in IH. rewrite IH. lra. Qed.
Lemma firstn_snoc (l : list R) j x : nth_error l j = Some x -> firstn (S j) l = (firstn j l ++ [x])%list.
Proof. revert l. induction j as [|j IH]; intros [|a l] H; try discriminate; [injection H as ->; reflexivity|]. cbn [nth_error] in H. change (firstn (S (S j)) (a :: l)) with (a :: firstn (S j) l). now rewrite (IH _ H). Qed.
Lemma sum_of_scale u l : sum_of (map (fun k => k * u) l) = u * sum_of l.
Proof. induction l as [|a l IH]; cbn; [lra|]. unfold sum_of in IH. rewrite IH. lra. Qed.
Lemma intervals (n : nat) (lo hi : nat -> R) (ratios gaps : list R) u : (1 <= n)%nat -> length ratios = (n - 1)%nat -> length gaps = (n - 1)%nat ->
  hi 0%nat - lo 0%nat = u ->
  (forall j k, (S j < n)%nat -> nth_error ratios j = Some k -> hi (S j) - lo (S j) = k * u) ->
  (forall j m, (S j < n)%nat -> nth_error gaps j = Some m -> lo (S j) - hi j = m) ->
  (forall j, (j < n)%nat -> lo j = lo 0%nat + offset u ratios gaps j /\ hi j - lo j = nth j (extents u ratios) 0) /\
  hi (n - 1)%nat - lo 0%nat = u * (1 + sum_of ratios) + sum_of gaps.
Proof.
  intros Hn Lr Lg H0 Hs Hg.
  assert (S1 : forall j, (j < n)%nat -> nth_error (extents u ratios) j = Some (hi j - lo j)).
  { intros [|j] Hj; [cbn; now rewrite H0|]. cbn [extents nth_error]. rewrite nth_error_map. destruct (nth_error ratios j) as [k|] eqn:E; [cbn; now rewrite (Hs j k Hj E)|]. apply nth_error_None in E. lia. }
  assert (S2 : forall j, (S j < n)%nat -> nth_error gaps j = Some (lo (S j) - hi j)).
  { intros j Hj. destruct (nth_error gaps j) as [m|] eqn:E; [now rewrite (Hg j m Hj E)|]. apply nth_error_None in E. lia. }
  assert (A : forall j, (j < n)%nat -> lo j = lo 0%nat + offset u ratios gaps j).
  { induction j as [|j IH]; intros Hj; [unfold offset; cbn; lra|]. specialize (IH ltac:(lia)). unfold offset in *.
    rewrite (firstn_snoc _ _ _ (S1 j ltac:(lia))), (firstn_snoc _ _ _ (S2 j Hj)), !sum_of_snoc. lra. }
  split; [intros j Hj; split; [now apply A|]; specialize (S1 j Hj); now apply (nth_error_nth _ _ 0) in S1|].
  specialize (A (n - 1)%nat ltac:(lia)). specialize (S1 (n - 1)%nat ltac:(lia)).
  assert (T : sum_of (extents u ratios) = sum_of (firstn (n - 1) (extents u ratios)) + (hi (n - 1)%nat - lo (n - 1)%nat)).
  { rewrite <- sum_of_snoc, <- (firstn_snoc _ _ _ S1). rewrite firstn_all2; [reflexivity|]. unfold extents. cbn [length]. rewrite map_length. lia. }
  unfold extents in T at 1. cbn [sum_of fold_right] in T. fold (sum_of (map (fun k => k * u) ratios)) in T. rewrite sum_of_scale in T.
  unfold offset in A. rewrite (firstn_all2 gaps) in A by lia. lra.
Qed.
Lemma ratios_positive (l : list R) u : 0 < u -> (forall j k, nth_error l j = Some k -> 0 < k * u) -> 0 <= sum_of l.
Proof.
  intros Hu. induction l as [|a l IH]; intros H; cbn; [lra|]. specialize (IH (fun j k => H (S j) k)). pose proof (H 0%nat a eq_refl) as Ha.
  assert (0 < a). { apply (Rmult_lt_reg_r u); [assumption|]. lra. } unfold sum_of in IH. lra.
Qed.
Lemma mapM_ok_nth {X Y} (f : X -> result Y) l ys : mapM f l = Ok ys -> length ys = length l /\ forall i x, nth_error l i = Some x -> exists y, nth_error ys i = Some y /\ f x = Ok y.
Proof.
  revert ys. induction l as [|a l IH]; intros ys H; cbn [mapM] in H; [injection H as <-; split; [reflexivity|intros [|i] x E; discriminate E]|].
  destruct (f a) as [y|] eqn:Ea; [|discriminate]. cbn [bind] in H. destruct (mapM f l) as [ys'|] eqn:El; [|discriminate]. cbn [bind] in H. injection H as <-.
  destruct (IH _ eq_refl) as [L N]. split; [cbn; lia|]. intros [|i] x E; [injection E as ->; now exists y|exact (N i x E)].
Qed.

(** Sizes and gaps of the first row and the first column. *)
Definition first_row_column (r c : nat) (b : nat -> nat -> box) (cw rh cm rm : list R) : Prop :=
  (forall j k, (S j < c)%nat -> nth_error cw j = Some k -> bwidth (b 0%nat (S j)) = k * bwidth (b 0%nat 0%nat)) /\
  (forall i k, (S i < r)%nat -> nth_error rh i = Some k -> bheight (b (S i) 0%nat) = k * bheight (b 0%nat 0%nat)) /\
  (forall j m, (S j < c)%nat -> nth_error cm j = Some m -> bleft (b 0%nat (S j)) - bright (b 0%nat j) = m) /\
  (forall i m, (S i < r)%nat -> nth_error rm i = Some m -> bbottom (b i 0%nat) - btop (b (S i) 0%nat) = m).
Lemma bottom_side (p : prim) k q B : get_child p k = Ok q -> is_box q B ->
  exists l, get_child p (k ++ "/Line0")%string = Ok l /\ line_at l (bleft B, bbottom B) (bright B, bbottom B).
Proof.
  intros E H. destruct (quad_line0 _ _ _ _ _ H) as (l & E' & Hl). exists l. split; [|exact Hl]. now apply (proj2 (get_child_app p k "Line0" q E)).
Qed.
Lemma right_side (p : prim) k q B : get_child p k = Ok q -> is_box q B ->
  exists l, get_child p (k ++ "/Line1")%string = Ok l /\ line_at l (bright B, bbottom B) (bright B, btop B).
Proof.
  intros E H. destruct (quad_line1 _ _ _ _ _ H) as (l & E' & Hl). exists l. split; [|exact Hl]. now apply (proj2 (get_child_app p k "Line1" q E)).
Qed.
Lemma pieces_satisfied acts (p : prim) r c key g (cellq : nat -> nat -> prim) (b : nat -> nat -> box) : (1 <= r)%nat -> (1 <= c)%nat ->
  (forall co ks ps, asked acts co ks ps -> exists c' prims, co = Ok c' /\ mapM (get_child p) ks = Ok prims /\ vanishes c' prims ps) ->
  (forall i j, (i < r)%nat -> (j < c)%nat -> get_child p (frame (key i j)) = Ok (cellq i j) /\ is_box (cellq i j) (b i j) /\ proper (b i j)) ->
  (forall j k, (S j < c)%nat -> nth_error (ratios_x g) j = Some k -> exists v, number v k /\
     asked acts RelativeLength [(frame (key 0%nat (S j)) ++ "/Line0")%string; (frame (key 0%nat 0%nat) ++ "/Line0")%string] [v]) ->
  (forall j m, (S j < c)%nat -> nth_error (gaps_x g) j = Some m -> exists v, number v m /\
     asked acts (crOuterMargin "right") [frame (key 0%nat j); frame (key 0%nat (S j))] [v]) ->
  (forall i k, (S i < r)%nat -> nth_error (ratios_y g) i = Some k -> exists v, number v k /\
     asked acts RelativeLength [(frame (key (S i) 0%nat) ++ "/Line1")%string; (frame (key 0%nat 0%nat) ++ "/Line1")%string] [v]) ->
  (forall i m, (S i < r)%nat -> nth_error (gaps_y g) i = Some m -> exists v, number v m /\
     asked acts (crOuterMargin "bottom") [frame (key i 0%nat); frame (key (S i) 0%nat)] [v]) ->
  first_row_column r c b (ratios_x g) (ratios_y g) (gaps_x g) (gaps_y g).
Proof.
  intros Pr Pc Ev Q A1 A2 A3 A4. destruct (Q 0%nat 0%nat ltac:(lia) ltac:(lia)) as (Q0 & B0 & (X0 & Y0)). unfold bwidth, bheight. split; [|split; [|split]].
  - intros j k Hj E. destruct (A1 j k Hj E) as (v & [n1 n2] & Ha). destruct (Ev _ _ _ Ha) as (c1 & prims & F1 & E2 & F3).
    destruct (Q 0%nat (S j) ltac:(lia) ltac:(lia)) as (Q1 & B1 & (X1 & Y1)).
    destruct (bottom_side p _ _ _ Q0 B0) as (l0 & E0 & L0). destruct (bottom_side p _ _ _ Q1 B1) as (l1 & E1 & L1).
    cbn [mapM] in E2. rewrite E1 in E2. cbn [bind] in E2. rewrite E0 in E2. cbn [bind] in E2. injection E2 as <-.
    destruct (C36_relative_length _ _ _ _ _ _ _ _ L1 L0 n1) as (c' & F1' & _ & V). rewrite F1 in F1'. injection F1' as <-. apply V in F3. rewrite !len_h in F3. unfold bwidth.
    rewrite !Rabs_right in F3 by lra. lra.
  - intros i k Hj E. destruct (A3 i k Hj E) as (v & [n1 n2] & Ha). destruct (Ev _ _ _ Ha) as (c1 & prims & F1 & E2 & F3).
    destruct (Q (S i) 0%nat ltac:(lia) ltac:(lia)) as (Q1 & B1 & (X1 & Y1)).
    destruct (right_side p _ _ _ Q0 B0) as (l0 & E0 & L0). destruct (right_side p _ _ _ Q1 B1) as (l1 & E1 & L1).
    cbn [mapM] in E2. rewrite E1 in E2. cbn [bind] in E2. rewrite E0 in E2. cbn [bind] in E2. injection E2 as <-.
    destruct (C36_relative_length _ _ _ _ _ _ _ _ L1 L0 n1) as (c' & F1' & _ & V). rewrite F1 in F1'. injection F1' as <-. apply V in F3. rewrite !len_v in F3. unfold bheight.
    rewrite !Rabs_right in F3 by lra. lra.
  - intros j m Hj E. destruct (A2 j m Hj E) as (v & [n1 n2] & Ha). destruct (Ev _ _ _ Ha) as (c1 & prims & F1 & E2 & F3).
    destruct (Q 0%nat j ltac:(lia) ltac:(lia)) as (Q1 & B1 & _). destruct (Q 0%nat (S j) ltac:(lia) ltac:(lia)) as (Q2 & B2 & _).
    cbn [mapM] in E2. rewrite Q1 in E2. cbn [bind] in E2. rewrite Q2 in E2. cbn [bind] in E2. injection E2 as <-.
    destruct (C43_outer_margin "right" _ _ _ _ _ _ _ _ _ _ v m (or_intror (or_introl eq_refl)) B1 B2 n1 n2) as (c' & F1' & _ & V). rewrite F1 in F1'. injection F1' as <-. apply V in F3. exact F3.
  - intros i m Hj E. destruct (A4 i m Hj E) as (v & [n1 n2] & Ha). destruct (Ev _ _ _ Ha) as (c1 & prims & F1 & E2 & F3).
    destruct (Q i 0%nat ltac:(lia) ltac:(lia)) as (Q1 & B1 & _). destruct (Q (S i) 0%nat ltac:(lia) ltac:(lia)) as (Q2 & B2 & _).
    cbn [mapM] in E2. rewrite Q1 in E2. cbn [bind] in E2. rewrite Q2 in E2. cbn [bind] in E2. injection E2 as <-.
    destruct (C43_outer_margin "bottom" _ _ _ _ _ _ _ _ _ _ v m (or_intror (or_intror (or_introl eq_refl))) B1 B2 n1 n2) as (c' & F1' & _ & V). rewrite F1 in F1'. injection F1' as <-. apply V in F3. exact F3.
Qed.
Lemma margins_eta (m : margins4) : m = {| m_left := m_left m; m_right := m_right m; m_bottom := m_bottom m; m_top := m_top m |}.
Proof. now destruct m. Qed.
Lemma grid_boxes rid tw acts (l : layout) p z fig w h r c key g :
  runs (empty_layout rid) acts l -> Forall (shipped_act tw) acts -> Forall top_key acts ->
  same_structure (l_prim l) p -> ids_consistent p -> layout_residual l p = Ok z -> zeros z ->
  quad_in (l_prim l) fig -> asked acts Box [fig] [] ->
  (forall q l b r t, get_child p fig = Ok q -> box_at q l b r t -> r - l = w /\ t - b = h) ->
  (1 <= r)%nat -> (1 <= c)%nat ->
  (forall i j, (i < r)%nat -> (j < c)%nat -> quad_in (l_prim l) (frame (key i j))) ->
  length (ratios_x g) = (c - 1)%nat -> length (gaps_x g) = (c - 1)%nat -> length (ratios_y g) = (r - 1)%nat -> length (gaps_y g) = (r - 1)%nat ->
  asked_grid acts fig r c key g ->
  (forall i j, (i < r)%nat -> (j < c)%nat -> exists q B, get_child p (frame (key i j)) = Ok q /\ is_box q B /\ proper B) ->
  (exists fq fb, get_child p fig = Ok fq /\ is_box fq fb /\ bright fb - bleft fb = w /\ btop fb - bbottom fb = h /\
    forall i j, (i < r)%nat -> (j < c)%nat -> exists q B, get_child p (frame (key i j)) = Ok q /\ is_box q B /\ proper B /\
      bleft B - bleft fb = m_left (cell_margins w h g i j) /\ bright fb - bright B = m_right (cell_margins w h g i j) /\
      bbottom B - bbottom fb = m_bottom (cell_margins w h g i j) /\ btop fb - btop B = m_top (cell_margins w h g i j) /\
      bwidth B = nth j (extents (unit_x w g) (ratios_x g)) 0 /\ bheight B = nth i (extents (unit_y h g) (ratios_y g)) 0) /\
  exists q B, get_child p (frame (key 0%nat 0%nat)) = Ok q /\ is_box q B /\ proper B /\ bwidth B = unit_x w g /\ bheight B = unit_y h g /\
    0 <= sum_of (ratios_x g) /\ 0 <= sum_of (ratios_y g).
Proof.
  intros Hr Hs Hk Hp Hi Hz Hzz Hfig SB Hsz Pr Pc Hq L1 L2 L3 L4 (AB & AG & AM) Hup.
  assert (Ev : forall co ks ps, asked acts co ks ps -> exists c' prims, co = Ok c' /\ mapM (get_child p) ks = Ok prims /\ vanishes c' prims ps).
  { intros co ks ps (c' & -> & Hin). destruct (proj1 (proj2 (C79_every_constraint rid tw acts l p z Hr Hs Hk Hp Hz)) Hzz _ _ _ Hin) as (prims & E1 & E2). eauto 8. }
  destruct (quad_moved _ p fig Hp Hi Hfig) as (fq & G0 & G1 & G2 & G3 & Gf & Hf).
  (* the figure *)
  assert (Fig : is_box fq (span fq) /\ bright (span fq) - bleft (span fq) = w /\ btop (span fq) - bbottom (span fq) = h).
  { destruct (Ev _ _ _ SB) as (c0 & prims & E1 & E2 & E3). cbn [mapM] in E2. rewrite Gf in E2. cbn [bind] in E2. injection E2 as <-.
    assert (B : is_box fq (span fq)) by (eapply boxed; eauto). split; [exact B|].
    exact (Hsz _ _ _ _ _ Gf B). }
  destruct Fig as (FB & FW & FH). set (fb := span fq) in *.
  (* the cells *)
  set (cellq := fun i j => match get_child p (frame (key i j)) with Ok q => q | Err _ => noprim end).
  assert (Cq : forall i j, (i < r)%nat -> (j < c)%nat -> get_child p (frame (key i j)) = Ok (cellq i j) /\ is_box (cellq i j) (span (cellq i j))).
  { intros i j Hi' Hj. destruct (quad_moved _ p _ Hp Hi (Hq i j Hi' Hj)) as (q & P0 & P1 & P2 & P3 & Eq & Hqq). unfold cellq. rewrite Eq. split; [reflexivity|].
    destruct (Ev _ _ _ (AB i j Hi' Hj)) as (c0 & prims & E1 & E2 & E3). cbn [mapM] in E2. rewrite Eq in E2. cbn [bind] in E2. injection E2 as <-. eapply boxed; eauto. }
  set (b := fun i j => span (cellq i j)).
  assert (Prop_ : forall i j, (i < r)%nat -> (j < c)%nat -> proper (b i j)).
  { intros i j Hi' Hj. destruct (Hup i j Hi' Hj) as (q & B & Eq & HB & HP). destruct (Cq i j Hi' Hj) as [Eq' _]. rewrite Eq in Eq'. injection Eq' as Eq'. unfold b. rewrite <- Eq'. rewrite (span_at _ _ _ _ _ HB).
    destruct B as [[[x0 y0] x1] y1]. exact HP. }
  (* the grid *)
  assert (Ar : forall prims, mapM (get_child p) (GridEndSpec.cells r c (fun i j => frame (key i j))) = Ok prims -> arranged r c prims b).
  { intros prims E2. apply mapM_ok_nth in E2 as [EL EN]. rewrite cells_length in EL.
    split; [exact EL|]. unfold Nat.lt. intros i j Hi' Hj. destruct (EN (i * c + j)%nat _ (cells_nth r c _ i j Hi' Hj)) as (y & Y1 & Y2). destruct (Cq i j Hi' Hj) as [Q1 Q2]. rewrite Q1 in Y2. injection Y2 as <-. eauto. }
  assert (Gr : aligned r c b /\ first_row_column r c b (ratios_x g) (ratios_y g) (gaps_x g) (gaps_y g)).
  { destruct AG as [(v1 & v2 & v3 & v4 & N1 & N2 & N3 & N4 & AG)|(AG & A1 & A2 & A3 & A4)].
    - destruct (Ev _ _ _ AG) as (c0 & prims & E1 & E2 & E3).
      destruct (C46_grid r c prims b v1 v2 v3 v4 _ _ _ _ Pr Pc (Ar _ E2) Prop_ N1 N2 N3 N4 L1 L3 L2 L4) as (c' & E1' & V). rewrite E1 in E1'. injection E1' as <-. apply V in E3 as [Al (Pw & Ph & Px & Py)].
      split; [exact Al|]. unfold Nat.lt in *. split; [|split; [|split]]; intros; [apply Pw|apply Ph|apply Px|apply Py]; auto; lia.
    - destruct (Ev _ _ _ AG) as (c0 & prims & E1 & E2 & E3).
      assert (Nd : forall i j, (i < r)%nat -> (j < c)%nat -> nondegenerate (b i j)) by (intros i j Hi' Hj; destruct (Prop_ i j Hi' Hj); split; lra).
      destruct (C45_rectilinear_grid r c prims b Pr Pc (Ar _ E2) Nd) as (c' & E1' & V). rewrite E1 in E1'. injection E1' as <-. apply V in E3. split; [exact E3|]. clear V.
      assert (Q : forall i j, (i < r)%nat -> (j < c)%nat -> get_child p (frame (key i j)) = Ok (cellq i j) /\ is_box (cellq i j) (b i j) /\ proper (b i j)) by (intros; split; [|split]; [apply Cq|apply Cq|apply Prop_]; auto).
      clearbody b. clear - Ev Q A1 A2 A3 A4 Pr Pc. eapply pieces_satisfied; eauto. }
  destruct Gr as ((Al1 & Al2) & Pw & Ph & Px & Py). unfold Nat.lt in *.
  (* margins around *)
  assert (M : forall side, In side sides -> exists i j, on_border side r c i j /\
    (if String.eqb side "left" then bleft (b i j) - bleft fb else if String.eqb side "right" then bright fb - bright (b i j)
     else if String.eqb side "bottom" then bbottom (b i j) - bbottom fb else btop fb - btop (b i j)) = margin (around g) side).
  { intros side Hsd. destruct (AM side Hsd) as (v & i & j & [n1 n2] & Hb & Hv). exists i, j. split; [exact Hb|]. destruct Hb as (Hbi & Hbj & _). destruct (Ev _ _ _ Hv) as (c1 & prims & F1 & E2 & F3).
    destruct (Cq i j Hbi Hbj) as [Q1 Q2]. cbn [mapM] in E2. rewrite Q1 in E2. cbn [bind] in E2. rewrite Gf in E2. cbn [bind] in E2. injection E2 as <-.
    destruct (C43_inner_margin side _ fq _ _ _ _ _ _ _ _ v (margin (around g) side) Hsd Q2 FB n1 n2) as (c' & F1' & _ & V). rewrite F1 in F1'. injection F1' as <-. apply V in F3. exact F3. }
  assert (ML : bleft (b 0%nat 0%nat) - bleft fb = margin (around g) "left").
  { destruct (M "left"%string (or_introl eq_refl)) as (i & j & (Hbi & Hbj & Ej) & X). cbn [String.eqb Ascii.eqb Bool.eqb] in Ej, X. subst j. rewrite <- X. f_equal. apply Al2; lia. }
  assert (MR : bright fb - bright (b (r - 1)%nat (c - 1)%nat) = margin (around g) "right").
  { destruct (M "right"%string (or_intror (or_introl eq_refl))) as (i & j & (Hbi & Hbj & Ej) & X). cbn [String.eqb Ascii.eqb Bool.eqb] in Ej, X. subst j. rewrite <- X. f_equal. apply Al2; lia. }
  assert (MB : bbottom (b (r - 1)%nat (c - 1)%nat) - bbottom fb = margin (around g) "bottom").
  { destruct (M "bottom"%string (or_intror (or_intror (or_introl eq_refl)))) as (i & j & (Hbi & Hbj & Ej) & X). cbn [String.eqb Ascii.eqb Bool.eqb] in Ej, X. subst i. rewrite <- X. f_equal. apply Al1; lia. }
  assert (MT : btop fb - btop (b 0%nat 0%nat) = margin (around g) "top").
  { destruct (M "top"%string (or_intror (or_intror (or_intror (or_introl eq_refl))))) as (i & j & (Hbi & Hbj & Ej) & X). cbn [String.eqb Ascii.eqb Bool.eqb] in Ej, X. subst i. rewrite <- X. f_equal. apply Al1; lia. }
  clear M.
  unfold margin in ML, MR, MB, MT. cbn [String.eqb Ascii.eqb Bool.eqb orb] in ML, MR, MB, MT.
  (* columns *)
  destruct (intervals c (fun j => bleft (b 0%nat j)) (fun j => bright (b 0%nat j)) (ratios_x g) (gaps_x g) (bwidth (b 0%nat 0%nat)) Pc L1 L2 eq_refl) as [IX TX].
  { intros j k Hj E. apply (Pw j k); [exact Hj|exact E]. }
  { intros j m Hj E. apply (Px j m); [exact Hj|exact E]. }
  assert (Pu : 0 < bwidth (b 0%nat 0%nat)) by (destruct (Prop_ 0%nat 0%nat ltac:(lia) ltac:(lia)); unfold bwidth; lra).
  assert (Ux : 0 <= sum_of (ratios_x g)).
  { apply (ratios_positive _ _ Pu). intros j k E. assert (Hj : (j < length (ratios_x g))%nat) by (apply nth_error_Some; congruence). rewrite <- (Pw j k) by (lia || exact E). destruct (Prop_ 0%nat (S j) ltac:(lia) ltac:(lia)). unfold bwidth. lra. }
  assert (Uw : bwidth (b 0%nat 0%nat) = unit_x w g).
  { unfold unit_x. rewrite <- ML, <- MR. destruct (Al2 (r - 1)%nat 0%nat (c - 1)%nat ltac:(lia) ltac:(lia) ltac:(lia)) as [_ Er]. rewrite Er.
    apply (Rmult_eq_reg_r (1 + sum_of (ratios_x g))); [|lra]. unfold Rdiv. rewrite Rmult_assoc, Rinv_l, Rmult_1_r by lra. lra. }
  (* rows, from the top *)
  destruct (intervals r (fun i => - btop (b i 0%nat)) (fun i => - bbottom (b i 0%nat)) (ratios_y g) (gaps_y g) (bheight (b 0%nat 0%nat)) Pr L3 L4) as [IY TY].
  { unfold bheight. lra. }
  { intros i k Hi' E. pose proof (Ph i k Hi' E) as X. unfold bheight in X at 1. lra. }
  { intros i m Hi' E. pose proof (Py i m Hi' E) as X. lra. }
  assert (Pv : 0 < bheight (b 0%nat 0%nat)) by (destruct (Prop_ 0%nat 0%nat ltac:(lia) ltac:(lia)); unfold bheight; lra).
  assert (Uy : 0 <= sum_of (ratios_y g)).
  { apply (ratios_positive _ _ Pv). intros j k E. assert (Hj : (j < length (ratios_y g))%nat) by (apply nth_error_Some; congruence). rewrite <- (Ph j k) by (lia || exact E). destruct (Prop_ (S j) 0%nat ltac:(lia) ltac:(lia)). unfold bheight. lra. }
  assert (Uh : bheight (b 0%nat 0%nat) = unit_y h g).
  { unfold unit_y. rewrite <- MB, <- MT. destruct (Al1 (r - 1)%nat (c - 1)%nat 0%nat ltac:(lia) ltac:(lia) ltac:(lia)) as [Eb _]. rewrite Eb.
    apply (Rmult_eq_reg_r (1 + sum_of (ratios_y g))); [|lra]. unfold Rdiv. rewrite Rmult_assoc, Rinv_l, Rmult_1_r by lra. lra. }
  split.
  2: { exists (cellq 0%nat 0%nat), (b 0%nat 0%nat). destruct (Cq 0%nat 0%nat ltac:(lia) ltac:(lia)) as [Q1 Q2].
       split; [exact Q1|]. split; [exact Q2|]. split; [apply Prop_; lia|]. auto. }
  exists fq, fb. split; [exact Gf|]. split; [exact FB|]. split; [exact FW|]. split; [exact FH|]. intros i j Hi' Hj.
  exists (cellq i j), (b i j). destruct (Cq i j Hi' Hj) as [G4 G5]. split; [exact G4|]. split; [exact G5|]. split; [now apply Prop_|].
  destruct (IX j Hj) as [X1 X2]. destruct (IY i Hi') as [Y1 Y2]. rewrite Uw in X1, X2. rewrite Uh in Y1, Y2.
  destruct (Al2 i 0%nat j ltac:(lia) ltac:(lia) ltac:(lia)) as [Q1 Q2]. destruct (Al1 i j 0%nat ltac:(lia) ltac:(lia) ltac:(lia)) as [Q3 Q4].
  unfold cell_margins, bwidth, bheight. cbn [m_left m_right m_bottom m_top]. rewrite <- X2, <- Y2, <- ML, <- MT. repeat split; lra.
Qed.
Lemma grid_core_upright rid tw acts (l : layout) p z fig w h r c key g tr :
  runs (empty_layout rid) acts l -> Forall (shipped_act tw) acts -> Forall top_key acts ->
  same_structure (l_prim l) p -> ids_consistent p -> layout_residual l p = Ok z -> zeros z ->
  quad_in (l_prim l) fig -> asked acts Box [fig] [] ->
  (forall q l b r t, get_child p fig = Ok q -> box_at q l b r t -> r - l = w /\ t - b = h) -> 0 < w -> 0 < h ->
  (1 <= r)%nat -> (1 <= c)%nat -> NoDup (GridEndSpec.cells r c key) ->
  (forall i j, (i < r)%nat -> (j < c)%nat -> quad_in (l_prim l) (frame (key i j))) ->
  length (ratios_x g) = (c - 1)%nat -> length (gaps_x g) = (c - 1)%nat -> length (ratios_y g) = (r - 1)%nat -> length (gaps_y g) = (r - 1)%nat ->
  asked_grid acts fig r c key g ->
  subplots p fig (Some (GridEndSpec.cells r c key)) = (tr, Ok tt) ->
  (forall i j, (i < r)%nat -> (j < c)%nat -> exists q B, get_child p (frame (key i j)) = Ok q /\ is_box q B /\ proper B) ->
  sizes tr = [(w, h)] /\ map fst (positions tr) = GridEndSpec.cells r c key /\
  map (fun kr => inches w h (snd kr)) (positions tr) = GridEndSpec.cells r c (cell_margins w h g) /\
  exists q B, get_child p (frame (key 0%nat 0%nat)) = Ok q /\ is_box q B /\ proper B /\ bwidth B = unit_x w g /\ bheight B = unit_y h g /\
    0 <= sum_of (ratios_x g) /\ 0 <= sum_of (ratios_y g).
Proof.
  intros Hr Hs Hk Hp Hi Hz Hzz Hfig SB Hsz W0 H0 Pr Pc Hn Hq L1 L2 L3 L4 Ag Hd Hup. pose proof (proj1 Ag) as AB.
  assert (Ev : forall co ks ps, asked acts co ks ps -> exists c' prims, co = Ok c' /\ mapM (get_child p) ks = Ok prims /\ vanishes c' prims ps).
  { intros co ks ps (c' & -> & Hin). destruct (proj1 (proj2 (C79_every_constraint rid tw acts l p z Hr Hs Hk Hp Hz)) Hzz _ _ _ Hin) as (prims & E1 & E2). eauto 8. }
  destruct (quad_moved _ p fig Hp Hi Hfig) as (fq & G0 & G1 & G2 & G3 & Gf & Hf).
  (* the figure *)
  assert (Fig : is_box fq (span fq) /\ bright (span fq) - bleft (span fq) = w /\ btop (span fq) - bbottom (span fq) = h).
  { destruct (Ev _ _ _ SB) as (c0 & prims & E1 & E2 & E3). cbn [mapM] in E2. rewrite Gf in E2. cbn [bind] in E2. injection E2 as <-.
    assert (B : is_box fq (span fq)) by (eapply boxed; eauto). split; [exact B|].
    exact (Hsz _ _ _ _ _ Gf B). }
  destruct Fig as (FB & FW & FH). set (fb := span fq) in *.
  (* the cells *)
  set (cellq := fun i j => match get_child p (frame (key i j)) with Ok q => q | Err _ => noprim end).
  assert (Cq : forall i j, (i < r)%nat -> (j < c)%nat -> get_child p (frame (key i j)) = Ok (cellq i j) /\ is_box (cellq i j) (span (cellq i j))).
  { intros i j Hi' Hj. destruct (quad_moved _ p _ Hp Hi (Hq i j Hi' Hj)) as (q & P0 & P1 & P2 & P3 & Eq & Hqq). unfold cellq. rewrite Eq. split; [reflexivity|].
    destruct (Ev _ _ _ (AB i j Hi' Hj)) as (c0 & prims & E1 & E2 & E3). cbn [mapM] in E2. rewrite Eq in E2. cbn [bind] in E2. injection E2 as <-. eapply boxed; eauto. }
  set (b := fun i j => span (cellq i j)).
  (* drawing *)
  assert (Hfr : Forall (fun k => exists q P0 P1 P2 P3, get_child p (k ++ "/Frame")%string = Ok q /\ quad_at q P0 P1 P2 P3) (GridEndSpec.cells r c key)).
  { apply Forall_forall. intros k Hin. apply cells_in in Hin as (i & j & Hi' & Hj & ->). destruct (Cq i j Hi' Hj) as [E1 E2]. exists (cellq i j). unfold is_box, box_at in E2. eauto 8. }
  destruct (draw_quads p fig _ tr fq _ _ _ _ Gf FB Hfr Hn Hd) as (D1 & D2 & D3). cbn [fst snd] in D1, D3. rewrite FW, FH in D1, D3.
  assert (Pos : forall i j, (i < r)%nat -> (j < c)%nat -> exists kr, nth_error (positions tr) (i * c + j) = Some kr /\ fst kr = key i j /\
    snd kr = ((bleft (b i j) - bleft fb) / w, (bbottom (b i j) - bbottom fb) / h, (bright (b i j) - bleft fb) / w - (bleft (b i j) - bleft fb) / w, (btop (b i j) - bbottom fb) / h - (bbottom (b i j) - bbottom fb) / h)).
  { intros i j Hi' Hj. pose proof (cells_nth r c key i j Hi' Hj) as Hc. rewrite <- D2, nth_error_map in Hc. destruct (nth_error (positions tr) (i * c + j)) as [kr|] eqn:E; [|discriminate]. injection Hc as Hc. exists kr. split; [reflexivity|]. split; [exact Hc|].
    rewrite Forall_forall in D3. destruct (D3 _ (nth_error_In _ _ E)) as (_ & _ & X). destruct (Cq i j Hi' Hj) as [E1 E2]. rewrite Hc in X. rewrite (X _ _ _ _ _ E1 E2). reflexivity. }
  destruct (grid_boxes rid tw acts l p z fig w h r c key g Hr Hs Hk Hp Hi Hz Hzz Hfig SB Hsz Pr Pc Hq L1 L2 L3 L4 Ag) as ((fq' & fb' & Gf' & FB' & _ & _ & Cells) & Rest).
  { exact Hup. }
  assert (fb' = fb). { rewrite Gf in Gf'. injection Gf' as <-. unfold fb. rewrite (span_at _ _ _ _ _ FB'). now destruct fb' as [[[? ?] ?] ?]. } subst fb'. clear Gf' FB' fq'.
  split; [exact D1|]. split; [exact D2|]. split; [|exact Rest].
  apply nth_error_ext. intros k. destruct (Nat.lt_ge_cases k (r * c)) as [Hkk|Hkk].
  2: { rewrite (proj2 (nth_error_None _ _)), (proj2 (nth_error_None _ _)); [reflexivity|rewrite cells_length; lia|]. rewrite map_length. apply (f_equal (@length _)) in D2. rewrite map_length, cells_length in D2. lia. }
  assert (Ek : k = (k / c * c + k mod c)%nat) by (rewrite Nat.mul_comm; apply Nat.div_mod; lia). rewrite Ek. clear Ek.
  assert (Hi' : (k / c < r)%nat) by (apply Nat.div_lt_upper_bound; lia). assert (Hj : (k mod c < c)%nat) by (apply Nat.mod_upper_bound; lia).
  set (i := (k / c)%nat) in *. set (j := (k mod c)%nat) in *. rewrite cells_nth by assumption. rewrite nth_error_map. destruct (Pos i j Hi' Hj) as (kr & -> & _ & Es). cbn [option_map]. rewrite Es. f_equal.
  destruct (Cells i j Hi' Hj) as (q & B & Eq & HB & _ & X1 & X2 & Y1 & Y2 & _).
  assert (B = b i j). { destruct (Cq i j Hi' Hj) as [E1 _]. rewrite Eq in E1. injection E1 as ->. unfold b. rewrite (span_at _ _ _ _ _ HB). now destruct B as [[[? ?] ?] ?]. } subst B.
  rewrite (margins_eta (cell_margins w h g i j)), <- X1, <- X2, <- Y1, <- Y2. unfold inches. f_equal.
  - field. lra.
  - match goal with |- ?t = _ => replace t with (w - (bright (b i j) - bleft fb)) by (field; lra) end. lra.
  - field. lra.
  - match goal with |- ?t = _ => replace t with (h - (btop (b i j) - bbottom fb)) by (field; lra) end. lra.
Qed.

Lemma grid_core rid tw acts (l : layout) p z fig w h r c key g tr :
  runs (empty_layout rid) acts l -> Forall (shipped_act tw) acts -> Forall top_key acts ->
  same_structure (l_prim l) p -> ids_consistent p -> layout_residual l p = Ok z -> zeros z ->
  quad_in (l_prim l) fig -> asked acts Box [fig] [] ->
  (forall q l b r t, get_child p fig = Ok q -> box_at q l b r t -> r - l = w /\ t - b = h) -> 0 < w -> 0 < h ->
  (1 <= r)%nat -> (1 <= c)%nat -> NoDup (GridEndSpec.cells r c key) ->
  (forall i j, (i < r)%nat -> (j < c)%nat -> quad_in (l_prim l) (frame (key i j))) ->
  length (ratios_x g) = (c - 1)%nat -> length (gaps_x g) = (c - 1)%nat -> length (ratios_y g) = (r - 1)%nat -> length (gaps_y g) = (r - 1)%nat ->
  asked_grid acts fig r c key g ->
  subplots p fig (Some (GridEndSpec.cells r c key)) = (tr, Ok tt) ->
  Forall (fun kr => let '(_, _, a, b) := snd kr in 0 < a /\ 0 < b) (positions tr) ->
  sizes tr = [(w, h)] /\ map fst (positions tr) = GridEndSpec.cells r c key /\
  map (fun kr => inches w h (snd kr)) (positions tr) = GridEndSpec.cells r c (cell_margins w h g) /\
  exists q B, get_child p (frame (key 0%nat 0%nat)) = Ok q /\ is_box q B /\ proper B /\ bwidth B = unit_x w g /\ bheight B = unit_y h g /\
    0 <= sum_of (ratios_x g) /\ 0 <= sum_of (ratios_y g).
Proof.
  intros Hr Hs Hk Hp Hi Hz Hzz Hfig SB Hsz W0 H0 Pr Pc Hn Hq L1 L2 L3 L4 Ag Hd Hpos. pose proof (proj1 Ag) as AB.
  assert (Ev : forall co ks ps, asked acts co ks ps -> exists c' prims, co = Ok c' /\ mapM (get_child p) ks = Ok prims /\ vanishes c' prims ps).
  { intros co ks ps (c' & -> & Hin). destruct (proj1 (proj2 (C79_every_constraint rid tw acts l p z Hr Hs Hk Hp Hz)) Hzz _ _ _ Hin) as (prims & E1 & E2). eauto 8. }
  destruct (quad_moved _ p fig Hp Hi Hfig) as (fq & G0 & G1 & G2 & G3 & Gf & Hf).
  (* the figure *)
  assert (Fig : is_box fq (span fq) /\ bright (span fq) - bleft (span fq) = w /\ btop (span fq) - bbottom (span fq) = h).
  { destruct (Ev _ _ _ SB) as (c0 & prims & E1 & E2 & E3). cbn [mapM] in E2. rewrite Gf in E2. cbn [bind] in E2. injection E2 as <-.
    assert (B : is_box fq (span fq)) by (eapply boxed; eauto). split; [exact B|].
    exact (Hsz _ _ _ _ _ Gf B). }
  destruct Fig as (FB & FW & FH). set (fb := span fq) in *.
  (* the cells *)
  set (cellq := fun i j => match get_child p (frame (key i j)) with Ok q => q | Err _ => noprim end).
  assert (Cq : forall i j, (i < r)%nat -> (j < c)%nat -> get_child p (frame (key i j)) = Ok (cellq i j) /\ is_box (cellq i j) (span (cellq i j))).
  { intros i j Hi' Hj. destruct (quad_moved _ p _ Hp Hi (Hq i j Hi' Hj)) as (q & P0 & P1 & P2 & P3 & Eq & Hqq). unfold cellq. rewrite Eq. split; [reflexivity|].
    destruct (Ev _ _ _ (AB i j Hi' Hj)) as (c0 & prims & E1 & E2 & E3). cbn [mapM] in E2. rewrite Eq in E2. cbn [bind] in E2. injection E2 as <-. eapply boxed; eauto. }
  set (b := fun i j => span (cellq i j)).
  (* drawing *)
  assert (Hfr : Forall (fun k => exists q P0 P1 P2 P3, get_child p (k ++ "/Frame")%string = Ok q /\ quad_at q P0 P1 P2 P3) (GridEndSpec.cells r c key)).
  { apply Forall_forall. intros k Hin. apply cells_in in Hin as (i & j & Hi' & Hj & ->). destruct (Cq i j Hi' Hj) as [E1 E2]. exists (cellq i j). unfold is_box, box_at in E2. eauto 8. }
  destruct (draw_quads p fig _ tr fq _ _ _ _ Gf FB Hfr Hn Hd) as (D1 & D2 & D3). cbn [fst snd] in D1, D3. rewrite FW, FH in D1, D3.
  assert (Pos : forall i j, (i < r)%nat -> (j < c)%nat -> exists kr, nth_error (positions tr) (i * c + j) = Some kr /\ fst kr = key i j /\
    snd kr = ((bleft (b i j) - bleft fb) / w, (bbottom (b i j) - bbottom fb) / h, (bright (b i j) - bleft fb) / w - (bleft (b i j) - bleft fb) / w, (btop (b i j) - bbottom fb) / h - (bbottom (b i j) - bbottom fb) / h)).
  { intros i j Hi' Hj. pose proof (cells_nth r c key i j Hi' Hj) as Hc. rewrite <- D2, nth_error_map in Hc. destruct (nth_error (positions tr) (i * c + j)) as [kr|] eqn:E; [|discriminate]. injection Hc as Hc. exists kr. split; [reflexivity|]. split; [exact Hc|].
    rewrite Forall_forall in D3. destruct (D3 _ (nth_error_In _ _ E)) as (_ & _ & X). destruct (Cq i j Hi' Hj) as [E1 E2]. rewrite Hc in X. rewrite (X _ _ _ _ _ E1 E2). reflexivity. }
  assert (Prop_ : forall i j, (i < r)%nat -> (j < c)%nat -> proper (b i j)).
  { intros i j Hi' Hj. destruct (Pos i j Hi' Hj) as ([k rect] & E & _ & Es). cbn [snd] in Es. rewrite Forall_forall in Hpos. specialize (Hpos _ (nth_error_In _ _ E)). cbn [snd] in Hpos. rewrite Es in Hpos. destruct Hpos as [X Y].
    split.
    - apply (Rmult_lt_compat_r w) in X; [|assumption]. replace (((bright (b i j) - bleft fb) / w - (bleft (b i j) - bleft fb) / w) * w) with (bright (b i j) - bleft (b i j)) in X by (field; lra). lra.
    - apply (Rmult_lt_compat_r h) in Y; [|assumption]. replace (((btop (b i j) - bbottom fb) / h - (bbottom (b i j) - bbottom fb) / h) * h) with (btop (b i j) - bbottom (b i j)) in Y by (field; lra). lra. }
  apply (grid_core_upright rid tw acts l p z fig); try assumption.
  intros i j Hi' Hj. destruct (Cq i j Hi' Hj) as [E1 E2]. exists (cellq i j), (b i j). split; [exact E1|]. split; [exact E2|]. now apply Prop_.
Qed.

(** If all constraints hold, the figure has the requested size, and every cell (i, j) of
    the grid, drawn with positive width and height, has the margins computed from the
    request: the space left over is divided in the given ratios. *)
Theorem C92_grid rid tw acts (l : layout) p z fig w h r c key g tr :
  runs (empty_layout rid) acts l -> Forall (shipped_act tw) acts -> Forall top_key acts ->
  same_structure (l_prim l) p -> ids_consistent p -> layout_residual l p = Ok z -> zeros z ->
  quad_in (l_prim l) fig -> sized acts fig w h -> 0 < w -> 0 < h ->
  (1 <= r)%nat -> (1 <= c)%nat -> NoDup (GridEndSpec.cells r c key) ->
  (forall i j, (i < r)%nat -> (j < c)%nat -> quad_in (l_prim l) (frame (key i j))) ->
  length (ratios_x g) = (c - 1)%nat -> length (gaps_x g) = (c - 1)%nat -> length (ratios_y g) = (r - 1)%nat -> length (gaps_y g) = (r - 1)%nat ->
  asked_grid acts fig r c key g ->
  subplots p fig (Some (GridEndSpec.cells r c key)) = (tr, Ok tt) ->
  Forall (fun kr => let '(_, _, a, b) := snd kr in 0 < a /\ 0 < b) (positions tr) ->
  sizes tr = [(w, h)] /\ map fst (positions tr) = GridEndSpec.cells r c key /\
  map (fun kr => inches w h (snd kr)) (positions tr) = GridEndSpec.cells r c (cell_margins w h g).
Proof.
  intros Hr Hs Hk Hp Hi Hz Hzz Hfig (SB & (vw & [nw1 nw2] & SW) & (vh & [nh1 nh2] & SH)) W0 H0 Pr Pc Hn Hq L1 L2 L3 L4 Ag Hd Hpos.
  assert (Ev : forall co ks ps, asked acts co ks ps -> exists c' prims, co = Ok c' /\ mapM (get_child p) ks = Ok prims /\ vanishes c' prims ps).
  { intros co ks ps (c' & -> & Hin). destruct (proj1 (proj2 (C79_every_constraint rid tw acts l p z Hr Hs Hk Hp Hz)) Hzz _ _ _ Hin) as (prims & E1 & E2). eauto 8. }
  assert (Hsz : forall q l b r t, get_child p fig = Ok q -> box_at q l b r t -> r - l = w /\ t - b = h).
  { intros fq x0 y0 x1 y1 Gf B.
    destruct (Ev _ _ _ SW) as (c1 & prims & F1 & E2 & F3). cbn [mapM] in E2. rewrite Gf in E2. cbn [bind] in E2. injection E2 as <-.
    destruct (C42_width _ _ _ _ _ _ _ B nw1 nw2) as (c' & F1' & _ & F3'). rewrite F1 in F1'. injection F1' as <-. apply F3' in F3.
    destruct (Ev _ _ _ SH) as (c2 & prims & H1 & E2 & H3). cbn [mapM] in E2. rewrite Gf in E2. cbn [bind] in E2. injection E2 as <-.
    destruct (C42_height _ _ _ _ _ _ _ B nh1 nh2) as (c' & H1' & _ & H3'). rewrite H1 in H1'. injection H1' as <-. apply H3' in H3. auto. }
  destruct (grid_core rid tw acts l p z fig w h r c key g tr Hr Hs Hk Hp Hi Hz Hzz Hfig SB Hsz W0 H0 Pr Pc Hn Hq L1 L2 L3 L4 Ag Hd Hpos) as (R1 & R2 & R3 & _). auto.
Qed.

(** ** A figure of 8 by 4 inches with two axes side by side: margins and gap of one inch,
    the second 3/2 times as wide as the first *)
Definition quad92 : prim := match mk_quad (F:=R) 1 VNone None with Ok (p, _) => p | Err _ => noprim end.
Definition axes92 (n : nat) : prim := match mk_axes (F:=R) n VNone None false false false false with Ok (p, _) => p | Err _ => noprim end.
Definition acts92 : list (action R) :=
  [AddPrim quad92 "Figure"; AddPrim (axes92 10) "A"; AddPrim (axes92 20) "B";
   AddConstraint (ok_cons Box) ["Figure"%string] [] ""; AddConstraint (ok_cons crWidth) ["Figure"%string] [PFlt 8] ""; AddConstraint (ok_cons crHeight) ["Figure"%string] [PFlt 4] "";
   AddConstraint (ok_cons Box) ["A/Frame"%string] [] ""; AddConstraint (ok_cons Box) ["B/Frame"%string] [] "";
   AddConstraint (ok_cons (Grid 1 2)) ["A/Frame"%string; "B/Frame"%string] [PA1 [3/2]; PA1 []; PA1 [1]; PA1 []] "";
   AddConstraint (ok_cons (crInnerMargin "left")) ["A/Frame"%string; "Figure"%string] [PFlt 1] "";
   AddConstraint (ok_cons (crInnerMargin "top")) ["A/Frame"%string; "Figure"%string] [PFlt 1] "";
   AddConstraint (ok_cons (crInnerMargin "right")) ["B/Frame"%string; "Figure"%string] [PFlt 1] "";
   AddConstraint (ok_cons (crInnerMargin "bottom")) ["B/Frame"%string; "Figure"%string] [PFlt 1] ""].
Definition l92 : layout := after (empty_layout 0) acts92.
Definition g92 : list R := [0; 0; 8; 0; 8; 4; 0; 4; 1; 1; 3; 1; 3; 3; 1; 3; 4; 1; 7; 1; 7; 3; 4; 3].
Definition p92 : prim := new_tree (l_prim l92) g92.
Definition key92 (i j : nat) : string := match j with O => "A" | _ => "B" end.
Definition request92 : grid_request := {| ratios_x := [3/2]; ratios_y := []; gaps_x := [1]; gaps_y := []; around := {| m_left := 1; m_right := 1; m_bottom := 1; m_top := 1 |} |}.

Lemma runs92 : runs (empty_layout 0) acts92 l92.
Proof. apply all_ok_runs. vm_compute. reflexivity. Qed.
Lemma prim92 : l_prim l92 = Node TPrimNode {| vid := 0; vdata := [] |} [("Figure"%string, quad92); ("A"%string, axes92 10); ("B"%string, axes92 20)].
Proof. vm_compute. reflexivity. Qed.
Lemma boxes92 : exists f a b, get_child p92 "Figure" = Ok f /\ box_at f 0 0 8 4 /\ get_child p92 "A/Frame" = Ok a /\ box_at a 1 1 3 3 /\ get_child p92 "B/Frame" = Ok b /\ box_at b 4 1 7 3.
Proof.
  unfold p92. rewrite prim92. unfold g92. eexists _, _, _. split; [lazy -[IZR]; reflexivity|]. split; [|split; [lazy -[IZR]; reflexivity|split; [|split; [lazy -[IZR]; reflexivity|]]]];
    (eexists _, _, _, _, _; split; [reflexivity|]); repeat split; eexists _, _, _; (split; [reflexivity|]); split; eexists _, _; reflexivity.
Qed.
Lemma all_satisfied rid tw acts (l : layout) p : runs (empty_layout rid) acts l -> Forall (shipped_act tw) acts -> Forall top_key acts ->
  same_structure (l_prim l) p -> LayoutSpec.added acts <> [] ->
  (forall c ks ps, In (c, ks, ps) (LayoutSpec.added acts) -> exists prims, mapM (get_child p) ks = Ok prims /\ vanishes c prims ps) ->
  exists z, layout_residual l p = Ok z /\ zeros z.
Proof.
  intros Hr Hs Hk Hp Hne H.
  assert (Hcl : Forall classes acts) by (eapply Forall_impl; [|exact Hs]; apply shipped_classes).
  assert (V : exists vs, Forall2 (LayoutSpec.value_at p) (LayoutSpec.added acts) vs /\ Forall zeros vs).
  { revert H. generalize (LayoutSpec.added acts). clear. intros xs. induction xs as [|[[c ks] ps] xs IH]; intros H; [exists []; split; constructor|].
    destruct (H c ks ps (or_introl eq_refl)) as (prims & E & r & Er & Hr). destruct IH as (vs & V1 & V2); [intros; apply H; now right|]. exists (r :: vs). split; constructor; auto. exists prims. auto. }
  destruct V as (vs & V1 & V2). exists (List.concat vs). split.
  - eapply C53_residual; try eassumption; [..|eauto].
    + eapply Forall_impl; [|exact Hs]. apply shipped_complete.
    + eapply Forall_impl; [|exact Hs]. apply shipped_sound.
    + rewrite Forall_forall in *. intros a Ha. eapply shipped_toplevel; eauto.
    + eapply Forall_impl; [|eapply typed_runs; eassumption]. intros x. now apply structure_typed.
  - unfold zeros in *. now apply Forall_concat.
Qed.
Lemma shipped92 : Forall (shipped_act false) acts92.
Proof.
  unfold acts92. repeat (apply Forall_cons; [first [exact I|cbn [shipped_act]]|]); [..|apply Forall_nil].
  all: try (apply sh_dimension; [|left; reflexivity]; rewrite <- ok_of; [unfold dimensions, margins; cbn [map app In]; tauto|vm_compute; reflexivity]).
  all: try (apply sh_plain; [rewrite <- ok_of; [unfold plain; cbn [In app map]; tauto|vm_compute; reflexivity]|vm_compute; reflexivity]).
  eapply (sh_grid false 1 2); [lia|lia|apply ok_of; vm_compute; reflexivity|reflexivity..].
Qed.
Lemma keys92 : Forall top_key acts92.
Proof. unfold acts92. repeat (apply Forall_cons; [first [exact I|reflexivity]|]). apply Forall_nil. Qed.
Lemma flat92 : Forall flat_keys acts92.
Proof. unfold acts92. repeat (apply Forall_cons; [first [exact I|reflexivity]|]). apply Forall_nil. Qed.
Lemma sane92 : wf (l_prim l92) /\ slashfree (l_prim l92) /\ ids_consistent (l_prim l92).
Proof.
  rewrite prim92. unfold quad92, axes92. split; [|split].
  - cbn. repeat (constructor; cbn; try (intuition discriminate)).
  - cbn. repeat (constructor; cbn; try reflexivity).
  - intros a b. cbn. intros Ha Hb E. repeat (destruct Ha as [<-|Ha]; [repeat (destruct Hb as [<-|Hb]; [first [reflexivity|discriminate E]|]); contradiction|]). contradiction.
Qed.
Lemma size92 : length (initial_global (l_prim l92)) = 24%nat.
Proof. rewrite prim92. vm_compute. reflexivity. Qed.
Lemma structure92 : same_structure (l_prim l92) p92 /\ ids_consistent p92.
Proof. destruct sane92 as (S1 & S2 & S3). split; [apply new_structure; auto; now rewrite size92|now apply new_ids]. Qed.
Lemma added92 : LayoutSpec.added acts92 =
  [(ok_cons Box, ["Figure"%string], []); (ok_cons crWidth, ["Figure"%string], [PFlt 8]); (ok_cons crHeight, ["Figure"%string], [PFlt 4]);
   (ok_cons Box, ["A/Frame"%string], []); (ok_cons Box, ["B/Frame"%string], []);
   (ok_cons (Grid 1 2), ["A/Frame"%string; "B/Frame"%string], [PA1 [3/2]; PA1 []; PA1 [1]; PA1 []]);
   (ok_cons (crInnerMargin "left"), ["A/Frame"%string; "Figure"%string], [PFlt 1]);
   (ok_cons (crInnerMargin "top"), ["A/Frame"%string; "Figure"%string], [PFlt 1]);
   (ok_cons (crInnerMargin "right"), ["B/Frame"%string; "Figure"%string], [PFlt 1]);
   (ok_cons (crInnerMargin "bottom"), ["B/Frame"%string; "Figure"%string], [PFlt 1])].
Proof. reflexivity. Qed.
Lemma ok_cons_of (rc : result cons) c : rc = Ok c -> ok_cons rc = c.
Proof. now intros ->. Qed.
Lemma box_vanishes q a b x y : box_at q a b x y -> vanishes (ok_cons Box) [q] [].
Proof.
  intros H. destruct (box_value _ _ _ _ _ H) as (c & Ec & E). rewrite (ok_cons_of _ _ Ec). eexists. split; [exact E|]. repeat (constructor; [cbn; lra|]). constructor.
Qed.
Lemma margin_vanishes side p q a b x y a' b' x' y' k : In side sides -> box_at p a b x y -> box_at q a' b' x' y' ->
  (if String.eqb side "left" then a - a' else if String.eqb side "right" then x' - x else if String.eqb side "bottom" then b - b' else y' - y) = k ->
  vanishes (ok_cons (crInnerMargin side)) [p; q] [PFlt k].
Proof.
  intros Hs Hp Hq Hk. destruct (inner_margin_value side p q _ _ _ _ _ _ _ _ (PFlt k) k Hs Hp Hq eq_refl eq_refl) as (c & Ec & E). rewrite (ok_cons_of _ _ Ec). eexists. split; [exact E|].
  constructor; [|constructor]. cbn [In sides] in Hs. destruct Hs as [<-|[<-|[<-|[<-|[]]]]]; cbn [String.eqb Ascii.eqb Bool.eqb] in *; unfold mid; cbn [fst snd]; lra.
Qed.
Lemma satisfied92 c ks ps : In (c, ks, ps) (LayoutSpec.added acts92) -> exists prims, mapM (get_child p92) ks = Ok prims /\ vanishes c prims ps.
Proof.
  destruct boxes92 as (f & a & b & Ef & Bf & Ea & Ba & Eb & Bb).
  assert (F : mapM (get_child p92) ["Figure"%string] = Ok [f]) by (cbn [mapM]; now rewrite Ef).
  assert (A : mapM (get_child p92) ["A/Frame"%string] = Ok [a]) by (cbn [mapM]; now rewrite Ea).
  assert (B : mapM (get_child p92) ["B/Frame"%string] = Ok [b]) by (cbn [mapM]; now rewrite Eb).
  assert (AB : mapM (get_child p92) ["A/Frame"%string; "B/Frame"%string] = Ok [a; b]) by (cbn [mapM]; now rewrite Ea, Eb).
  assert (AF : mapM (get_child p92) ["A/Frame"%string; "Figure"%string] = Ok [a; f]) by (cbn [mapM]; now rewrite Ea, Ef).
  assert (BF : mapM (get_child p92) ["B/Frame"%string; "Figure"%string] = Ok [b; f]) by (cbn [mapM]; now rewrite Eb, Ef).
  rewrite added92. cbn [In]. intros H.
  repeat (destruct H as [H|H]; [apply pair_equal_spec in H as [H <-]; apply pair_equal_spec in H as [<- <-]|]); [..|contradiction].
  - exists [f]. split; [exact F|]. eapply box_vanishes, Bf.
  - exists [f]. split; [exact F|]. destruct (C42_width _ _ _ _ _ (PFlt 8) 8 Bf eq_refl eq_refl) as (c' & Ec & _ & V). rewrite (ok_cons_of _ _ Ec). apply V. cbn. lra.
  - exists [f]. split; [exact F|]. destruct (C42_height _ _ _ _ _ (PFlt 4) 4 Bf eq_refl eq_refl) as (c' & Ec & _ & V). rewrite (ok_cons_of _ _ Ec). apply V. cbn. lra.
  - exists [a]. split; [exact A|]. eapply box_vanishes, Ba.
  - exists [b]. split; [exact B|]. eapply box_vanishes, Bb.
  - exists [a; b]. split; [exact AB|].
    destruct (C46_grid 1 2 [a; b] (fun _ j => match j with O => (1, 1, 3, 3) | _ => (4, 1, 7, 3) end) (PA1 [3/2]) (PA1 []) (PA1 [1]) (PA1 []) [3/2] [] [1] []) as (c' & Ec & V); try reflexivity; try (now left); try lia.
    + split; [reflexivity|]. unfold Nat.lt. intros [|i] [|[|j]] Hi Hj; try lia; eexists; (split; [reflexivity|]); assumption.
    + intros i [|j] _ _; unfold proper, bleft, bright, bbottom, btop; cbn; lra.
    + rewrite (ok_cons_of _ _ Ec). apply V. unfold aligned, proportioned, Nat.lt. split; [split|split; [|split; [|split]]].
      * intros [|i] [|[|j]] [|[|j']] ? ? ?; try lia; cbn; auto.
      * intros [|i] [|i'] [|[|j]] ? ? ?; try lia; cbn; auto.
      * intros [|i] [|j] w ? ? E; try lia; injection E as <-; unfold bwidth; cbn; lra.
      * intros [|i] j w ? ? E; lia.
      * intros [|i] [|j] w ? ? E; try lia; injection E as <-; cbn; lra.
      * intros [|i] j w ? ? E; lia.
  - exists [a; f]. split; [exact AF|]. apply (margin_vanishes "left" a f _ _ _ _ _ _ _ _ 1 (or_introl eq_refl) Ba Bf). cbn. lra.
  - exists [a; f]. split; [exact AF|]. apply (margin_vanishes "top" a f _ _ _ _ _ _ _ _ 1 (or_intror (or_intror (or_intror (or_introl eq_refl)))) Ba Bf). cbn. lra.
  - exists [b; f]. split; [exact BF|]. apply (margin_vanishes "right" b f _ _ _ _ _ _ _ _ 1 (or_intror (or_introl eq_refl)) Bb Bf). cbn. lra.
  - exists [b; f]. split; [exact BF|]. apply (margin_vanishes "bottom" b f _ _ _ _ _ _ _ _ 1 (or_intror (or_intror (or_introl eq_refl))) Bb Bf). cbn. lra.
Qed.
Lemma drawn92 : exists tr, subplots p92 "Figure" (Some ["A"; "B"]%string) = (tr, Ok tt) /\ Forall (fun kr : string * (R * R * R * R) => let '(_, _, a, b) := snd kr in 0 < a /\ 0 < b) (positions tr).
Proof.
  unfold p92. rewrite prim92. unfold g92. lazy -[IZR Rplus Rminus Rmult Ropp Rlt_dec Req_EM_T Rdiv Rinv sqrt Rlt].
  destruct (Req_EM_T (8 - 0) 0) as [X|_]; [exfalso; lra|]. destruct (Req_EM_T (4 - 0) 0) as [X|_]; [exfalso; lra|].
  eexists. split; [reflexivity|]. lazy -[IZR Rplus Rminus Rmult Ropp Rdiv Rinv Rlt]. repeat constructor; lra.
Qed.
Lemma frame92 k n m : In k ["A"; "B"]%string -> In (AddPrim (axes92 n) k) acts92 -> noslash k = true -> mk_axes (F:=R) n VNone None false false false false = Ok (axes92 n, m) -> quad_in (l_prim l92) (frame k).
Proof.
  intros _ Ha Hk Hm.
  assert (Q : exists f, dget "Frame" (nch (axes92 n)) = Some f /\ closed_quad f).
  { eapply (C79_quads_qualify 0 acts92 l92 (AddPrim (axes92 n) k) k (axes92 n) runs92 flat92 Ha); [split; reflexivity|exact Hk|exact Hm]. }
  destruct Q as (fr & Q1 & Q2). eapply (C79_quads_qualify 0 acts92 l92 (AddPrim (axes92 n) k) k (axes92 n) runs92 flat92 Ha); [split; reflexivity|exact Hk|exact Q1|exact Q2].
Qed.
Lemma asked92 (rc : result cons) ks ps : (if rc then true else false) = true -> In (ok_cons rc, ks, ps) (LayoutSpec.added acts92) -> asked acts92 rc ks ps.
Proof. intros H1 H2. exists (ok_cons rc). split; [now apply ok_of|exact H2]. Qed.
(** All the hypotheses hold for this layout and the tree [p92], and what is drawn. *)
Example C92_case : exists z tr,
  runs (empty_layout 0) acts92 l92 /\ Forall (shipped_act false) acts92 /\ Forall top_key acts92 /\
  same_structure (l_prim l92) p92 /\ ids_consistent p92 /\ layout_residual l92 p92 = Ok z /\ zeros z /\
  quad_in (l_prim l92) "Figure" /\ sized acts92 "Figure" 8 4 /\ NoDup (GridEndSpec.cells 1 2 key92) /\
  (forall i j, (i < 1)%nat -> (j < 2)%nat -> quad_in (l_prim l92) (frame (key92 i j))) /\
  asked_grid acts92 "Figure" 1 2 key92 request92 /\
  subplots p92 "Figure" (Some (GridEndSpec.cells 1 2 key92)) = (tr, Ok tt) /\
  sizes tr = [(8, 4)] /\ map (fun kr => inches 8 4 (snd kr)) (positions tr) =
    [{| m_left := 1; m_right := 5; m_bottom := 1; m_top := 1 |}; {| m_left := 4; m_right := 1; m_bottom := 1; m_top := 1 |}].
Proof.
  destruct structure92 as [S1 S2]. destruct drawn92 as (tr & D1 & D2).
  destruct (all_satisfied 0 false acts92 l92 p92 runs92 shipped92 keys92 S1) as (z & Z1 & Z2); [rewrite added92; intros E; symmetry in E; exact (nil_cons E)|exact satisfied92|].
  assert (Qf : quad_in (l_prim l92) "Figure").
  { apply (C79_quads_qualify 0 acts92 l92 (AddPrim quad92 "Figure") "Figure" quad92 runs92 flat92); [now left|split; reflexivity|reflexivity|].
    apply (built_quad_closed 1 VNone None quad92 10 I). vm_compute. reflexivity. }
  assert (Sz : sized acts92 "Figure" 8 4).
  { split; [|split; eexists; (split; [apply number_flt|])]; apply asked92; try (vm_compute; reflexivity); rewrite added92; cbn [In]; tauto. }
  assert (Nd : NoDup (GridEndSpec.cells 1 2 key92)) by (cbn; repeat constructor; cbn; intuition discriminate).
  assert (Qc : forall i j, (i < 1)%nat -> (j < 2)%nat -> quad_in (l_prim l92) (frame (key92 i j))).
  { intros i j _ Hj. destruct j as [|[|j]]; [| |lia].
    - apply (frame92 "A" 10 20); [now left|unfold acts92; cbn [In]; tauto|reflexivity|vm_compute; reflexivity].
    - apply (frame92 "B" 20 30); [right; now left|unfold acts92; cbn [In]; tauto|reflexivity|vm_compute; reflexivity]. }
  assert (Ag : asked_grid acts92 "Figure" 1 2 key92 request92).
  { split; [|split].
    - intros i j _ Hj. apply asked92; [vm_compute; reflexivity|]. rewrite added92. destruct j as [|[|j]]; [| |lia]; cbn [key92 frame append In]; tauto.
    - left. exists (PA1 [3/2]), (PA1 []), (PA1 [1]), (PA1 []). do 4 (split; [now left|]). apply asked92; [vm_compute; reflexivity|]. rewrite added92. change (GridEndSpec.cells 1 2 (fun i j => frame (key92 i j))) with ["A/Frame"%string; "B/Frame"%string]. cbn [In]. tauto.
    - intros side Hs. exists (PFlt 1), 0%nat. cbn [In] in Hs. destruct Hs as [<-|[<-|[<-|[<-|[]]]]]; [exists 0%nat|exists 1%nat|exists 1%nat|exists 0%nat]; (split; [apply number_flt|]);
        (split; [split; [lia|split; [lia|cbn [String.eqb Ascii.eqb Bool.eqb]; lia]]|]); apply asked92; try (vm_compute; reflexivity); rewrite added92; cbn [String.eqb Ascii.eqb Bool.eqb orb key92 Nat.sub frame append In]; tauto. }
  exists z, tr. split; [apply runs92|]. split; [apply shipped92|]. split; [apply keys92|]. split; [exact S1|]. split; [exact S2|]. split; [exact Z1|]. split; [exact Z2|]. split; [exact Qf|]. split; [exact Sz|]. split; [exact Nd|]. split; [exact Qc|]. split; [exact Ag|]. split; [exact D1|].
  destruct (C92_grid 0 false acts92 l92 p92 z "Figure" 8 4 1 2 key92 request92 tr runs92 shipped92 keys92 S1 S2 Z1 Z2 Qf Sz ltac:(lra) ltac:(lra) ltac:(lia) ltac:(lia) Nd Qc eq_refl eq_refl eq_refl eq_refl Ag D1 D2) as (R1 & _ & R3).
  split; [exact R1|]. rewrite R3. unfold GridEndSpec.cells, cell_margins, unit_x, unit_y, offset, extents, sum_of, request92. cbn [seq flat_map map List.app around m_left m_right m_bottom m_top ratios_x ratios_y gaps_x gaps_y firstn fold_right nth].
  repeat (apply f_equal2; [f_equal; field|]). reflexivity.
Qed.

Print Assumptions C92_grid.
