(** Arrays and grids of boxes: when OuterMarginArray, RectilinearGrid and Grid vanish. *)
From Coq Require Import Reals Lra.
From Verif Require Import CtorProofs GeomProofs P_Geom CompProofs P_Comp.
Local Open Scope R_scope.

(** ** Lists over index ranges *)
Lemma map_nth_seq {A} (l : list A) d : map (fun i => nth i l d) (seq 0 (length l)) = l.
Proof.
  apply nth_error_ext. intros i. destruct (nth_error l i) as [x|] eqn:E.
  - assert (i < length l)%nat by (apply nth_error_Some; congruence).
    rewrite nth_error_map, nth_error_seq by assumption. cbn. f_equal. now apply nth_error_nth with (d := d) in E.
  - apply nth_error_None in E. apply nth_error_None. rewrite map_length, seq_length. assumption.
Qed.
Lemma zip_numbered {A} (key : nat -> string) (c : A) n m : (m <= n)%nat ->
  zip (map key (seq 0 n)) (map (fun _ => c) (seq 0 m)) = map (fun i => (key i, c)) (seq 0 m).
Proof.
  generalize 0%nat as a. revert n. induction m as [|m IH]; intros n a H; destruct n; cbn; try reflexivity; try lia.
  f_equal. apply IH. lia.
Qed.
Lemma repeat_seq {A} (c : A) n : List.repeat c n = map (fun _ => c) (seq 0 n).
Proof. generalize 0%nat as a. induction n as [|n IH]; intros a; cbn; [reflexivity|]. f_equal. apply IH. Qed.
Lemma select_nths (prims : list prim) d (idx : nat -> nat) is :
  (forall i, In i is -> (idx i < length prims)%nat) ->
  mapM (fun i => select prims (argk (idx i))) is = Ok (map (fun i => nth (idx i) prims d) is).
Proof.
  intros H. rewrite <- mapM_Ok_map. apply mapM_ext. intros i Hi. apply select_arg. now apply nth_error_nth', H.
Qed.

(** ** Boxes *)
Definition box := (R * R * R * R)%type.  (* left, bottom, right, top *)
Definition bleft (b : box) := fst (fst (fst b)).
Definition bbottom (b : box) := snd (fst (fst b)).
Definition bright (b : box) := snd (fst b).
Definition btop (b : box) := snd b.
Definition is_box (q : prim) (b : box) : Prop := box_at q (bleft b) (bbottom b) (bright b) (btop b).
Definition gap (side : string) (b b' : box) : R :=
  outer_gap side (bleft b) (bbottom b) (bright b) (btop b) (bleft b') (bbottom b') (bright b') (btop b').

Definition nobox : box := (0, 0, 0, 0).
Definition noprim : prim := Node TNode {| vid := 0; vdata := [] |} [].
Lemma boxes_nth prims bs i : Forall2 is_box prims bs -> (i < length prims)%nat -> is_box (nth i prims noprim) (nth i bs nobox).
Proof.
  intros H. revert i. induction H as [|p b prims bs Hp _ IH]; intros i Hi; [cbn in Hi; lia|]. destruct i; [assumption|]. apply IH. cbn in Hi. lia.
Qed.
Lemma boxes_valid prims bs : Forall2 is_box prims bs ->
  Forall (fun p : prim => ntype p <> TNode) prims /\
  Forall2 (fun (p : prim) t => issubclass (ntype p) t = true) prims (List.repeat TQuad (length prims)).
Proof.
  induction 1 as [|p b prims bs Hp _ [I1 I2]]; [split; constructor|]. split; constructor; auto.
  - eapply quad_prim. exact Hp.
  - eapply quad_type. exact Hp.
Qed.

(** ** OuterMarginArray *)
Lemma outer_constraint side p q b b' t k : In side sides -> is_box p b -> is_box q b' -> num_of t = Some k -> is_number t = true ->
  exists c, crOuterMargin side = Ok c /\ csig (nval c) = msig [TQuad; TQuad] 0 1 /\ zeval c [p; q] [t] (gap side b b' = k).
Proof.
  intros Hs Hp Hq Ht Hn. destruct (margin_denote true side p q _ _ _ _ _ _ _ _ t k Hs Hp Hq Ht Hn) as (c & C1 & C2 & C3).
  exists c. split; [exact C1|]. split; [exact C2|]. now apply zeval_single.
Qed.
Lemma outer_exists side : In side sides -> exists c, crOuterMargin (F:=R) side = Ok c.
Proof.
  intros Hs. destruct (outer_constraint side (gbox 0 0 0 0) (gbox 0 0 0 0) nobox nobox (PInt 0) 0 Hs (gbox_at _ _ _ _) (gbox_at _ _ _ _) eq_refl eq_refl) as (c & H & _).
  eauto.
Qed.
Definition number_is (t : pyval) (k : R) : Prop := num_of t = Some k /\ is_number t = true.

Lemma numbers_nth ts ks i : Forall2 number_is ts ks -> (i < length ts)%nat -> number_is (nth i ts PNone) (nth i ks 0).
Proof.
  intros H. revert i. induction H as [|p b prims bs Hp _ IH]; intros i Hi; [cbn in Hi; lia|]. destruct i; [assumption|]. apply IH. cbn in Hi. lia.
Qed.
Lemma margin_array_zeval n side : In side sides -> exists c, OuterMarginArray n side = Ok c /\ csig (nval c) = msig (List.repeat TQuad n) 0 (n - 1) /\
  forall prims bs ts ks, length prims = n -> Forall2 is_box prims bs -> length ts = (n - 1)%nat -> Forall2 number_is ts ks ->
  zeval c prims ts (forall i, (i < n - 1)%nat -> gap side (nth i bs nobox) (nth (i + 1) bs nobox) = nth i ks 0).
Proof.
  intros Hs. destruct (outer_exists side Hs) as (c1 & E1).
  assert (Ecs : mapM (fun _ : nat => crOuterMargin (F:=R) side) (seq 0 (n - 1)) = Ok (map (fun _ => c1) (seq 0 (n - 1)))).
  { rewrite <- mapM_Ok_map. apply mapM_ext. intros; assumption. }
  unfold OuterMarginArray. rewrite Ecs. cbn [bind]. rewrite mk_construction_ok.
  - eexists. split; [reflexivity|]. split; [reflexivity|]. intros prims bs ts ks Hl Hb Ht Hk.
    rewrite zip_numbered by lia. eapply zeval_iff.
    + eapply zeval_node; [reflexivity| |reflexivity|].
      * cbn [cpk]. rewrite mapM_map. rewrite <- (mapM_Ok_map (fun i => [nth i prims noprim; nth (i + 1) prims noprim])). apply mapM_ext.
        intros i Hi. apply in_seq in Hi. cbn [mapM]. unfold argk. rewrite (select_arg prims i (nth i prims noprim)) by (apply nth_error_nth'; lia). cbn [bind].
        rewrite (select_arg prims (i + 1) (nth (i + 1) prims noprim)) by (apply nth_error_nth'; lia). reflexivity.
      * rewrite <- (app_nil_r (map (fun p => [p]) ts)). rewrite <- (map_nth_seq ts PNone) at 1. rewrite map_map, Ht.
        apply (zevals_map _ (fun _ => c1) _ (fun i => [nth i ts PNone]) (fun i => gap side (nth i bs nobox) (nth (i + 1) bs nobox) = nth i ks 0)).
        intros i Hi. apply in_seq in Hi. destruct (numbers_nth ts ks i Hk) as [K1 K2]; [lia|].
        destruct (outer_constraint side (nth i prims noprim) (nth (i + 1) prims noprim) (nth i bs nobox) (nth (i + 1) bs nobox) (nth i ts PNone) (nth i ks 0) Hs) as (c2 & E2 & _ & Z);
          [apply boxes_nth; [assumption|lia]|apply boxes_nth; [assumption|lia]|assumption|assumption|].
        rewrite E1 in E2. inversion E2; subst. exact Z.
    + rewrite all_map. split; intros H i Hi; apply H; [apply in_seq; lia|apply in_seq in Hi; lia].
  - apply numbered_NoDup.
  - intros H. apply in_map_iff in H as (i & H & _). discriminate.
  - rewrite !map_length, !seq_length. lia.
  - rewrite !map_length, !seq_length. lia.
Qed.

(** ** Mapping a constraint over pairs (i, last) *)
Lemma map_zeval (c : cons) n prims gs (Z : nat -> Prop) :
  length prims = n -> (1 <= length (prim_types (csig (nval c))))%nat ->
  length gs = map_num c n -> Forall (fun g => length g = nparams (csig (nval c))) gs ->
  (forall i, (i < map_num c n)%nat -> zeval c (nth_prims prims (map_num c n) i) (nth i gs []) (Z i)) ->
  zeval (mapped c n) prims (List.concat gs) (forall i, (i < map_num c n)%nat -> Z i).
Proof.
  intros Hn Hl Hg Hgs HZ. set (num := map_num c n) in *.
  assert (H : exists oss, Forall2 (fun ig o => denote c (nth_prims prims num (fst ig)) (snd ig) = Ok o) (zip (seq 0 num) gs) oss /\
     (Forall (Forall (Forall zero)) oss <-> forall i, (i < num)%nat -> Z i)).
  { assert (Hgen : forall k m gs', length gs' = m -> (forall i, (i < m)%nat -> zeval c (nth_prims prims num (k + i)) (nth i gs' []) (Z (k + i)%nat)) ->
      exists oss, Forall2 (fun ig o => denote c (nth_prims prims num (fst ig)) (snd ig) = Ok o) (zip (seq k m) gs') oss /\
       (Forall (Forall (Forall zero)) oss <-> forall i, (i < m)%nat -> Z (k + i)%nat)).
    { intros k m gs'. revert k m. induction gs' as [|g gs' IH]; intros k m Hm H.
      - cbn in Hm. subst m. exists []. split; [constructor|]. split; [intros _ i Hi; lia|constructor].
      - destruct m; [discriminate|]. cbn in Hm. destruct (IH (S k) m) as (oss & I1 & I2); [lia| |].
        + intros i Hi. specialize (H (S i)). replace (S k + i)%nat with (k + S i)%nat by lia. apply H. lia.
        + destruct (H 0%nat) as (o & D & I); [lia|]. rewrite Nat.add_0_r in *. exists (o :: oss). split; [constructor; assumption|].
          split.
          * intros F i Hi. inversion F; subst. destruct i as [|i]; [rewrite Nat.add_0_r; now apply I|]. replace (k + S i)%nat with (S k + i)%nat by lia. apply I2; [assumption|lia].
          * intros F. constructor.
            -- apply I. specialize (F 0%nat). rewrite Nat.add_0_r in F. apply F. lia.
            -- apply I2. intros i Hi. replace (S k + i)%nat with (k + S i)%nat by lia. apply F. lia. }
    destruct (Hgen 0%nat num gs Hg) as (oss & H1 & H2); [exact HZ|]. exists oss. auto. }
  destruct H as (oss & D & I). exists ([] :: List.concat oss). split; [now apply denote_map|].
  rewrite <- I. split.
  - intros F. inversion F as [|? ? ? F']; subst. now rewrite Forall_concat in F'.
  - intros F. constructor; [constructor|]. now rewrite Forall_concat.
Qed.
Lemma nth_prims_pair prims n i : length prims = n -> (2 <= n)%nat -> (i < n - 1)%nat ->
  nth_prims prims (n - 1) i = [nth i prims noprim; nth (n - 1) prims noprim].
Proof.
  intros Hn H2 Hi. unfold nth_prims.
  assert (G : forall k (l : list prim), (k < length l)%nat -> firstn 1 (skipn k l) = [nth k l noprim]).
  { clear. induction k; intros [|a l] Hk; cbn in *; try lia; [reflexivity|]. apply IHk. lia. }
  rewrite G by lia. change [nth i prims noprim; nth (n - 1) prims noprim] with ([nth i prims noprim] ++ [nth (n - 1) prims noprim]). f_equal.
  rewrite <- G by lia. rewrite firstn_all2; [reflexivity|]. rewrite skipn_length. lia.
Qed.

(** ** Alignment of two boxes *)
Definition nondegenerate (b : box) : Prop := bleft b <> bright b /\ bbottom b <> btop b.
Lemma collinear_zeval l m A B C D : line_at l A B -> line_at m C D -> A <> B -> zeval Collinear [l; m] [] (on_line A B C /\ on_line A B D).
Proof.
  intros Hl Hm Hne. destruct (C38_collinear l m A B C D Hl Hm) as [E V].
  eapply zeval_iff; [eapply zeval_of_call; [|apply fits_arity, fits_leaf; reflexivity|exact E]|exact (V Hne)].
  repeat constructor; [destruct Hl as (? & ? & ? & -> & _)|destruct Hm as (? & ? & ? & -> & _)]; discriminate.
Qed.
Lemma on_horizontal x x' y x'' y'' : x <> x' -> (on_line (x, y) (x', y) (x'', y'') <-> y'' = y).
Proof.
  intros H. rewrite on_line_cross by congruence. unfold cross, vec; cbn [fst snd]. split.
  - intros E. assert (E' : (x' - x) * (y'' - y) = 0) by lra. apply Rmult_integral in E' as [|]; lra.
  - intros ->. ring.
Qed.
Lemma on_vertical x y y' x'' y'' : y <> y' -> (on_line (x, y) (x, y') (x'', y'') <-> x'' = x).
Proof.
  intros H. rewrite on_line_cross by congruence. unfold cross, vec; cbn [fst snd]. split.
  - intros E. assert (E' : (y' - y) * (x'' - x) = 0) by lra. apply Rmult_integral in E' as [|]; lra.
  - intros ->. ring.
Qed.
Lemma row_zeval : exists c, AlignRow (F:=R) = Ok c /\ csig (nval c) = msig [TQuad; TQuad] 0 0 /\
  forall p q b b', is_box p b -> is_box q b' -> nondegenerate b ->
  zeval c [p; q] [] (bbottom b' = bbottom b /\ btop b' = btop b).
Proof.
  eexists. split; [reflexivity|]. split; [reflexivity|]. intros p q b b' Hp Hq [N1 N2].
  destruct (quad_line0 _ _ _ _ _ Hp) as (p0 & G0 & L0). destruct (quad_line2 _ _ _ _ _ Hp) as (p2 & G2 & L2).
  destruct (quad_line0 _ _ _ _ _ Hq) as (q0 & K0 & M0). destruct (quad_line2 _ _ _ _ _ Hq) as (q2 & K2 & M2).
  pose proof (sel0 p [q] _ _ G0 : select [p; q] "arg0/Line0" = _) as S0. pose proof (sel0 p [q] _ _ G2 : select [p; q] "arg0/Line2" = _) as S2.
  pose proof (sel1 p q [] _ _ K0 : select [p; q] "arg1/Line0" = _) as U0. pose proof (sel1 p q [] _ _ K2 : select [p; q] "arg1/Line2" = _) as U2.
  eapply zeval_iff.
  - eapply zeval_node; [reflexivity|cbn [cpk mapM]; rewrite ?S0, ?S2, ?U0, ?U2; cbn [bind]; reflexivity|reflexivity|].
    constructor; [apply (collinear_zeval _ _ _ _ _ _ L0 M0); congruence|]. constructor; [apply (collinear_zeval _ _ _ _ _ _ L2 M2); congruence|constructor].
  - rewrite !all_cons, all_nil. rewrite !on_horizontal by congruence. tauto.
Qed.
Lemma col_zeval : exists c, AlignColumn (F:=R) = Ok c /\ csig (nval c) = msig [TQuad; TQuad] 0 0 /\
  forall p q b b', is_box p b -> is_box q b' -> nondegenerate b ->
  zeval c [p; q] [] (bleft b' = bleft b /\ bright b' = bright b).
Proof.
  eexists. split; [reflexivity|]. split; [reflexivity|]. intros p q b b' Hp Hq [N1 N2].
  destruct (quad_line3 _ _ _ _ _ Hp) as (p0 & G0 & L0). destruct (quad_line1 _ _ _ _ _ Hp) as (p2 & G2 & L2).
  destruct (quad_line3 _ _ _ _ _ Hq) as (q0 & K0 & M0). destruct (quad_line1 _ _ _ _ _ Hq) as (q2 & K2 & M2).
  pose proof (sel0 p [q] _ _ G0 : select [p; q] "arg0/Line3" = _) as S0. pose proof (sel0 p [q] _ _ G2 : select [p; q] "arg0/Line1" = _) as S2.
  pose proof (sel1 p q [] _ _ K0 : select [p; q] "arg1/Line3" = _) as U0. pose proof (sel1 p q [] _ _ K2 : select [p; q] "arg1/Line1" = _) as U2.
  eapply zeval_iff.
  - eapply zeval_node; [reflexivity|cbn [cpk mapM]; rewrite ?S0, ?S2, ?U0, ?U2; cbn [bind]; reflexivity|reflexivity|].
    constructor; [apply (collinear_zeval _ _ _ _ _ _ L0 M0); congruence|]. constructor; [apply (collinear_zeval _ _ _ _ _ _ L2 M2); congruence|constructor].
  - rewrite !all_cons, all_nil. rewrite !on_vertical by congruence. tauto.
Qed.
(** A mapped alignment: everything aligned with the last. *)
Lemma map_align_zeval (c : cons) (Q : box -> box -> Prop) n prims bs :
  csig (nval c) = msig [TQuad; TQuad] 0 0 ->
  (forall p q b b', is_box p b -> is_box q b' -> nondegenerate b -> zeval c [p; q] [] (Q b b')) ->
  length prims = n -> Forall2 is_box prims bs -> Forall nondegenerate bs ->
  zeval (mapped c n) prims [] (forall i, (i < n - 1)%nat -> Q (nth i bs nobox) (nth (n - 1) bs nobox)).
Proof.
  intros Hc HQ Hn Hb Hd. assert (Hnum : map_num c n = (n - 1)%nat) by (unfold map_num; rewrite Hc; cbn; lia).
  assert (He : forall m, List.concat (List.repeat (@nil pyval) m) = []) by (induction m; auto).
  rewrite <- (He (n - 1)%nat). rewrite <- Hnum. apply map_zeval.
  - assumption.
  - rewrite Hc. cbn. lia.
  - now rewrite repeat_length.
  - apply Forall_forall. intros g Hg. apply repeat_spec in Hg. subst. rewrite Hc. reflexivity.
  - rewrite Hnum. intros i Hi. rewrite nth_prims_pair by lia.
    assert (Hg : nth i (List.repeat (@nil pyval) (n - 1)) [] = []).
    { clear. revert i. induction (n - 1)%nat; intros [|i]; cbn; auto. }
    rewrite Hg. assert (Hlb : length bs = n) by (apply Forall2_len in Hb; lia).
    apply HQ; [apply boxes_nth; [assumption|lia]|apply boxes_nth; [assumption|lia]|].
    rewrite Forall_forall in Hd. apply Hd, nth_In. lia.
Qed.

(** ** RectilinearGrid *)
Lemma idx_2d i j r c : idx_1d [i; j] [r; c] = (i * c + j)%nat.
Proof. unfold idx_1d. cbn. lia. Qed.
Lemma idx_bound i j r c : (i < r)%nat -> (j < c)%nat -> (i * c + j < r * c)%nat.
Proof. intros Hi Hj. assert (S i * c <= r * c)%nat by (apply Nat.mul_le_mono_r; lia). cbn in H. lia. Qed.

(** Aligned along rows / columns with the last one. *)
Lemma forall2_select (prims : list prim) bs (f : nat -> nat) is : Forall2 is_box prims bs -> (forall i, In i is -> (f i < length prims)%nat) ->
  Forall2 is_box (map (fun i => nth (f i) prims noprim) is) (map (fun i => nth (f i) bs nobox) is).
Proof.
  intros Hb. induction is as [|i is IH]; intros H; cbn; constructor; [apply boxes_nth; [assumption|apply H; now left]|]. apply IH. intros j Hj. apply H. now right.
Qed.
Lemma nth_map_seq {A} (f : nat -> A) n i d : (i < n)%nat -> nth i (map f (seq 0 n)) d = f i.
Proof. intros H. rewrite (nth_indep _ d (f 0%nat)) by (rewrite map_length, seq_length; lia). rewrite map_nth, seq_nth by lia. reflexivity. Qed.

Lemma align_keys_NoDup r c : NoDup (map (fun n => ("AlignRow" ++ dec n)%string) (seq 0 r) ++ map (fun n => ("AlignColumn" ++ dec n)%string) (seq 0 c)).
Proof.
  assert (G : forall (a b : list string), NoDup a -> NoDup b -> (forall x, In x a -> In x b -> False) -> NoDup (a ++ b)).
  { clear. induction a as [|x a IH]; intros b Ha Hb H; [assumption|]. inversion Ha; subst. cbn. constructor.
    - rewrite in_app_iff. intros [H'|H']; [contradiction|]. apply (H x); [now left|assumption].
    - apply IH; auto. intros y Hy. apply H. now right. }
  apply G; [apply numbered_NoDup|apply numbered_NoDup|]. intros x Hx Hy. apply in_map_iff in Hx as (i & <- & _). apply in_map_iff in Hy as (j & E & _). discriminate.
Qed.
Lemma zip_two {A} (k1 k2 : nat -> string) (c1 c2 : A) r c :
  zip (map k1 (seq 0 r) ++ map k2 (seq 0 c)) (List.repeat c1 r ++ List.repeat c2 c)
  = map (fun i => (k1 i, c1)) (seq 0 r) ++ map (fun i => (k2 i, c2)) (seq 0 c).
Proof. rewrite zip_app by (rewrite map_length, seq_length, repeat_length; reflexivity). rewrite !repeat_seq, !zip_numbered by lia. reflexivity. Qed.

Lemma rectilinear_zeval r c : (1 <= r)%nat -> (1 <= c)%nat ->
  exists g, RectilinearGrid r c = Ok g /\ csig (nval g) = msig (List.repeat TQuad (r * c)) 0 0 /\
  forall prims bs, length prims = (r * c)%nat -> Forall2 is_box prims bs -> Forall nondegenerate bs ->
  zeval g prims []
    ((forall i j, (i < r)%nat -> (j < c - 1)%nat ->
        bbottom (nth (i * c + (c - 1)) bs nobox) = bbottom (nth (i * c + j) bs nobox) /\ btop (nth (i * c + (c - 1)) bs nobox) = btop (nth (i * c + j) bs nobox)) /\
     (forall i j, (i < r - 1)%nat -> (j < c)%nat ->
        bleft (nth ((r - 1) * c + j) bs nobox) = bleft (nth (i * c + j) bs nobox) /\ bright (nth ((r - 1) * c + j) bs nobox) = bright (nth (i * c + j) bs nobox))).
Proof.
  intros Hr Hc. destruct row_zeval as (row & Er & Sr & Zr). destruct col_zeval as (col & Ec & Sc & Zc).
  unfold RectilinearGrid. rewrite Er, Ec. cbn [bind]. rewrite !transform_map_ok, !repeat_length. cbn [bind].
  rewrite mk_construction_ok.
  2: apply align_keys_NoDup.
  2: { rewrite in_app_iff, !in_map_iff. intros [(i & E & _)|(i & E & _)]; discriminate. }
  2: { rewrite !app_length, !repeat_length, !map_length, !seq_length. lia. }
  2: { rewrite !app_length, !repeat_length, !map_length, !seq_length. lia. }
  eexists. split; [reflexivity|]. split; [reflexivity|]. intros prims bs Hl Hb Hd.
  assert (Hlb : length bs = (r * c)%nat) by (apply Forall2_len in Hb; lia).
  rewrite zip_two.
  set (rowsel := fun i => map (fun j => nth (i * c + j) prims noprim) (seq 0 c)).
  set (colsel := fun j => map (fun i => nth (i * c + j) prims noprim) (seq 0 r)).
  set (rowbox := fun i => map (fun j => nth (i * c + j) bs nobox) (seq 0 c)).
  set (colbox := fun j => map (fun i => nth (i * c + j) bs nobox) (seq 0 r)).
  eapply zeval_iff.
  - eapply zeval_node with (sels := map rowsel (seq 0 r) ++ map colsel (seq 0 c)); [reflexivity| |reflexivity|].
    + cbn [cpk]. rewrite mapM_app.
      assert (E1 : mapM (mapM (select prims)) (map (fun i => map (fun j => argk (idx_1d [i; j] [r; c])) (seq 0 c)) (seq 0 r)) = Ok (map rowsel (seq 0 r))).
      { rewrite mapM_map, <- mapM_Ok_map. apply mapM_ext. intros i Hi. apply in_seq in Hi. rewrite mapM_map. unfold rowsel.
        rewrite (mapM_ext _ (fun j => select prims (argk (i * c + j)))) by (intros; now rewrite idx_2d).
        apply (select_nths prims noprim (fun j => (i * c + j)%nat)). intros j Hj. apply in_seq in Hj. rewrite Hl. apply idx_bound; lia. }
      assert (E2 : mapM (mapM (select prims)) (map (fun j => map (fun i => argk (idx_1d [i; j] [r; c])) (seq 0 r)) (seq 0 c)) = Ok (map colsel (seq 0 c))).
      { rewrite mapM_map, <- mapM_Ok_map. apply mapM_ext. intros j Hj. apply in_seq in Hj. rewrite mapM_map. unfold colsel.
        rewrite (mapM_ext _ (fun i => select prims (argk (i * c + j)))) by (intros; now rewrite idx_2d).
        apply (select_nths prims noprim (fun i => (i * c + j)%nat)). intros i Hi. apply in_seq in Hi. rewrite Hl. apply idx_bound; lia. }
      rewrite E1, E2. reflexivity.
    + assert (Hrep : List.repeat (@nil pyval) (4 * r * c) = map (fun _ => []) (seq 0 r) ++ (map (fun _ => []) (seq 0 c) ++ List.repeat [] (4 * r * c - (r + c)))).
      { rewrite <- !repeat_seq, <- !repeat_app. f_equal. assert (r + c <= 4 * r * c)%nat by nia. lia. }
      rewrite Hrep.
      apply zevals_app; [now rewrite !map_length|now rewrite !map_length| |].
      * rewrite <- (app_nil_r (map (fun _ => []) (seq 0 r))).
        apply (zevals_map _ (fun _ => mapped row c) rowsel (fun _ => [])
                 (fun i => forall j, (j < c - 1)%nat -> bbottom (nth (c - 1) (rowbox i) nobox) = bbottom (nth j (rowbox i) nobox) /\ btop (nth (c - 1) (rowbox i) nobox) = btop (nth j (rowbox i) nobox))).
        intros i Hi. apply in_seq in Hi.
        apply (map_align_zeval row (fun b b' => bbottom b' = bbottom b /\ btop b' = btop b) c); auto.
        -- unfold rowsel. now rewrite map_length, seq_length.
        -- apply (forall2_select prims bs (fun j => (i * c + j)%nat)); [assumption|]. intros j Hj. apply in_seq in Hj. rewrite Hl. apply idx_bound; lia.
        -- apply Forall_forall. intros b Hin. apply in_map_iff in Hin as (j & <- & Hj). apply in_seq in Hj. rewrite Forall_forall in Hd. apply Hd, nth_In. rewrite Hlb. apply idx_bound; lia.
      * apply (zevals_map _ (fun _ => mapped col r) colsel (fun _ => [])
                 (fun j => forall i, (i < r - 1)%nat -> bleft (nth (r - 1) (colbox j) nobox) = bleft (nth i (colbox j) nobox) /\ bright (nth (r - 1) (colbox j) nobox) = bright (nth i (colbox j) nobox))).
        intros j Hj. apply in_seq in Hj.
        apply (map_align_zeval col (fun b b' => bleft b' = bleft b /\ bright b' = bright b) r); auto.
        -- unfold colsel. now rewrite map_length, seq_length.
        -- apply (forall2_select prims bs (fun i => (i * c + j)%nat)); [assumption|]. intros i Hi. apply in_seq in Hi. rewrite Hl. apply idx_bound; lia.
        -- apply Forall_forall. intros b Hin. apply in_map_iff in Hin as (i & <- & Hi). apply in_seq in Hi. rewrite Forall_forall in Hd. apply Hd, nth_In. rewrite Hlb. apply idx_bound; lia.
  - rewrite all_app, !all_map. unfold rowbox, colbox. split.
    + intros [H1 H2]. split.
      * intros i j Hi Hj. specialize (H1 i ltac:(apply in_seq; lia) j Hj). rewrite !nth_map_seq in H1 by lia. exact H1.
      * intros i j Hi Hj. specialize (H2 j ltac:(apply in_seq; lia) i Hi). rewrite !nth_map_seq in H2 by lia. exact H2.
    + intros [H1 H2]. split.
      * intros i Hi j Hj. apply in_seq in Hi. rewrite !nth_map_seq by lia. apply H1; lia.
      * intros j Hj i Hi. apply in_seq in Hj. rewrite !nth_map_seq by lia. apply H2; lia.
Qed.

(** ** Grid *)
Lemma len_h (x y x' : R) : len (vec (x, y) (x', y)) = Rabs (x' - x).
Proof. unfold len, inner, vec. cbn [fst snd]. replace ((x' - x) * (x' - x) + (y - y) * (y - y)) with (Rsqr (x' - x)) by (unfold Rsqr; ring). apply sqrt_Rsqr_abs. Qed.
Lemma len_v (x y y' : R) : len (vec (x, y) (x, y')) = Rabs (y' - y).
Proof. unfold len, inner, vec. cbn [fst snd]. replace ((x - x) * (x - x) + (y' - y) * (y' - y)) with (Rsqr (y' - y)) by (unfold Rsqr; ring). apply sqrt_Rsqr_abs. Qed.
Definition bwidth (b : box) := bright b - bleft b.
Definition bheight (b : box) := btop b - bbottom b.

Definition line_of (key : string) (q : prim) : prim := match get_child q key with Ok l => l | Err _ => noprim end.
Lemma rotated_seq c : (1 <= c)%nat -> skipn 1 (seq 0 c) ++ firstn 1 (seq 0 c) = seq 1 (c - 1) ++ [0%nat].
Proof. destruct c; [lia|]. intros _. cbn. rewrite Nat.sub_0_r. reflexivity. Qed.
Lemma nth_rotated {A} (f : nat -> A) c d : (1 <= c)%nat ->
  (forall i, (i < c - 1)%nat -> nth i (map f (seq 1 (c - 1) ++ [0%nat])) d = f (i + 1)%nat) /\
  nth (c - 1) (map f (seq 1 (c - 1) ++ [0%nat])) d = f 0%nat.
Proof.
  intros Hc. rewrite map_app. split.
  - intros i Hi. rewrite app_nth1 by (rewrite map_length, seq_length; lia). rewrite (nth_indep _ d (f 0%nat)) by (rewrite map_length, seq_length; lia).
    rewrite map_nth, seq_nth by lia. f_equal. lia.
  - rewrite app_nth2 by (rewrite map_length, seq_length; lia). rewrite map_length, seq_length, Nat.sub_diag. reflexivity.
Qed.

(** Relative lengths along a rotated list of lines: each against the first. *)
Lemma relative_map_zeval n (lines : list prim) (P Q : nat -> pt) (xs : list R) : (1 <= n)%nat -> length xs = (n - 1)%nat ->
  (forall i, (i < n)%nat -> line_at (nth i lines noprim) (P i) (Q i)) -> length lines = n ->
  forall rl, RelativeLength = Ok rl ->
  zeval (mapped rl n) (map (fun i => nth i lines noprim) (seq 1 (n - 1) ++ [0%nat])) (map PFlt xs)
    (forall i, (i < n - 1)%nat -> len (vec (P (i + 1)%nat) (Q (i + 1)%nat)) = nth i xs 0 * len (vec (P 0%nat) (Q 0%nat))).
Proof.
  intros Hn Hx Hlines Hll rl Erl.
  assert (Srl : csig (nval rl) = msig [TLine; TLine] 1 1).
  { destruct (relative_length_denote _ _ _ _ _ _ (PInt 0) 0 (gline_at 0 0 0 0) (gline_at 0 0 0 0) eq_refl) as (c' & E & S & _). rewrite Erl in E. inversion E; subst. exact S. }
  assert (Hnum : map_num rl n = (n - 1)%nat) by (unfold map_num; rewrite Srl; cbn; lia).
  destruct (nth_rotated (fun i => nth i lines noprim) n noprim Hn) as [R1 R2].
  assert (Hc : map PFlt xs = List.concat (map (fun x => [PFlt x]) xs)) by (clear; induction xs; cbn; congruence).
  rewrite Hc. eapply zeval_iff; [|split; intros H0; exact H0].
  cut (zeval (mapped rl n) (map (fun i => nth i lines noprim) (seq 1 (n - 1) ++ [0%nat])) (List.concat (map (fun x => [PFlt x]) xs))
    (forall i, (i < map_num rl n)%nat -> len (vec (P (i + 1)%nat) (Q (i + 1)%nat)) = nth i xs 0 * len (vec (P 0%nat) (Q 0%nat)))); [now rewrite Hnum|].
  apply map_zeval.
  - rewrite map_length, app_length, seq_length. cbn. lia.
  - rewrite Srl. cbn. lia.
  - rewrite map_length. lia.
  - apply Forall_forall. intros g Hg. apply in_map_iff in Hg as (x & <- & _). rewrite Srl. reflexivity.
  - rewrite Hnum. intros i Hi. rewrite nth_prims_pair by (rewrite ?map_length, ?app_length, ?seq_length; cbn; lia). rewrite R1, R2 by lia.
    rewrite (nth_indep _ [] [PFlt 0]) by (rewrite map_length; lia). rewrite (map_nth (fun x => [PFlt x])).
    destruct (relative_length_denote (nth (i + 1) lines noprim) (nth 0 lines noprim) _ _ _ _ (PFlt (nth i xs 0)) (nth i xs 0) (Hlines (i + 1)%nat ltac:(lia)) (Hlines 0%nat ltac:(lia)) eq_refl) as (c' & E & _ & D).
    rewrite Erl in E. inversion E; subst c'. eexists. split; [exact D|]. split.
    + intros F. inversion F as [|? ? F1]; subst. inversion F1 as [|? ? Hz]; subst. unfold zero in Hz. lra.
    + intros Hz. repeat constructor. unfold zero. lra.
Qed.

Lemma py_tuple_numbers v xs : py_tuple v = Ok (map PFlt xs) -> Forall2 number_is (map PFlt xs) xs.
Proof. intros _. induction xs; constructor; [split; reflexivity|assumption]. Qed.

Lemma grid_zeval r c : (1 <= r)%nat -> (1 <= c)%nat ->
  exists g, Grid r c = Ok g /\ csig (nval g) = msig (List.repeat TQuad (r * c)) 0 4 /\
  forall prims bs vcw vrh vcm vrm cw rh cm rm, length prims = (r * c)%nat -> Forall2 is_box prims bs -> Forall nondegenerate bs ->
  py_tuple vcw = Ok (map PFlt cw) -> py_tuple vrh = Ok (map PFlt rh) -> py_tuple vcm = Ok (map PFlt cm) -> py_tuple vrm = Ok (map PFlt rm) ->
  length cw = (c - 1)%nat -> length rh = (r - 1)%nat -> length cm = (c - 1)%nat -> length rm = (r - 1)%nat ->
  zeval g prims [vcw; vrh; vcm; vrm]
    (((forall i j, (i < r)%nat -> (j < c - 1)%nat ->
        bbottom (nth (i * c + (c - 1)) bs nobox) = bbottom (nth (i * c + j) bs nobox) /\ btop (nth (i * c + (c - 1)) bs nobox) = btop (nth (i * c + j) bs nobox)) /\
      (forall i j, (i < r - 1)%nat -> (j < c)%nat ->
        bleft (nth ((r - 1) * c + j) bs nobox) = bleft (nth (i * c + j) bs nobox) /\ bright (nth ((r - 1) * c + j) bs nobox) = bright (nth (i * c + j) bs nobox))) /\
     (forall j, (j < c - 1)%nat -> Rabs (bwidth (nth (j + 1) bs nobox)) = nth j cw 0 * Rabs (bwidth (nth 0 bs nobox))) /\
     (forall i, (i < r - 1)%nat -> Rabs (bheight (nth ((i + 1) * c) bs nobox)) = nth i rh 0 * Rabs (bheight (nth 0 bs nobox))) /\
     (forall j, (j < c - 1)%nat -> gap "right" (nth j bs nobox) (nth (j + 1) bs nobox) = nth j cm 0) /\
     (forall i, (i < r - 1)%nat -> gap "bottom" (nth (i * c) bs nobox) (nth ((i + 1) * c) bs nobox) = nth i rm 0)).
Proof.
  intros Hr Hc. destruct (rectilinear_zeval r c Hr Hc) as (rg & Erg & Srg & Zrg).
  destruct (relative_length_denote _ _ _ _ _ _ (PInt 0) 0 (gline_at 0 0 0 0) (gline_at 0 0 0 0) eq_refl) as (rl & Erl & Srl & _).
  destruct (margin_array_zeval c "right" ltac:(cbn; tauto)) as (ca & Eca & Sca & Zca).
  destruct (margin_array_zeval r "bottom" ltac:(cbn; tauto)) as (ra & Era & Sra & Zra).
  unfold Grid. rewrite Erg, Erl. cbn [bind]. rewrite !transform_map_ok, !repeat_length. cbn [bind]. rewrite Eca, Era. cbn [bind].
  eexists. split; [apply mk_construction_ok|].
  { repeat constructor; cbn; intuition discriminate. }
  { cbn. intuition discriminate. }
  { cbn. lia. }
  { reflexivity. }
  split; [reflexivity|].
  intros prims bs vcw vrh vcm vrm cw rh cm rm Hl Hb Hd E1 E2 E3 E4 L1 L2 L3 L4.
  assert (Hlb : length bs = (r * c)%nat) by (apply Forall2_len in Hb; lia).
  assert (Hrc : (1 <= r * c)%nat) by nia.
  assert (HL0 : forall i, (i < r * c)%nat -> line_at (line_of "Line0" (nth i prims noprim)) (bleft (nth i bs nobox), bbottom (nth i bs nobox)) (bright (nth i bs nobox), bbottom (nth i bs nobox))).
  { intros i Hi. pose proof (boxes_nth prims bs i Hb ltac:(lia)) as Hq. destruct (quad_line0 _ _ _ _ _ Hq) as (l & G & L). unfold line_of. rewrite G. exact L. }
  assert (HL1 : forall i, (i < r * c)%nat -> line_at (line_of "Line1" (nth i prims noprim)) (bright (nth i bs nobox), bbottom (nth i bs nobox)) (bright (nth i bs nobox), btop (nth i bs nobox))).
  { intros i Hi. pose proof (boxes_nth prims bs i Hb ltac:(lia)) as Hq. destruct (quad_line1 _ _ _ _ _ Hq) as (l & G & L). unfold line_of. rewrite G. exact L. }
  assert (Hsel : forall key (f : nat -> nat) is, (key = "Line0" \/ key = "Line1") -> (forall i, In i is -> (f i < r * c)%nat) ->
    mapM (fun i => select prims (argk (f i) ++ String slash key)) is = Ok (map (fun i => line_of key (nth (f i) prims noprim)) is)).
  { intros key f is Hk Hf. rewrite <- mapM_Ok_map. apply mapM_ext. intros i Hi. specialize (Hf i Hi).
    rewrite (select_path prims (f i) (nth (f i) prims noprim)) by (apply nth_error_nth'; lia).
    pose proof (boxes_nth prims bs (f i) Hb ltac:(lia)) as Hq. unfold line_of.
    destruct Hk as [-> | ->]; [destruct (quad_line0 _ _ _ _ _ Hq) as (l & -> & _)|destruct (quad_line1 _ _ _ _ _ Hq) as (l & -> & _)]; reflexivity. }
  set (l0s := map (fun j => line_of "Line0" (nth j prims noprim)) (seq 0 c)).
  set (l1s := map (fun i => line_of "Line1" (nth (i * c) prims noprim)) (seq 0 r)).
  assert (Hc' : (c <= r * c)%nat) by nia.
  eapply zeval_iff.
  - eapply zeval_node with
      (sels := [prims; map (fun i => nth i l0s noprim) (seq 1 (c - 1) ++ [0%nat]); map (fun i => nth i l1s noprim) (seq 1 (r - 1) ++ [0%nat]);
                map (fun j => nth j prims noprim) (seq 0 c); map (fun i => nth (i * c) prims noprim) (seq 0 r)])
      (cps := [[]; map PFlt cw; map PFlt rh; map PFlt cm; map PFlt rm]).
    + reflexivity.
    + cbn [cpk mapM].
      assert (F0 : mapM (select prims) (map argk (seq 0 (r * c))) = Ok prims).
      { rewrite mapM_map, (select_nths prims noprim (fun i => i)); [|intros i Hi; apply in_seq in Hi; lia]. f_equal. rewrite <- Hl. apply map_nth_seq. }
      rewrite F0. cbn [bind].
      assert (F1 : mapM (select prims) (map (fun j => (argk (idx_1d [0%nat; j] [r; c]) ++ "/Line0")%string) (skipn 1 (seq 0 c) ++ firstn 1 (seq 0 c)))
                   = Ok (map (fun i => nth i l0s noprim) (seq 1 (c - 1) ++ [0%nat]))).
      { rewrite rotated_seq by assumption. rewrite mapM_map.
        rewrite (mapM_ext _ (fun j => select prims (argk j ++ String slash "Line0"))) by (intros j _; rewrite idx_2d; reflexivity).
        assert (Hin : forall j, In j (seq 1 (c - 1) ++ [0%nat]) -> (j < c)%nat).
        { intros j Hj. apply in_app_or in Hj as [Hj|[<-|[]]]; [apply in_seq in Hj; lia|lia]. }
        rewrite (Hsel "Line0" (fun j => j)); [|now left|intros j Hj; specialize (Hin j Hj); lia]. f_equal. apply map_ext_in. intros j Hj.
        unfold l0s. rewrite nth_map_seq by (now apply Hin). reflexivity. }
      rewrite F1. cbn [bind].
      assert (F2 : mapM (select prims) (map (fun i => (argk (idx_1d [i; 0%nat] [r; c]) ++ "/Line1")%string) (skipn 1 (seq 0 r) ++ firstn 1 (seq 0 r)))
                   = Ok (map (fun i => nth i l1s noprim) (seq 1 (r - 1) ++ [0%nat]))).
      { rewrite rotated_seq by assumption. rewrite mapM_map.
        rewrite (mapM_ext _ (fun i => select prims (argk (i * c) ++ String slash "Line1"))) by (intros j _; rewrite idx_2d, Nat.add_0_r; reflexivity).
        assert (Hin : forall j, In j (seq 1 (r - 1) ++ [0%nat]) -> (j < r)%nat).
        { intros j Hj. apply in_app_or in Hj as [Hj|[<-|[]]]; [apply in_seq in Hj; lia|lia]. }
        rewrite (Hsel "Line1" (fun i => (i * c)%nat)); [|now right|intros j Hj; specialize (Hin j Hj); nia]. f_equal. apply map_ext_in. intros j Hj.
        unfold l1s. rewrite nth_map_seq by (now apply Hin). reflexivity. }
      rewrite F2. cbn [bind].
      assert (F3 : mapM (select prims) (map (fun j => argk (idx_1d [0%nat; j] [r; c])) (seq 0 c)) = Ok (map (fun j => nth j prims noprim) (seq 0 c))).
      { rewrite mapM_map. rewrite (mapM_ext _ (fun j => select prims (argk j))) by (intros j _; rewrite idx_2d; reflexivity).
        apply (select_nths prims noprim (fun j => j)). intros j Hj. apply in_seq in Hj. lia. }
      rewrite F3. cbn [bind].
      assert (F4 : mapM (select prims) (map (fun i => argk (idx_1d [i; 0%nat] [r; c])) (seq 0 r)) = Ok (map (fun i => nth (i * c) prims noprim) (seq 0 r))).
      { rewrite mapM_map. rewrite (mapM_ext _ (fun i => select prims (argk (i * c)))) by (intros j _; rewrite idx_2d, Nat.add_0_r; reflexivity).
        apply (select_nths prims noprim (fun i => (i * c)%nat)). intros j Hj. apply in_seq in Hj. nia. }
      rewrite F4. reflexivity.
    + cbn [cparams grid_params]. rewrite E1, E2, E3, E4. reflexivity.
    + cbn [zip]. constructor; [apply (Zrg prims bs Hl Hb Hd)|].
      constructor.
      { apply (relative_map_zeval c l0s (fun j => (bleft (nth j bs nobox), bbottom (nth j bs nobox))) (fun j => (bright (nth j bs nobox), bbottom (nth j bs nobox))) cw Hc L1); [| |exact Erl].
        - intros j Hj. unfold l0s. rewrite nth_map_seq by lia. apply HL0. lia.
        - unfold l0s. now rewrite map_length, seq_length. }
      constructor.
      { apply (relative_map_zeval r l1s (fun i => (bright (nth (i * c) bs nobox), bbottom (nth (i * c) bs nobox))) (fun i => (bright (nth (i * c) bs nobox), btop (nth (i * c) bs nobox))) rh Hr L2); [| |exact Erl].
        - intros i Hi. unfold l1s. rewrite nth_map_seq by lia. apply HL1. nia.
        - unfold l1s. now rewrite map_length, seq_length. }
      constructor.
      { apply (Zca _ (map (fun j => nth j bs nobox) (seq 0 c)) _ cm).
        - now rewrite map_length, seq_length.
        - apply (forall2_select prims bs (fun j => j)); [assumption|]. intros j Hj. apply in_seq in Hj. lia.
        - now rewrite map_length.
        - eapply py_tuple_numbers; eassumption. }
      constructor.
      { apply (Zra _ (map (fun i => nth (i * c) bs nobox) (seq 0 r)) _ rm).
        - now rewrite map_length, seq_length.
        - apply (forall2_select prims bs (fun i => (i * c)%nat)); [assumption|]. intros j Hj. apply in_seq in Hj. nia.
        - now rewrite map_length.
        - eapply py_tuple_numbers; eassumption. }
      constructor.
  - rewrite !all_cons, all_nil. apply and_iff_compat_l.
    assert (cong : forall A B C D : Prop, (A <-> C) -> (B <-> D) -> (A /\ B <-> C /\ D)) by (intros; tauto).
    apply cong; [|apply cong; [|apply cong]].
    + split; intros H j Hj; specialize (H j Hj); rewrite !len_h in *; exact H.
    + split; intros H j Hj; specialize (H j Hj); rewrite !len_v in *; exact H.
    + split; intros H j Hj; specialize (H j Hj); rewrite !nth_map_seq in * by lia; exact H.
    + rewrite and_comm. transitivity (forall i, (i < r - 1)%nat -> gap "bottom" (nth i (map (fun i0 => nth (i0 * c) bs nobox) (seq 0 r)) nobox)
         (nth (i + 1) (map (fun i0 => nth (i0 * c) bs nobox) (seq 0 r)) nobox) = nth i rm 0); [tauto|].
      split; intros H j Hj; specialize (H j Hj); rewrite !nth_map_seq in * by lia; exact H.
Qed.
