(** Output sizes of the shipped constructions: every class. *)
From Verif Require Export SizeProofs ConsSpec.

Section Size.
  Context {F : Type} {N : Num F}.
  Notation prim := (prim F).
  Notation pyval := (pyval F).
  Notation cons := (cons F).
  Notation named_type := (named_type false).

  Ltac leaf fs := apply (leaf_sized _ fs); [unfold leaves; cbn [In]; tauto|repeat (apply Forall2_cons; [first [eassumption|exact I|eexists; reflexivity]|]); apply Forall2_nil].
  Ltac constr := unfold mk_construction; cbn [zip dict_of fold_left dset String.eqb Ascii.eqb Bool.eqb fst snd]; rewrite mk_cons_ok; [|reflexivity|cbn; intuition discriminate].
  Ltac named1 := repeat (apply Forall2_cons; [eexists; split; reflexivity|]); apply Forall2_nil.
  Ltac compound := constructor; [reflexivity|reflexivity|apply compound_own|intros x Ex; injection Ex as <-; cbn [csig prim_types msig]].

  (** One part of size one. *)
  Definition one_part (rc : result cons) : Prop := exists k (tl : cls F) vl t v, rc = Ok (Node t v [(k, Node tl vl [])]) /\
    k <> EmptyString /\ sized (Node t v [(k, Node tl vl [])]) [] /\ value_size (csig v) = 0 /\ value_size (csig vl) = 1.
  Ltac opart := do 5 eexists; split; [unfold Width, Height, RectangleDim, OuterMargin, InnerMargin, Margin; cbn [String.eqb Ascii.eqb Bool.eqb bind]; constr; reflexivity|];
    split; [discriminate|]; split; [|split; reflexivity]; compound; constructor; [named1| |constructor];
    match goal with |- sized ?c [] => first [change c with (XLength (F:=F))|change c with (YLength (F:=F))|change c with (MidpointXDistance (F:=F))|change c with (MidpointYDistance (F:=F))] end; leaf (@nil form).
  Lemma parts_sized : Forall one_part ([Width; Height] ++ map OuterMargin sides ++ map InnerMargin sides).
  Proof. unfold sides. cbn [map app]. repeat (apply Forall_cons; [opart|]). apply Forall_nil. Qed.
  Lemma one_part_constraint rc : one_part rc -> exists c, (c <- rc ;; transform_constraint c) = Ok c /\ forall v, has_form Number v -> sized c [v].
  Proof.
    intros (k & tl & vl & t & v & -> & Hk & Hs & Z0 & Z1). cbn [bind].
    destruct (sized_constraint_part t v k tl vl [] (PInt 0) Hk Z0 Z1 Hs ltac:(eexists; reflexivity)) as (c & E & _).
    exists c. split; [exact E|]. intros x Hx. destruct (sized_constraint_part t v k tl vl [] x Hk Z0 Z1 Hs Hx) as (c' & E' & Hc'). rewrite E in E'. inversion E'; subst. exact Hc'.
  Qed.
  Definition okay (rc : result cons) (fs : list form) : Prop := exists c, rc = Ok c /\ forall ps, Forall2 has_form fs ps -> sized c ps.
  Ltac fs_inv := repeat match goal with H : Forall2 has_form _ _ |- _ => inversion H; clear H; subst end.
  Lemma part_okay rc : one_part rc -> okay rc [].
  Proof. intros (k & tl & vl & t & v & -> & Hk & Hs & Z0 & Z1). eexists. split; [reflexivity|]. intros ps H. fs_inv. exact Hs. Qed.
  Lemma part_constraint_okay rc : one_part rc -> okay (c <- rc ;; transform_constraint c) [Number].
  Proof. intros H. destruct (one_part_constraint _ H) as (c & E & Hc). exists c. split; [exact E|]. intros ps Hp. fs_inv. auto. Qed.
  Lemma leaf_okay (c : cons) fs : In (Ok c, fs) leaves -> okay (Ok c) fs.
  Proof. intros H. eexists. split; [reflexivity|]. intros ps Hp. eapply leaf_sized; eassumption. Qed.
  Lemma addend_form f n (v : pyval) : (f = Number \/ (f = Position /\ n = 2)) -> has_form f v -> addend n v.
  Proof. intros [->|[-> ->]] H; [left; exact H|]. destruct H as (l & E & [H|H]); [left|right; eauto]. destruct l as [|x [|]]; try discriminate. eauto. Qed.
  Lemma leaf_constraint_okay t v fs f : In (Ok (Node t v []), fs) leaves -> (f = Number \/ (f = Position /\ value_size (csig v) = 2)) ->
    (exists ps, Forall2 (has_form (F:=F)) fs ps) -> okay (transform_constraint (Node t v [])) (fs ++ [f]).
  Proof.
    intros Hin Hf [ps0 Hp0]. assert (Ha : addend (F:=F) (value_size (csig v)) (PInt 0)) by (left; eexists; reflexivity).
    destruct (sized_constraint_leaf t v ps0 (PInt 0) (leaf_sized _ _ Hin _ Hp0) Ha) as (c & E & _). exists c. split; [exact E|].
    intros ps Hp. apply Forall2_app_inv_l in Hp as (qs & xs & Hq & Hx & ->). inversion Hx as [|? x ? ? Hx1 Hx2]; subst. inversion Hx2; subst.
    destruct (sized_constraint_leaf t v qs x (leaf_sized _ _ Hin _ Hq)) as (c' & E' & Hc'); [eapply addend_form; eassumption|]. rewrite E in E'. inversion E'; subst. exact Hc'.
  Qed.

  (** RelativeLength. *)
  Lemma mul_number (x y z : pyval) a b : atleast_1d x = Ok [a] -> atleast_1d y = Ok [b] -> py_mul x y = Ok z -> exists c, atleast_1d z = Ok [c].
  Proof.
    intros Hx Hy H. destruct x; try discriminate Hx; destruct y; try discriminate Hy; cbn in H; try discriminate H; cbn in Hx, Hy;
      try (inversion H; eexists; reflexivity).
    all: try (injection Hx as -> || injection Hx as Hx); try (injection Hy as -> || injection Hy as Hy); subst; cbn in H; inversion H; eexists; reflexivity.
  Qed.
  Lemma relative_okay : exists c, RelativeLength (F:=F) = Ok c /\ csig (nval c) = msig [TLine; TLine] 1 1 /\ forall v, has_form Number v -> sized c [v].
  Proof.
    unfold RelativeLength, transform_scalar_mul, to_scalar. cbn [is_number]. unfold transform_partial, Scalar. cbn [nval ntype nch csig cpk cisa cparams prim_types value_size nparams].
    cbn [mk_cons length cpk]. rewrite mk_cons_ok; [|reflexivity|exact (fun H => H)]. cbn [bind]. fold (minus1 (F:=F)).
    rewrite transform_scalar_tmap by repeat constructor. cbn [bind is_kind existsb ckind_eqb cisa ntype orb].
    rewrite transform_scalar_tmap by repeat constructor. cbn [bind].
    match goal with |- context [transform_sum Length ?s] => set (b := s) end.
    destruct (transform_sum_cases Length b ltac:(repeat constructor)) as [[_ E]|[H _]]; [|exfalso; apply H; repeat constructor]. rewrite E.
    eexists. split; [reflexivity|]. split; [reflexivity|]. intros v Hv.
    change [v] with ([] ++ [v]). constructor; [reflexivity|reflexivity| |intros cps _; constructor].
    apply (sum_own Length b [] [v] 1); [reflexivity|reflexivity|reflexivity| |].
    - apply (sized_own Length []). leaf (@nil form).
    - intros prims y Ht Hw Hy. inversion Ht as [|l ? ? ? Hl Ht']; subst. inversion Ht'; subst. inversion Hw; subst.
      cbn in Hy. inv_bind Hy. inv_bind E0. inversion E0; subst. clear E0. inv_bind E1. inversion E1; subst.
      match goal with H : _ = Ok x |- _ => cbn in H; inversion H; subst end. destruct Hv as [w Hv]. left. eapply mul_number; [exact Hv| |exact Hy]. reflexivity.
  Qed.

  Lemma box_okay : okay Box [].
  Proof.
    eexists. split; [unfold Box; constr; reflexivity|]. intros ps Hp. fs_inv. compound.
    repeat (apply sizeds_cons; [named1|match goal with |- sized ?c [] => first [change c with (Horizontal (F:=F))|change c with (Vertical (F:=F))] end; leaf (@nil form)|]). constructor.
  Qed.
  Lemma align_okay : exists r c, AlignRow (F:=F) = Ok r /\ AlignColumn = Ok c /\ csig (nval r) = msig [TQuad; TQuad] 0 0 /\ csig (nval c) = msig [TQuad; TQuad] 0 0 /\ sized r [] /\ sized c [].
  Proof.
    do 2 eexists. split; [unfold AlignRow, Align; constr; reflexivity|]. split; [unfold AlignColumn, Align; constr; reflexivity|]. split; [reflexivity|]. split; [reflexivity|].
    split; compound; (repeat (apply sizeds_cons; [named1|match goal with |- sized ?c [] => change c with (Collinear (F:=F)) end; leaf (@nil form)|])); constructor.
  Qed.
  Lemma length_okay : exists x y, crXLength (F:=F) = Ok x /\ crYLength = Ok y /\ csig (nval x) = msig [TLine] 1 1 /\ csig (nval y) = msig [TLine] 1 1 /\
    (forall v, has_form Number v -> sized x [v]) /\ (forall v, has_form Number v -> sized y [v]).
  Proof.
    assert (G : forall t v, In (Ok (Node t v []), []) (leaves (F:=F)) -> csig v = msig [TLine] 1 0 -> exists x, transform_constraint (Node t v []) = Ok x /\ csig (nval x) = msig [TLine] 1 1 /\ (forall w, has_form Number w -> sized x [w])).
    { intros t v Hin Hs. destruct (leaf_constraint_okay t v [] Number Hin) as (c & E & Hc); [now left|exists []; constructor|]. exists c. split; [exact E|]. split.
      - rewrite constraint_ok in E; [|repeat constructor|repeat constructor; exact (fun H => H)]. match type of E with Ok ?a = _ => assert (Q : c = a) by congruence; rewrite Q end. rewrite sum_sig. cbn [nval]. rewrite Hs. reflexivity.
      - intros w Hw. apply Hc. repeat (constructor; auto). }
    destruct (G _ _ ltac:(unfold leaves; do 8 right; left; reflexivity) eq_refl) as (x & Ex & Sx & Hx).
    destruct (G _ _ ltac:(unfold leaves; do 9 right; left; reflexivity) eq_refl) as (y & Ey & Sy & Hy).
    exists x, y. auto 10.
  Qed.
  Lemma thickness_okay : okay XAxisThickness [Anything] /\ okay YAxisThickness [Anything].
  Proof.
    destruct length_okay as (x & y & Ex & Ey & Sx & Sy & Hx & Hy).
    assert (G : forall v cps, thickness_params (F:=F) [v] = Ok cps -> exists d, has_form Number d /\ cps = [[d]]).
    { intros v cps H. destruct v; cbn in H; try discriminate.
      - inversion H. exists (PInt 0). split; [eexists; reflexivity|reflexivity].
      - inv_bind H. inversion H. exists x0. split; [|reflexivity]. apply thickness_is_number in E. destruct x0; try discriminate; eexists; reflexivity. }
    split.
    - unfold XAxisThickness, AxisThickness. cbn [String.eqb Ascii.eqb Bool.eqb]. rewrite Ey. cbn [bind]. eexists. split; [constr; reflexivity|]. intros ps Hp. fs_inv.
      constructor; [reflexivity|reflexivity| |].
      + intros prims o _ _ H. unfold assem1 in H. cbn in H. now inversion H.
      + cbn [cparams csig msig prim_types cpk]. intros cps E. apply G in E as (d & Hd & ->). constructor; [rewrite Sy; named1|auto|constructor].
    - unfold YAxisThickness, AxisThickness. cbn [String.eqb Ascii.eqb Bool.eqb]. rewrite Ex. cbn [bind]. eexists. split; [constr; reflexivity|]. intros ps Hp. fs_inv.
      constructor; [reflexivity|reflexivity| |].
      + intros prims o _ _ H. unfold assem1 in H. cbn in H. now inversion H.
      + cbn [cparams csig msig prim_types cpk]. intros cps E. apply G in E as (d & Hd & ->). constructor; [rewrite Sx; named1|auto|constructor].
  Qed.
  Lemma label_okay : okay (PositionXAxisLabel false) [Number] /\ okay (PositionYAxisLabel false) [Number].
  Proof.
    assert (G : exists x, crRelativePointOnLineDistance (F:=F) = Ok x /\ csig (nval x) = msig [TPoint; TLine] 1 2 /\ (forall v w, has_form Number w -> sized x [v; w])).
    { destruct (leaf_constraint_okay _ _ [Anything] Number ltac:(unfold leaves; do 17 right; left; reflexivity)) as (c & E & Hc); [now left|exists [PNone]; repeat constructor|]. exists c. split; [exact E|]. split.
      - rewrite constraint_ok in E; [|repeat constructor|repeat constructor; exact (fun H => H)]. match type of E with Ok ?a = _ => assert (Q : c = a) by congruence; rewrite Q end. rewrite sum_sig. reflexivity.
      - intros v w Hw. apply Hc. repeat (constructor; auto). }
    destruct G as (x & Ex & Sx & Hx). split.
    - unfold PositionXAxisLabel, PositionAxisLabel. rewrite Ex. cbn [bind String.eqb Ascii.eqb Bool.eqb]. eexists. split; [constr; reflexivity|]. intros ps Hp. fs_inv.
      constructor; [reflexivity|reflexivity|apply compound_own|]. cbn [cparams csig msig prim_types cpk]. intros cps E. inversion E; subst. constructor; [rewrite Sx; named1|auto|constructor].
    - unfold PositionYAxisLabel, PositionAxisLabel. rewrite Ex. cbn [bind String.eqb Ascii.eqb Bool.eqb]. eexists. split; [constr; reflexivity|]. intros ps Hp. fs_inv.
      constructor; [reflexivity|reflexivity|apply compound_own|]. cbn [cparams csig msig prim_types cpk]. intros cps E. inversion E; subst. constructor; [rewrite Sx; named1|auto|constructor].
  Qed.

  (** Every class, by its place in [leaves]. *)
  Ltac at_place k := apply (nth_error_In leaves k); reflexivity.
  Ltac lf k := apply Forall_cons; cbn [fst snd]; [apply leaf_okay; at_place k|].
  Ltac lc k := apply Forall_cons; cbn [fst snd]; [apply (leaf_constraint_okay _ _ []); [at_place k|left; reflexivity|exists []; constructor]|].
  Ltac lcd k := apply Forall_cons; cbn [fst snd]; [apply (leaf_constraint_okay _ _ [Direction]); [at_place k|left; reflexivity|exists [PA1 []]; constructor; [eexists; reflexivity|constructor]]|].
  Ltac lca k := apply Forall_cons; cbn [fst snd]; [apply (leaf_constraint_okay _ _ [Anything]); [at_place k|left; reflexivity|exists [PNone]; constructor; [exact I|constructor]]|].
  Ltac by_lemma t := apply Forall_cons; cbn [fst snd]; [exact t|].
  Definition parts : list (result cons) := [Width; Height] ++ map OuterMargin sides ++ map InnerMargin sides.
  Lemma fixed_okay : Forall (fun x => okay (fst x) (snd x)) fixed_shape.
  Proof.
    pose proof parts_sized as P. change (Forall one_part parts) in P.
    assert (PP : forall i rc, nth_error parts i = Some rc -> okay rc []) by (intros i rc H; apply part_okay; rewrite Forall_forall in P; apply P; now apply nth_error_In in H).
    assert (PC : forall i rc, nth_error parts i = Some rc -> okay (c <- rc ;; transform_constraint c) [Number]) by (intros i rc H; apply part_constraint_okay; rewrite Forall_forall in P; apply P; now apply nth_error_In in H).
    assert (Ar : okay AlignRow []) by (destruct align_okay as (ar & ac & E & _ & _ & _ & H & _); exists ar; split; [exact E|]; intros ps Hp; inversion Hp; subst; exact H).
    assert (Ac : okay AlignColumn []) by (destruct align_okay as (ar & ac & _ & E & _ & _ & _ & H); exists ac; split; [exact E|]; intros ps Hp; inversion Hp; subst; exact H).
    assert (Rl : okay RelativeLength [Number]) by (destruct relative_okay as (rl & E & _ & H); exists rl; split; [exact E|]; intros ps Hp; fs_inv; auto).
    unfold fixed_shape, sides. cbn [map app].
    lf 0. lf 1. lf 2. lf 3. lf 4. lf 5. lf 6. lf 7. lf 8. lf 9. lf 10. lf 11. lf 12. lf 13. lf 14. lf 15. lf 16. lf 17.
    by_lemma (PP 0 _ eq_refl). by_lemma (PP 1 _ eq_refl). lf 18.
    by_lemma (PP 2 _ eq_refl). by_lemma (PP 3 _ eq_refl). by_lemma (PP 4 _ eq_refl). by_lemma (PP 5 _ eq_refl).
    by_lemma (PP 6 _ eq_refl). by_lemma (PP 7 _ eq_refl). by_lemma (PP 8 _ eq_refl). by_lemma (PP 9 _ eq_refl).
    apply Forall_cons; cbn [fst snd]; [apply (leaf_constraint_okay _ _ []); [at_place 0|right; split; reflexivity|exists []; constructor]|].
    lcd 1. lc 2. lc 3. lf 19. lc 6. lcd 7. lc 8. lc 9. lf 20. lf 21. by_lemma Rl. lc 12. lc 13. lf 22. lf 23. lc 14. lf 24.
    lca 15. lca 16. lca 17. by_lemma box_okay. by_lemma (PC 0 _ eq_refl). by_lemma (PC 1 _ eq_refl). lc 18.
    by_lemma (proj1 thickness_okay). by_lemma (proj2 thickness_okay). by_lemma Ar. by_lemma Ac. by_lemma (proj1 label_okay). by_lemma (proj2 label_okay).
    by_lemma (PC 2 _ eq_refl). by_lemma (PC 3 _ eq_refl). by_lemma (PC 4 _ eq_refl). by_lemma (PC 5 _ eq_refl).
    by_lemma (PC 6 _ eq_refl). by_lemma (PC 7 _ eq_refl). by_lemma (PC 8 _ eq_refl). by_lemma (PC 9 _ eq_refl). apply Forall_nil.
  Qed.

  (** ** Arrays *)
  Lemma sizeds_nth ts ch pks cps : (forall i k c ks p, nth_error ch i = Some (k, c) -> nth_error pks i = Some ks -> nth_error cps i = Some p ->
       Forall2 (named_type ts) ks (prim_types (csig (nval c))) /\ sized c p) -> length ch = length pks -> length ch <= length cps ->
    sizeds ts ch pks cps.
  Proof.
    revert pks cps. induction ch as [|[k c] ch IH]; intros [|ks pks] [|p cps] H H1 H2; cbn in H1, H2; try lia; try constructor.
    - now apply (H 0 k c ks p).
    - now apply (H 0 k c ks p).
    - apply IH; [|lia|lia]. intros i k' c' ks' p' E1 E2 E3. now apply (H (S i) k' c' ks' p').
  Qed.
  Lemma empty_own name ts ps : own {| cname := name; cisa := []; cassem := empty_assem (F:=F) |} ts ps 0.
  Proof. intros prims o _ _ H. unfold assem1, empty_assem in H. cbn in H. now inversion H. Qed.
  Lemma outer_sized side : In side sides -> exists c, crOuterMargin (F:=F) side = Ok c /\ csig (nval c) = msig [TQuad; TQuad] 0 1 /\ forall v, has_form Number v -> sized c [v].
  Proof.
    intros H. pose proof parts_sized as P. rewrite Forall_forall in P.
    destruct (one_part_constraint (OuterMargin side)) as (c & E & Hc). { apply P. apply in_or_app. right. apply in_or_app. left. now apply in_map. }
    exists c. split; [exact E|]. split; [|exact Hc].
    destruct (outer_ready false side H) as (c' & E' & S' & _). unfold crOuterMargin in E'. rewrite E in E'. inversion E'; subst. exact S'.
  Qed.
  Lemma margin_array_sized n side : In side sides ->
    exists c, OuterMarginArray n side = Ok c /\ csig (nval c) = msig (List.repeat TQuad n) 0 (n - 1) /\
      forall ps, length ps = n - 1 -> Forall (has_form Number) ps -> sized (F:=F) c ps.
  Proof.
    intros Hs. destruct (outer_sized side Hs) as (m & Em & Sm & Hm).
    assert (Ecs : mapM (fun _ : nat => crOuterMargin (F:=F) side) (seq 0 (n - 1)) = Ok (map (fun _ => m) (seq 0 (n - 1)))).
    { rewrite <- mapM_Ok_map. apply mapM_ext. intros; assumption. }
    unfold OuterMarginArray. rewrite Ecs. cbn [bind]. rewrite construction_ok.
    - eexists. split; [reflexivity|]. split; [reflexivity|]. intros ps Hl Hd. constructor; [exact Hl|cbn [cpk]; rewrite zip_length, !map_length, !seq_length; lia|apply empty_own|]. cbn [cparams csig msig prim_types cpk]. intros cps E. injection E as <-.
      apply sizeds_nth.
      + intros i k c ks p E1 E2 E3. apply nth_zip in E1 as [_ E1]. rewrite nth_error_map in E1, E2, E3.
        destruct (nth_error (seq 0 (n - 1)) i) as [j|] eqn:Ej; [|discriminate]. cbn in E1, E2. inversion E1; inversion E2; subst.
        apply nth_error_In in Ej as Hj. apply in_seq in Hj.
        destruct (nth_error ps i) as [v|] eqn:Ev; [|discriminate]. cbn in E3. inversion E3; subst. split.
        * rewrite Sm. cbn [msig prim_types]. constructor; [|constructor; [|constructor]]; apply arg_type, nth_repeat_Some; lia.
        * apply Hm. rewrite Forall_forall in Hd. apply Hd. now apply nth_error_In in Ev.
      + rewrite zip_length, !map_length, !seq_length. lia.
      + rewrite zip_length, !map_length, !seq_length. lia.
    - apply numbered_NoDup.
    - rewrite in_map_iff. intros (i & E & _). discriminate.
    - rewrite !map_length, !seq_length. lia.
    - rewrite !map_length, !seq_length. lia.
  Qed.
  Lemma mapped_sized (c : cons) t np n : csig (nval c) = msig [t; t] (value_size (csig (nval c))) np -> 1 <= n ->
    forall ps, length ps = (n - 1) * np -> (forall i, i < n - 1 -> sized c (slice (i * np) ((i + 1) * np) ps)) -> sized (mapped c n) ps.
  Proof.
    intros Hs Hn ps Hp Hc. assert (Hnum : map_num c n = n - 1) by (unfold map_num; rewrite Hs; cbn; lia).
    unfold mapped. rewrite Hnum. constructor; cbn [csig nparams cparams cpk prim_types value_size].
    - rewrite Hp, Hs. reflexivity.
    - now rewrite !map_length.
    - apply empty_own.
    - intros cps E. injection E as <-.
      assert (Hts : List.concat (List.repeat (firstn 1 (prim_types (csig (nval c)))) (n - 1)) ++ skipn 1 (prim_types (csig (nval c))) = List.repeat t n).
      { rewrite Hs. cbn [msig prim_types firstn skipn]. replace n with (n - 1 + 1) at 2 by lia. rewrite repeat_app. cbn [List.repeat]. f_equal. clear. induction (n - 1); [reflexivity|]. cbn. now f_equal. }
      rewrite Hts. apply sizeds_nth; [|now rewrite !map_length|now rewrite !map_length].
      intros i k c' ks p E1 E2 E3. rewrite nth_error_map in E1, E2, E3.
      destruct (nth_error (seq 0 (n - 1)) i) as [j|] eqn:Ej; [|discriminate]. cbn [option_map] in E1, E2, E3. inversion E1; inversion E2; inversion E3; subst.
      apply nth_error_In in Ej as Hj. apply in_seq in Hj. split.
      + rewrite Hs. cbn [msig prim_types]. replace (n - (n - 1)) with 1 by lia. cbn [seq map]. constructor; [|constructor; [|constructor]]; apply (arg_type false _ _ t), nth_repeat_Some; lia.
      + rewrite Hs. cbn [msig nparams]. apply Hc. lia.
  Qed.
  Lemma rectilinear_sized r c : 1 <= r -> 1 <= c ->
    exists g, RectilinearGrid (F:=F) r c = Ok g /\ csig (nval g) = msig (List.repeat TQuad (r * c)) 0 0 /\ sized g [].
  Proof.
    intros Hr Hc. destruct align_okay as (row & col & Er & Ec & Sr & Sc & Rr & Rc). unfold RectilinearGrid. rewrite Er, Ec. cbn [bind].
    rewrite !transform_map_ok, !repeat_length. cbn [bind]. rewrite construction_ok.
    2: apply align_NoDup.
    2: { rewrite in_app_iff, !in_map_iff. intros [(i & E & _)|(i & E & _)]; discriminate. }
    2: { rewrite !app_length, !repeat_length, !map_length, !seq_length. lia. }
    2: { rewrite !app_length, !repeat_length, !map_length, !seq_length. lia. }
    eexists. split; [reflexivity|]. split; [reflexivity|].
    assert (Mr : csig (nval (mapped row c)) = msig (List.repeat TQuad c) 0 0) by (rewrite (mapped_types row TQuad 0) by (rewrite ?Sr; auto); rewrite Nat.mul_0_r; reflexivity).
    assert (Mc : csig (nval (mapped col r)) = msig (List.repeat TQuad r) 0 0) by (rewrite (mapped_types col TQuad 0) by (rewrite ?Sc; auto); rewrite Nat.mul_0_r; reflexivity).
    assert (Hsl : forall i, slice (i * 0) ((i + 1) * 0) (@nil pyval) = []) by (intros i; unfold slice; rewrite skipn_nil; apply firstn_nil).
    constructor; [reflexivity|cbn [cpk]; rewrite zip_length, !app_length, !repeat_length, !map_length, !seq_length; lia|apply compound_own|]. cbn [csig msig prim_types cpk cparams]. intros cps E. injection E as <-.
    apply sizeds_nth.
    - intros i k c' ks p E1 E2 E3. apply nth_zip in E1 as [_ E1]. apply nth_error_In, repeat_spec in E3. subst p.
      destruct (Nat.lt_ge_cases i r) as [Hi|Hi].
      + rewrite nth_error_app1 in E1 by (rewrite repeat_length; lia). rewrite nth_error_app1 in E2 by (rewrite map_length, seq_length; lia).
        rewrite nth_repeat_Some in E1 by lia. rewrite nth_error_map, nth_error_seq in E2 by lia. cbn [option_map Nat.add] in E1, E2. injection E1 as <-; injection E2 as <-. split.
        * rewrite Mr. cbn [msig prim_types]. apply types_map; [apply seq_length|]. intros j Hj. apply in_seq in Hj. apply arg_type, nth_repeat_Some. rewrite idx2. apply idx_lt; lia.
        * apply (mapped_sized row TQuad 0); [rewrite Sr; reflexivity|lia|cbn; lia|]. intros j _. now rewrite Hsl.
      + rewrite nth_error_app2 in E1 by (rewrite repeat_length; lia). rewrite nth_error_app2 in E2 by (rewrite map_length, seq_length; lia).
        rewrite repeat_length in E1. rewrite map_length, seq_length in E2. assert (i - r < c) by (assert (i - r < length (List.repeat (mapped col r) c)) by (apply nth_error_Some; congruence); rewrite repeat_length in *; lia).
        rewrite nth_repeat_Some in E1 by lia. rewrite nth_error_map, nth_error_seq in E2 by lia. cbn [option_map Nat.add] in E1, E2. injection E1 as <-; injection E2 as <-. split.
        * rewrite Mc. cbn [msig prim_types]. apply types_map; [apply seq_length|]. intros j Hj. apply in_seq in Hj. apply arg_type, nth_repeat_Some. rewrite idx2. apply idx_lt; lia.
        * apply (mapped_sized col TQuad 0); [rewrite Sc; reflexivity|lia|cbn; lia|]. intros j _. now rewrite Hsl.
    - rewrite zip_length, !app_length, !repeat_length, !map_length, !seq_length. lia.
    - rewrite zip_length, !app_length, !repeat_length, !map_length, !seq_length. nia.
  Qed.
  Lemma slice_one {A} (l : list A) i : i < length l -> exists x, slice (i * 1) ((i + 1) * 1) l = [x] /\ In x l.
  Proof.
    intros H. unfold slice. rewrite !Nat.mul_1_r. replace (i + 1 - i) with 1 by lia. destruct (nth_error l i) as [x|] eqn:E; [|apply nth_error_None in E; lia].
    exists x. split; [|now apply nth_error_In in E]. clear H. revert i E. induction l as [|y l IH]; intros [|i] E; cbn in *; try discriminate; [now inversion E|]. now apply IH.
  Qed.
  Lemma grid_sized r c : 1 <= r -> 1 <= c ->
    exists g, Grid (F:=F) r c = Ok g /\
      forall vcw vrh vcm vrm cw rh cm rm,
        py_tuple vcw = Ok cw -> py_tuple vrh = Ok rh -> py_tuple vcm = Ok cm -> py_tuple vrm = Ok rm ->
        length cw = c - 1 -> length rh = r - 1 -> length cm = c - 1 -> length rm = r - 1 ->
        sized g [vcw; vrh; vcm; vrm].
  Proof.
    intros Hr Hc. destruct (rectilinear_sized r c Hr Hc) as (rg & Eg & Sg & Rg). destruct relative_okay as (rl & El & Sl & Rl).
    destruct (margin_array_sized c "right" ltac:(cbn; tauto)) as (mc & Emc & Smc & Rmc). destruct (margin_array_sized r "bottom" ltac:(cbn; tauto)) as (mr & Emr & Smr & Rmr).
    unfold Grid. rewrite Eg. cbn [bind]. rewrite El. cbn [bind]. rewrite !transform_map_ok, !repeat_length. cbn [bind]. rewrite Emc. cbn [bind]. rewrite Emr. cbn [bind].
    rewrite construction_ok; [|repeat constructor; cbn; intuition discriminate|cbn; intuition discriminate|cbn; lia|reflexivity].
    eexists. split; [reflexivity|].
    intros vcw vrh vcm vrm cw rh cm rm T1 T2 T3 T4 L1 L2 L3 L4.
    assert (Dim : forall (v : pyval) l, py_tuple v = Ok l -> Forall (has_form Number) l).
    { intros v l H. destruct v; try discriminate; cbn in H; inversion H; subst; apply Forall_forall; intros y Hy; apply in_map_iff in Hy as (x & <- & _); eexists; reflexivity. }
    assert (One : forall l : list pyval, Forall (has_form Number) l -> forall i, i < length l -> sized rl (slice (i * 1) ((i + 1) * 1) l)).
    { intros l Hl i Hi. destruct (slice_one l i Hi) as (x & -> & Hx). apply Rl. rewrite Forall_forall in Hl. auto. }
    constructor; [reflexivity|reflexivity|apply compound_own|]. cbn [cparams]. intros cps E. cbn [grid_params] in E. rewrite T1, T2, T3, T4 in E. cbn [bind] in E. injection E as <-. cbn [csig msig prim_types cpk zip].
    assert (Hn : forall i j, i < r -> j < c -> nth_error (List.repeat TQuad (r * c)) (idx_1d [i; j] [r; c]) = Some TQuad) by (intros i j Hi Hj; rewrite idx2; apply nth_repeat_Some, idx_lt; assumption).
    assert (Hrot : forall n, 1 <= n -> length (skipn 1 (seq 0 n) ++ firstn 1 (seq 0 n)) = n) by (intros n Hn'; destruct n; [lia|]; cbn; rewrite app_length, seq_length; cbn; lia).
    assert (Hin : forall n i, In i (skipn 1 (seq 0 n) ++ firstn 1 (seq 0 n)) -> i < n).
    { intros n i H. destruct n; [destruct H|]. cbn in H. apply in_app_iff in H as [H|[<-|[]]]; [apply in_seq in H; lia|lia]. }
    constructor; [|exact Rg|constructor; [| |constructor; [| |constructor; [| |constructor; [| |constructor]]]]].
    - rewrite Sg. cbn [msig prim_types]. apply types_map; [apply seq_length|]. intros i Hi. apply in_seq in Hi. apply arg_type, nth_repeat_Some. lia.
    - rewrite (mapped_types rl TLine 1) by (rewrite ?Sl; auto). cbn [msig prim_types]. apply types_map; [apply (Hrot c Hc)|]. intros j Hj. apply Hin in Hj.
      apply (path_type false _ _ TQuad "Line0"); [apply Hn; lia|reflexivity|reflexivity].
    - apply (mapped_sized rl TLine 1); [rewrite Sl; reflexivity|lia|lia|]. intros i Hi. apply One; [eauto|lia].
    - rewrite (mapped_types rl TLine 1) by (rewrite ?Sl; auto). cbn [msig prim_types]. apply types_map; [apply (Hrot r Hr)|]. intros j Hj. apply Hin in Hj.
      apply (path_type false _ _ TQuad "Line1"); [apply Hn; lia|reflexivity|reflexivity].
    - apply (mapped_sized rl TLine 1); [rewrite Sl; reflexivity|lia|lia|]. intros i Hi. apply One; [eauto|lia].
    - rewrite Smc. cbn [msig prim_types]. apply types_map; [apply seq_length|]. intros i Hi. apply in_seq in Hi. apply arg_type, Hn; lia.
    - apply Rmc; [assumption|eauto].
    - rewrite Smr. cbn [msig prim_types]. apply types_map; [apply seq_length|]. intros i Hi. apply in_seq in Hi. apply arg_type, Hn; lia.
    - apply Rmr; [assumption|eauto].
  Qed.

  Lemma documented_sized (c : cons) ps : documented c ps -> sized c ps.
  Proof.
    intros [c' fs ps' Hin Hf|n side c' ps' Hs E Hl Hd|r k c' Hr Hk E|r k c' vcw vrh vcm vrm cw rh cm rm Hr Hk E T1 T2 T3 T4 L1 L2 L3 L4].
    - pose proof fixed_okay as M. rewrite Forall_forall in M. destruct (M _ Hin) as (x & Ex & R). cbn in Ex. injection Ex as <-. auto.
    - destruct (margin_array_sized n side Hs) as (x & Ex & _ & R). rewrite E in Ex. injection Ex as <-. auto.
    - destruct (rectilinear_sized r k Hr Hk) as (x & Ex & _ & R). rewrite E in Ex. injection Ex as <-. auto.
    - destruct (grid_sized r k Hr Hk) as (x & Ex & R). rewrite E in Ex. injection Ex as <-. eapply R; eassumption.
  Qed.
End Size.
