(** Every shipped constraint serves its parts: arrays and grids. *)
From Verif Require Export ShippedProofs ShippedDims ConsSpec.

Section Arrays.
  Context {F : Type} {N : Num F}.
  Notation prim := (prim F).
  Notation pyval := (pyval F).
  Notation cons := (cons F).
  Variable tw : bool.
  Notation ready := (ready tw).
  Notation readys := (readys tw).
  (** ** Arrays *)
  Lemma construction_ok (c : cls F) keys (cs : list cons) pks cps s :
    NoDup keys -> ~ In EmptyString keys -> length cs <= length keys -> length pks = length cs ->
    mk_construction c keys cs pks cps s = Ok (Node c {| cpk := pks; cparams := cps; csig := s |} (zip keys cs)).
  Proof.
    intros H1 H2 H3 H4.
    assert (Hz : map fst (zip keys cs) = firstn (length cs) keys).
    { clear -H3. revert cs H3. induction keys as [|k keys IH]; intros [|c cs] H; cbn in *; try reflexivity; try lia. f_equal. apply IH. lia. }
    assert (Hd : dict_of (zip keys cs) = zip keys cs).
    { apply dict_of_nodup. rewrite Hz. clear -H1. generalize (length cs). induction H1 as [|k l Hk Hn IH]; intros n; destruct n; cbn; try constructor.
      - intros Hin. apply Hk. rewrite <- (firstn_skipn n l). apply in_or_app. now left.
      - apply IH. }
    unfold mk_construction. rewrite Hd. apply mk_cons_ok.
    - cbn [cpk]. rewrite zip_length. lia.
    - rewrite Hz. intros H. apply H2. rewrite <- (firstn_skipn (length cs) keys). apply in_or_app. now left.
  Qed.

  Lemma arg_type ts i t : nth_error ts i = Some t -> named_type tw ts (argk i) t.
  Proof.
    intros H. exists t. split; [|destruct t; reflexivity]. unfold key_type, argk. rewrite (split1_noslash _ (noslash_arg i)), argnum_dec, H. reflexivity.
  Qed.
  Lemma nth_repeat_Some {A} (x : A) n i : i < n -> nth_error (List.repeat x n) i = Some x.
  Proof. revert i. induction n as [|n IH]; intros [|i] H; cbn; try lia; [reflexivity|]. apply IH. lia. Qed.
  Lemma nth_zip {A B} (a : list A) (b : list B) i x y : nth_error (zip a b) i = Some (x, y) -> nth_error a i = Some x /\ nth_error b i = Some y.
  Proof. revert b i. induction a as [|u a IH]; intros [|w b] [|i] H; cbn in *; try discriminate; [inversion H; auto|now apply IH]. Qed.
  Lemma args_types ts t is : (forall i, In i is -> nth_error ts i = Some t) ->
    Forall2 (named_type tw ts) (map argk is) (List.repeat t (length is)).
  Proof. intros H. induction is as [|i is IH]; cbn; constructor; [apply arg_type, H; now left|]. apply IH. intros j Hj. apply H. now right. Qed.

  Lemma margin_array_ready n side : In side ["left"; "right"; "bottom"; "top"] ->
    exists c, OuterMarginArray n side = Ok c /\ csig (nval c) = msig (List.repeat TQuad n) 0 (n - 1) /\
      forall ps, length ps = n - 1 -> Forall dimension ps -> ready c ps.
  Proof.
    intros Hs. destruct (outer_ready tw side Hs) as (m & Em & Sm & Hm).
    assert (Ecs : mapM (fun _ : nat => crOuterMargin (F:=F) side) (seq 0 (n - 1)) = Ok (map (fun _ => m) (seq 0 (n - 1)))).
    { rewrite <- mapM_Ok_map. apply mapM_ext. intros; assumption. }
    unfold OuterMarginArray. rewrite Ecs. cbn [bind]. rewrite construction_ok.
    - eexists. split; [reflexivity|]. split; [reflexivity|]. intros ps Hl Hd. eapply ready_node; [exact Hl|reflexivity|]. cbn [csig msig prim_types cpk].
      apply readys_nth.
      + rewrite zip_length, !map_length, !seq_length. lia.
      + rewrite zip_length, !map_length, !seq_length. lia.
      + intros i k c ks p E1 E2 E3. apply nth_zip in E1 as [_ E1]. rewrite nth_error_map in E1, E2, E3.
        destruct (nth_error (seq 0 (n - 1)) i) as [j|] eqn:Ej; [|discriminate]. cbn in E1, E2. inversion E1; inversion E2; subst.
        apply nth_error_In in Ej as Hj. apply in_seq in Hj.
        destruct (nth_error ps i) as [v|] eqn:Ev; [|discriminate]. cbn in E3. inversion E3; subst. split.
        * rewrite Sm. cbn [msig prim_types]. constructor; [|constructor; [|constructor]]; apply arg_type, nth_repeat_Some; lia.
        * apply Hm. rewrite Forall_forall in Hd. apply Hd. now apply nth_error_In in Ev.
    - apply numbered_NoDup.
    - rewrite in_map_iff. intros (i & E & _). discriminate.
    - rewrite !map_length, !seq_length. lia.
    - rewrite !map_length, !seq_length. lia.
  Qed.

  Lemma mapped_ready (c : cons) t np n : csig (nval c) = msig [t; t] (value_size (csig (nval c))) np -> 1 <= n ->
    (forall g, length g = np -> ready c g) -> forall ps, length ps = (n - 1) * np -> ready (mapped c n) ps.
  Proof.
    intros Hs Hn Hc ps Hp. assert (Hnum : map_num c n = n - 1) by (unfold map_num; rewrite Hs; cbn; lia).
    unfold mapped. rewrite Hnum. eapply ready_node; cbn [csig nparams cparams cpk prim_types].
    - rewrite Hp, Hs. reflexivity.
    - reflexivity.
    - assert (Hts : List.concat (List.repeat (firstn 1 (prim_types (csig (nval c)))) (n - 1)) ++ skipn 1 (prim_types (csig (nval c))) = List.repeat t n).
      { rewrite Hs. cbn [msig prim_types firstn skipn]. replace n with (n - 1 + 1) at 2 by lia. rewrite repeat_app. cbn [List.repeat]. f_equal. clear. induction (n - 1); [reflexivity|]. cbn. now f_equal. }
      rewrite Hts. apply readys_nth; [now rewrite !map_length|now rewrite !map_length|].
      intros i k c' ks p E1 E2 E3. rewrite nth_error_map in E1, E2, E3.
      destruct (nth_error (seq 0 (n - 1)) i) as [j|] eqn:Ej; [|discriminate]. cbn [option_map] in E1, E2, E3. inversion E1; inversion E2; inversion E3; subst.
      apply nth_error_In in Ej as Hj. apply in_seq in Hj. split.
      + rewrite Hs. cbn [msig prim_types]. replace (n - (n - 1)) with 1 by lia. cbn [seq map]. constructor; [|constructor; [|constructor]]; apply (arg_type _ _ t), nth_repeat_Some; lia.
      + apply Hc. unfold slice. rewrite firstn_length, skipn_length, Hp, Hs. cbn [msig nparams].
        assert ((j + 1) * np <= (n - 1) * np) by (apply Nat.mul_le_mono_r; lia). lia.
  Qed.

  Lemma align_NoDup r c : NoDup (map (fun n => ("AlignRow" ++ dec n)%string) (seq 0 r) ++ map (fun n => ("AlignColumn" ++ dec n)%string) (seq 0 c)).
  Proof.
    assert (G : forall (a b : list string), NoDup a -> NoDup b -> (forall x, In x a -> In x b -> False) -> NoDup (a ++ b)).
    { clear. induction a as [|x a IH]; intros b Ha Hb H; [assumption|]. inversion Ha; subst. cbn. constructor.
      - rewrite in_app_iff. intros [H'|H']; [contradiction|]. apply (H x); [now left|assumption].
      - apply IH; auto. intros y Hy. apply H. now right. }
    apply G; [apply numbered_NoDup|apply numbered_NoDup|]. intros x Hx Hy. apply in_map_iff in Hx as (i & <- & _). apply in_map_iff in Hy as (j & E & _). discriminate.
  Qed.
  Lemma idx2 i j r c : idx_1d [i; j] [r; c] = i * c + j.
  Proof. unfold idx_1d. cbn. lia. Qed.
  Lemma idx_lt i j r c : i < r -> j < c -> i * c + j < r * c.
  Proof. intros Hi Hj. assert (S i * c <= r * c) by (apply Nat.mul_le_mono_r; lia). cbn in H. lia. Qed.
  Lemma types_map ts t (f : nat -> string) is n : length is = n -> (forall i, In i is -> named_type tw ts (f i) t) ->
    Forall2 (named_type tw ts) (map f is) (List.repeat t n).
  Proof. intros <- H. induction is as [|i is IH]; cbn; constructor; [apply H; now left|]. apply IH. intros j Hj. apply H. now right. Qed.
  Lemma mapped_types (c : cons) t np n : csig (nval c) = msig [t; t] (value_size (csig (nval c))) np -> 1 <= n ->
    csig (nval (mapped c n)) = msig (List.repeat t n) 0 ((n - 1) * np).
  Proof.
    intros Hs Hn. unfold mapped. cbn [nval csig]. assert (Hnum : map_num c n = n - 1) by (unfold map_num; rewrite Hs; cbn; lia). rewrite Hnum, Hs. unfold msig. cbn [prim_types nparams firstn skipn]. f_equal.
    replace n with (n - 1 + 1) at 2 by lia. rewrite repeat_app. cbn [List.repeat]. f_equal. clear. induction (n - 1); [reflexivity|]. cbn. now f_equal.
  Qed.

  Lemma rectilinear_ready r c : 1 <= r -> 1 <= c ->
    exists g, RectilinearGrid r c = Ok g /\ csig (nval g) = msig (List.repeat TQuad (r * c)) 0 0 /\ ready g [].
  Proof.
    intros Hr Hc. destruct (align_ready tw) as (row & col & Er & Ec & Sr & Sc & Rr & Rc). unfold RectilinearGrid. rewrite Er, Ec. cbn [bind].
    rewrite !transform_map_ok, !repeat_length. cbn [bind]. rewrite construction_ok.
    2: apply align_NoDup.
    2: { rewrite in_app_iff, !in_map_iff. intros [(i & E & _)|(i & E & _)]; discriminate. }
    2: { rewrite !app_length, !repeat_length, !map_length, !seq_length. lia. }
    2: { rewrite !app_length, !repeat_length, !map_length, !seq_length. lia. }
    eexists. split; [reflexivity|]. split; [reflexivity|].
    assert (Mr : csig (nval (mapped row c)) = msig (List.repeat TQuad c) 0 0) by (rewrite (mapped_types row TQuad 0) by (rewrite ?Sr; auto); rewrite Nat.mul_0_r; reflexivity).
    assert (Mc : csig (nval (mapped col r)) = msig (List.repeat TQuad r) 0 0) by (rewrite (mapped_types col TQuad 0) by (rewrite ?Sc; auto); rewrite Nat.mul_0_r; reflexivity).
    eapply ready_node; [reflexivity|reflexivity|]. cbn [csig msig prim_types cpk].
    apply readys_nth.
    - rewrite zip_length, !app_length, !repeat_length, !map_length, !seq_length. lia.
    - rewrite zip_length, !app_length, !repeat_length, !map_length, !seq_length. nia.
    - intros i k c' ks p E1 E2 E3. apply nth_zip in E1 as [_ E1]. apply nth_error_In, repeat_spec in E3. subst p.
      destruct (Nat.lt_ge_cases i r) as [Hi|Hi].
      + rewrite nth_error_app1 in E1 by (rewrite repeat_length; lia). rewrite nth_error_app1 in E2 by (rewrite map_length, seq_length; lia).
        rewrite nth_repeat_Some in E1 by lia. rewrite nth_error_map, nth_error_seq in E2 by lia. cbn [option_map Nat.add] in E1, E2. injection E1 as <-; injection E2 as <-. split.
        * rewrite Mr. cbn [msig prim_types]. apply types_map; [apply seq_length|]. intros j Hj. apply in_seq in Hj. apply arg_type, nth_repeat_Some. rewrite idx2. apply idx_lt; lia.
        * apply (mapped_ready row TQuad 0); [rewrite Sr; reflexivity|lia| |cbn; lia]. intros [|] Hg; [assumption|discriminate].
      + rewrite nth_error_app2 in E1 by (rewrite repeat_length; lia). rewrite nth_error_app2 in E2 by (rewrite map_length, seq_length; lia).
        rewrite repeat_length in E1. rewrite map_length, seq_length in E2. assert (i - r < c) by (assert (i - r < length (List.repeat (mapped col r) c)) by (apply nth_error_Some; congruence); rewrite repeat_length in *; lia).
        rewrite nth_repeat_Some in E1 by lia. rewrite nth_error_map, nth_error_seq in E2 by lia. cbn [option_map Nat.add] in E1, E2. injection E1 as <-; injection E2 as <-. split.
        * rewrite Mc. cbn [msig prim_types]. apply types_map; [apply seq_length|]. intros j Hj. apply in_seq in Hj. apply arg_type, nth_repeat_Some. rewrite idx2. apply idx_lt; lia.
        * apply (mapped_ready col TQuad 0); [rewrite Sc; reflexivity|lia| |cbn; lia]. intros [|] Hg; [assumption|discriminate].
  Qed.

  Lemma relative_ready : exists c, RelativeLength (F:=F) = Ok c /\ csig (nval c) = msig [TLine; TLine] 1 1 /\ forall v, ready c [v].
  Proof.
    pose proof (plain_ready (F:=F) tw) as M. rewrite Forall_forall in M.
    destruct (M RelativeLength) as (c & E & R); [do 11 right; left; reflexivity|].
    assert (S : csig (nval c) = msig [TLine; TLine] 1 1).
    { assert (E' : match RelativeLength (F:=F) with Ok c => csig (nval c) = msig [TLine; TLine] 1 1 | Err _ => True end) by (vm_compute; reflexivity). rewrite E in E'. exact E'. }
    exists c. split; [exact E|]. split; [exact S|]. intros v. apply R. now rewrite S.
  Qed.
  Lemma path_type ts i t k t' : nth_error ts i = Some t -> part tw t k = Some t' -> noslash k = true -> named_type tw ts (argk i ++ String slash k) t'.
  Proof.
    intros H Hp Hk. exists t'. split; [|destruct t'; reflexivity]. unfold key_type.
    assert (E : split1 (argk i ++ String slash k) = (argk i, Some k)).
    { generalize (noslash_arg i). fold (argk i). generalize (argk i). clear. intros a H. induction a as [|c a IH]; cbn in *; [reflexivity|].
      apply andb_prop in H as [H1 H2]. destruct (Ascii.eqb c slash); [discriminate|]. now rewrite IH. }
    rewrite E. unfold argk. rewrite argnum_dec, H. rewrite (split_all_single k Hk). cbn [parts]. now rewrite Hp.
  Qed.

  Lemma grid_ready r c : 1 <= r -> 1 <= c ->
    exists g, Grid r c = Ok g /\ csig (nval g) = msig (List.repeat TQuad (r * c)) 0 4 /\
      forall vcw vrh vcm vrm cw rh cm rm,
        py_tuple vcw = Ok cw -> py_tuple vrh = Ok rh -> py_tuple vcm = Ok cm -> py_tuple vrm = Ok rm ->
        length cw = c - 1 -> length rh = r - 1 -> length cm = c - 1 -> length rm = r - 1 ->
        ready g [vcw; vrh; vcm; vrm].
  Proof.
    intros Hr Hc. destruct (rectilinear_ready r c Hr Hc) as (rg & Eg & Sg & Rg). destruct relative_ready as (rl & El & Sl & Rl).
    destruct (margin_array_ready c "right" ltac:(cbn; tauto)) as (mc & Emc & Smc & Rmc). destruct (margin_array_ready r "bottom" ltac:(cbn; tauto)) as (mr & Emr & Smr & Rmr).
    unfold Grid. rewrite Eg. cbn [bind]. rewrite El. cbn [bind]. rewrite !transform_map_ok, !repeat_length. cbn [bind]. rewrite Emc. cbn [bind]. rewrite Emr. cbn [bind].
    rewrite construction_ok; [|repeat constructor; cbn; intuition discriminate|cbn; intuition discriminate|cbn; lia|reflexivity].
    eexists. split; [reflexivity|]. split; [reflexivity|].
    intros vcw vrh vcm vrm cw rh cm rm T1 T2 T3 T4 L1 L2 L3 L4.
    assert (Dim : forall v l, py_tuple v = Ok l -> Forall (@dimension F) l).
    { intros v l H. destruct v; try discriminate; cbn in H; inversion H; subst; apply Forall_forall; intros y Hy; apply in_map_iff in Hy as (x & <- & _); left; reflexivity. }
    eapply ready_node; [reflexivity|cbn [cparams grid_params]; rewrite T1, T2, T3, T4; reflexivity|]. cbn [csig msig prim_types cpk zip].
    assert (Hn : forall i j, i < r -> j < c -> nth_error (List.repeat TQuad (r * c)) (idx_1d [i; j] [r; c]) = Some TQuad) by (intros i j Hi Hj; rewrite idx2; apply nth_repeat_Some, idx_lt; assumption).
    assert (Hrot : forall n, 1 <= n -> length (skipn 1 (seq 0 n) ++ firstn 1 (seq 0 n)) = n) by (intros n Hn'; destruct n; [lia|]; cbn; rewrite app_length, seq_length; cbn; lia).
    assert (Hin : forall n i, In i (skipn 1 (seq 0 n) ++ firstn 1 (seq 0 n)) -> i < n).
    { intros n i H. destruct n; [destruct H|]. cbn in H. apply in_app_iff in H as [H|[<-|[]]]; [apply in_seq in H; lia|lia]. }
    constructor; [|exact Rg|constructor; [| |constructor; [| |constructor; [| |constructor; [| |constructor]]]]].
    - rewrite Sg. cbn [msig prim_types]. apply types_map; [apply seq_length|]. intros i Hi. apply in_seq in Hi. apply arg_type, nth_repeat_Some. lia.
    - rewrite (mapped_types rl TLine 1) by (rewrite ?Sl; auto). cbn [msig prim_types]. apply types_map; [apply (Hrot c Hc)|]. intros j Hj. apply Hin in Hj.
      apply (path_type _ _ TQuad "Line0"); [apply Hn; lia|reflexivity|reflexivity].
    - apply (mapped_ready rl TLine 1); [rewrite Sl; reflexivity|lia| |lia]. intros [|v [|]] Hg; try discriminate. apply Rl.
    - rewrite (mapped_types rl TLine 1) by (rewrite ?Sl; auto). cbn [msig prim_types]. apply types_map; [apply (Hrot r Hr)|]. intros j Hj. apply Hin in Hj.
      apply (path_type _ _ TQuad "Line1"); [apply Hn; lia|reflexivity|reflexivity].
    - apply (mapped_ready rl TLine 1); [rewrite Sl; reflexivity|lia| |lia]. intros [|v [|]] Hg; try discriminate. apply Rl.
    - rewrite Smc. cbn [msig prim_types]. apply types_map; [apply seq_length|]. intros i Hi. apply in_seq in Hi. apply arg_type, Hn; lia.
    - apply Rmc; [assumption|eauto].
    - rewrite Smr. cbn [msig prim_types]. apply types_map; [apply seq_length|]. intros i Hi. apply in_seq in Hi. apply arg_type, Hn; lia.
    - apply Rmr; [assumption|eauto].
  Qed.
End Arrays.
