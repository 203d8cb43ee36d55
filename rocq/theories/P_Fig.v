(** C94: figures of primitives and their colours. *)
From Coq Require Import Reals Lra.
From Verif Require Import UiFigSpec P_Ui TreeLemmas.
Local Open Scope R_scope.

Section Fig.
  Context {C : Type} (cmap : R -> C).
  Implicit Types root : prim.

  (** What the loop draws: each child with the colour of its position. *)
  Lemma plot_from_ok ch : forall i n, n <> 0%nat ->
    match mapM (fun kp : string * prim => plot_prim (snd kp) (fst kp) 99) ch with
    | Ok parts => plot_from cmap i n ch = (List.concat (map (fun ip => map (Draw (cmap (INR (fst ip) / INR n))) (snd ip)) (combine (seq i (length parts)) parts)), Ok tt)
    | Err e => exists calls, plot_from cmap i n ch = (calls, Err e)
    end.
  Proof.
    induction ch as [|[k p] ch IH]; intros i n Hn; [reflexivity|]. cbn [mapM plot_from fst snd]. rewrite nat_div by exact Hn. cbn [bind].
    destruct (plot_prim p k 99) as [ds|e]; cbn [bind]; [|eexists; reflexivity].
    specialize (IH (S i) n Hn). destruct (mapM _ ch) as [parts|e]; cbn [bind].
    - rewrite IH. cbn [length seq combine map fst snd List.concat]. reflexivity.
    - destruct IH as [calls ->]. eexists. reflexivity.
  Qed.
  Lemma colored_nil root : nch root = [] -> plot_colored cmap root = ([], Ok tt).
  Proof. unfold plot_colored. now intros ->. Qed.

  Lemma mapM_length' {A B} (f : A -> result B) l r : mapM f l = Ok r -> length r = length l.
  Proof.
    revert r. induction l as [|a l IH]; intros r H; [injection H as <-; reflexivity|]. cbn in H. destruct (f a); [|discriminate]. cbn in H. destruct (mapM f l); [|discriminate]. injection H as <-. cbn. now rewrite (IH _ eq_refl).
  Qed.

  (** The figure is set up first, then the primitives of the root are drawn one after the
      other, everything belonging to the [i]-th of [n] in the colour of [i]/[n]; it is what
      [plot_prims] draws (C67), and fails if and only if that does. *)
  Theorem C94_figure root w h major minor :
    let setup := [NewSubplots w h; MinorLocator "x" minor; MajorLocator "x" major; MinorLocator "y" minor;
                  MajorLocator "y" major; SetAspect 1; GridLines; AxisLabel "x" "x [in]"; AxisLabel "y" "y [in]"] in
    exists calls res, figure_prims cmap root w h major minor = (setup ++ calls, res) /\
      match res with
      | Ok tt => plot_prims root = Ok (items calls) /\
          exists parts, length parts = nlen root /\
            (forall i key p, nth_error (nch root) i = Some (key, p) ->
               exists ds, nth_error parts i = Some (map (Draw (cmap (INR i / INR (nlen root)))) ds) /\ plot_prim p key 99 = Ok ds) /\
            calls = List.concat parts
      | Err e => plot_prims root = Err e
      end.
  Proof.
    intros setup. unfold figure_prims. destruct (plot_colored cmap root) as [calls res] eqn:E. exists calls, res. split; [reflexivity|].
    destruct root as [t v ch]. unfold plot_colored, nlen, plot_prims in *. cbn [nch] in *. destruct ch as [|kp ch].
    { cbn in E. injection E as <- <-. split; [reflexivity|]. exists []. split; [reflexivity|]. split; [|reflexivity]. intros [|i]; discriminate. }
    remember (kp :: ch) as chs eqn:Ech. assert (Hn : length chs <> 0%nat) by (subst; discriminate). clear Ech kp ch.
    pose proof (plot_from_ok chs 0 (length chs) Hn) as H. rewrite E in H. unfold rmap. destruct (mapM _ chs) as [parts|e] eqn:Em; cbn [bind].
    2:{ destruct H as [c H]. apply pair_equal_spec in H as [_ ->]. reflexivity. }
    apply pair_equal_spec in H as [Hc ->]. pose proof (mapM_length' _ _ _ Em) as Hl.
    split.
    - f_equal. subst calls. clear. generalize 0%nat as i. generalize (length chs) as n. intros n. induction parts as [|d parts IH]; intros i; [reflexivity|]. cbn [length seq combine map fst snd List.concat].
      unfold items in *. rewrite flat_map_app, <- IH. f_equal. clear. induction d as [|x d IH]; [reflexivity|]. cbn. now rewrite <- IH.
    - exists (map (fun ip => map (Draw (cmap (INR (fst ip) / INR (length chs)))) (snd ip)) (combine (seq 0 (length parts)) parts)). split; [rewrite map_length, combine_length, seq_length; lia|].
      split; [|exact Hc]. intros i key p Hi.
      assert (Hd : exists ds, nth_error parts i = Some ds /\ plot_prim p key 99 = Ok ds).
      { clear - Em Hi. revert parts Em i Hi. induction chs as [|a l IH]; intros parts Em i Hi; [destruct i; discriminate|]. cbn in Em. destruct (plot_prim (snd a) (fst a) 99) as [d|] eqn:Ed; [|discriminate]. cbn in Em. destruct (mapM _ l) as [r|]; [|discriminate]. injection Em as <-. destruct i as [|i]; [injection Hi as ->; exists d; auto|]. exact (IH r eq_refl i Hi). }
      destruct Hd as (ds & Hd & Hp). exists ds. split; [|exact Hp]. rewrite nth_error_map.
      replace (nth_error (combine (seq 0 (length parts)) parts) i) with (Some (i, ds)); [reflexivity|].
      symmetry. clear - Hd. change (Some (i, ds)) with (Some ((0 + i)%nat, ds)). generalize 0%nat as s. revert i Hd. induction parts as [|a l IH]; intros i Hd s; [destruct i; discriminate|]. cbn [length seq combine]. destruct i as [|i]; [injection Hd as ->; cbn; now rewrite Nat.add_0_r|]. cbn [nth_error]. rewrite (IH i Hd (S s)). do 2 f_equal. lia.
  Qed.
End Fig.

(** The colours asked for are different numbers in [0, 1), in the order of the primitives. *)
Theorem C94_shades n i j : (i < j < n)%nat -> 0 <= INR i / INR n < INR j / INR n /\ INR j / INR n < 1.
Proof.
  intros H. assert (P : 0 < INR n) by (apply lt_0_INR; lia). assert (I : 0 < / INR n) by now apply Rinv_0_lt_compat. pose proof (pos_INR i).
  assert (INR i < INR j) by (apply lt_INR; lia). assert (INR j < INR n) by (apply lt_INR; lia). unfold Rdiv. repeat split; try nra.
  rewrite <- (Rinv_r (INR n)) by lra. nra.
Qed.
Lemma Int_part_div (a b : Z) : (0 < b)%Z -> Int_part (IZR a / IZR b) = (a / b)%Z.
Proof.
  intros Hb. symmetry. unfold Int_part. assert (up (IZR a / IZR b) = a / b + 1)%Z as ->; [|lia]. symmetry. apply tech_up.
  - assert (0 < IZR b) by now apply IZR_lt. apply (Rmult_lt_reg_r (IZR b)); [assumption|]. unfold Rdiv. rewrite Rmult_assoc, Rinv_l, Rmult_1_r by lra. rewrite <- mult_IZR. apply IZR_lt. pose proof (Z.mod_pos_bound a b Hb). rewrite (Z.div_mod a b) at 1 by lia. lia.
  - assert (0 < IZR b) by now apply IZR_lt. apply (Rmult_le_reg_r (IZR b)); [assumption|]. unfold Rdiv. rewrite Rmult_plus_distr_r, Rmult_assoc, Rinv_l, Rmult_1_r by lra. rewrite Rmult_1_l, <- mult_IZR, <- plus_IZR. apply IZR_le. pose proof (Z.mod_pos_bound a b Hb). rewrite (Z.div_mod a b) at 2 by lia. nia.
Qed.
Lemma table_value {C} (colors : Z -> C) i n : (0 < n)%nat -> table colors (INR i / INR n) = colors (256 * Z.of_nat i / Z.of_nat n)%Z.
Proof.
  intros H. unfold table. f_equal. rewrite <- Int_part_div by lia. f_equal. rewrite mult_IZR, <- !INR_IZR_INZ. unfold Rdiv. ring.
Qed.
(** With a colour map of 256 different colours, up to 256 primitives get different colours ... *)
Theorem C94_different {C} (colors : Z -> C) n i j :
  (forall a b, (0 <= a < 256)%Z -> (0 <= b < 256)%Z -> colors a = colors b -> a = b) ->
  (n <= 256)%nat -> (i < j < n)%nat -> table colors (INR i / INR n) <> table colors (INR j / INR n).
Proof.
  intros Hc Hn H. rewrite !table_value by lia. intros E. apply Hc in E.
  - assert (256 * Z.of_nat i / Z.of_nat n + 1 <= 256 * Z.of_nat j / Z.of_nat n)%Z; [|lia]. rewrite <- Z.div_add by lia. apply Z.div_le_mono; lia.
  - split; [apply Z.div_pos; lia|]. apply Z.div_lt_upper_bound; lia.
  - split; [apply Z.div_pos; lia|]. apply Z.div_lt_upper_bound; lia.
Qed.
(** ... and with more primitives some share a colour, the first two for a start. *)
Theorem C94_colors_refuted {C} (colors : Z -> C) n : (256 < n)%nat -> table colors (INR 0 / INR n) = table colors (INR 1 / INR n).
Proof. intros H. rewrite !table_value by lia. f_equal. rewrite !Z.div_small; lia. Qed.

(** Two points drawn in two colours. *)
Definition two_points : prim :=
  Node TNode {| vid := 0; vdata := [] |} [("P", Node TPoint {| vid := 1; vdata := [1; 2] |} []); ("Q", Node TPoint {| vid := 2; vdata := [3; 4] |} [])].
Example C94_case : exists a b, figure_prims (fun x : R => x) two_points 8 8 1 (1 / 8) =
  ([NewSubplots 8 8; MinorLocator "x" (1 / 8); MajorLocator "x" 1; MinorLocator "y" (1 / 8); MajorLocator "y" 1; SetAspect 1; GridLines;
    AxisLabel "x" "x [in]"; AxisLabel "y" "y [in]"; Draw (INR 0 / INR 2) (DPoint (Some "/P"%string) a 1 2); Draw (INR 1 / INR 2) (DPoint (Some "/Q"%string) b 3 4)], Ok tt).
Proof.
  destruct (C94_figure (fun x => x) two_points 8 8 1 (1 / 8)) as (calls & res & E & H). rewrite E. clear E.
  assert (Hp : forall k i l, noslash k = true -> k <> ""%string -> plot_prim (Node TPoint {| vid := i; vdata := l |} []) k 99 = plot_point (Node TPoint {| vid := i; vdata := l |} []) (Some ("/" ++ k)%string) (fade 0 0)).
  { intros k i l Hk H0. rewrite plot_prim_unfold. cbv zeta. assert (Es : split_all k = [k]) by (change (split_all (join [k]) = [k]); apply split_join; [discriminate|repeat constructor; exact Hk]). rewrite !Es. cbn [length Nat.sub last Nat.ltb Nat.leb orb dots node_height]. rewrite opacity_value. cbn [bind].
    destruct (String.eqb_spec k ""); [contradiction|]. change (issubclass TPoint TLine) with false. unfold plot_one. cbn [ntype]. change (issubclass TPoint TPoint) with true.
    cbn [mapM bind append]. unfold plot_point. cbn [nval vdata]. destruct l as [|x [|y [|]]]; reflexivity. }
  exists (fade 0 0), (fade 0 0). destruct res as [[]|e].
  - destruct H as (_ & parts & Hl & Hn & ->). destruct (Hn 0%nat _ _ eq_refl) as (ds & H0 & E0). destruct (Hn 1%nat _ _ eq_refl) as (es & H1 & E1).
    rewrite Hp in E0, E1 by (reflexivity || discriminate). cbn in E0, E1. injection E0 as <-. injection E1 as <-.
    destruct parts as [|a [|b [|]]]; try discriminate Hl. cbn in H0, H1. injection H0 as ->. injection H1 as ->. reflexivity.
  - exfalso. unfold plot_prims, two_points in H. cbn [nch mapM fst snd] in H. rewrite !Hp in H by (reflexivity || discriminate). discriminate H.
Qed.

Print Assumptions C94_figure.
Print Assumptions C94_shades.
Print Assumptions C94_different.
Print Assumptions C94_colors_refuted.
