(** Residuals that are affine in the primitives: three trees, the third of which has at
    every place the mixture of the data of the first two. *)
From Coq Require Import Reals Lra.
From Verif Require Export AffineProofs CstrProofs.
Local Open Scope R_scope.

Notation prim := (prim R).
Notation pyval := (pyval R).

Inductive blend (s : R) : prim -> prim -> prim -> Prop :=
| blend_node ta va cha tb vb chb tm vm chm :
    length (vdata va) = length (vdata vb) -> vdata vm = mix s (vdata va) (vdata vb) ->
    blends s cha chb chm -> blend s (Node ta va cha) (Node tb vb chb) (Node tm vm chm)
with blends (s : R) : dict prim -> dict prim -> dict prim -> Prop :=
| blends_nil : blends s [] [] []
| blends_cons k a b m cha chb chm : blend s a b m -> blends s cha chb chm ->
    blends s ((k, a) :: cha) ((k, b) :: chb) ((k, m) :: chm).

Section Blend.
  Variable s : R.

  (** ** Walking *)
  Lemma blends_dget k cha chb chm : blends s cha chb chm ->
    match dget k cha, dget k chb, dget k chm with
    | Some a, Some b, Some m => blend s a b m
    | None, None, None => True
    | _, _, _ => False
    end.
  Proof.
    revert chb chm. induction cha as [|[k' a] cha IH]; intros chb chm H; inversion H; subst; cbn; [exact I|].
    destruct (String.eqb k k'); [assumption|]. now apply IH.
  Qed.
  Lemma blend_walk p : forall a b m, blend s a b m ->
    match walk p a, walk p b, walk p m with
    | Some x, Some y, Some z => blend s x y z
    | None, None, None => True
    | _, _, _ => False
    end.
  Proof.
    induction p as [|k p IH]; intros a b m H; [exact H|]. inversion H as [ta va cha tb vb chb tm vm chm Hl Hm Hc]; subst. cbn [walk nch].
    pose proof (blends_dget k _ _ _ Hc) as G. destruct (dget k cha), (dget k chb), (dget k chm); try contradiction; [now apply IH|exact I].
  Qed.
  Lemma blend_get_child k a b m : blend s a b m ->
    match get_child a k, get_child b k, get_child m k with
    | Ok x, Ok y, Ok z => blend s x y z
    | Err _, Err _, Err _ => True
    | _, _, _ => False
    end.
  Proof.
    intros H. rewrite !get_child_walk. pose proof (blend_walk (split_all k) a b m H) as G.
    destruct (walk (split_all k) a), (walk (split_all k) b), (walk (split_all k) m); try contradiction; exact G.
  Qed.
  Lemma blend_coord a b m : blend s a b m -> length (coord a) = length (coord b) /\ coord m = mix s (coord a) (coord b).
  Proof. intros H. inversion H; subst. unfold coord. cbn. auto. Qed.
  (** Trees of the same shape blend if their data do, place by place. *)
  Lemma blend_places a : forall b m, wf a -> same_shape a b -> same_shape a m ->
    (forall p (x y z : prim), walk p a = Some x -> walk p b = Some y -> walk p m = Some z ->
       length (vdata (nval x)) = length (vdata (nval y)) /\ vdata (nval z) = mix s (vdata (nval x)) (vdata (nval y))) ->
    blend s a b m.
  Proof.
    induction a as [t v ch IH] using node_ind'. intros b m Hw Hb Hm H.
    inversion Hb as [? ? ? tb vb chb Kb Cb]; inversion Hm as [? ? ? tm vm chm Km Cm]; subst.
    destruct (H [] _ _ _ eq_refl eq_refl eq_refl) as [H1 H2]. cbn in H1, H2. constructor; auto.
    assert (Hc : forall k x y z, dget k ch = Some x -> dget k chb = Some y -> dget k chm = Some z ->
        forall p x' y' z', walk p x = Some x' -> walk p y = Some y' -> walk p z = Some z' ->
        length (vdata (nval x')) = length (vdata (nval y')) /\ vdata (nval z') = mix s (vdata (nval x')) (vdata (nval y'))).
    { intros k x y z Ex Ey Ez p x' y' z' Wx Wy Wz. apply (H (k :: p)); cbn [walk nch]; rewrite ?Ex, ?Ey, ?Ez; assumption. }
    apply wf_children in Hw as [Hnd Hwf]. clear H H1 H2 Hb Hm.
    revert chb chm Kb Km Cb Cm Hc. induction ch as [|[k x] ch IHch]; intros [|[kb y] chb] [|[km z] chm] Kb Km Cb Cm Hc; cbn in Kb, Km; try discriminate; [constructor|].
    injection Kb as <- Kb. injection Km as <- Km. inversion IH; inversion Hwf; inversion Hnd; inversion Cb; inversion Cm; subst. constructor.
    - cbn in *. apply H1; auto. apply (Hc k); cbn; now rewrite String.eqb_refl.
    - apply IHch; auto. intros k' x' y' z' Ex Ey Ez. assert (k' <> k).
      { intros ->. apply H9. apply dget_In in Ex. now apply (in_map fst) in Ex. }
      apply (Hc k'); cbn; (destruct (String.eqb_spec k' k); [contradiction|assumption]).
  Qed.

  (** ** Results *)
  Inductive vmix : pyval -> pyval -> pyval -> Prop :=
  | vmix_const v : vmix v v v
  | vmix_0 a b : vmix (PA0 a) (PA0 b) (PA0 ((1 - s) * a + s * b))
  | vmix_1 a b : length a = length b -> vmix (PA1 a) (PA1 b) (PA1 (mix s a b)).
  Definition tri (x1 x2 x3 : result (list R)) : Prop :=
    forall r1, x1 = Ok r1 -> exists r2, x2 = Ok r2 /\ length r1 = length r2 /\ x3 = Ok (mix s r1 r2).
  Definition ptri (x1 x2 x3 : result pyval) : Prop :=
    forall v1, x1 = Ok v1 -> exists v2 v3, x2 = Ok v2 /\ x3 = Ok v3 /\ vmix v1 v2 v3.
  Lemma tri_bind x1 x2 x3 k1 k2 k3 : tri x1 x2 x3 -> (forall r1 r2, length r1 = length r2 -> tri (k1 r1) (k2 r2) (k3 (mix s r1 r2))) -> tri (bind x1 k1) (bind x2 k2) (bind x3 k3).
  Proof.
    intros H K r H1. destruct x1 as [r1|]; [|discriminate]. cbn in H1. destruct (H r1 eq_refl) as (r2 & -> & Hl & ->). cbn. now apply K.
  Qed.
  Lemma ptri_bind x1 x2 x3 k1 k2 k3 : tri x1 x2 x3 -> (forall r1 r2, length r1 = length r2 -> ptri (k1 r1) (k2 r2) (k3 (mix s r1 r2))) -> ptri (bind x1 k1) (bind x2 k2) (bind x3 k3).
  Proof.
    intros H K r H1. destruct x1 as [r1|]; [|discriminate]. cbn in H1. destruct (H r1 eq_refl) as (r2 & -> & Hl & ->). cbn. now apply K.
  Qed.
  Lemma tri_Ok a b : length a = length b -> tri (Ok a) (Ok b) (Ok (mix s a b)).
  Proof. intros H r E. injection E as <-. eauto. Qed.
  Lemma ptri_1 a b : length a = length b -> ptri (Ok (PA1 a)) (Ok (PA1 b)) (Ok (PA1 (mix s a b))).
  Proof. intros H v E. injection E as <-. do 2 eexists. split; [reflexivity|]. split; [reflexivity|]. now constructor. Qed.
  Lemma tri_Err e x2 x3 : tri (Err e) x2 x3.
  Proof. intros r E. discriminate. Qed.
  Lemma ptri_Err e x2 x3 : ptri (Err e) x2 x3.
  Proof. intros r E. discriminate. Qed.
  Lemma ptri_const v : ptri (Ok v) (Ok v) (Ok v).
  Proof. intros r E. injection E as <-. do 2 eexists. split; [reflexivity|]. split; [reflexivity|]. constructor. Qed.

  (** ** Arithmetic *)
  Lemma mix_map (h : R -> R) : (forall x y, h ((1 - s) * x + s * y) = (1 - s) * h x + s * h y) ->
    forall a b, map h (mix s a b) = mix s (map h a) (map h b).
  Proof.
    intros H. unfold mix. induction a as [|x a IH]; intros [|y b]; cbn; try reflexivity. rewrite H. f_equal. apply IH.
  Qed.
  Lemma bcast_tri (op : R -> R -> R) a1 a2 b1 b2 :
    (forall x y u v, op ((1 - s) * x + s * y) ((1 - s) * u + s * v) = (1 - s) * op x u + s * op y v) ->
    length a1 = length a2 -> length b1 = length b2 ->
    tri (bcast2 (fun x y => Ok (op x y)) a1 b1) (bcast2 (fun x y => Ok (op x y)) a2 b2) (bcast2 (fun x y => Ok (op x y)) (mix s a1 a2) (mix s b1 b2)).
  Proof.
    intros Hop Ha Hb. unfold bcast2. rewrite !mix_length, <- Ha, <- Hb by assumption.
    destruct (Nat.eqb_spec (length a1) (length b1)) as [E|E].
    - rewrite !(mapM_Ok_map (fun xy => op (fst xy) (snd xy))). intros r Er. injection Er as <-. eexists. split; [reflexivity|]. split.
      + rewrite !map_length, !zip_length. lia.
      + f_equal. unfold mix. revert a2 b1 b2 Ha Hb E. induction a1 as [|x a1 IH]; intros [|y a2] [|u b1] [|v b2] Ha Hb E; try discriminate; [reflexivity|].
        cbn. rewrite Hop. f_equal. apply IH; cbn in *; lia.
    - destruct a1 as [|x [|x' a1]], a2 as [|y [|y' a2]]; try discriminate.
      + destruct b1 as [|u [|u' b1]], b2 as [|v [|v' b2]]; try discriminate; cbn in E; try lia.
        * intros r Er. cbn in *. injection Er as <-. eexists. split; [reflexivity|]. split; reflexivity.
      + cbn [mix zip map fst snd]. rewrite !(mapM_Ok_map (op _)). intros r Er. injection Er as <-. eexists. split; [reflexivity|]. split; [now rewrite !map_length|]. f_equal.
        unfold mix. clear E. revert b2 Hb. induction b1 as [|u b1 IH]; intros [|v b2] Hb; try discriminate; [reflexivity|]. cbn. rewrite Hop. f_equal. apply IH. cbn in *; lia.
      + destruct b1 as [|u [|u' b1]], b2 as [|v [|v' b2]]; try discriminate; try apply tri_Err.
        change (mix s [u] [v]) with [(1 - s) * u + s * v].
        assert (E1 : forall p w, mapM (fun x => Ok (op x w)) p = Ok (map (fun x => op x w) p)) by (intros; apply mapM_Ok_map).
        set (p1 := x :: x' :: a1) in *. set (p2 := y :: y' :: a2) in *. clear E.
        assert (Em : match mix s p1 p2 with [x0] => mapM (fun y0 => Ok (op x0 y0)) [(1 - s) * u + s * v] | _ => mapM (fun x0 => Ok (op x0 ((1 - s) * u + s * v))) (mix s p1 p2) end
           = Ok (mix s (map (fun x => op x u) p1) (map (fun x => op x v) p2))).
        { transitivity (mapM (fun x0 => Ok (op x0 ((1 - s) * u + s * v))) (mix s p1 p2)); [unfold p1, p2, mix; reflexivity|]. rewrite E1. f_equal. unfold mix. clear -Ha Hop. clearbody p1 p2. revert p2 Ha.
          induction p1 as [|w p1 IH]; intros [|z p2] Ha; try discriminate; [reflexivity|]. cbn. rewrite Hop. f_equal. apply IH. cbn in *; lia. }
        intros r Er. exists (map (fun x => op x v) p2). unfold p1 in Er. rewrite E1 in Er. injection Er as <-. fold p1. split; [unfold p2; apply E1|]. split.
        * change (length (map (fun x => op x u) p1) = length (map (fun x => op x v) p2)). now rewrite !map_length.
        * exact Em.
  Qed.
  Lemma vsub_tri a1 a2 b1 b2 : length a1 = length a2 -> length b1 = length b2 -> tri (vsub a1 b1) (vsub a2 b2) (vsub (mix s a1 a2) (mix s b1 b2)).
  Proof. apply (bcast_tri Rminus). intros; cbn; lra. Qed.
  Lemma vadd_tri a1 a2 b1 b2 : length a1 = length a2 -> length b1 = length b2 -> tri (vadd a1 b1) (vadd a2 b2) (vadd (mix s a1 a2) (mix s b1 b2)).
  Proof. apply (bcast_tri Rplus). intros; cbn; lra. Qed.
  Lemma dot_list_mix b : forall a1 a2, length a1 = length a2 -> length a1 = length b ->
    nsum (map (fun xy => nmul (fst xy) (snd xy)) (zip (mix s a1 a2) b)) =
    (1 - s) * nsum (map (fun xy => nmul (fst xy) (snd xy)) (zip a1 b)) + s * nsum (map (fun xy => nmul (fst xy) (snd xy)) (zip a2 b)).
  Proof.
    induction b as [|z b IH]; intros [|x a1] [|y a2] H E; try discriminate; cbn; [lra|]. unfold nsum, mix in *. cbn in IH. rewrite IH by (cbn in *; lia). lra.
  Qed.
  Lemma dot_tri w a1 a2 : length a1 = length a2 -> ptri (dot a1 w) (dot a2 w) (dot (mix s a1 a2) w).
  Proof.
    intros H. destruct w; cbn [dot]; try apply ptri_Err.
    1-4: unfold arith2; cbn [to_operand bind]; rewrite !(mapM_Ok_map (fun x => nmul x _)); cbn [bind]; intros v E; injection E as <-; do 2 eexists; split; [reflexivity|]; split; [reflexivity|];
      rewrite mix_map by (intros; cbn; lra); constructor; now rewrite !map_length.
    unfold dot_list. rewrite mix_length, <- H by assumption. destruct (Nat.eqb_spec (length a1) (length l)) as [E|E]; cbn [bind]; [|apply ptri_Err].
    intros v Ev. injection Ev as <-. do 2 eexists. split; [reflexivity|]. split; [reflexivity|]. rewrite dot_list_mix by assumption. constructor.
  Qed.
  Lemma add_const y x1 x2 x3 : vmix x1 x2 x3 -> ptri (py_add x1 y) (py_add x2 y) (py_add x3 y).
  Proof.
    intros H. destruct H as [v|a b|a b Hl].
    - intros r E. rewrite E. do 2 eexists. split; [reflexivity|]. split; [reflexivity|]. constructor.
    - destruct y; cbn; try apply ptri_Err.
      1-4: intros v E; cbn in E; injection E as <-; do 2 eexists; split; [reflexivity|]; split; [reflexivity|];
        match goal with |- vmix (PA0 (?a + ?z)) (PA0 (?b + _)) (PA0 ((1 - ?s) * _ + _ + _)) => replace ((1 - s) * a + s * b + z) with ((1 - s) * (a + z) + s * (b + z)) by lra end; constructor.
      rewrite !(mapM_Ok_map (fun z => _ + z)). cbn. intros v E. injection E as <-. do 2 eexists; split; [reflexivity|]; split; [reflexivity|].
      replace (map (fun x => (1 - s) * a + s * b + x) l) with (mix s (map (fun x => a + x) l) (map (fun x => b + x) l)); [constructor; now rewrite !map_length|].
      unfold mix. induction l as [|x l IH]; [reflexivity|]. cbn. rewrite IH. f_equal. lra.
    - assert (G : forall v, ptri (arith2 (fun x y => Ok (nadd x y)) (PA1 a) v) (arith2 (fun x y => Ok (nadd x y)) (PA1 b) v) (arith2 (fun x y => Ok (nadd x y)) (PA1 (mix s a b)) v)).
      { intros v. destruct v; unfold arith2; cbn [to_operand bind]; try apply ptri_Err.
        1-4: rewrite !(mapM_Ok_map (fun x => nadd x _)); cbn [bind]; intros v E; injection E as <-; do 2 eexists; split; [reflexivity|]; split; [reflexivity|];
          rewrite mix_map by (intros; cbn; lra); constructor; now rewrite !map_length.
        apply ptri_bind; [|intros; now apply ptri_1]. rewrite <- (mix_same s l) at 3. apply (bcast_tri Rplus); [intros; lra|assumption|reflexivity]. }
      destruct a as [|x a], b as [|z b]; try discriminate.
      + intros r E. change (mix s [] []) with (@nil R). rewrite E. do 2 eexists. split; [reflexivity|]. split; [reflexivity|]. constructor.
      + destruct y; first [exact (G (PInt z0))|exact (G (PFlt x0))|exact (G (PBool b0))|exact (G (PA0 x0))|exact (G (PA1 l))|apply ptri_Err].
  Qed.
End Blend.
