(** The value of a construction depends on the content of the primitives only. *)
From Verif Require Export ExprProofs Solver.

Section Shipped.
  Context {F : Type} {N : Num F}.
  Notation cons := (cons F).
  Definition expr (rc : result cons) : Prop := forall c, rc = Ok c -> relative c.
  Lemma expr_leaf (c : cons) : In c relative_leaves -> expr (Ok c).
  Proof. intros H d E. injection E as <-. now apply ex_leaf. Qed.
  Lemma expr_constraint (rc : result cons) : expr rc -> expr (c <- rc ;; transform_constraint c).
  Proof. intros H d E. inv_bind E. eapply ex_constraint; [eapply H; eassumption|exact E]. Qed.
  Lemma expr_compound name np keys (rcs : list cons) pks cps sg : (forall x, In x rcs -> relative x) -> expr (mk_construction (compound_cls name np) keys rcs pks cps sg).
  Proof. intros H d E. eapply (ex_compound _ name []); [exact H|exact E]. Qed.
  Ltac inl := unfold relative_leaves; cbn [In]; tauto.
  Lemma cr_expr (c : cons) : In c relative_leaves -> expr (transform_constraint c).
  Proof. intros H. apply (expr_constraint (Ok c)), expr_leaf, H. Qed.
  Lemma rl_expr : expr RelativeLength.
  Proof.
    intros d E. unfold RelativeLength in E. inv_bind E. inv_bind E. eapply ex_sum; [| |exact E]; [apply ex_leaf; inl|].
    eapply ex_mul; [| |exact E1]; [|intros b Eb; injection Eb as <-; apply ex_leaf; inl]. eapply ex_mul; [| |exact E0]; [apply ex_leaf; inl|intros b Eb; discriminate Eb].
  Qed.
  Lemma dim_expr name dim : expr (RectangleDim name dim).
  Proof.
    unfold RectangleDim. destruct (String.eqb dim "width"); [|destruct (String.eqb dim "height"); [|intros d E; discriminate]]; cbn [bind]; apply expr_compound; intros x [<-|[]]; apply ex_leaf; inl.
  Qed.
  Lemma margin_expr name outer side : expr (Margin name outer side).
  Proof.
    unfold Margin. destruct (String.eqb side "left"); [|destruct (String.eqb side "right"); [|destruct (String.eqb side "bottom"); [|destruct (String.eqb side "top"); [|intros d E; discriminate]]]];
      cbn [bind]; apply expr_compound; intros x [<-|[]]; apply ex_leaf; inl.
  Qed.
  Lemma faces_expr side : expr (CoincidentOutwardFaces side).
  Proof. intros d E. unfold CoincidentOutwardFaces in E. inv_bind E. revert E. apply expr_compound. intros x1 [<-|[]]. apply ex_leaf. inl. Qed.
  Lemma position_expr name axis side twin : expr (PositionAxis name axis side twin).
  Proof.
    intros d E. unfold PositionAxis in E. inv_bind E. destruct twin; cbn [bind] in E; repeat inv_bind E.
    - destruct x0 as [[keys cs] pks]. repeat inv_bind E1. injection E1 as <- <- <-. revert E. apply expr_compound. intros y [<-|[<-|[]]]; eapply faces_expr; eassumption.
    - revert E. apply expr_compound. intros y [<-|[]]. eapply faces_expr; eassumption.
  Qed.
  Lemma label_expr name axis twin : expr (PositionAxisLabel name axis twin).
  Proof.
    intros d E. unfold PositionAxisLabel in E. inv_bind E. inv_bind E. revert E. apply expr_compound. intros y [<-|[]]. eapply cr_expr; [|exact E0]. inl.
  Qed.
  Lemma thickness_expr name kinds axis : expr (AxisThickness name kinds axis).
  Proof.
    intros d E. unfold AxisThickness in E. inv_bind E. eapply ex_compound; [|exact E]. intros y [<-|[]]. destruct (String.eqb axis "x"); (eapply cr_expr; [|exact E0]); inl.
  Qed.
  Lemma align_expr name row : expr (Align name row).
  Proof. unfold Align. destruct row; apply expr_compound; intros y [<-|[<-|[]]]; apply ex_leaf; inl. Qed.
  Lemma outer_expr side : expr (crOuterMargin side).
  Proof. apply expr_constraint, margin_expr. Qed.
  Lemma marray_expr n side : expr (OuterMarginArray n side).
  Proof.
    intros d E. unfold OuterMarginArray in E. inv_bind E. eapply ex_list; [|exact E]. clear E. revert x E0. generalize (seq 0 (n - 1)).
    induction l as [|i l IH]; intros x E0; cbn [mapM] in E0; [injection E0 as <-; contradiction|]. inv_bind E0. inv_bind E0. injection E0 as <-. intros y [<-|Hy]; [eapply outer_expr; eassumption|eapply IH; eauto].
  Qed.
  Lemma map_expr (rc : result cons) ts : expr rc -> expr (c <- rc ;; transform_map c ts).
  Proof. intros H d E. inv_bind E. eapply ex_map; [eapply H; eassumption|exact E]. Qed.
  Lemma rect_expr r k : expr (RectilinearGrid r k).
  Proof.
    intros d E. unfold RectilinearGrid in E. inv_bind E. inv_bind E. inv_bind E. inv_bind E. revert E. apply expr_compound. intros y Hy.
    apply in_app_iff in Hy as [Hy|Hy]; apply repeat_spec in Hy as ->; (eapply ex_map; [|eassumption]); [exact (align_expr _ _ _ E0)|exact (align_expr _ _ _ E1)].
  Qed.
  Lemma grid_expr r k : expr (Grid r k).
  Proof.
    intros d E. unfold Grid in E. do 6 inv_bind E. revert E. apply expr_compound. intros y [<-|[<-|[<-|[<-|[<-|[]]]]]].
    - eapply rect_expr; eassumption.
    - eapply ex_map; [|eassumption]. eapply rl_expr; eassumption.
    - eapply ex_map; [|eassumption]. eapply rl_expr; eassumption.
    - eapply marray_expr; eassumption.
    - eapply marray_expr; eassumption.
  Qed.
  Lemma box_expr : expr Box.
  Proof. unfold Box. apply expr_compound. intros y [<-|[<-|[<-|[<-|[]]]]]; apply ex_leaf; inl. Qed.
  (** Every shipped constraint but Fix is relative. *)
  Lemma shipped_relative tw (c : cons) ps : shipped tw c ps -> crFix = Ok c \/ relative c.
  Proof.
    intros [c' ps' H Hl|c' ps' _ H Hl|c' v H Hv|c' v H Hv|n side c' ps' Hs E Hl Hd|r k c' Hr Hk E|r k c' vcw vrh vcm vrm cw rh cm rm Hr Hk E T1 T2 T3 T4 L1 L2 L3 L4].
    - assert (G : Forall expr (tl plain)).
      { unfold plain. cbn [tl]. unfold crDirectedDistance, crXDistance, crYDistance, crLength, crDirectedLength, crXLength, crYLength, crMidpointXDistance, crMidpointYDistance, crAngle,
          crPointOnLineDistance, crPointToLineDistance, crRelativePointOnLineDistance, crAspectRatio.
        repeat match goal with
          | |- Forall expr [] => apply Forall_nil
          | |- Forall expr (transform_constraint _ :: _) => apply Forall_cons; [apply cr_expr; inl|]
          | |- Forall expr (Ok _ :: _) => apply Forall_cons; [apply expr_leaf; inl|]
          | |- Forall expr (RelativeLength :: _) => apply Forall_cons; [apply rl_expr|]
          | |- Forall expr (AlignRow :: _) => apply Forall_cons; [apply align_expr|]
          | |- Forall expr (AlignColumn :: _) => apply Forall_cons; [apply align_expr|]
          | |- Forall expr (CoincidentOutwardFaces _ :: _) => apply Forall_cons; [apply faces_expr|]
          | |- Forall expr (PositionXAxis _ _ :: _) => apply Forall_cons; [apply position_expr|]
          | |- Forall expr (PositionYAxis _ _ :: _) => apply Forall_cons; [apply position_expr|]
          | |- Forall expr (PositionXAxisLabel _ :: _) => apply Forall_cons; [apply label_expr|]
          | |- Forall expr (PositionYAxisLabel _ :: _) => apply Forall_cons; [apply label_expr|]
          | |- Forall expr (Box :: _) => apply Forall_cons; [apply box_expr|]
          end. }
      destruct H as [H|H]; [left; exact H|]. right. rewrite Forall_forall in G. exact (G _ H _ eq_refl).
    - right. assert (G : Forall expr twins).
      { unfold twins. do 4 (apply Forall_cons; [apply position_expr|]). do 2 (apply Forall_cons; [apply label_expr|]). apply Forall_nil. }
      rewrite Forall_forall in G. exact (G _ H _ eq_refl).
    - right. assert (G : Forall expr (dimensions ++ margins)).
      { unfold dimensions, margins. cbn [map app]. do 2 (apply Forall_cons; [apply expr_constraint; apply dim_expr|]). do 8 (apply Forall_cons; [apply expr_constraint; apply margin_expr|]). apply Forall_nil. }
      rewrite Forall_forall in G. exact (G _ H _ eq_refl).
    - right. cbn [In] in H. destruct H as [H|[H|[]]]; unfold XAxisThickness, YAxisThickness in H; exact (thickness_expr _ _ _ _ H).
    - right. eapply marray_expr; exact E.
    - right. eapply rect_expr; exact E.
    - right. eapply grid_expr; exact E.
  Qed.
  Lemma shipped_expressible tw (c : cons) ps : shipped tw c ps -> expressible c.
  Proof.
    intros H. destruct (shipped_relative tw c ps H) as [E|Hr]; [|now apply relative_expressible]. eapply ex_constraint; [|exact E]. apply ex_leaf. unfold leaves. cbn [In]. tauto.
  Qed.
End Shipped.

Section Pure.
  Context {F : Type} {N : Num F}.
  Notation prim := (prim F).
  Notation pyval := (pyval F).
  Notation cons := (cons F).
  Notation cls := (cls F).
  (** A tree without the identities of its arrays. *)
  Fixpoint forget (p : prim) : prim :=
    match p with Node t v ch => Node t {| vid := 0; vdata := vdata v |} (map (fun kc => (fst kc, forget (snd kc))) ch) end.
  Definition fwd {A B} (f : A -> B) (r : result A) : result B := match r with Ok x => Ok (f x) | Err e => Err e end.
  Lemma forget_coord p : coord (forget p) = coord p.
  Proof. destruct p. reflexivity. Qed.
  Lemma forget_type p : ntype (forget p) = ntype p.
  Proof. destruct p. reflexivity. Qed.
  Lemma forget_nch p : nch (forget p) = map (fun kc => (fst kc, forget (snd kc))) (nch p).
  Proof. destruct p. reflexivity. Qed.
  Lemma forget_nvalues p : nvalues (forget p) = map forget (nvalues p).
  Proof. unfold nvalues, dvals. rewrite forget_nch, !map_map. reflexivity. Qed.
  Lemma dget_forget k (ch : dict prim) : dget k (map (fun kc => (fst kc, forget (snd kc))) ch) = option_map forget (dget k ch).
  Proof. induction ch as [|[k' c] ch IH]; [reflexivity|]. cbn. destruct (String.eqb k k'); [reflexivity|exact IH]. Qed.
  Lemma forget_get k p : get_child (forget p) k = fwd forget (get_child p k).
  Proof.
    unfold get_child. generalize (S (String.length k)). intros fuel. revert p k. induction fuel as [|fuel IH]; intros p k; [reflexivity|].
    cbn [get_child_f]. destruct (split1 k) as [k1 [rest|]]; rewrite forget_nch, dget_forget; destruct (dget k1 (nch p)) as [c|]; try reflexivity. cbn [option_map].
    rewrite IH. destruct (get_child_f fuel c rest) as [x|[]]; reflexivity.
  Qed.
  Lemma forget_int i p : get_int (forget p) i = fwd forget (get_int p i).
  Proof. unfold get_int. rewrite forget_nvalues, nth_error_map. destruct (nth_error (nvalues p) i); reflexivity. Qed.
  Lemma forget_line_vector p : line_vector (forget p) = line_vector p.
  Proof. unfold line_vector. rewrite forget_nvalues. destruct (nvalues p) as [|a [|b [|]]]; try reflexivity. cbn [map]. now rewrite !forget_coord. Qed.
  Lemma forget_unit p : unit_line_vector (forget p) = unit_line_vector p.
  Proof. unfold unit_line_vector. now rewrite forget_line_vector. Qed.
  Lemma forget_length p : line_length (forget p) = line_length p.
  Proof. unfold line_length. now rewrite forget_line_vector. Qed.
  Lemma forget_angle p : direction_angle (forget p) = direction_angle p.
  Proof. unfold direction_angle. now rewrite forget_unit. Qed.
  Lemma forget_parallel p q : parallel (forget p) (forget q) = parallel p q.
  Proof. unfold parallel. now rewrite !forget_line_vector. Qed.
  Lemma forget_midpoint p : midpoint (forget p) = midpoint p.
  Proof.
    unfold midpoint. destruct nhalf; [|reflexivity]. cbn [bind]. rewrite !forget_get. destruct (get_child p "Point0"); [|reflexivity]. cbn [fwd bind].
    destruct (get_child p "Point1"); [|reflexivity]. cbn [fwd bind]. now rewrite !forget_coord.
  Qed.
  Lemma forget_validate ps types : validate_prims (map forget ps) types = validate_prims ps types.
  Proof.
    unfold validate_prims. rewrite map_length. match goal with |- bind ?x _ = _ => destruct x as [ts|]; [|reflexivity] end. cbn [bind].
    assert (Z : forall ts, forallb (fun pt : prim * ptype => issubclass (ntype (fst pt)) (snd pt)) (zip (map forget ps) ts) = forallb (fun pt : prim * ptype => issubclass (ntype (fst pt)) (snd pt)) (zip ps ts)).
    { clear. induction ps as [|p ps IH]; intros [|t ts]; try reflexivity. cbn. now rewrite forget_type, IH. }
    now rewrite Z.
  Qed.
  Lemma forget_mk_line a b : (x <- mk_line 0 VNone (Some [forget a; forget b]) ;; Ok (line_vector (fst x))) = (x <- mk_line 0 VNone (Some [a; b]) ;; Ok (line_vector (fst x))).
  Proof.
    unfold mk_line. cbn [take_value bind]. unfold finish_prim. change (dict_of (zip ["Point0"; "Point1"] [forget a; forget b])) with [("Point0", forget a); ("Point1", forget b)].
    change (dict_of (zip ["Point0"; "Point1"] [a; b])) with [("Point0", a); ("Point1", b)]. unfold mk_primnode. cbn [forallb snd dvals map]. rewrite !forget_type.
    change [forget a; forget b] with (map forget [a; b]).
    destruct (negb _); [reflexivity|]. cbn [signature_of]. destruct (negb _); [reflexivity|]. cbn [existsb map]. change [forget a; forget b] with (map forget [a; b]). rewrite forget_validate.
    destruct (_ || _)%bool; [|reflexivity]. cbn [bind fst]. unfold line_vector, nvalues, dvals. cbn [nch map snd]. now rewrite !forget_coord.
  Qed.

  Definition pure (c : cls) : Prop := forall ps params, cassem c (map forget ps) params = cassem c ps params.
  Ltac fg := rewrite ?forget_coord, ?forget_line_vector, ?forget_unit, ?forget_length, ?forget_angle, ?forget_midpoint, ?forget_parallel.
  Ltac gets := repeat (rewrite !forget_get; match goal with |- context [fwd forget ?x] => destruct x; cbn [fwd bind]; [|reflexivity] end).
  Ltac ps1 ps := destruct ps as [|? ps]; [reflexivity|].
  Lemma forget_onl p q r : point_on_line_distance (forget p) (forget q) r = point_on_line_distance p q r.
  Proof. unfold point_on_line_distance. destruct (truthy r) as [[]|]; try reflexivity; cbn [bind]; rewrite forget_get; (destruct (get_child _ _); [|reflexivity]); cbn [fwd bind]; now fg. Qed.
  Lemma forget_tol p q r : point_to_line_distance (forget p) (forget q) r = point_to_line_distance p q r.
  Proof.
    unfold point_to_line_distance. fg. destruct (unit_line_vector q); [|reflexivity]. cbn [bind]. destruct (truthy r) as [b|]; [|reflexivity]. cbn [bind].
    match goal with |- bind ?x _ = _ => destruct x; [|reflexivity] end. cbn [bind]. rewrite forget_get. destruct (get_child _ _); [|reflexivity]. cbn [fwd bind]. now fg.
  Qed.
  Lemma forget_cl p q r : coincident_lines (forget p) (forget q) r = coincident_lines p q r.
  Proof.
    unfold coincident_lines. destruct (truthy r) as [b|]; [|reflexivity]. cbn [bind]. rewrite !forget_get.
    destruct (get_child q "Point0"); [|reflexivity]. cbn [fwd bind]. destruct (get_child q "Point1"); [|reflexivity]. cbn [fwd bind].
    destruct (get_child p "Point0"); [|reflexivity]. cbn [fwd bind]. destruct (get_child p "Point1"); [|reflexivity]. cbn [fwd bind]. unfold coincident. now fg.
  Qed.
  Lemma no_params_pure name (f : list prim -> result pyval) : (forall ps, f (map forget ps) = f ps) -> pure {| cname := name; cisa := []; cassem := no_params f |}.
  Proof. intros H ps params. cbn. unfold no_params. destruct params; [apply H|reflexivity]. Qed.
  Lemma leaves_pure : Forall (fun c => pure (ntype c)) leaves.
  Proof.
    unfold leaves. repeat (apply Forall_cons; [unfold mk_leaf; cbn [ntype]|]); [..|apply Forall_nil].
    all: try (apply no_params_pure; intros ps).
    all: try (intros ps params; unfold Coordinate, DirectedDistance, DirectedLength, MidpointDirectedDistance, PointOnLineDistance, PointToLineDistance, RelativePointOnLineDistance, CoincidentLines, mk_leaf; cbn [ntype cassem]).
    - reflexivity.
    - destruct ps as [|p [|]]; try reflexivity. cbn. now fg.
    - destruct params as [|d [|]]; try reflexivity. destruct ps as [|p [|q [|]]]; try reflexivity. cbn. now fg.
    - destruct ps as [|p [|q [|]]]; try reflexivity. cbn. now fg.
    - destruct ps as [|p [|q [|]]]; try reflexivity. cbn. now fg.
    - destruct ps as [|p [|]]; try reflexivity. cbn [map line_vector_assem]. now fg.
    - destruct ps as [|p [|]]; try reflexivity. cbn [map]. now fg.
    - destruct ps as [|p [|]]; try reflexivity. cbn [map]. now fg.
    - destruct params as [|d [|]]; try reflexivity. destruct ps as [|p [|]]; try reflexivity. cbn [map directed_length]. now fg.
    - destruct ps as [|p [|]]; try reflexivity. cbn [map directed_length]. now fg.
    - destruct ps as [|p [|]]; try reflexivity. cbn [map directed_length]. now fg.
    - destruct ps as [|p [|]]; try reflexivity. cbn [map]. now fg.
    - destruct params as [|d [|]]; try reflexivity. destruct ps as [|p [|q [|]]]; try reflexivity. cbn [map midpoint_directed_distance]. now fg.
    - destruct ps as [|p [|q [|]]]; try reflexivity. cbn [map midpoint_directed_distance]. now fg.
    - destruct ps as [|p [|q [|]]]; try reflexivity. cbn [map midpoint_directed_distance]. now fg.
    - destruct ps as [|p [|q [|]]]; try reflexivity. cbn [map angle_assem]. now fg.
    - destruct ps as [|p [|q [|]]]; try reflexivity. cbn [map]. destruct params as [|r [|]]; try reflexivity. now rewrite forget_onl.
    - destruct ps as [|p [|q [|]]]; try reflexivity. cbn [map]. destruct params as [|r [|]]; try reflexivity. now rewrite forget_tol.
    - destruct ps as [|p [|q [|]]]; try reflexivity. cbn [map]. destruct params as [|r [|]]; try reflexivity. rewrite forget_onl. now fg.
    - destruct ps as [|p [|]]; try reflexivity. cbn [map]. rewrite !forget_get. destruct (get_child p "Line0"); [|reflexivity]. cbn [fwd bind]. fg. destruct (line_length _); [|reflexivity]. cbn [bind].
      destruct (get_child p "Line1"); [|reflexivity]. cbn [fwd bind]. now fg.
    - destruct ps as [|p [|q [|]]]; try reflexivity. cbn [map]. unfold coincident. now fg.
    - destruct ps as [|p [|]]; try reflexivity. cbn [map directed_length]. now fg.
    - destruct ps as [|p [|]]; try reflexivity. cbn [map directed_length]. now fg.
    - destruct ps as [|p [|q [|]]]; try reflexivity. cbn [map]. now fg.
    - destruct ps as [|p [|q [|]]]; try reflexivity. cbn [map]. now fg.
    - destruct ps as [|p [|q [|]]]; try reflexivity. cbn [map]. rewrite !forget_int. destruct (get_int q 0) as [s1|]; [|reflexivity]. cbn [fwd bind]. destruct (get_int p 0) as [s0|]; [|reflexivity]. cbn [fwd bind].
      fg. pose proof (forget_mk_line s1 s0) as L. destruct (mk_line 0 VNone (Some [forget s1; forget s0])) as [[x n]|], (mk_line 0 VNone (Some [s1; s0])) as [[y m]|]; cbn [bind fst] in *; try discriminate; [|injection L as ->; reflexivity].
      destruct (parallel p q); [|reflexivity]. cbn [bind]. unfold parallel. fg. injection L as ->. reflexivity.
    - destruct ps as [|p [|q [|]]]; try reflexivity. cbn [map]. destruct params as [|r [|]]; try reflexivity. apply forget_cl.
  Qed.
  Lemma split_forget na nb (ps : list prim) : split na nb (map forget ps) = let (a, b) := split na nb ps in (map forget a, map forget b).
  Proof.
    unfold split, chunk, slice. cbn. now rewrite !skipn_map, !firstn_map.
  Qed.
  Lemma expressible_pure (c : cons) : expressible c -> Forall (fun m => pure (ntype m)) (preorder c).
  Proof.
    apply (expressible_all pure); [..|apply leaves_pure].
    - intros ps params. reflexivity.
    - intros ps params. reflexivity.
    - intros name kinds ps params. reflexivity.
    - intros name kinds np ps params. reflexivity.
    - intros d name kinds fr H ps params. cbn. apply H.
    - intros name kinds op a b na nb ma mb swap _ Ha Hb ps params. cbn [both cassem]. rewrite split_forget. destruct (split na nb ps) as [pa pb], (split ma mb params) as [qa qb]. now rewrite Ha, Hb.
  Qed.

  (** ** The residual of a layout *)
  Lemma content_forget (p : prim) : forall q : prim, wf p -> wf q -> same_content p q -> forget p = forget q.
  Proof.
    induction p as [t v ch IH] using node_ind'. intros [t' v' ch'] Hp Hq H. pose proof (H []) as H0. cbn in H0. injection H0 as Ht Hk Hv.
    apply wf_children in Hp as [Hn Hf], Hq as [Hn' Hf']. unfold nkeys, dkeys in Hk. cbn [nch] in Hk. cbn [forget]. rewrite Ht, Hv. f_equal.
    assert (Hc : forall k x y, In (k, x) ch -> In (k, y) ch' -> forget x = forget y).
    { intros k x y Hx Hy. rewrite Forall_forall in IH, Hf, Hf'. apply (IH _ Hx); [apply (Hf _ Hx)|apply (Hf' _ Hy)|]. intros path. specialize (H (k :: path)). cbn [walk nch] in H.
      rewrite (In_dget _ _ _ Hn Hx), (In_dget _ _ _ Hn' Hy) in H. exact H. }
    clear -Hk Hc. revert ch' Hk Hc. induction ch as [|[k x] ch IH]; intros [|[k' y] ch'] Hk Hc; try discriminate; [reflexivity|]. cbn in Hk. injection Hk as <- Hk. cbn.
    rewrite (Hc k x y) by now left. f_equal. apply IH; [exact Hk|]. intros. eapply Hc; right; eassumption.
  Qed.
  Lemma lookups_forget (root : prim) ks : mapM (get_child (forget root)) ks = fwd (map forget) (mapM (get_child root) ks).
  Proof.
    induction ks as [|k ks IH]; [reflexivity|]. cbn [mapM]. rewrite forget_get, IH. destruct (get_child root k); [|reflexivity]. cbn [fwd bind]. destruct (mapM (get_child root) ks); reflexivity.
  Qed.
  Lemma assem_forget (root : prim) (cs : list cls) ks params : Forall pure cs -> assem_constraint_residual (forget root) cs ks params = assem_constraint_residual root cs ks params.
  Proof.
    unfold assem_constraint_residual. intros H. revert ks params. induction H as [|c cs Hc H IH]; intros ks params; [reflexivity|]. destruct ks as [|k ks]; [reflexivity|]. destruct params as [|p params]; [reflexivity|].
    cbn [zip mapM fst snd]. rewrite IH, lookups_forget. destruct (mapM (get_child root) k); [|reflexivity]. cbn [fwd bind]. unfold assem1. now rewrite Hc.
  Qed.
End Pure.
