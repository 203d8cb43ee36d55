(** The value of a relative construction does not change when the primitives are moved. *)
From Coq Require Import Reals Lra.
From Verif Require Export MoveSpec PureProofs LikeProofs.
Local Open Scope R_scope.

Section Move.
  Notation prim := (prim R).
  Notation pyval := (pyval R).
  Notation cons := (cons R).
  Notation cls := (cls R).
  Variables a b : R.
  Notation move := (move a b).
  Notation displace := (displace a b).

  Definition flat2 (d : list R) : Prop := d = [] \/ exists x y, d = [x; y].
  Lemma move_coord p : coord (move p) = displace (coord p).
  Proof. destruct p. reflexivity. Qed.
  Lemma move_type p : ntype (move p) = ntype p.
  Proof. destruct p. reflexivity. Qed.
  Lemma move_nch p : nch (move p) = map (fun kc => (fst kc, move (snd kc))) (nch p).
  Proof. destruct p. reflexivity. Qed.
  Lemma move_nvalues p : nvalues (move p) = map move (nvalues p).
  Proof. unfold nvalues, dvals. rewrite move_nch, !map_map. reflexivity. Qed.
  Lemma dget_move k (ch : dict prim) : dget k (map (fun kc => (fst kc, move (snd kc))) ch) = option_map move (dget k ch).
  Proof. induction ch as [|[k' c] ch IH]; [reflexivity|]. cbn. destruct (String.eqb k k'); [reflexivity|exact IH]. Qed.
  Lemma move_get k p : get_child (move p) k = fwd move (get_child p k).
  Proof.
    unfold get_child. generalize (S (String.length k)). intros fuel. revert p k. induction fuel as [|fuel IH]; intros p k; [reflexivity|].
    cbn [get_child_f]. destruct (split1 k) as [k1 [rest|]]; rewrite move_nch, dget_move; destruct (dget k1 (nch p)) as [c|]; try reflexivity. cbn [option_map].
    rewrite IH. destruct (get_child_f fuel c rest) as [x|[]]; reflexivity.
  Qed.
  Lemma move_int i p : get_int (move p) i = fwd move (get_int p i).
  Proof. unfold get_int. rewrite move_nvalues, nth_error_map. destruct (nth_error (nvalues p) i); reflexivity. Qed.

  Lemma planar_coord p : planar p -> flat2 (coord p).
  Proof. destruct p. intros H. inversion H; subst. assumption. Qed.
  Lemma planar_child p kc : planar p -> In kc (nch p) -> planar (snd kc).
  Proof. destruct p as [t v ch]. unfold planar. cbn [preorder nch]. intros H Hin. inversion H as [|? ? _ H']; subst. rewrite Forall_flat_map, Forall_forall in H'. now apply H'. Qed.
  Lemma planar_get k p q : planar p -> get_child p k = Ok q -> planar q.
  Proof.
    unfold get_child. generalize (S (String.length k)). intros fuel. revert p k. induction fuel as [|fuel IH]; intros p k Hp E; [discriminate|].
    cbn [get_child_f] in E. destruct (split1 k) as [k1 [rest|]]; destruct (dget k1 (nch p)) as [c|] eqn:Ec; try discriminate; apply dget_In in Ec; apply (planar_child p (k1, c) Hp) in Ec; cbn [snd] in Ec.
    - destruct (get_child_f fuel c rest) as [x|[]] eqn:Ex; try discriminate. injection E as <-. eapply IH; eassumption.
    - injection E as <-. exact Ec.
  Qed.
  Lemma planar_values p x : planar p -> In x (nvalues p) -> planar x.
  Proof. intros Hp H. unfold nvalues, dvals in H. apply in_map_iff in H as (kc & <- & H). now apply (planar_child p). Qed.
  Lemma planar_int i p q : planar p -> get_int p i = Ok q -> planar q.
  Proof. intros Hp E. unfold get_int in E. destruct (nth_error (nvalues p) i) eqn:Ex; [|discriminate]. injection E as <-. apply nth_error_In in Ex. now apply (planar_values p). Qed.

  (** ** Differences *)
  Lemma vsub_move u v : flat2 u -> flat2 v -> vsub (displace u) (displace v) = vsub u v.
  Proof.
    intros [->|(x & y & ->)] [->|(x' & y' & ->)]; try reflexivity. cbn. f_equal. f_equal; [|f_equal]; lra.
  Qed.
  Lemma vadd_move u v : flat2 u -> flat2 v -> (exists w, vadd u v = Ok w /\ vadd (displace u) (displace v) = Ok (MoveSpec.displace (2 * a) (2 * b) w) /\ flat2 w) \/ (exists e, vadd u v = Err e /\ vadd (displace u) (displace v) = Err e).
  Proof.
    intros [->|(x & y & ->)] [->|(x' & y' & ->)]; try (right; eexists; split; reflexivity); left; eexists; (split; [reflexivity|]).
    - split; [reflexivity|now left].
    - split; [|right; eauto]. cbn. f_equal. f_equal; [|f_equal]; lra.
  Qed.
  Lemma move_line_vector p : planar p -> line_vector (move p) = line_vector p.
  Proof.
    intros Hp. unfold line_vector. rewrite move_nvalues. destruct (nvalues p) as [|u [|v [|]]] eqn:E; try reflexivity. cbn [map]. rewrite !move_coord.
    apply vsub_move; apply planar_coord, (planar_values p); auto; rewrite E; cbn; auto.
  Qed.
  Lemma move_unit p : planar p -> unit_line_vector (move p) = unit_line_vector p.
  Proof. intros H. unfold unit_line_vector. now rewrite move_line_vector. Qed.
  Lemma move_length p : planar p -> line_length (move p) = line_length p.
  Proof. intros H. unfold line_length. now rewrite move_line_vector. Qed.
  Lemma move_angle p : planar p -> direction_angle (move p) = direction_angle p.
  Proof. intros H. unfold direction_angle. now rewrite move_unit. Qed.
  Lemma move_parallel p q : planar p -> planar q -> parallel (move p) (move q) = parallel p q.
  Proof. intros Hp Hq. unfold parallel. now rewrite !move_line_vector. Qed.
  Lemma move_midpoint p : planar p -> midpoint (move p) = fwd displace (midpoint p) /\ forall m, midpoint p = Ok m -> flat2 m.
  Proof.
    intros Hp. unfold midpoint. destruct (@nhalf R NumR) as [h|] eqn:Eh; [|split; [reflexivity|discriminate]].
    assert (Hh : h = / 2). { unfold nhalf in Eh. cbn in Eh. unfold Rdiv_r in Eh. destruct (Req_EM_T 2 0); [discriminate|]. injection Eh as <-. lra. }
    cbn [bind]. rewrite !move_get. destruct (get_child p "Point0") as [u|] eqn:E0; [|split; [reflexivity|discriminate]]. cbn [fwd bind].
    destruct (get_child p "Point1") as [v|] eqn:E1; [|split; [reflexivity|discriminate]]. cbn [fwd bind]. rewrite !move_coord.
    pose proof (planar_coord u (planar_get _ _ _ Hp E0)) as Hu. pose proof (planar_coord v (planar_get _ _ _ Hp E1)) as Hv.
    destruct (vadd_move _ _ Hu Hv) as [(w & -> & -> & Hw)|(e & -> & ->)]; cbn [bind fwd]; [|split; [reflexivity|discriminate]].
    split.
    - f_equal. destruct Hw as [->|(x & y & ->)]; [reflexivity|]. cbn. rewrite Hh. f_equal; [|f_equal]; lra.
    - intros m E. injection E as <-. destruct Hw as [->|(x & y & ->)]; [now left|]. right. cbn. eauto.
  Qed.
  Lemma move_mid_distance p q (k : list R -> result pyval) : planar p -> planar q ->
    (m1 <- midpoint (move q) ;; m0 <- midpoint (move p) ;; d <- vsub m1 m0 ;; k d) = (m1 <- midpoint q ;; m0 <- midpoint p ;; d <- vsub m1 m0 ;; k d).
  Proof.
    intros Hp Hq. destruct (move_midpoint p Hp) as [-> Fp]. destruct (move_midpoint q Hq) as [-> Fq]. destruct (midpoint q) as [m1|]; [|reflexivity]. cbn [fwd bind].
    destruct (midpoint p) as [m0|]; [|reflexivity]. cbn [fwd bind]. now rewrite vsub_move by auto.
  Qed.
  Lemma move_validate ps types : validate_prims (map move ps) types = validate_prims ps types.
  Proof.
    unfold validate_prims. rewrite map_length. match goal with |- bind ?x _ = _ => destruct x as [ts|]; [|reflexivity] end. cbn [bind].
    assert (Z : forall ts, forallb (fun pt : prim * ptype => issubclass (ntype (fst pt)) (snd pt)) (zip (map move ps) ts) = forallb (fun pt : prim * ptype => issubclass (ntype (fst pt)) (snd pt)) (zip ps ts)).
    { clear. induction ps as [|p ps IH]; intros [|t ts]; try reflexivity. cbn. now rewrite move_type, IH. }
    now rewrite Z.
  Qed.
  Lemma move_mk_line u v : planar u -> planar v -> (x <- mk_line 0 VNone (Some [move u; move v]) ;; Ok (line_vector (fst x))) = (x <- mk_line 0 VNone (Some [u; v]) ;; Ok (line_vector (fst x))).
  Proof.
    intros Hu Hv. unfold mk_line. cbn [take_value bind]. unfold finish_prim. change (dict_of (zip ["Point0"; "Point1"]%string [move u; move v])) with [("Point0"%string, move u); ("Point1"%string, move v)].
    change (dict_of (zip ["Point0"; "Point1"]%string [u; v])) with [("Point0"%string, u); ("Point1"%string, v)]. unfold mk_primnode. cbn [forallb snd dvals map]. rewrite !move_type.
    change [move u; move v] with (map move [u; v]).
    destruct (negb _); [reflexivity|]. cbn [signature_of]. destruct (negb _); [reflexivity|]. cbn [existsb map]. change [move u; move v] with (map move [u; v]). rewrite move_validate.
    destruct (_ || _)%bool; [|reflexivity]. cbn [bind fst]. unfold line_vector, nvalues, dvals. cbn [nch map snd]. rewrite !move_coord, vsub_move by now apply planar_coord. reflexivity.
  Qed.

  (** ** The leaves *)
  Definition rel_cls (c : cls) : Prop := forall ps params, Forall planar ps -> cassem c (map move ps) params = cassem c ps params.
  Lemma move_onl p q r : planar p -> planar q -> point_on_line_distance (move p) (move q) r = point_on_line_distance p q r.
  Proof.
    intros Hp Hq. unfold point_on_line_distance. destruct (truthy r) as [[]|]; try reflexivity; cbn [bind]; rewrite move_get; (destruct (get_child _ _) eqn:E; [|reflexivity]); cbn [fwd bind];
      rewrite move_unit, !move_coord, vsub_move by first [assumption | apply planar_coord; assumption | apply planar_coord; eapply planar_get; [|eassumption]; assumption]; reflexivity.
  Qed.
  Lemma move_tol p q r : planar p -> planar q -> point_to_line_distance (move p) (move q) r = point_to_line_distance p q r.
  Proof.
    intros Hp Hq. unfold point_to_line_distance. rewrite move_unit by assumption. destruct (unit_line_vector q); [|reflexivity]. cbn [bind]. destruct (truthy r) as [x|]; [|reflexivity]. cbn [bind].
    match goal with |- bind ?x _ = _ => destruct x; [|reflexivity] end. cbn [bind]. rewrite move_get. destruct (get_child _ _) eqn:E; [|reflexivity]. cbn [fwd bind].
    rewrite !move_coord, vsub_move by first [assumption | apply planar_coord; assumption | apply planar_coord; eapply planar_get; [|eassumption]; assumption]. reflexivity.
  Qed.
  Lemma move_cl p q r : planar p -> planar q -> coincident_lines (move p) (move q) r = coincident_lines p q r.
  Proof.
    intros Hp Hq. unfold coincident_lines. destruct (truthy r) as [x|]; [|reflexivity]. cbn [bind]. rewrite !move_get.
    destruct (get_child q "Point0") eqn:E1; [|reflexivity]. cbn [fwd bind]. destruct (get_child q "Point1") eqn:E2; [|reflexivity]. cbn [fwd bind].
    destruct (get_child p "Point0") eqn:E3; [|reflexivity]. cbn [fwd bind]. destruct (get_child p "Point1") eqn:E4; [|reflexivity]. cbn [fwd bind]. unfold coincident.
    rewrite !move_coord, !vsub_move by (apply planar_coord; eapply planar_get; [|eassumption]; assumption). reflexivity.
  Qed.
  Lemma no_params_rel name (f : list prim -> result pyval) : (forall ps, Forall planar ps -> f (map move ps) = f ps) -> rel_cls {| cname := name; cisa := []; cassem := no_params f |}.
  Proof. intros H ps params Hp. cbn. unfold no_params. destruct params; [now apply H|reflexivity]. Qed.
  Ltac p1 := match goal with ps : list prim |- _ => destruct ps as [|p [|]]; try reflexivity; match goal with H : Forall _ _ |- _ => pose proof (Forall_inv H) as P end end.
  Ltac p2 := match goal with ps : list prim |- _ => destruct ps as [|p [|q [|]]]; try reflexivity; match goal with H : Forall _ _ |- _ => pose proof (Forall_inv H) as P; pose proof (Forall_inv (Forall_inv_tail H)) as Q end end.
  Ltac fm := rewrite ?move_line_vector, ?move_unit, ?move_length, ?move_angle by assumption.
  Lemma relative_rel : Forall (fun c => rel_cls (ntype c)) relative_leaves.
  Proof.
    unfold relative_leaves. repeat (apply Forall_cons; [unfold mk_leaf; cbn [ntype]|]); [..|apply Forall_nil].
    all: try (apply no_params_rel; intros ps HP).
    all: try (intros ps params HP; unfold DirectedDistance, DirectedLength, MidpointDirectedDistance, PointOnLineDistance, PointToLineDistance, RelativePointOnLineDistance, CoincidentLines, mk_leaf; cbn [ntype cassem]).
    - reflexivity.
    - destruct params as [|d [|]]; try reflexivity. p2. cbn [map directed_distance]. rewrite !move_coord, vsub_move by now apply planar_coord. reflexivity.
    - p2. cbn [map directed_distance]. rewrite !move_coord, vsub_move by now apply planar_coord. reflexivity.
    - p2. cbn [map directed_distance]. rewrite !move_coord, vsub_move by now apply planar_coord. reflexivity.
    - p1. cbn [map line_vector_assem]. now fm.
    - p1. cbn [map]. now fm.
    - p1. cbn [map]. now fm.
    - destruct params as [|d [|]]; try reflexivity. p1. cbn [map directed_length]. now fm.
    - p1. cbn [map directed_length]. now fm.
    - p1. cbn [map directed_length]. now fm.
    - destruct params as [|d [|]]; try reflexivity. p2. cbn [map midpoint_directed_distance]. now apply (move_mid_distance p q (fun x => dot x d)).
    - p2. cbn [map midpoint_directed_distance]. now apply (move_mid_distance p q (fun x => dot x (PA1 ex))).
    - p2. cbn [map midpoint_directed_distance]. now apply (move_mid_distance p q (fun x => dot x (PA1 ey))).
    - p2. cbn [map angle_assem]. now fm.
    - p2. cbn [map]. destruct params as [|r [|]]; try reflexivity. now rewrite move_onl.
    - p2. cbn [map]. destruct params as [|r [|]]; try reflexivity. now rewrite move_tol.
    - p2. cbn [map]. destruct params as [|r [|]]; try reflexivity. rewrite move_onl by assumption. now fm.
    - p1. cbn [map]. rewrite !move_get. destruct (get_child p "Line0") eqn:E0; [|reflexivity]. cbn [fwd bind]. rewrite move_length by (eapply planar_get; [|eassumption]; assumption). destruct (line_length _); [|reflexivity]. cbn [bind].
      destruct (get_child p "Line1") eqn:E1; [|reflexivity]. cbn [fwd bind]. rewrite move_length by (eapply planar_get; [|eassumption]; assumption). reflexivity.
    - p2. cbn [map]. unfold coincident. rewrite !move_coord, vsub_move by now apply planar_coord. reflexivity.
    - p1. cbn [map directed_length]. now fm.
    - p1. cbn [map directed_length]. now fm.
    - p2. cbn [map]. now fm.
    - p2. cbn [map]. now rewrite move_parallel.
    - p2. cbn [map]. rewrite !move_int. destruct (get_int q 0) as [s1|] eqn:E1; [|reflexivity]. cbn [fwd bind]. destruct (get_int p 0) as [s0|] eqn:E0; [|reflexivity]. cbn [fwd bind].
      rewrite move_parallel by assumption. apply planar_int in E0, E1; [|assumption..].
      pose proof (move_mk_line s1 s0 E1 E0) as L. destruct (mk_line 0 VNone (Some [move s1; move s0])) as [[x n]|], (mk_line 0 VNone (Some [s1; s0])) as [[y m]|]; cbn [bind fst] in *; try discriminate; [|injection L as ->; reflexivity].
      destruct (parallel p q); [|reflexivity]. cbn [bind]. unfold parallel. fm. injection L as ->. reflexivity.
    - p2. cbn [map]. destruct params as [|r [|]]; try reflexivity. now apply move_cl.
  Qed.
  Lemma split_move na nb (ps : list prim) : split na nb (map move ps) = let (u, v) := split na nb ps in (map move u, map move v).
  Proof. unfold split, chunk, slice. cbn. now rewrite !skipn_map, !firstn_map. Qed.
  Lemma In_firstn {A} n (x : A) l : In x (firstn n l) -> In x l.
  Proof. revert l. induction n as [|n IH]; intros [|y l] H; cbn in H; try contradiction. destruct H as [->|H]; [now left|right; auto]. Qed.
  Lemma In_skipn {A} n (x : A) l : In x (skipn n l) -> In x l.
  Proof. revert l. induction n as [|n IH]; intros [|y l] H; cbn in H; try contradiction; auto. right. auto. Qed.
  Lemma split_planar na nb (ps u v : list prim) : Forall planar ps -> split na nb ps = (u, v) -> Forall planar u /\ Forall planar v.
  Proof.
    intros H E. assert (G : forall x, In x u \/ In x v -> In x ps).
    { unfold split, chunk, slice in E. cbn in E. injection E as <- <-. intros x [Hx|Hx]; apply In_firstn in Hx; try apply In_skipn in Hx; exact Hx. }
    rewrite Forall_forall in H. split; apply Forall_forall; intros x Hx; apply H, G; auto.
  Qed.
  Lemma relative_pure (c : cons) : relative c -> Forall (fun m => rel_cls (ntype m)) (preorder c).
  Proof.
    apply (relative_all rel_cls); [..|apply relative_rel].
    - intros ps params _. reflexivity.
    - intros ps params _. reflexivity.
    - intros name kinds ps params _. reflexivity.
    - intros name kinds np ps params _. reflexivity.
    - intros d name kinds fr H ps params HP. cbn. now apply H.
    - intros name kinds op u v na nb ma mb swap _ Hu Hv ps params HP. cbn [both cassem]. rewrite split_move. destruct (split na nb ps) as [pa pb] eqn:E, (split ma mb params) as [qa qb].
      destruct (split_planar _ _ _ _ _ HP E) as [Ha Hb]. now rewrite Hu, Hv.
  Qed.

  (** ** Calls and residuals *)
  Lemma lookups_move (root : prim) ks : mapM (get_child (move root)) ks = fwd (map move) (mapM (get_child root) ks).
  Proof.
    induction ks as [|k ks IH]; [reflexivity|]. cbn [mapM]. rewrite move_get, IH. destruct (get_child root k); [|reflexivity]. cbn [fwd bind]. destruct (mapM (get_child root) ks); reflexivity.
  Qed.
  Lemma lookups_planar (root : prim) ks ps : planar root -> mapM (get_child root) ks = Ok ps -> Forall planar ps.
  Proof.
    intros Hr. revert ps. induction ks as [|k ks IH]; intros ps E; cbn [mapM] in E; [injection E as <-; constructor|]. inv_bind E. inv_bind E. injection E as <-. constructor; [eapply planar_get; eassumption|now apply IH].
  Qed.
  Lemma assem_move (root : prim) (cs : list cls) ks params : planar root -> Forall rel_cls cs -> assem_constraint_residual (move root) cs ks params = assem_constraint_residual root cs ks params.
  Proof.
    unfold assem_constraint_residual. intros Hr H. revert ks params. induction H as [|c cs Hc H IH]; intros ks params; [reflexivity|]. destruct ks as [|k ks]; [reflexivity|]. destruct params as [|p params]; [reflexivity|].
    cbn [zip mapM fst snd]. rewrite IH, lookups_move. destruct (mapM (get_child root) k) eqn:E; [|reflexivity]. cbn [fwd bind]. unfold assem1. rewrite Hc by (eapply lookups_planar; eassumption). reflexivity.
  Qed.
  Lemma dset_move k (p : prim) ch : dset k (move p) (map (fun kc => (fst kc, move (snd kc))) ch) = map (fun kc => (fst kc, move (snd kc))) (dset k p ch).
  Proof. induction ch as [|[k' c] ch IH]; [reflexivity|]. cbn. destruct (String.eqb k k'); [reflexivity|]. cbn. now rewrite IH. Qed.
  Lemma dict_move (d : dict prim) : dict_of (map (fun kc => (fst kc, move (snd kc))) d) = map (fun kc => (fst kc, move (snd kc))) (dict_of d).
  Proof.
    unfold dict_of. change (@nil (string * prim)) with (map (fun kc => (fst kc, move (snd kc))) (@nil (string * prim))) at 1. generalize (@nil (string * prim)).
    induction d as [|[k p] d IH]; intros acc; [reflexivity|]. cbn. rewrite dset_move. apply IH.
  Qed.
  Lemma zip_move (ks : list string) : forall ps : list prim, zip ks (map move ps) = map (fun kc => (fst kc, move (snd kc))) (zip ks ps).
  Proof. induction ks as [|k ks IH]; intros [|p ps]; try reflexivity. cbn. now rewrite IH. Qed.
  Lemma root_move ks (ps : list prim) : root_prim ks (map move ps) = fwd move (root_prim ks ps).
  Proof.
    unfold root_prim, mk_primnode. rewrite zip_move, dict_move.
    assert (Hb : forallb (fun kc : string * prim => issubclass (ntype (snd kc)) TPrimNode) (map (fun kc => (fst kc, move (snd kc))) (dict_of (zip ks ps))) = forallb (fun kc : string * prim => issubclass (ntype (snd kc)) TPrimNode) (dict_of (zip ks ps))).
    { induction (dict_of (zip ks ps)) as [|[k p] d IH]; [reflexivity|]. cbn [map forallb fst snd]. now rewrite IH, move_type. }
    rewrite Hb. destruct (negb _); [reflexivity|]. cbn [signature_of vdata length Nat.eqb negb].
    assert (Hd : dvals (map (fun kc => (fst kc, move (snd kc))) (dict_of (zip ks ps))) = map move (dvals (dict_of (zip ks ps)))) by (unfold dvals; now rewrite !map_map).
    rewrite Hd. cbn [existsb]. rewrite move_validate. destruct (_ || _)%bool; reflexivity.
  Qed.
  Lemma root_planar ks (ps : list prim) root : Forall planar ps -> root_prim ks ps = Ok root -> planar root.
  Proof.
    intros H E. unfold root_prim, mk_primnode in E. destruct (negb _); [discriminate|]. cbn [signature_of] in E. destruct (negb _); [discriminate|]. destruct (existsb _ _); [|discriminate]. injection E as <-.
    unfold planar. cbn [preorder]. constructor; [now left|]. apply Forall_flat_map, Forall_forall. intros [k p] Hin. apply dict_of_In in Hin. apply zip_In in Hin as [_ Hin]. rewrite Forall_forall in H. exact (H p Hin).
  Qed.
  Lemma call_move (c : cons) ps params : Forall (fun m => rel_cls (ntype m)) (preorder c) -> Forall planar ps -> call c (map move ps) params = call c ps params.
  Proof.
    intros Hc HP. unfold call.
    assert (V : cvalidate_prims c (map move ps) = cvalidate_prims c ps).
    { unfold cvalidate_prims. rewrite map_length. replace (existsb _ (zip (map move ps) _)) with (existsb (fun pt : prim * ptype => negb (issubclass (ntype (fst pt)) (snd pt))) (zip ps (prim_types (csig (nval c))))); [reflexivity|].
      clear HP. generalize (prim_types (csig (nval c))). induction ps as [|p ps IH]; intros [|t ts]; try reflexivity. cbn. now rewrite move_type, IH. }
    rewrite V, map_length, root_move. destruct (cvalidate_prims c ps); [|reflexivity]. cbn [bind]. destruct (cvalidate_params c params); [|reflexivity]. cbn [bind].
    destruct (root_prim _ ps) as [root|] eqn:Er; [|reflexivity]. cbn [fwd bind]. destruct (root_prim_keys _ _) as [kt|]; [|reflexivity]. cbn [bind]. destruct (root_params c params) as [pt|]; [|reflexivity]. cbn [bind].
    apply root_planar in Er; [|exact HP]. unfold assem_from_tree.
    assert (L : forall kss, mapM (mapM (get_child (move root))) kss = fwd (map (map move)) (mapM (mapM (get_child root)) kss)).
    { induction kss as [|ks kss IH]; [reflexivity|]. cbn [mapM]. rewrite IH, lookups_move. destruct (mapM (get_child root) ks); [|reflexivity]. cbn [fwd bind]. destruct (mapM (mapM (get_child root)) kss); reflexivity. }
    assert (L' : forall kss fl, mapM (mapM (get_child root)) kss = Ok fl -> Forall (Forall planar) fl).
    { induction kss as [|ks kss IH]; intros fl E; cbn [mapM] in E; [injection E as <-; constructor|]. inv_bind E. inv_bind E. injection E as <-. constructor; [eapply lookups_planar; eassumption|now apply IH]. }
    rewrite L. destruct (mapM (mapM (get_child root)) _) as [fl|] eqn:Efl; [|reflexivity]. apply L' in Efl. cbn [fwd bind].
    match goal with |- bind ?x _ = bind ?y _ => assert (E : x = y); [|now rewrite E] end.
    rewrite iter_flat_preorder. generalize (map (fun x : string * pnode R => nval (snd x)) (iter_flat "" pt)). revert fl Efl.
    induction Hc as [|m ms Hm Hc IH]; intros fl Efl pl; [reflexivity|]. destruct fl as [|f fl]; [reflexivity|]. destruct pl as [|p pl]; [reflexivity|]. cbn [map zip mapM fst snd]. inversion Efl; subst.
    rewrite IH by assumption. unfold assem1. now rewrite Hm.
  Qed.
  (** ** Histories *)
  Definition moved_layout (l : layout R) : layout R := {| l_prim := move (l_prim l); l_cons := l_cons l; l_keys := l_keys l; l_params := l_params l; l_counter := l_counter l |}.
  Lemma move_add (p c : prim) key : add_child (move p) key (move c) = (move (fst (add_child p key c)), snd (add_child p key c)).
  Proof.
    unfold add_child. generalize (S (String.length key)). intros fuel. revert p key. induction fuel as [|fuel IH]; intros p key; [reflexivity|].
    cbn [add_child_f]. destruct (split1 key) as [k1 [rest|]]; rewrite move_nch.
    - rewrite dget_move. destruct (dget k1 (nch p)) as [x|]; [|reflexivity]. cbn [option_map]. rewrite IH. destruct (add_child_f fuel x rest c) as [c' r]. cbn [fst snd]. destruct p as [t v ch]. cbn [MoveSpec.move ntype nval nch]. now rewrite dset_move.
    - assert (M : dmem k1 (map (fun kc => (fst kc, move (snd kc))) (nch p)) = dmem k1 (nch p)) by (unfold dmem; rewrite dget_move; now destruct (dget k1 (nch p))).
      rewrite M. destruct (dmem k1 (nch p)); [reflexivity|]. destruct p as [t v ch]. cbn [fst snd MoveSpec.move ntype nval nch]. now rewrite dset_move.
  Qed.
  Lemma move_add_prim l p key : add_prim (moved_layout l) (move p) key = (moved_layout (fst (add_prim l p key)), snd (add_prim l p key)).
  Proof. unfold add_prim, moved_layout. cbn [l_prim l_cons l_keys l_params l_counter]. rewrite move_add. destruct (add_child (l_prim l) key p). reflexivity. Qed.
  Lemma move_add_prims d : forall l, add_prims (moved_layout l) (map (fun kp => (fst kp, move (snd kp))) d) = (moved_layout (fst (add_prims l d)), snd (add_prims l d)).
  Proof.
    induction d as [|[k p] d IH]; intros l; [reflexivity|]. cbn [map add_prims fst snd]. rewrite move_add_prim. destruct (add_prim l p k) as [l' [[]|e]]; cbn [fst snd]; [apply IH|reflexivity].
  Qed.
  Lemma move_validate_inputs l c ks ps : validate_inputs (moved_layout l) c ks ps = validate_inputs l c ks ps.
  Proof.
    unfold validate_inputs. cbn [moved_layout l_prim]. rewrite lookups_move. destruct (mapM (get_child (l_prim l)) ks) as [prims|]; [|reflexivity]. cbn [fwd bind].
    assert (V : cvalidate_prims c (map move prims) = cvalidate_prims c prims); [|now rewrite V].
    unfold cvalidate_prims. rewrite map_length. replace (existsb _ (zip (map move prims) _)) with (existsb (fun pt : prim * ptype => negb (issubclass (ntype (fst pt)) (snd pt))) (zip prims (prim_types (csig (nval c))))); [reflexivity|].
    generalize (prim_types (csig (nval c))). induction prims as [|p prims IH]; intros [|t ts]; try reflexivity. cbn. now rewrite move_type, IH.
  Qed.
  Lemma move_act l x : act (moved_layout l) (move_action a b x) = (moved_layout (fst (act l x)), snd (act l x)).
  Proof.
    destruct x as [p key|d|c ks ps key]; cbn [move_action act]; [apply move_add_prim|apply move_add_prims|].
    assert (I : forall l key, insert_constraint (moved_layout l) c ks ps key = (moved_layout (fst (insert_constraint l c ks ps key)), snd (insert_constraint l c ks ps key))).
    { clear. intros l key. unfold insert_constraint. cbn [moved_layout l_cons l_keys l_params]. destruct (add_child (l_cons l) key c) as [t [[]|e]]; [|reflexivity]. destruct (root_prim_keys c ks) as [pk|]; [|reflexivity].
      cbn [set_cons l_keys l_prim moved_layout]. destruct (add_child (l_keys l) key pk) as [t' [[]|e]]; [|reflexivity]. destruct (root_params c ps) as [pp|]; [|reflexivity]. cbn [set_cons set_keys l_params moved_layout]. destruct (add_child (l_params l) key pp) as [t'' [[]|e]]; reflexivity. }
    unfold add_constraint. destruct (String.eqb key EmptyString).
    - assert (G : gen_key (moved_layout l) c = gen_key l c) by reflexivity. rewrite G. destruct (gen_key l c) as [cnt r]. change (set_counter (moved_layout l) cnt) with (moved_layout (set_counter l cnt)).
      destruct r as [k|e]; [|reflexivity]. rewrite move_validate_inputs. destruct (validate_inputs (set_counter l cnt) c ks ps) as [[]|]; [apply I|reflexivity].
    - rewrite move_validate_inputs. destruct (validate_inputs l c ks ps) as [[]|]; [apply I|reflexivity].
  Qed.
  Lemma move_after acts : forall l, after (moved_layout l) (map (move_action a b) acts) = moved_layout (after l acts).
  Proof. unfold after. induction acts as [|x acts IH]; intros l; [reflexivity|]. cbn [map fold_left]. rewrite move_act. cbn [fst]. apply IH. Qed.
  Lemma move_empty i : moved_layout (empty_layout i) = empty_layout i.
  Proof. reflexivity. Qed.
End Move.
