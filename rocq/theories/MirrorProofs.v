(** The value of an orientation-free construction does not change when the primitives are mirrored. *)
From Coq Require Import Reals Lra.
From Verif Require Export MirrorSpec MoveProofs SolverSpec GeomSpec.
Local Open Scope R_scope.

Section Mirror.
  Notation prim := (prim R).
  Notation pyval := (pyval R).
  Notation cons := (cons R).
  Notation cls := (cls R).
  Variables co si : R.
  Hypothesis Hcs : co * co + si * si = 1.
  Notation mirror := (mirror co si).
  Notation mirrored := (mirrored co si).

  Lemma mirror_coord p : coord (mirror p) = mirrored (coord p).
  Proof. destruct p. reflexivity. Qed.
  Lemma mirror_type p : ntype (mirror p) = ntype p.
  Proof. destruct p. reflexivity. Qed.
  Lemma mirror_nch p : nch (mirror p) = map (fun kc => (fst kc, mirror (snd kc))) (nch p).
  Proof. destruct p. reflexivity. Qed.
  Lemma mirror_nvalues p : nvalues (mirror p) = map mirror (nvalues p).
  Proof. unfold nvalues, dvals. rewrite mirror_nch, !map_map. reflexivity. Qed.
  Lemma dget_mirror k (ch : dict prim) : dget k (map (fun kc => (fst kc, mirror (snd kc))) ch) = option_map mirror (dget k ch).
  Proof. induction ch as [|[k' c] ch IH]; [reflexivity|]. cbn. destruct (String.eqb k k'); [reflexivity|exact IH]. Qed.
  Lemma mirror_get k p : get_child (mirror p) k = fwd mirror (get_child p k).
  Proof.
    unfold get_child. generalize (S (String.length k)). intros fuel. revert p k. induction fuel as [|fuel IH]; intros p k; [reflexivity|].
    cbn [get_child_f]. destruct (split1 k) as [k1 [rest|]]; rewrite mirror_nch, dget_mirror; destruct (dget k1 (nch p)) as [c|]; try reflexivity. cbn [option_map].
    rewrite IH. destruct (get_child_f fuel c rest) as [x|[]]; reflexivity.
  Qed.
  Lemma mirror_int i p : get_int (mirror p) i = fwd mirror (get_int p i).
  Proof. unfold get_int. rewrite mirror_nvalues, nth_error_map. destruct (nth_error (nvalues p) i); reflexivity. Qed.

  (** ** Differences *)
  Lemma mirrored_flat2 u : flat2 u -> flat2 (mirrored u).
  Proof. intros [->|(x & y & ->)]; [now left|right; cbn; eauto]. Qed.
  Lemma vsub_mirror u v : flat2 u -> flat2 v -> vsub (mirrored u) (mirrored v) = fwd mirrored (vsub u v) /\ forall w, vsub u v = Ok w -> flat2 w.
  Proof.
    intros [->|(x & y & ->)] [->|(x' & y' & ->)]; (split; [try reflexivity|intros w E; try discriminate; injection E as <-; (now left) || (right; eauto)]).
    cbn. f_equal. f_equal; [|f_equal]; ring.
  Qed.
  Lemma mirror_line_vector p : planar p -> line_vector (mirror p) = fwd mirrored (line_vector p) /\ forall w, line_vector p = Ok w -> flat2 w.
  Proof.
    intros Hp. unfold line_vector. rewrite mirror_nvalues. destruct (nvalues p) as [|u [|v [|]]] eqn:E; try (split; [reflexivity|discriminate]). cbn [map]. rewrite !mirror_coord.
    apply vsub_mirror; apply planar_coord, (planar_values p); auto; rewrite E; cbn; auto.
  Qed.
  Lemma norm_mirror u : flat2 u -> norm (mirrored u) = norm u.
  Proof.
    intros [->|(x & y & ->)]; [reflexivity|]. unfold norm. f_equal. cbn.
    transitivity ((co * co + si * si) * (x * x) + ((co * co + si * si) * (y * y) + 0)); [ring|]. rewrite Hcs. ring.
  Qed.
  Lemma dot_mirror u v : flat2 u -> flat2 v -> dot_list (mirrored u) (mirrored v) = dot_list u v.
  Proof.
    intros [->|(x & y & ->)] [->|(x' & y' & ->)]; try reflexivity. unfold dot_list. cbn. f_equal.
    transitivity ((co * co + si * si) * (x * x') + ((co * co + si * si) * (y * y') + 0)); [ring|]. rewrite Hcs. ring.
  Qed.
  Lemma cross_mirror u v : flat2 u -> flat2 v -> cross2 (mirrored u) (mirrored v) = fwd Ropp (cross2 u v).
  Proof.
    intros [->|(x & y & ->)] [->|(x' & y' & ->)]; try reflexivity. cbn. f_equal.
    transitivity (- ((co * co + si * si) * (x * y' - y * x'))); [ring|]. rewrite Hcs. ring.
  Qed.
  Lemma mirror_length p : planar p -> line_length (mirror p) = line_length p.
  Proof.
    intros H. unfold line_length. destruct (mirror_line_vector p H) as [-> Hf]. destruct (line_vector p) as [w|]; [|reflexivity]. cbn [fwd bind]. apply norm_mirror. now apply Hf.
  Qed.
  Lemma mirror_unit p : planar p -> unit_line_vector (mirror p) = fwd mirrored (unit_line_vector p) /\ forall w, unit_line_vector p = Ok w -> flat2 w.
  Proof.
    intros H. unfold unit_line_vector. destruct (mirror_line_vector p H) as [-> Hf]. destruct (line_vector p) as [w|]; [|split; [reflexivity|discriminate]]. cbn [fwd bind]. specialize (Hf w eq_refl). rewrite norm_mirror by assumption.
    destruct (norm w) as [n|]; [|split; [reflexivity|discriminate]]. cbn [bind]. destruct Hf as [->|(x & y & ->)]; cbn; [split; [reflexivity|intros u E; injection E as <-; now left]|].
    unfold Rdiv_r. destruct (Req_EM_T n 0) as [E|E]; [split; [reflexivity|discriminate]|]. cbn. split; [|intros u Eu; injection Eu as <-; right; eauto]. f_equal. f_equal; [|f_equal]; field; exact E.
  Qed.
  Lemma mirror_parallel p q : planar p -> planar q -> parallel (mirror p) (mirror q) = fwd Ropp (parallel p q).
  Proof.
    intros Hp Hq. unfold parallel. destruct (mirror_line_vector p Hp) as [-> Fp], (mirror_line_vector q Hq) as [-> Fq]. destruct (line_vector p) as [u|]; [|reflexivity]. cbn [fwd bind].
    destruct (line_vector q) as [v|]; [|reflexivity]. cbn [fwd bind]. apply cross_mirror; auto.
  Qed.
  Lemma mirror_validate ps types : validate_prims (map mirror ps) types = validate_prims ps types.
  Proof.
    unfold validate_prims. rewrite map_length. match goal with |- bind ?x _ = _ => destruct x as [ts|]; [|reflexivity] end. cbn [bind].
    assert (Z : forall ts, forallb (fun pt : prim * ptype => issubclass (ntype (fst pt)) (snd pt)) (zip (map mirror ps) ts) = forallb (fun pt : prim * ptype => issubclass (ntype (fst pt)) (snd pt)) (zip ps ts)).
    { clear. induction ps as [|p ps IH]; intros [|t ts]; try reflexivity. cbn. now rewrite mirror_type, IH. }
    now rewrite Z.
  Qed.
  Lemma mirror_mk_line u v : planar u -> planar v -> (x <- mk_line 0 VNone (Some [mirror u; mirror v]) ;; Ok (line_vector (fst x))) = (x <- mk_line 0 VNone (Some [u; v]) ;; Ok (fwd mirrored (line_vector (fst x)))) /\
    forall x w, mk_line 0 VNone (Some [u; v]) = Ok x -> line_vector (fst x) = Ok w -> flat2 w.
  Proof.
    intros Hu Hv. unfold mk_line. cbn [take_value bind]. unfold finish_prim. change (dict_of (zip ["Point0"; "Point1"]%string [mirror u; mirror v])) with [("Point0"%string, mirror u); ("Point1"%string, mirror v)].
    change (dict_of (zip ["Point0"; "Point1"]%string [u; v])) with [("Point0"%string, u); ("Point1"%string, v)]. unfold mk_primnode. cbn [forallb snd dvals map]. rewrite !mirror_type.
    change [mirror u; mirror v] with (map mirror [u; v]).
    destruct (negb _); [split; [reflexivity|discriminate]|]. cbn [signature_of]. destruct (negb _); [split; [reflexivity|discriminate]|]. cbn [existsb map]. change [mirror u; mirror v] with (map mirror [u; v]). rewrite mirror_validate.
    destruct (_ || _)%bool; [|split; [reflexivity|discriminate]]. cbn [bind fst]. unfold line_vector, nvalues, dvals. cbn [nch map snd]. rewrite !mirror_coord.
    destruct (vsub_mirror (coord v) (coord u) (planar_coord _ Hv) (planar_coord _ Hu)) as [-> Hf]. split; [reflexivity|]. intros x w E Ew. injection E as <-. now apply Hf.
  Qed.

  (** ** The leaves *)
  Definition free_cls (c : cls) : Prop := forall ps params, Forall planar ps -> cassem c (map mirror ps) params = cassem c ps params.
  Lemma mirrored_opp u : flat2 u -> map Ropp (mirrored u) = mirrored (map Ropp u) /\ flat2 (map Ropp u).
  Proof. intros [->|(x & y & ->)]; [split; [reflexivity|now left]|]. cbn. split; [f_equal; [|f_equal]; ring|right; eauto]. Qed.
  Lemma mirror_onl p q r : planar p -> planar q -> point_on_line_distance (mirror p) (mirror q) r = point_on_line_distance p q r.
  Proof.
    intros Hp Hq. unfold point_on_line_distance. destruct (truthy r) as [[]|]; try reflexivity; cbn [bind]; rewrite mirror_get; (destruct (get_child _ _) eqn:E; [|reflexivity]); cbn [fwd bind];
      destruct (mirror_unit q Hq) as [-> Fu]; (destruct (unit_line_vector q) as [w|]; [|reflexivity]); cbn [fwd bind]; specialize (Fu w eq_refl); apply planar_get in E; [|assumption| |assumption];
      rewrite !mirror_coord; destruct (vsub_mirror _ _ (planar_coord _ Hp) (planar_coord _ E)) as [-> Fv]; (destruct (vsub _ _) as [d|]; [|reflexivity]); cbn [fwd bind]; specialize (Fv d eq_refl).
    - destruct (mirrored_opp w Fu) as [E1 E2]. change (@nopp R NumR) with Ropp. rewrite E1. now apply dot_mirror.
    - now apply dot_mirror.
  Qed.
  Lemma mirror_tol p q r : planar p -> planar q -> point_to_line_distance (mirror p) (mirror q) r = fwd Ropp (point_to_line_distance p q r).
  Proof.
    intros Hp Hq. unfold point_to_line_distance. destruct (mirror_unit q Hq) as [-> Fu]. destruct (unit_line_vector q) as [w|]; [|reflexivity]. cbn [fwd bind]. specialize (Fu w eq_refl). destruct (truthy r) as [x|]; [|reflexivity]. cbn [bind].
    destruct Fu as [->|(a & b & ->)]; [reflexivity|]. cbn [MirrorSpec.mirrored bind]. rewrite mirror_get. destruct (get_child _ _) eqn:E; [|reflexivity]. cbn [fwd bind]. apply planar_get in E; [|assumption].
    rewrite !mirror_coord. destruct (vsub_mirror _ _ (planar_coord _ Hp) (planar_coord _ E)) as [-> Fv]. destruct (vsub _ _) as [d|]; [|reflexivity]. cbn [fwd bind]. specialize (Fv d eq_refl).
    set (s := if x then n1 else nofZ (-1)). destruct Fv as [->|(u & v & ->)]; [reflexivity|]. unfold dot_list. cbn. f_equal.
    transitivity (- ((co * co + si * si) * (u * (b * s) + (v * (- (a * s)) + 0)))); [ring|]. rewrite Hcs. ring.
  Qed.
  Lemma free_params name (f : list prim -> result pyval) : (forall ps, Forall planar ps -> f (map mirror ps) = f ps) -> free_cls {| cname := name; cisa := []; cassem := no_params f |}.
  Proof. intros H ps params Hp. cbn. unfold no_params. destruct params; [now apply H|reflexivity]. Qed.
  Ltac p1 := match goal with ps : list prim |- _ => destruct ps as [|p [|]]; try reflexivity; match goal with H : Forall _ _ |- _ => pose proof (Forall_inv H) as P end end.
  Ltac p2 := match goal with ps : list prim |- _ => destruct ps as [|p [|q [|]]]; try reflexivity; match goal with H : Forall _ _ |- _ => pose proof (Forall_inv H) as P; pose proof (Forall_inv (Forall_inv_tail H)) as Q end end.
  Lemma free_rel : Forall (fun c => free_cls (ntype c)) side_free_leaves.
  Proof.
    unfold side_free_leaves. repeat (apply Forall_cons; [unfold mk_leaf; cbn [ntype]|]); [..|apply Forall_nil].
    all: try (apply free_params; intros ps HP).
    all: try (intros ps params HP; unfold PointOnLineDistance, RelativePointOnLineDistance, mk_leaf; cbn [ntype cassem]).
    - reflexivity.
    - p1. cbn [map]. now rewrite mirror_length.
    - p2. cbn [map]. destruct params as [|r [|]]; try reflexivity. now rewrite mirror_onl.
    - p2. cbn [map]. destruct params as [|r [|]]; try reflexivity. rewrite mirror_onl by assumption. now rewrite mirror_length.
    - p1. cbn [map]. rewrite !mirror_get. destruct (get_child p "Line0") eqn:E0; [|reflexivity]. cbn [fwd bind]. rewrite mirror_length by (eapply planar_get; [|eassumption]; assumption). destruct (line_length _); [|reflexivity]. cbn [bind].
      destruct (get_child p "Line1") eqn:E1; [|reflexivity]. cbn [fwd bind]. rewrite mirror_length by (eapply planar_get; [|eassumption]; assumption). reflexivity.
    - p2. cbn [map]. destruct (mirror_line_vector p P) as [-> Fp], (mirror_line_vector q Q) as [-> Fq]. destruct (line_vector p) as [u|]; [|reflexivity]. cbn [fwd bind].
      destruct (line_vector q) as [v|]; [|reflexivity]. cbn [fwd bind dot]. now rewrite dot_mirror by auto.
  Qed.
  Lemma split_mirror na nb (ps : list prim) : split na nb (map mirror ps) = let (u, v) := split na nb ps in (map mirror u, map mirror v).
  Proof. unfold split, chunk, slice. cbn. now rewrite !skipn_map, !firstn_map. Qed.
  Lemma free_pure (c : cons) : side_free c -> Forall (fun m => free_cls (ntype m)) (preorder c).
  Proof.
    apply (expression_all free_cls).
    - intros ps params _. reflexivity.
    - intros ps params _. reflexivity.
    - intros name kinds ps params _. reflexivity.
    - intros name kinds np ps params _. reflexivity.
    - intros d name kinds fr H ps params HP. cbn. now apply H.
    - intros name kinds op u v na nb ma mb swap _ Hu Hv ps params HP. cbn [both cassem]. rewrite split_mirror. destruct (split na nb ps) as [pa pb] eqn:E, (split ma mb params) as [qa qb].
      destruct (split_planar _ _ _ _ _ HP E) as [Ha Hb]. now rewrite Hu, Hv.
    - apply Forall_forall. intros x Hx. pose proof free_rel as F. rewrite Forall_forall in F. specialize (F x Hx). unfold side_free_leaves in Hx. cbn [In] in Hx.
      repeat (destruct Hx as [<-|Hx]; [constructor; [exact F|constructor]|]). contradiction.
  Qed.
  (** ** Calls and residuals *)
  Lemma lookups_mirror (root : prim) ks : mapM (get_child (mirror root)) ks = fwd (map mirror) (mapM (get_child root) ks).
  Proof.
    induction ks as [|k ks IH]; [reflexivity|]. cbn [mapM]. rewrite mirror_get, IH. destruct (get_child root k); [|reflexivity]. cbn [fwd bind]. destruct (mapM (get_child root) ks); reflexivity.
  Qed.
  Lemma assem_mirror (root : prim) (cs : list cls) ks params : planar root -> Forall free_cls cs -> assem_constraint_residual (mirror root) cs ks params = assem_constraint_residual root cs ks params.
  Proof.
    unfold assem_constraint_residual. intros Hr H. revert ks params. induction H as [|c cs Hc H IH]; intros ks params; [reflexivity|]. destruct ks as [|k ks]; [reflexivity|]. destruct params as [|p params]; [reflexivity|].
    cbn [zip mapM fst snd]. rewrite IH, lookups_mirror. destruct (mapM (get_child root) k) eqn:E; [|reflexivity]. cbn [fwd bind]. unfold assem1. rewrite Hc by (eapply lookups_planar; eassumption). reflexivity.
  Qed.
  Lemma dset_mirror k (p : prim) ch : dset k (mirror p) (map (fun kc => (fst kc, mirror (snd kc))) ch) = map (fun kc => (fst kc, mirror (snd kc))) (dset k p ch).
  Proof. induction ch as [|[k' c] ch IH]; [reflexivity|]. cbn. destruct (String.eqb k k'); [reflexivity|]. cbn. now rewrite IH. Qed.
  Lemma dict_mirror (d : dict prim) : dict_of (map (fun kc => (fst kc, mirror (snd kc))) d) = map (fun kc => (fst kc, mirror (snd kc))) (dict_of d).
  Proof.
    unfold dict_of. change (@nil (string * prim)) with (map (fun kc => (fst kc, mirror (snd kc))) (@nil (string * prim))) at 1. generalize (@nil (string * prim)).
    induction d as [|[k p] d IH]; intros acc; [reflexivity|]. cbn. rewrite dset_mirror. apply IH.
  Qed.
  Lemma zip_mirror (ks : list string) : forall ps : list prim, zip ks (map mirror ps) = map (fun kc => (fst kc, mirror (snd kc))) (zip ks ps).
  Proof. induction ks as [|k ks IH]; intros [|p ps]; try reflexivity. cbn. now rewrite IH. Qed.
  Lemma root_mirror ks (ps : list prim) : root_prim ks (map mirror ps) = fwd mirror (root_prim ks ps).
  Proof.
    unfold root_prim, mk_primnode. rewrite zip_mirror, dict_mirror.
    assert (Hb : forallb (fun kc : string * prim => issubclass (ntype (snd kc)) TPrimNode) (map (fun kc => (fst kc, mirror (snd kc))) (dict_of (zip ks ps))) = forallb (fun kc : string * prim => issubclass (ntype (snd kc)) TPrimNode) (dict_of (zip ks ps))).
    { induction (dict_of (zip ks ps)) as [|[k p] d IH]; [reflexivity|]. cbn [map forallb fst snd]. now rewrite IH, mirror_type. }
    rewrite Hb. destruct (negb _); [reflexivity|]. cbn [signature_of vdata length Nat.eqb negb].
    assert (Hd : dvals (map (fun kc => (fst kc, mirror (snd kc))) (dict_of (zip ks ps))) = map mirror (dvals (dict_of (zip ks ps)))) by (unfold dvals; now rewrite !map_map).
    rewrite Hd. cbn [existsb]. rewrite mirror_validate. destruct (_ || _)%bool; reflexivity.
  Qed.
  Lemma call_mirror (c : cons) ps params : Forall (fun m => free_cls (ntype m)) (preorder c) -> Forall planar ps -> call c (map mirror ps) params = call c ps params.
  Proof.
    intros Hc HP. unfold call.
    assert (V : cvalidate_prims c (map mirror ps) = cvalidate_prims c ps).
    { unfold cvalidate_prims. rewrite map_length. replace (existsb _ (zip (map mirror ps) _)) with (existsb (fun pt : prim * ptype => negb (issubclass (ntype (fst pt)) (snd pt))) (zip ps (prim_types (csig (nval c))))); [reflexivity|].
      clear HP. generalize (prim_types (csig (nval c))). induction ps as [|p ps IH]; intros [|t ts]; try reflexivity. cbn. now rewrite mirror_type, IH. }
    rewrite V, map_length, root_mirror. destruct (cvalidate_prims c ps); [|reflexivity]. cbn [bind]. destruct (cvalidate_params c params); [|reflexivity]. cbn [bind].
    destruct (root_prim _ ps) as [root|] eqn:Er; [|reflexivity]. cbn [fwd bind]. destruct (root_prim_keys _ _) as [kt|]; [|reflexivity]. cbn [bind]. destruct (root_params c params) as [pt|]; [|reflexivity]. cbn [bind].
    apply root_planar in Er; [|exact HP]. unfold assem_from_tree.
    assert (L : forall kss, mapM (mapM (get_child (mirror root))) kss = fwd (map (map mirror)) (mapM (mapM (get_child root)) kss)).
    { induction kss as [|ks kss IH]; [reflexivity|]. cbn [mapM]. rewrite IH, lookups_mirror. destruct (mapM (get_child root) ks); [|reflexivity]. cbn [fwd bind]. destruct (mapM (mapM (get_child root)) kss); reflexivity. }
    assert (L' : forall kss fl, mapM (mapM (get_child root)) kss = Ok fl -> Forall (Forall planar) fl).
    { induction kss as [|ks kss IH]; intros fl E; cbn [mapM] in E; [injection E as <-; constructor|]. inv_bind E. inv_bind E. injection E as <-. constructor; [eapply lookups_planar; eassumption|now apply IH]. }
    rewrite L. destruct (mapM (mapM (get_child root)) _) as [fl|] eqn:Efl; [|reflexivity]. apply L' in Efl. cbn [fwd bind].
    match goal with |- bind ?x _ = bind ?y _ => assert (E : x = y); [|now rewrite E] end.
    rewrite iter_flat_preorder. generalize (map (fun x : string * pnode R => nval (snd x)) (iter_flat "" pt)). revert fl Efl.
    induction Hc as [|m ms Hm Hc IH]; intros fl Efl pl; [reflexivity|]. destruct fl as [|f fl]; [reflexivity|]. destruct pl as [|p pl]; [reflexivity|]. cbn [map zip mapM fst snd]. inversion Efl; subst.
    rewrite IH by assumption. unfold assem1. now rewrite Hm.
  Qed.

  (** ** Constraints whose residual turns with the primitives *)
  Definition agree (r r' : result (list R)) : Prop :=
    match r, r' with Ok x, Ok x' => zeros x <-> zeros x' | Err e, Err e' => e = e' | _, _ => False end.
  Definition weak_cls (c : cls) : Prop := forall ps params, Forall planar ps -> agree (assem1 c ps params) (assem1 c (map mirror ps) params).
  Lemma agree_refl r : agree r r.
  Proof. destruct r; cbn; tauto. Qed.
  Lemma free_weak c : free_cls c -> weak_cls c.
  Proof. intros H ps params HP. unfold assem1. rewrite H by assumption. apply agree_refl. Qed.
  Lemma zeros_mirrored u : flat2 u -> zeros u <-> zeros (mirrored u).
  Proof.
    intros [->|(x & y & ->)]; [reflexivity|]. unfold zeros. cbn. split; intros H; inversion H as [|? ? A B]; subst; inversion B as [|? ? C D]; subst; (constructor; [|constructor; [|constructor]]); try (rewrite ?A, ?C; ring).
    - transitivity ((co * co + si * si) * x); [rewrite Hcs; ring|]. transitivity (co * (co * x + si * y) + si * (si * x - co * y)); [ring|]. rewrite A, C. ring.
    - transitivity ((co * co + si * si) * y); [rewrite Hcs; ring|]. transitivity (si * (co * x + si * y) - co * (si * x - co * y)); [ring|]. rewrite A, C. ring.
  Qed.
  Lemma zeros_app u v : zeros (u ++ v) <-> zeros u /\ zeros v.
  Proof. unfold zeros. apply Forall_app. Qed.
  Lemma mirror_coincident p q : planar p -> planar q -> coincident (mirror p) (mirror q) = fwd mirrored (coincident p q) /\ forall w, coincident p q = Ok w -> flat2 w.
  Proof. intros Hp Hq. unfold coincident. rewrite !mirror_coord. apply vsub_mirror; now apply planar_coord. Qed.
  Lemma coincident_weak : weak_cls (ntype Coincident).
  Proof.
    intros ps params HP. unfold assem1, Coincident, mk_leaf. cbn [ntype cassem]. unfold no_params. destruct params; [|reflexivity]. p2. cbn [map].
    destruct (mirror_coincident p q P Q) as [-> Fw]. destruct (coincident p q) as [w|]; [|reflexivity]. cbn [fwd bind atleast_1d agree]. apply zeros_mirrored. now apply Fw.
  Qed.
  Lemma two_weak (a b c d : prim) : planar a -> planar b -> planar c -> planar d ->
    agree (v <- (e0 <- coincident a b ;; e1 <- coincident c d ;; Ok (PA1 (e0 ++ e1))) ;; atleast_1d v) (v <- (e0 <- coincident (mirror a) (mirror b) ;; e1 <- coincident (mirror c) (mirror d) ;; Ok (PA1 (e0 ++ e1))) ;; atleast_1d v).
  Proof.
    intros Ha Hb Hc Hd. destruct (mirror_coincident a b Ha Hb) as [-> F1]. destruct (coincident a b) as [u|]; [|reflexivity]. cbn [fwd bind]. destruct (mirror_coincident c d Hc Hd) as [-> F2]. destruct (coincident c d) as [v|]; [|reflexivity].
    cbn [fwd bind atleast_1d agree]. rewrite !zeros_app, <- !zeros_mirrored by auto. reflexivity.
  Qed.
  Lemma lines_weak : weak_cls (ntype CoincidentLines).
  Proof.
    intros ps params HP. unfold assem1, CoincidentLines, mk_leaf. cbn [ntype cassem]. p2. cbn [map]. destruct params as [|r [|]]; try reflexivity. unfold coincident_lines. destruct (truthy r) as [x|]; [|reflexivity]. cbn [bind]. rewrite !mirror_get.
    destruct (get_child q "Point0") eqn:E1; [|reflexivity]. cbn [fwd bind]. destruct (get_child q "Point1") eqn:E2; [|reflexivity]. cbn [fwd bind].
    destruct (get_child p "Point0") eqn:E3; [|reflexivity]. cbn [fwd bind]. destruct (get_child p "Point1") eqn:E4; [|reflexivity]. cbn [fwd bind].
    apply planar_get in E1, E2, E3, E4; try assumption. destruct x; now apply two_weak.
  Qed.
  Lemma zeros_opp x : zeros [x] <-> zeros [- x].
  Proof. unfold zeros. split; intros H; inversion H; subst; (constructor; [lra|constructor]). Qed.
  Lemma parallel_weak : weak_cls (ntype Parallel).
  Proof.
    intros ps params HP. unfold assem1, Parallel, mk_leaf. cbn [ntype cassem]. unfold no_params. destruct params; [|reflexivity]. p2. cbn [map].
    rewrite mirror_parallel by assumption. destruct (parallel p q) as [w|]; [|reflexivity]. cbn [fwd bind atleast_1d agree]. apply zeros_opp.
  Qed.
  Lemma collinear_weak : weak_cls (ntype Collinear).
  Proof.
    intros ps params HP. unfold assem1, Collinear, mk_leaf. cbn [ntype cassem]. unfold no_params. destruct params; [|reflexivity]. p2. cbn [map].
    rewrite !mirror_int. destruct (get_int q 0) as [s1|] eqn:E1; [|reflexivity]. cbn [fwd bind]. destruct (get_int p 0) as [s0|] eqn:E0; [|reflexivity]. cbn [fwd bind].
    rewrite mirror_parallel by assumption. apply planar_int in E0, E1; [|assumption..].
    destruct (mirror_mk_line s1 s0 E1 E0) as [L Lf]. destruct (mk_line 0 VNone (Some [mirror s1; mirror s0])) as [[x n]|], (mk_line 0 VNone (Some [s1; s0])) as [[y m]|]; cbn [bind fst] in *; try discriminate; [|injection L as ->; reflexivity].
    destruct (parallel p q) as [c|]; [|reflexivity]. cbn [fwd bind]. unfold parallel. injection L as ->. specialize (Lf (y, m)). cbn [fst] in Lf. destruct (mirror_line_vector p P) as [-> Fp]. destruct (line_vector p) as [u|]; [|reflexivity]. cbn [fwd bind].
    destruct (line_vector y) as [v|]; [|reflexivity]. cbn [fwd bind]. rewrite cross_mirror by auto. destruct (cross2 u v) as [d|]; [|reflexivity]. cbn [fwd bind atleast_1d agree].
    unfold zeros. split; intros H; inversion H as [|? ? A B]; subst; inversion B; subst; (constructor; [lra|constructor; [lra|constructor]]).
  Qed.
  Lemma compound_weak name np : weak_cls (compound_cls name np).
  Proof. intros ps params _. apply agree_refl. Qed.
  Definition weak (c : cons) : Prop := Forall (fun m => weak_cls (ntype m)) (preorder c).
  Lemma free_is_weak c : side_free c -> weak c.
  Proof. intros H. eapply Forall_impl; [|exact (free_pure c H)]. intros m. apply free_weak. Qed.
  Lemma leaf_weak t v : weak_cls t -> weak (Node t v []).
  Proof. intros H. constructor; [exact H|constructor]. Qed.
  Lemma faces_weak side c : CoincidentOutwardFaces side = Ok c -> weak c.
  Proof. intros E. unfold CoincidentOutwardFaces in E. inv_bind E. eapply (construction_all weak_cls); [exact E|apply compound_weak|]. intros y [<-|[]]. apply leaf_weak. exact lines_weak. Qed.
  Lemma position_weak name axis side twin c : PositionAxis name axis side twin = Ok c -> weak c.
  Proof.
    intros E. unfold PositionAxis in E. inv_bind E. destruct twin; cbn [bind] in E; repeat inv_bind E.
    - destruct x0 as [[keys cs] pks]. repeat inv_bind E1. injection E1 as <- <- <-. eapply (construction_all weak_cls); [exact E|apply compound_weak|]. intros y [<-|[<-|[]]]; eapply faces_weak; eassumption.
    - eapply (construction_all weak_cls); [exact E|apply compound_weak|]. intros y [<-|[]]. eapply faces_weak; eassumption.
  Qed.
  Lemma agree_nodes (ms : list cons) : Forall (fun m => weak_cls (ntype m)) ms -> forall fl, Forall (Forall planar) fl -> forall pl : list (list pyval),
    let go fl := mapM (fun x : cons * (list prim * list pyval) => assem1 (ntype (fst x)) (fst (snd x)) (snd (snd x))) (zip ms (zip fl pl)) in
    match go fl, go (map (map mirror) fl) with
    | Ok rs, Ok rs' => (zeros (List.concat rs) <-> zeros (List.concat rs')) /\ length rs = length rs' | Err e, Err e' => e = e' | _, _ => False end.
  Proof.
    cbv zeta. induction 1 as [|m ms Hm _ IH]; intros fl Hfl pl; [cbn; tauto|]. destruct fl as [|f fl]; [cbn; tauto|]. destruct pl as [|p pl]; [cbn; tauto|]. inversion Hfl; subst. cbn [map zip mapM fst snd].
    specialize (Hm f p ltac:(assumption)). unfold agree in Hm. destruct (assem1 (ntype m) f p) as [r|], (assem1 (ntype m) (map mirror f) p) as [r'|]; try contradiction; cbn [bind]; [|exact Hm].
    specialize (IH fl ltac:(assumption) pl). destruct (mapM _ (zip ms (zip fl pl))) as [rs|], (mapM _ (zip ms (zip (map (map mirror) fl) pl))) as [rs'|]; try contradiction; cbn [bind]; [|exact IH].
    destruct IH as [I1 I2]. cbn [List.concat length]. rewrite !zeros_app, I2. tauto.
  Qed.
  Lemma lookups2 root kss : mapM (mapM (get_child (mirror root))) kss = fwd (map (map mirror)) (mapM (mapM (get_child root)) kss).
  Proof. induction kss as [|ks kss IH]; [reflexivity|]. cbn [mapM]. rewrite IH, lookups_mirror. destruct (mapM (get_child root) ks); [|reflexivity]. cbn [fwd bind]. destruct (mapM (mapM (get_child root)) kss); reflexivity. Qed.
  Lemma lookups2_planar root kss fl : planar root -> mapM (mapM (get_child root)) kss = Ok fl -> Forall (Forall planar) fl.
  Proof. intros Hr. revert fl. induction kss as [|ks kss IH]; intros fl E; cbn [mapM] in E; [injection E as <-; constructor|]. inv_bind E. inv_bind E. injection E as <-. constructor; [eapply lookups_planar; eassumption|now apply IH]. Qed.
  Lemma call_weak (c : cons) ps params : weak c -> Forall planar ps -> agree (call c ps params) (call c (map mirror ps) params).
  Proof.
    intros Hc HP. unfold call.
    assert (V : cvalidate_prims c (map mirror ps) = cvalidate_prims c ps).
    { unfold cvalidate_prims. rewrite map_length. replace (existsb _ (zip (map mirror ps) _)) with (existsb (fun pt : prim * ptype => negb (issubclass (ntype (fst pt)) (snd pt))) (zip ps (prim_types (csig (nval c))))); [reflexivity|].
      clear HP. generalize (prim_types (csig (nval c))). induction ps as [|p ps IH]; intros [|t ts]; try reflexivity. cbn. now rewrite mirror_type, IH. }
    rewrite V, map_length, root_mirror. destruct (cvalidate_prims c ps); [|reflexivity]. cbn [bind]. destruct (cvalidate_params c params); [|reflexivity]. cbn [bind].
    destruct (root_prim _ ps) as [root|] eqn:Er; [|reflexivity]. cbn [fwd bind]. destruct (root_prim_keys _ _) as [kt|]; [|reflexivity]. cbn [bind]. destruct (root_params c params) as [pt|]; [|reflexivity]. cbn [bind].
    apply root_planar in Er; [|exact HP]. unfold assem_from_tree. rewrite lookups2. destruct (mapM (mapM (get_child root)) _) as [fl|] eqn:Efl; [|reflexivity]. apply lookups2_planar in Efl; [|exact Er]. cbn [fwd bind].
    rewrite iter_flat_preorder. pose proof (agree_nodes (preorder c) Hc fl Efl (map (fun x : string * pnode R => nval (snd x)) (iter_flat "" pt))) as A. cbv beta zeta in A.
    destruct (mapM _ (zip (preorder c) (zip fl _))) as [rs|], (mapM _ (zip (preorder c) (zip (map (map mirror) fl) _))) as [rs'|]; try contradiction; cbn [bind]; [|exact A].
    destruct A as [A1 A2]. destruct rs as [|r rs], rs' as [|r' rs']; try discriminate; [reflexivity|exact A1].
  Qed.
  Lemma residual_weak (cs : list cls) (root : prim) : planar root -> Forall weak_cls cs -> forall ks (params : list (list pyval)),
    match assem_constraint_residual root cs ks params, assem_constraint_residual (mirror root) cs ks params with
    | Ok rs, Ok rs' => (zeros (List.concat rs) <-> zeros (List.concat rs')) /\ length rs = length rs' | Err e, Err e' => e = e' | _, _ => False end.
  Proof.
    unfold assem_constraint_residual. intros Hr H. induction H as [|c cs Hc H IH]; intros ks params; [cbn; tauto|]. destruct ks as [|k ks]; [cbn; tauto|]. destruct params as [|p params]; [cbn; tauto|].
    cbn [zip mapM fst snd]. specialize (IH ks params). rewrite lookups_mirror. destruct (mapM (get_child root) k) as [ps|] eqn:E; [|reflexivity]. cbn [fwd bind]. specialize (Hc ps p (lookups_planar _ _ _ Hr E)). unfold agree in Hc.
    destruct (assem1 c ps p) as [r|], (assem1 c (map mirror ps) p) as [r'|]; try contradiction; cbn [bind]; [|exact Hc].
    destruct (mapM _ _) as [rs|] in IH |- *; destruct (mapM _ _) as [rs'|] in IH |- *; try contradiction; cbn [bind]; [|exact IH]. destruct IH as [I1 I2]. cbn [List.concat length]. rewrite !zeros_app, I2. tauto.
  Qed.
  Lemma align_weak name row c : Align name row = Ok c -> weak c.
  Proof.
    intros E. unfold Align in E. destruct row; (eapply (construction_all weak_cls); [exact E|apply compound_weak|]); intros y [<-|[<-|[]]]; apply leaf_weak; exact collinear_weak.
  Qed.
  Lemma grid_weak r k c : RectilinearGrid r k = Ok c -> weak c.
  Proof.
    intros E. unfold RectilinearGrid in E. inv_bind E. inv_bind E. inv_bind E. inv_bind E. eapply (construction_all weak_cls); [exact E|apply compound_weak|]. intros y Hy.
    assert (Hempty : forall name kinds, weak_cls {| cname := name; cisa := kinds; cassem := empty_assem |}) by (intros n ks ps params _; apply agree_refl).
    apply in_app_iff in Hy as [Hy|Hy]; apply repeat_spec in Hy as ->; (eapply (map_all weak_cls Hempty); [|eassumption]); [exact (align_weak _ _ _ E0)|exact (align_weak _ _ _ E1)].
  Qed.
  (** The distance to a line changes its sign. *)
  Lemma call_to_line p l flag : planar p -> planar l ->
    call PointToLineDistance (map mirror [p; l]) [flag] = bind (call PointToLineDistance [p; l] [flag]) (fun v => Ok (map Ropp v)).
  Proof.
    intros Hp Hl. assert (HP : Forall planar [p; l]) by (repeat (constructor; [assumption|]); constructor). revert HP. generalize [p; l]. intros ps HP. unfold call.
    assert (V : forall c : cons, cvalidate_prims c (map mirror ps) = cvalidate_prims c ps).
    { intros c. unfold cvalidate_prims. rewrite map_length. replace (existsb _ (zip (map mirror ps) _)) with (existsb (fun pt : prim * ptype => negb (issubclass (ntype (fst pt)) (snd pt))) (zip ps (prim_types (csig (nval c))))); [reflexivity|].
      clear HP. generalize (prim_types (csig (nval c))). induction ps as [|q ps IH]; intros [|t ts]; try reflexivity. cbn. now rewrite mirror_type, IH. }
    rewrite V, map_length, root_mirror. destruct (cvalidate_prims _ ps); [|reflexivity]. cbn [bind]. destruct (cvalidate_params _ [flag]); [|reflexivity]. cbn [bind].
    destruct (root_prim _ ps) as [root|] eqn:Er; [|reflexivity]. cbn [fwd bind]. destruct (root_prim_keys _ _) as [kt|]; [|reflexivity]. cbn [bind]. destruct (root_params _ [flag]) as [pt|]; [|reflexivity]. cbn [bind].
    apply root_planar in Er; [|exact HP]. unfold assem_from_tree. rewrite lookups2. destruct (mapM (mapM (get_child root)) _) as [fl|] eqn:Efl; [|reflexivity]. apply lookups2_planar in Efl; [|exact Er]. cbn [fwd bind].
    generalize (map (fun x : string * pnode R => nval (snd x)) (iter_flat "" pt)). intros pl. destruct fl as [|f fl]; [reflexivity|]. destruct pl as [|pv0 pl]; [reflexivity|]. apply Forall_inv in Efl.
    rewrite iter_flat_preorder. cbn [PointToLineDistance mk_leaf preorder flat_map map zip mapM fst snd ntype]. unfold assem1, PointToLineDistance, mk_leaf. cbn [ntype cassem].
    destruct f as [|q [|q' [|]]]; try reflexivity. cbn [map]. destruct pv0 as [|r [|]]; try reflexivity. pose proof (Forall_inv Efl) as Q. pose proof (Forall_inv (Forall_inv_tail Efl)) as Q'.
    rewrite mirror_tol by assumption. destruct (point_to_line_distance q q' r) as [d|]; reflexivity.
  Qed.
  (** The axes themselves as mirror lines. *)
  Lemma upright_weak : si = 0 -> weak_cls (ntype Horizontal) /\ weak_cls (ntype Vertical).
  Proof.
    intros Hsi. split; intros ps params HP; unfold assem1, Horizontal, Vertical, mk_leaf; cbn [ntype cassem]; unfold no_params; (destruct params; [|reflexivity]); p1; cbn [map directed_length];
      destruct (mirror_line_vector p P) as [-> Fp]; (destruct (line_vector p) as [u|]; [|reflexivity]); cbn [fwd bind]; specialize (Fp u eq_refl); (destruct Fp as [->|(x & y & ->)]; [reflexivity|]);
      cbn; rewrite Hsi in *; unfold zeros; (split; intros H; inversion H as [|? ? A B]; subst; (constructor; [|constructor])); nra.
  Qed.
  Lemma box_weak c : si = 0 -> Box = Ok c -> weak c.
  Proof.
    intros Hsi E. destruct (upright_weak Hsi) as [H1 H2]. unfold Box in E. eapply (construction_all weak_cls); [exact E|apply compound_weak|]. intros y Hy. cbn [In] in Hy.
    destruct Hy as [<-|[<-|[<-|[<-|[]]]]]; now apply leaf_weak.
  Qed.
End Mirror.
