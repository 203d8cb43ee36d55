(** Constructions of scaled primitives, and drawing them. *)
From Coq Require Import Reals Lra.
From Verif Require Export ScaleSpec PureProofs LikeProofs.
Local Open Scope R_scope.

Section Scale.
  Notation prim := (prim R).
  Notation pyval := (pyval R).
  Notation cons := (cons R).
  Notation cls := (cls R).
  Variable k : R.
  Hypothesis Hk : 0 < k.
  Notation scale := (scale k).
  Notation ks := (map (Rmult k)).

  Lemma scale_coord p : coord (scale p) = ks (coord p).
  Proof. destruct p. reflexivity. Qed.
  Lemma scale_type p : ntype (scale p) = ntype p.
  Proof. destruct p. reflexivity. Qed.
  Lemma scale_nch p : nch (scale p) = map (fun kc => (fst kc, scale (snd kc))) (nch p).
  Proof. destruct p. reflexivity. Qed.
  Lemma scale_nvalues p : nvalues (scale p) = map scale (nvalues p).
  Proof. unfold nvalues, dvals. rewrite scale_nch, !map_map. reflexivity. Qed.
  Lemma scale_nkeys p : nkeys (scale p) = nkeys p.
  Proof. unfold nkeys, dkeys. rewrite scale_nch, !map_map. reflexivity. Qed.
  Lemma dget_scale s (ch : dict prim) : dget s (map (fun kc => (fst kc, scale (snd kc))) ch) = option_map scale (dget s ch).
  Proof. induction ch as [|[k' c] ch IH]; [reflexivity|]. cbn. destruct (String.eqb s k'); [reflexivity|exact IH]. Qed.
  Lemma scale_get s p : get_child (scale p) s = fwd scale (get_child p s).
  Proof.
    unfold get_child. generalize (S (String.length s)). intros fuel. revert p s. induction fuel as [|fuel IH]; intros p s; [reflexivity|].
    cbn [get_child_f]. destruct (split1 s) as [k1 [rest|]]; rewrite scale_nch, dget_scale; destruct (dget k1 (nch p)) as [c|]; try reflexivity. cbn [option_map].
    rewrite IH. destruct (get_child_f fuel c rest) as [x|[]]; reflexivity.
  Qed.
  Lemma scale_contains s p : contains (scale p) s = contains p s.
  Proof.
    unfold contains. generalize (S (String.length s)). intros fuel. revert p s. induction fuel as [|fuel IH]; intros p s; [reflexivity|].
    cbn [contains_f]. destruct (split1 s) as [k1 rest]. cbv zeta. destruct (String.eqb _ EmptyString).
    - unfold dmem. rewrite scale_nch, dget_scale. destruct (dget k1 (nch p)); reflexivity.
    - rewrite scale_get. destruct (get_child p k1); [apply IH|reflexivity].
  Qed.
  Lemma scale_int i p : get_int (scale p) i = fwd scale (get_int p i).
  Proof. unfold get_int. rewrite scale_nvalues, nth_error_map. destruct (nth_error (nvalues p) i); reflexivity. Qed.
  Lemma scale_validate ps types : validate_prims (map scale ps) types = validate_prims ps types.
  Proof.
    unfold validate_prims. rewrite map_length. match goal with |- bind ?x _ = _ => destruct x as [ts|]; [|reflexivity] end. cbn [bind].
    assert (Z : forall ts, forallb (fun pt : prim * ptype => issubclass (ntype (fst pt)) (snd pt)) (zip (map scale ps) ts) = forallb (fun pt : prim * ptype => issubclass (ntype (fst pt)) (snd pt)) (zip ps ts)).
    { clear. induction ps as [|p ps IH]; intros [|t ts]; try reflexivity. cbn. now rewrite scale_type, IH. }
    now rewrite Z.
  Qed.
  Lemma lookups_scale (root : prim) ss : mapM (get_child (scale root)) ss = fwd (map scale) (mapM (get_child root) ss).
  Proof.
    induction ss as [|s ss IH]; [reflexivity|]. cbn [mapM]. rewrite scale_get, IH. destruct (get_child root s); [|reflexivity]. cbn [fwd bind]. destruct (mapM (get_child root) ss); reflexivity.
  Qed.
  Lemma dset_scale s (p : prim) ch : dset s (scale p) (map (fun kc => (fst kc, scale (snd kc))) ch) = map (fun kc => (fst kc, scale (snd kc))) (dset s p ch).
  Proof. induction ch as [|[k' c] ch IH]; [reflexivity|]. cbn. destruct (String.eqb s k'); [reflexivity|]. cbn. now rewrite IH. Qed.
  Lemma dict_scale (d : dict prim) : dict_of (map (fun kc => (fst kc, scale (snd kc))) d) = map (fun kc => (fst kc, scale (snd kc))) (dict_of d).
  Proof.
    unfold dict_of. change (@nil (string * prim)) with (map (fun kc => (fst kc, scale (snd kc))) (@nil (string * prim))) at 1. generalize (@nil (string * prim)).
    induction d as [|[s p] d IH]; intros acc; [reflexivity|]. cbn. rewrite dset_scale. apply IH.
  Qed.
  Lemma zip_scale (ss : list string) : forall ps : list prim, zip ss (map scale ps) = map (fun kc => (fst kc, scale (snd kc))) (zip ss ps).
  Proof. induction ss as [|s ss IH]; intros [|p ps]; try reflexivity. cbn. now rewrite IH. Qed.
  Lemma root_scale ss (ps : list prim) : root_prim ss (map scale ps) = fwd scale (root_prim ss ps).
  Proof.
    unfold root_prim, mk_primnode. rewrite zip_scale, dict_scale.
    assert (Hb : forallb (fun kc : string * prim => issubclass (ntype (snd kc)) TPrimNode) (map (fun kc => (fst kc, scale (snd kc))) (dict_of (zip ss ps))) =
      forallb (fun kc : string * prim => issubclass (ntype (snd kc)) TPrimNode) (dict_of (zip ss ps))).
    { induction (dict_of (zip ss ps)) as [|[s p] d IH]; [reflexivity|]. cbn [map forallb fst snd]. now rewrite IH, scale_type. }
    rewrite Hb. destruct (negb _); [reflexivity|]. cbn [signature_of vdata length Nat.eqb negb].
    assert (Hd : dvals (map (fun kc => (fst kc, scale (snd kc))) (dict_of (zip ss ps))) = map scale (dvals (dict_of (zip ss ps)))) by (unfold dvals; now rewrite !map_map).
    rewrite Hd. cbn [existsb]. rewrite scale_validate. destruct (_ || _)%bool; reflexivity.
  Qed.

  (** ** Results that are positive multiples of each other *)
  Definition rrel {A} (P : A -> A -> Prop) (x y : result A) : Prop :=
    match x, y with Ok a, Ok b => P a b | Err e, Err f => e = f | _, _ => False end.
  Definition times (D : R -> Prop) (r r' : list R) : Prop := Forall2 (fun x y => exists d, D d /\ y = d * x) r r'.
  Section Factors.
  Variable D : R -> Prop.
  Definition node_rel (c : cls) (p p' : list pyval) : Prop := forall ps, rrel (times D) (assem1 c ps p) (assem1 c (map scale ps) p').
  Inductive scaling : cons -> list pyval -> list pyval -> Prop :=
  | scaling_node t v ch ps ps' cps cps' : length ps = length ps' -> cparams v ps = Ok cps -> cparams v ps' = Ok cps' ->
      node_rel t ps ps' -> scalings ch cps cps' -> scaling (Node t v ch) ps ps'
  with scalings : dict cons -> list (list pyval) -> list (list pyval) -> Prop :=
  | scalings_nil cps cps' : scalings [] cps cps'
  | scalings_cons s c ch p p' cps cps' : scaling c p p' -> scalings ch cps cps' -> scalings ((s, c) :: ch) (p :: cps) (p' :: cps').
  Scheme scaling_mut := Minimality for scaling Sort Prop
  with scalings_mut := Minimality for scalings Sort Prop.
  Definition aligned (cs : list cons) (pl pl' : list (list pyval)) : Prop :=
    Forall2 (fun c pp => node_rel (ntype c) (fst pp) (snd pp)) cs (zip pl pl') /\ length pl = length cs /\ length pl' = length cs.
  Lemma aligned_app a b x y x' y' : aligned a x x' -> aligned b y y' -> aligned (a ++ b) (x ++ y) (x' ++ y').
  Proof.
    intros (A1 & A2 & A3) (B1 & B2 & B3). split; [|rewrite !app_length; lia].
    assert (Z : zip (x ++ y) (x' ++ y') = zip x x' ++ zip y y').
    { clear - A2 A3. assert (L : length x = length x') by lia. clear A2 A3. revert x' L. induction x as [|u x IH]; intros [|u' x'] L; cbn in L; try lia; [reflexivity|]. cbn. f_equal. apply IH. lia. }
    rewrite Z. now apply Forall2_app.
  Qed.
  Lemma scaling_aligned c ps ps' : scaling c ps ps' -> length ps = length ps' /\ exists pt pt', root_params c ps = Ok pt /\ root_params c ps' = Ok pt' /\
    aligned (preorder c) (map (@nval _ _) (preorder pt)) (map (@nval _ _) (preorder pt')).
  Proof.
    revert c ps ps'. apply (scaling_mut
      (fun c ps ps' => length ps = length ps' /\ exists pt pt', root_params c ps = Ok pt /\ root_params c ps' = Ok pt' /\ aligned (preorder c) (map (@nval _ _) (preorder pt)) (map (@nval _ _) (preorder pt')))
      (fun ch cps cps' =>
         let go := (fix go (ch : dict cons) (cps : list (list pyval)) : result (dict (pnode R)) :=
             match ch, cps with
             | (key, child) :: ch', cp :: cps' => n <- root_params child cp ;; r <- go ch' cps' ;; Ok ((key, n) :: r)
             | _, _ => Ok []
             end) in
         exists d d', go ch cps = Ok d /\ go ch cps' = Ok d' /\
           aligned (flat_map (fun kc => preorder (snd kc)) ch) (map (@nval _ _) (flat_map (fun kc => preorder (snd kc)) d)) (map (@nval _ _) (flat_map (fun kc => preorder (snd kc)) d')))).
    - intros t v ch ps ps' cps cps' L E E' N _ (d & d' & G & G' & A). split; [exact L|]. exists (Node KParams ps d), (Node KParams ps' d'). cbn [root_params]. rewrite E, E'. cbn [bind].
      rewrite G, G'. split; [reflexivity|]. split; [reflexivity|]. cbn [preorder map nval].
      apply (aligned_app [Node t v ch] _ [ps] _ [ps'] _); [|exact A]. split; [|split; reflexivity]. repeat constructor. exact N.
    - intros cps cps'. cbv zeta. exists [], []. repeat split; constructor.
    - intros s c ch p p' cps cps' _ (_ & pt & pt' & E & E' & A) _ (d & d' & G & G' & B). cbv zeta. exists ((s, pt) :: d), ((s, pt') :: d'). cbn [bind]. rewrite E, E'. cbn [bind]. rewrite G, G'.
      split; [reflexivity|]. split; [reflexivity|]. cbn [flat_map snd]. rewrite !map_app. now apply aligned_app.
  Qed.
  Lemma times_concat rs rs' : Forall2 (times D) rs rs' -> times D (List.concat rs) (List.concat rs').
  Proof. induction 1; [constructor|]. cbn. now apply Forall2_app. Qed.
  Lemma call_scale (c : cons) ps params params' : scaling c params params' -> rrel (times D) (call c ps params) (call c (map scale ps) params').
  Proof.
    intros Hc. apply scaling_aligned in Hc as (L & pt & pt' & E & E' & A & L1 & L2). unfold call.
    assert (V : cvalidate_prims c (map scale ps) = cvalidate_prims c ps).
    { unfold cvalidate_prims. rewrite map_length. replace (existsb _ (zip (map scale ps) _)) with (existsb (fun pt : prim * ptype => negb (issubclass (ntype (fst pt)) (snd pt))) (zip ps (prim_types (csig (nval c))))); [reflexivity|].
      generalize (prim_types (csig (nval c))). clear. induction ps as [|p ps IH]; intros [|t ts]; try reflexivity. cbn. now rewrite scale_type, IH. }
    rewrite V, map_length, root_scale. destruct (cvalidate_prims c ps) as [[]|]; [|reflexivity]. cbn [bind]. unfold cvalidate_params. rewrite <- L. destruct (negb _); [reflexivity|]. cbn [bind].
    destruct (root_prim _ ps) as [root|]; [|reflexivity]. cbn [fwd bind]. destruct (root_prim_keys _ _) as [kt|]; [|reflexivity]. cbn [bind]. rewrite E, E'. cbn [bind].
    unfold assem_from_tree.
    assert (Lk : forall kss, mapM (mapM (get_child (scale root))) kss = fwd (map (map scale)) (mapM (mapM (get_child root)) kss)).
    { induction kss as [|ks kss IH]; [reflexivity|]. cbn [mapM]. rewrite IH, lookups_scale. destruct (mapM (get_child root) ks); [|reflexivity]. cbn [fwd bind]. destruct (mapM (mapM (get_child root)) kss); reflexivity. }
    rewrite Lk. destruct (mapM (mapM (get_child root)) _) as [fl|]; [|reflexivity]. cbn [fwd bind].
    assert (Z : forall x : pnode R, map (fun x => nval (snd x)) (iter_flat "" x) = map (@nval _ _) (preorder x)). { intros x. rewrite <- (iter_flat_preorder x EmptyString), map_map. reflexivity. }
    rewrite !Z, iter_flat_preorder. clear - A L1 L2. revert fl A L1 L2. generalize (map (@nval _ _) (preorder pt)) as pl, (map (@nval _ _) (preorder pt')) as pl', (preorder c) as cs. intros pl pl' cs fl A L1 L2.
    match goal with |- rrel _ (bind ?x _) (bind ?y _) => assert (M : rrel (Forall2 (times D)) x y) end.
    { revert pl pl' fl A L1 L2. induction cs as [|m ms IH]; intros [|p pl] [|p' pl'] fl A L1 L2; cbn in L1, L2; try lia; [destruct fl; cbn; constructor|]. destruct fl as [|f fl]; [cbn; constructor|]. cbn [zip] in A. inversion A as [|? ? ? ? Hm Hms]; subst.
      cbn [map zip mapM fst snd] in *. specialize (Hm f). destruct (assem1 _ f p), (assem1 _ _ p'); cbn [rrel] in Hm; try contradiction; [|subst; reflexivity]. cbn [bind].
      specialize (IH pl pl' fl Hms ltac:(lia) ltac:(lia)). destruct (mapM _ (zip ms (zip fl pl))), (mapM _ (zip ms (zip _ pl'))); cbn [rrel] in IH; try contradiction; [|subst; reflexivity]. cbn. now constructor. }
    destruct (mapM _ _) as [rs|], (mapM _ _) as [rs'|]; cbn [rrel] in M; try contradiction; [|subst; reflexivity]. cbn [bind]. destruct M; [reflexivity|]. cbn [rrel]. apply times_concat. now constructor.
  Qed.
  End Factors.

  (** ** Arithmetic *)
  Lemma bcast_scale (f g : R -> R -> result R) (h : R -> R) u v : (forall x y, g (k * x) (k * y) = fwd h (f x y)) -> bcast2 g (ks u) (ks v) = fwd (map h) (bcast2 f u v).
  Proof.
    intros H. assert (M : forall X (a : X -> result R) (b : X -> result R) l, (forall x, b x = fwd h (a x)) -> mapM b l = fwd (map h) (mapM a l)).
    { intros X a b l Hab. induction l as [|x l IH]; [reflexivity|]. cbn [mapM]. rewrite Hab, IH. destruct (a x); [|reflexivity]. cbn. destruct (mapM a l); reflexivity. }
    assert (M' : forall (a b : R -> result R) l, (forall x, b (k * x) = fwd h (a x)) -> mapM b (ks l) = fwd (map h) (mapM a l)).
    { intros a b l Hab. induction l as [|x l IH]; [reflexivity|]. cbn [map mapM]. rewrite Hab, IH. destruct (a x); [|reflexivity]. cbn. destruct (mapM a l); reflexivity. }
    assert (Z : mapM (fun xy => g (fst xy) (snd xy)) (zip (ks u) (ks v)) = fwd (map h) (mapM (fun xy => f (fst xy) (snd xy)) (zip u v))).
    { clear M'. revert v. induction u as [|x u IH]; intros [|y v]; try reflexivity. cbn [map zip mapM fst snd]. rewrite H, IH. destruct (f x y); [|reflexivity]. cbn. destruct (mapM _ (zip u v)); reflexivity. }
    unfold bcast2. rewrite !map_length. destruct (Nat.eqb _ _); [exact Z|].
    destruct u as [|x [|x' u]]; destruct v as [|y [|y' v]]; cbn [map]; try reflexivity.
    all: match goal with |- _ = fwd _ (mapM ?f ?l) => refine (M' f _ l _); intros z; apply H end.
  Qed.
  Lemma vsub_scale u v : vsub (ks u) (ks v) = fwd ks (vsub u v).
  Proof. apply bcast_scale. intros x y. cbn. f_equal. lra. Qed.
  Lemma vadd_scale u v : vadd (ks u) (ks v) = fwd ks (vadd u v).
  Proof. apply bcast_scale. intros x y. cbn. f_equal. lra. Qed.
  Lemma div_scale x y : Rdiv_r (k * x) (k * y) = Rdiv_r x y.
  Proof.
    unfold Rdiv_r. destruct (Req_EM_T (k * y) 0) as [E|E], (Req_EM_T y 0) as [E'|E']; try reflexivity.
    - exfalso. apply Rmult_integral in E as [E|E]; lra.
    - exfalso. apply E. subst. lra.
    - f_equal. field. split; lra.
  Qed.
  Lemma vdiv_scale u v : bcast2 (@ndiv R NumR) (ks u) (ks v) = bcast2 (@ndiv R NumR) u v.
  Proof.
    rewrite (bcast_scale (@ndiv R NumR) (@ndiv R NumR) (fun x => x)).
    - destruct (bcast2 _ u v); [|reflexivity]. cbn. now rewrite map_id.
    - intros x y. cbn. rewrite div_scale. destruct (Rdiv_r x y); reflexivity.
  Qed.
  Lemma unpack_scale v : unpack2 (ks v) = fwd (fun xy => (k * fst xy, k * snd xy)) (unpack2 v).
  Proof. destruct v as [|x [|y [|]]]; reflexivity. Qed.
  Lemma sumsq_scale v : nsum (map (fun x => x * x) (ks v)) = (k * k) * nsum (map (fun x => x * x) v).
  Proof. unfold nsum. rewrite map_map. induction v as [|x v IH]; cbn [map fold_right]; [cbn; ring|]. rewrite IH. cbn. ring. Qed.
  Lemma norm_scale v : @norm R NumR (ks v) = fwd (Rmult k) (norm v).
  Proof.
    unfold norm. cbn [nmul NumR nsqrt]. rewrite sumsq_scale. set (s := nsum _). unfold Rsqrt_r. assert (0 < k * k) by now apply Rmult_lt_0_compat.
    destruct (Rlt_dec (k * k * s) 0) as [E|E], (Rlt_dec s 0) as [E'|E']; try reflexivity; cbn [fwd].
    - exfalso. apply E'. apply (Rmult_lt_reg_l (k * k)); [assumption|]. lra.
    - exfalso. apply E. rewrite <- (Rmult_0_r (k * k)). now apply Rmult_lt_compat_l.
    - f_equal. rewrite sqrt_mult_alt by lra. rewrite sqrt_square; lra.
  Qed.
  Lemma ltb_scale x y : Rltb (k * x) (k * y) = Rltb x y.
  Proof.
    unfold Rltb. destruct (Rlt_dec (k * x) (k * y)) as [E|E], (Rlt_dec x y) as [E'|E']; try reflexivity; exfalso.
    - apply E'. now apply (Rmult_lt_reg_l k).
    - apply E. now apply Rmult_lt_compat_l.
  Qed.

  (** ** Coincident lines *)
  Lemma coincident_scale p q : coincident (scale p) (scale q) = fwd ks (coincident p q).
  Proof. unfold coincident. rewrite !scale_coord. apply vsub_scale. Qed.
  Definition pscale (v : pyval) : pyval := match v with PA1 l => PA1 (ks l) | PA0 x => PA0 (k * x) | _ => v end.
  Lemma lines_scale p q r : coincident_lines (scale p) (scale q) r = fwd pscale (coincident_lines p q r).
  Proof.
    unfold coincident_lines. destruct (truthy r) as [x|]; [|reflexivity]. cbn [bind]. rewrite !scale_get.
    destruct (get_child q "Point0"); [|reflexivity]. cbn [fwd bind]. destruct (get_child q "Point1"); [|reflexivity]. cbn [fwd bind].
    destruct (get_child p "Point0"); [|reflexivity]. cbn [fwd bind]. destruct (get_child p "Point1"); [|reflexivity]. cbn [fwd bind].
    rewrite !coincident_scale. destruct x.
    all: destruct (coincident _ _); [|reflexivity]; cbn [fwd bind]; destruct (coincident _ _); [|reflexivity]; cbn [fwd bind pscale]; now rewrite map_app.
  Qed.
  Lemma times_ks l : times (eq k) l (ks l).
  Proof. induction l; cbn; constructor; [|assumption]. exists k. auto. Qed.
  Lemma times_eq l l' : times (eq k) l l' -> l' = ks l.
  Proof. induction 1 as [|x y l l' (d & <- & ->) _ IH]; [reflexivity|]. cbn. now rewrite IH. Qed.
  Lemma call_lines p q r : call CoincidentLines [scale p; scale q] [r] = fwd ks (call CoincidentLines [p; q] [r]).
  Proof.
    assert (S : scaling (eq k) (CoincidentLines (F:=R)) [r] [r]).
    { eapply scaling_node; [reflexivity|reflexivity|reflexivity| |constructor]. intros ps. unfold assem1. cbn [cassem]. destruct ps as [|a [|b [|c ps]]]; try reflexivity. cbn [map]. rewrite lines_scale.
      destruct (coincident_lines a b r) as [v|] eqn:E; [|reflexivity]. cbn [fwd bind].
      assert (V : exists l, v = PA1 l).
      { unfold coincident_lines in E. do 5 inv_bind E. destruct x; do 2 inv_bind E; injection E as <-; eauto. }
      destruct V as [l ->]. cbn. apply times_ks. }
    pose proof (call_scale (eq k) _ [p; q] _ _ S) as C. cbn [map] in C. destruct (call _ [p; q] [r]), (call _ [scale p; scale q] [r]); cbn [rrel fwd] in *; try contradiction; [|now subst]. f_equal. now apply times_eq.
  Qed.

  (** ** Drawing *)
  Lemma wh_scale q : width_and_height_from_quad (scale q) = fwd (fun wh => (k * fst wh, k * snd wh)) (width_and_height_from_quad q).
  Proof.
    unfold width_and_height_from_quad. rewrite !scale_get. destruct (get_child q "Line0/Point0") as [a|]; [|reflexivity]. cbn [fwd bind]. change (vdata (nval (scale a))) with (coord (scale a)). rewrite scale_coord, unpack_scale. unfold coord.
    destruct (unpack2 (vdata (nval a))) as [[x y]|]; [|reflexivity]. cbn [fwd bind fst snd]. destruct (get_child q "Line1/Point1") as [b|]; [|reflexivity]. cbn [fwd bind]. change (vdata (nval (scale b))) with (coord (scale b)). rewrite scale_coord, unpack_scale. unfold coord.
    destruct (unpack2 (vdata (nval b))) as [[x' y']|]; [|reflexivity]. cbn. f_equal. f_equal; lra.
  Qed.
  Lemma rect_scale q o s : rect_from_box (scale q) (ks o) (ks s) = rect_from_box q o s.
  Proof.
    unfold rect_from_box.
    assert (Rl : forall p : prim, (d <- vsub (vdata (nval (scale p))) (ks o) ;; q <- bcast2 ndiv d (ks s) ;; unpack2 q) = (d <- vsub (vdata (nval p)) o ;; q <- bcast2 ndiv d s ;; unpack2 q)).
    { intros p. change (vdata (nval (scale p))) with (coord (scale p)). rewrite scale_coord, vsub_scale. unfold coord. destruct (vsub (vdata (nval p)) o); [|reflexivity]. cbn [fwd bind]. now rewrite vdiv_scale. }
    rewrite !scale_get. destruct (get_child q "Line0/Point0") as [a|]; [|reflexivity]. cbn [fwd bind]. rewrite Rl. match goal with |- bind ?x _ = _ => destruct x as [[x0 y0]|]; [|reflexivity] end. cbn [bind].
    destruct (get_child q "Line1/Point1") as [b|]; [|reflexivity]. cbn [fwd bind]. rewrite Rl. reflexivity.
  Qed.
  Lemma argmin_from_scale l : forall i best bestv, argmin_from i best (k * bestv) (ks l) = argmin_from i best bestv l.
  Proof. induction l as [|x l IH]; intros i best bestv; [reflexivity|]. cbn [map argmin_from]. cbn [nltb NumR]. rewrite ltb_scale. destruct (Rltb x bestv); apply IH. Qed.
  Lemma argmin_scale l : argmin (ks l) = argmin l.
  Proof. destruct l; [reflexivity|]. apply argmin_from_scale. Qed.
  Lemma position_scale f a : find_axis_position (scale f) (scale a) = find_axis_position f a.
  Proof.
    unfold find_axis_position.
    assert (Rs : forall fl al, (f0 <- get_child (scale f) fl ;; a0 <- get_child (scale a) al ;; call CoincidentLines [f0; a0] [PDict true]) =
      fwd ks (f0 <- get_child f fl ;; a0 <- get_child a al ;; call CoincidentLines [f0; a0] [PDict true])).
    { intros fl al. rewrite !scale_get. destruct (get_child f fl); [|reflexivity]. cbn [fwd bind]. destruct (get_child a al); [|reflexivity]. cbn [fwd bind]. apply call_lines. }
    rewrite !Rs. do 4 (match goal with |- bind (fwd ks ?x) _ = _ => destruct x as [?r|]; [|reflexivity] end; cbn [fwd bind]).
    cbn [mapM]. rewrite !norm_scale.
    destruct (norm r); [|reflexivity]. cbn [fwd bind]. destruct (norm r0); [|reflexivity]. cbn [fwd bind]. destruct (norm r1); [|reflexivity]. cbn [fwd bind]. destruct (norm r2); [|reflexivity]. cbn [fwd bind].
    match goal with |- context [argmin [k * ?a; k * ?b; k * ?c; k * ?d]] => change [k * a; k * b; k * c; k * d] with (ks [a; b; c; d]) end. now rewrite argmin_scale.
  Qed.

  Notation sd := (scale_drawing k).
  Lemma mbind_scale {A B} (m m' : M A) (f g : A -> M B) : m' = sd m -> (forall a, f a = sd (g a)) -> mbind m' f = sd (mbind m g).
  Proof.
    intros -> H. destruct m as [t [a|e]]; [|reflexivity]. unfold scale_drawing. cbn [fst snd mbind]. rewrite H. unfold scale_drawing. destruct (g a) as [t' r]. cbn [fst snd]. now rewrite map_app.
  Qed.
  Lemma mseq_scale {A} (f g : A -> M unit) l : (forall a, f a = sd (g a)) -> mseq f l = sd (mseq g l).
  Proof. intros H. induction l as [|x l IH]; [reflexivity|]. cbn [mseq]. apply mbind_scale; [apply H|intros _; exact IH]. Qed.
  Lemma mlift_scale {A} (r : result A) : @mlift R A r = sd (mlift r).
  Proof. reflexivity. Qed.
  Lemma mlift_bind_scale {A B C} (r : result A) (r' : result B) (h : A -> B) (f : B -> M C) (g : A -> M C) : r' = fwd h r -> (forall a, f (h a) = sd (g a)) -> mbind (mlift r') f = sd (mbind (mlift r) g).
  Proof.
    intros -> H. destruct r as [a|e]; [|reflexivity]. cbn [fwd mlift mbind]. rewrite H. unfold scale_drawing. destruct (g a) as [t x]. reflexivity.
  Qed.
  Lemma fwd_id {A} (r : result A) : r = fwd (fun x => x) r.
  Proof. destruct r; reflexivity. Qed.
  Lemma axis_scale root key q s prefix : update_axis (scale root) key (scale q) (ks s) prefix = sd (update_axis root key q s prefix).
  Proof.
    assert (Cn : forall lab, (ax <- get_child (scale root) key ;; contains ax lab) = (ax <- get_child root key ;; contains ax lab)).
    { intros lab. rewrite scale_get. destruct (get_child root key); [|reflexivity]. cbn [fwd bind]. apply scale_contains. }
    unfold update_axis. cbv zeta. rewrite !Cn. apply mbind_scale; [reflexivity|]. intros has. apply mbind_scale.
    - destruct has; [|reflexivity]. eapply (mlift_bind_scale _ _ (fun x => x)); [|intros a; reflexivity]. rewrite <- fwd_id, scale_get. clear Cn. match goal with |- context [fwd scale ?g] => destruct g as [p|]; [|reflexivity] end. cbn [fwd bind].
      change (vdata (nval (scale p))) with (coord (scale p)). rewrite scale_coord, vdiv_scale. reflexivity.
    - intros _. apply mbind_scale; [reflexivity|]. intros hasa. destruct hasa; [|reflexivity]. eapply (mlift_bind_scale _ _ (fun x => x)); [|intros a; reflexivity].
      rewrite <- fwd_id, scale_get. clear Cn. match goal with |- context [fwd scale ?g] => destruct g as [p|]; [|reflexivity] end. cbn [fwd bind]. apply position_scale.
  Qed.
  Lemma update_scale root fig axs : update_subplots (scale root) fig axs = sd (update_subplots root fig axs).
  Proof.
    unfold update_subplots. apply (mlift_bind_scale _ _ (fun owh : list R * R * R => (ks (fst (fst owh)), k * snd (fst owh), k * snd owh))).
    - rewrite !scale_get. destruct (get_child root fig) as [quad|]; [|reflexivity]. cbn [fwd bind]. rewrite scale_get. destruct (get_child quad "Line0/Point0") as [o|]; [|reflexivity]. cbn [fwd bind]. rewrite wh_scale.
      destruct (width_and_height_from_quad quad) as [[w h]|]; [|reflexivity]. cbn [fwd bind fst snd]. change (vdata (nval (scale o))) with (coord (scale o)). rewrite scale_coord. reflexivity.
    - intros [[o w] h]. cbn [fst snd]. apply mbind_scale; [reflexivity|]. intros _. apply mseq_scale. intros key.
      apply (mlift_bind_scale _ _ (fun qr : prim * (R * R * R * R) => (scale (fst qr), snd qr))).
      + rewrite scale_get. destruct (get_child root _) as [quad|]; [|reflexivity]. cbn [fwd bind]. change [k * w; k * h] with (ks [w; h]). rewrite rect_scale. destruct (rect_from_box quad o [w; h]); reflexivity.
      + intros [quad [[[x y] w'] h']]. cbn [fst snd]. apply mbind_scale; [reflexivity|]. intros _. apply mseq_scale. intros prefix. change [k * w; k * h] with (ks [w; h]). apply axis_scale.
  Qed.
  Lemma subplots_scale root fig axs : subplots (scale root) fig axs = sd (subplots root fig axs).
  Proof.
    unfold subplots. apply mbind_scale; [reflexivity|]. intros _. rewrite scale_nkeys. apply mbind_scale; [apply mseq_scale; reflexivity|]. intros _. apply update_scale.
  Qed.
End Scale.
