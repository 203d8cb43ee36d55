(** Layouts of affine constraints have an affine residual. *)
From Coq Require Import Reals Lra.
From Verif Require Export AffineList HistWf P_Solver KindProofs.
Local Open Scope R_scope.
Local Open Scope nat_scope.

Notation prim := (prim R).
Notation pyval := (pyval R).
Notation cons := (cons R).
Notation cls := (cls R).
Notation layout := (layout R).

(** ** The residual *)
Section Residual.
  Variable s : R.
  Lemma atleast_tri x1 x2 x3 : ptri s x1 x2 x3 -> tri s (v <- x1 ;; atleast_1d v) (v <- x2 ;; atleast_1d v) (v <- x3 ;; atleast_1d v).
  Proof.
    intros H r E. destruct x1 as [v1|]; [|discriminate]. destruct (H v1 eq_refl) as (v2 & v3 & -> & -> & M). cbn [bind] in *. destruct M as [v|a b|a b L].
    - rewrite E. exists r. split; [reflexivity|]. split; [reflexivity|]. now rewrite mix_same.
    - injection E as <-. eexists. split; [reflexivity|]. split; reflexivity.
    - injection E as <-. eexists. split; [reflexivity|]. split; [exact L|reflexivity].
  Qed.
  Lemma lookups_blend a b m : blend s a b m -> forall ks r1, mapM (get_child a) ks = Ok r1 ->
    exists r2 r3, mapM (get_child b) ks = Ok r2 /\ mapM (get_child m) ks = Ok r3 /\ all_blend s r1 r2 r3.
  Proof.
    intros H ks. induction ks as [|k ks IH]; intros r1 E; [injection E as <-; do 2 eexists; split; [reflexivity|]; split; [reflexivity|constructor]|].
    cbn [mapM] in *. pose proof (blend_get_child s k a b m H) as G. destruct (get_child a k) as [x|]; [|discriminate]. destruct (get_child b k) as [y|]; [|contradiction]. destruct (get_child m k) as [z|]; [|contradiction].
    cbn [bind] in *. inv_bind E. injection E as <-. destruct (IH _ E0) as (r2 & r3 & -> & -> & A). cbn [bind]. do 2 eexists. split; [reflexivity|]. split; [reflexivity|]. now constructor.
  Qed.
  Inductive rows : list (list R) -> list (list R) -> list (list R) -> Prop :=
  | rows_nil : rows [] [] []
  | rows_cons r1 r2 l1 l2 l3 : length r1 = length r2 -> rows l1 l2 l3 -> rows (r1 :: l1) (r2 :: l2) (mix s r1 r2 :: l3).
  Lemma rows_concat l1 l2 l3 : rows l1 l2 l3 -> length (List.concat l1) = length (List.concat l2) /\ List.concat l3 = mix s (List.concat l1) (List.concat l2).
  Proof.
    induction 1 as [|r1 r2 l1 l2 l3 L H [IH1 IH2]]; [split; reflexivity|]. cbn [List.concat]. rewrite !app_length. split; [lia|]. rewrite IH2. unfold mix. now rewrite zip_app, map_app.
  Qed.
  Lemma assem_rows a b m : blend s a b m -> forall cs ks ps r1, Forall affine_cls cs -> assem_constraint_residual a cs ks ps = Ok r1 ->
    exists r2 r3, assem_constraint_residual b cs ks ps = Ok r2 /\ assem_constraint_residual m cs ks ps = Ok r3 /\ rows r1 r2 r3.
  Proof.
    intros H cs. unfold assem_constraint_residual. induction cs as [|c cs IH]; intros ks ps r1 Hc E; [injection E as <-; do 2 eexists; split; [reflexivity|]; split; [reflexivity|constructor]|].
    destruct ks as [|k ks]; [injection E as <-; do 2 eexists; split; [reflexivity|]; split; [reflexivity|constructor]|].
    destruct ps as [|p ps]; [injection E as <-; do 2 eexists; split; [reflexivity|]; split; [reflexivity|constructor]|].
    cbn [zip mapM fst snd] in *. inv_bind E. inv_bind E. injection E as <-. inv_bind E0. inversion Hc; subst.
    destruct (lookups_blend a b m H _ _ E) as (q2 & q3 & -> & -> & A). cbn [bind].
    unfold assem1 in *. pose proof (atleast_tri _ _ _ (H2 s _ _ _ p A)) as T. destruct (T _ E0) as (y2 & -> & L & ->). cbn [bind].
    destruct (IH ks ps _ H3 E1) as (r2 & r3 & -> & -> & Hr). cbn [bind]. do 2 eexists. split; [reflexivity|]. split; [reflexivity|]. now constructor.
  Qed.
  Lemma residual_tri (l : layout) a b m : Forall affine_cls (kinds (l_cons l)) -> blend s a b m -> tri s (layout_residual l a) (layout_residual l b) (layout_residual l m).
  Proof.
    intros Hc Hb r E. unfold layout_residual in *. rewrite flat_constraints_dpre in *. inv_bind E.
    assert (Hc' : Forall affine_cls (map (@ntype _ _) (dpre (nch (l_cons l))))).
    { destruct (l_cons l) as [t v ch]. cbn [nch]. unfold kinds in Hc. cbn [preorder map] in Hc. now inversion Hc. }
    destruct (assem_rows a b m Hb _ _ _ _ Hc' E0) as (r2 & r3 & -> & -> & Hr). cbn [bind]. destruct (rows_concat _ _ _ Hr) as [L1 L2].
    destruct Hr; [discriminate|]. injection E as <-. eexists. split; [reflexivity|]. split; [exact L1|]. f_equal. exact L2.
  Qed.
End Residual.

(** ** Trees of global vectors *)
Lemma mix_slice s i j : forall g h, slice i j (mix s g h) = mix s (slice i j g) (slice i j h).
Proof.
  unfold slice. intros g h. generalize (j - i). intros n.
  assert (S : forall i g h, skipn i (mix s g h) = mix s (skipn i g) (skipn i h)).
  { clear. unfold mix. induction i as [|i IH]; intros [|x g] [|y h]; cbn; try reflexivity; [destruct (skipn i g); reflexivity|apply IH]. }
  rewrite S. generalize (skipn i g), (skipn i h). clear. unfold mix. induction n as [|n IH]; intros [|x g] [|y h]; cbn; try reflexivity. f_equal. apply IH.
Qed.
Lemma slices_mix s (vs : list (pv R)) g h i c d : nth_error (slices vs g) i = Some c -> nth_error (slices vs h) i = Some d -> nth_error (slices vs (mix s g h)) i = Some (mix s c d).
Proof.
  unfold slices. rewrite !nth_error_map. destruct (nth_error _ i) as [[a b]|]; [|discriminate]. cbn [option_map fst snd]. intros E1 E2. injection E1 as <-. injection E2 as <-. now rewrite mix_slice.
Qed.
Lemma keys_shape (p : prim) : forall q : prim, wf p -> (forall k, option_map (@nkeys _ _) (walk k p) = option_map (@nkeys _ _) (walk k q)) -> same_shape p q /\ wf q.
Proof.
  induction p as [t v ch IH] using node_ind'. intros [t' v' ch'] Hw H. pose proof (H []) as H0. cbn in H0. injection H0 as Hk.
  apply wf_children in Hw as [Hn Hf].
  assert (Hc : forall k x y, In (k, x) ch -> In (k, y) ch' -> same_shape x y /\ wf y).
  { intros k x y Hx Hy. rewrite Forall_forall in IH, Hf. apply (IH _ Hx); [apply (Hf _ Hx)|]. intros path. specialize (H (k :: path)). cbn [walk nch] in H.
    rewrite (In_dget _ _ _ Hn Hx) in H. rewrite (In_dget k y ch') in H; [exact H| |exact Hy]. unfold nkeys, dkeys in Hk. cbn [nch] in Hk. now rewrite <- Hk. }
  unfold nkeys, dkeys in Hk. cbn [nch] in Hk. split.
  - constructor; [exact Hk|]. clear -Hk Hc. revert ch' Hk Hc. induction ch as [|[k x] ch IH]; intros [|[k' y] ch'] Hk Hc; try discriminate; [constructor|]. cbn in Hk. injection Hk as <- Hk.
    constructor; [apply (Hc k); now left|]. apply IH; [exact Hk|]. intros. eapply Hc; right; eassumption.
  - constructor; [now rewrite <- Hk|]. apply Forall_forall. intros [k y] Hy. assert (In k (map fst ch)) as Hin by (rewrite Hk; now apply (in_map fst) in Hy).
    apply in_map_iff in Hin as ([k2 x] & E & Hx). cbn in E. subst k2. now apply (Hc k x y Hx Hy).
Qed.
Lemma new_keys (root : prim) g k : option_map (@nkeys _ _) (walk k (new_tree root g)) = option_map (@nkeys _ _) (walk k root).
Proof.
  destruct (walk k root) as [n|] eqn:E; [|now rewrite new_walk_none]. destruct (new_walk _ g _ _ E) as (n' & -> & _ & _ & Hk). cbn. now rewrite Hk.
Qed.
Lemma new_blend s (root : prim) g h : wf root -> slashfree root -> ids_consistent root ->
  length g = length (initial_global root) -> length h = length (initial_global root) ->
  blend s (new_tree root g) (new_tree root h) (new_tree root (mix s g h)).
Proof.
  intros Hw Hs Hi Hg Hh. apply blend_places.
  - now apply new_wf.
  - apply keys_shape; [now apply new_wf|]. intros k. now rewrite !new_keys.
  - apply keys_shape; [now apply new_wf|]. intros k. now rewrite !new_keys.
  - intros p x y z Hx Hy Hz. destruct (walk p root) as [n|] eqn:E; [|rewrite new_walk_none in Hx by assumption; discriminate].
    destruct (new_walk _ g _ _ E) as (n1 & E1 & _ & V1 & _). destruct (new_walk _ h _ _ E) as (n2 & E2 & _ & V2 & _). destruct (new_walk _ (mix s g h) _ _ E) as (n3 & E3 & _ & V3 & _).
    assert (x = n1) by congruence. assert (y = n2) by congruence. assert (z = n3) by congruence. subst. rewrite V1, V2, V3.
    pose proof (node_values_In _ _ _ Hw E) as Hin. split; [now rewrite !new_sizes|].
    destruct (new_value root g Hw Hs _ Hin) as (i & c & Hp & Hc & F1). destruct (new_value root h Hw Hs _ Hin) as (j & d & Hp' & Hd & F2). rewrite Hp in Hp'. injection Hp' as <-.
    pose proof (slices_mix s _ _ _ _ _ _ Hc Hd) as Hm. unfold renew. rewrite Hp, F1, F2. cbn [vdata].
    rewrite (nth_error_nth _ _ (nval n) (x := {| vid := i; vdata := mix s c d |})); [reflexivity|]. rewrite fresh_nth, Hm. reflexivity.
Qed.
(** A tree of the same structure with the same numbers as the tree of some vector. *)
Lemma structure_vector (root q : prim) : wf root -> slashfree root -> ids_consistent root -> same_structure root q -> ids_consistent q ->
  exists gs, length gs = length (initial_global root) /\ blend 0 q q (new_tree root gs).
Proof.
  intros Hw Hs Hi [H1 H2] Hiq. set (u := snd (filter_unique root)).
  assert (Hk : forall k, option_map (@nkeys _ _) (walk k root) = option_map (@nkeys _ _) (walk k q)).
  { intros k. specialize (H1 k). destruct (walk k root), (walk k q); cbn in *; congruence. }
  destruct (keys_shape root q Hw Hk) as [Sq Wq].
  assert (Hex : forall us : list (pv R), (forall v, In v us -> In v (node_values root)) -> exists ds : list (list R), Forall2 (fun (v : pv R) d => length d = length (vdata v) /\ exists p n m, walk p root = Some n /\ nval n = v /\ walk p q = Some m /\ vdata (nval m) = d) us ds).
  { induction us as [|v us IH]; intros Hu; [exists []; constructor|]. destruct IH as [ds IH]; [intros; apply Hu; now right|].
    assert (Hv : In v (node_values root)) by (apply Hu; now left). unfold node_values in Hv. apply in_map_iff in Hv as (n & <- & Hn).
    rewrite <- (iter_flat_preorder root EmptyString) in Hn. apply in_map_iff in Hn as ([key n'] & E & Hn). cbn in E. subst n'.
    destruct (iter_flat_resolves root EmptyString Hw Hs) as (_ & _ & R1 & _).
    assert (W : exists p, walk p root = Some n).
    { destruct (R1 _ _ Hn) as [[_ ->]|(rel & _ & G)]; [now exists []|]. rewrite get_child_walk in G. exists (split_all rel). destruct (walk _ root); [|discriminate]. now injection G as <-. }
    destruct W as [p W]. pose proof (H1 p) as Hp. rewrite W in Hp. destruct (walk p q) as [m|] eqn:Wm; [|discriminate]. cbn in Hp. injection Hp as _ _ Hl.
    exists (vdata (nval m) :: ds). constructor; [|exact IH]. split; [auto|]. exists p, n, m. auto. }
  destruct (Hex u) as [ds Hds]. { intros v Hv. unfold u in Hv. rewrite (filter_values root Hw Hs) in Hv. now apply firsts_incl in Hv. }
  set (gs := List.concat ds). assert (Hsz : map (@length R) ds = sizes_of u).
  { clear -Hds. unfold sizes_of. induction Hds as [|v d us ds [H _] _ IH]; [reflexivity|]. cbn. now rewrite H, IH. }
  assert (Hlen : length gs = length (initial_global root)).
  { unfold gs, initial_global, global_of. fold u. clear -Hds. induction Hds as [|v d us ds [H _] _ IH]; [reflexivity|]. cbn. rewrite !app_length, H, IH. reflexivity. }
  exists gs. split; [exact Hlen|]. assert (Hsl : slices u gs = ds).
  { unfold slices. rewrite chunk_cut, <- Hsz. unfold gs. apply cut_concat. }
  apply blend_places; [exact Wq|apply same_shape_refl| |].
  - apply keys_shape; [exact Wq|]. intros k. rewrite new_keys. symmetry. apply Hk.
  - intros p x y z Hx Hy Hz. assert (y = x) by congruence. subst y. split; [reflexivity|]. rewrite mix_same.
    destruct (walk p root) as [n|] eqn:E; [|rewrite new_walk_none in Hz by assumption; discriminate].
    destruct (new_walk _ gs _ _ E) as (n1 & E1 & _ & V1 & _). assert (z = n1) by congruence. subst z. rewrite V1.
    pose proof (node_values_In _ _ _ Hw E) as Hin. destruct (new_value root gs Hw Hs _ Hin) as (i & c & Hp & Hc & F1). unfold renew. rewrite Hp, F1. cbn [vdata].
    fold u in Hp, Hc. rewrite Hsl in Hc. apply pos_Some in Hp as (w & Hn & Hid).
    assert (G : exists p' n' m', walk p' root = Some n' /\ nval n' = w /\ walk p' q = Some m' /\ vdata (nval m') = c).
    { clear -Hds Hc Hn. revert i Hn Hc. induction Hds as [|v d us ds [_ H] _ IH]; intros [|i] Hn Hc; try discriminate; cbn in Hn, Hc; [|now apply (IH i)]. injection Hn as <-. injection Hc as <-. exact H. }
    destruct G as (p' & n' & m' & W1 & <- & W2 & <-). f_equal. apply Hiq; [eapply node_values_In; eassumption|eapply node_values_In; eassumption|].
    exact (proj1 (H2 p' p _ _ _ _ W1 E W2 Hx) Hid).
Qed.

Lemma affine_layout (l : layout) q z : wf (l_prim l) -> slashfree (l_prim l) -> ids_consistent (l_prim l) -> Forall affine_cls (kinds (l_cons l)) ->
  same_structure (l_prim l) q -> ids_consistent q -> layout_residual l q = Ok z ->
  affine (length (initial_global (l_prim l))) (global_res l) /\
  exists gs, length gs = length (initial_global (l_prim l)) /\ global_res l gs = Ok z.
Proof.
  intros Hw Hs Hi Hc Hq Hiq Ez. destruct (structure_vector _ q Hw Hs Hi Hq Hiq) as (gs & Hgs & Hb).
  assert (Egs : layout_residual l (new_tree (l_prim l) gs) = Ok z).
  { destruct (residual_tri 0 l q q (new_tree (l_prim l) gs) Hc Hb z Ez) as (r2 & E2 & _ & ->). assert (r2 = z) by congruence. subst. now rewrite mix_same. }
  assert (Hr : forall g, global_res l g = layout_residual l (new_tree (l_prim l) g)) by (intros g; unfold global_res; now rewrite tree_of_global_ok).
  split; [|exists gs; split; [exact Hgs|now rewrite Hr]].
  assert (Hok : forall g, length g = length (initial_global (l_prim l)) -> exists r, layout_residual l (new_tree (l_prim l) g) = Ok r).
  { intros g Hg. destruct (residual_tri 0 l _ _ _ Hc (new_blend 0 (l_prim l) gs g Hw Hs Hi Hgs Hg) z Egs) as (r & E & _). eauto. }
  intros s g h Hg Hh. rewrite !Hr. destruct (Hok g Hg) as [rg Eg]. destruct (residual_tri s l _ _ _ Hc (new_blend s (l_prim l) g h Hw Hs Hi Hg Hh) rg Eg) as (rh & Eh & L & Em).
  exists rg, rh. auto.
Qed.
