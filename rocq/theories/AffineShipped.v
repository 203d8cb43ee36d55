(** The constructions whose value is affine in the primitives. *)
From Coq Require Import Reals Lra.
From Verif Require Export BlendProofs NeatProofs Constr.
Local Open Scope R_scope.

Notation prim := (prim R).
Notation pyval := (pyval R).
Notation cons := (cons R).
Notation cls := (cls R).

Inductive all_blend (s : R) : list prim -> list prim -> list prim -> Prop :=
| ab_nil : all_blend s [] [] []
| ab_cons a b m al bl ml : blend s a b m -> all_blend s al bl ml -> all_blend s (a :: al) (b :: bl) (m :: ml).

(** At every node, mixing the primitives mixes the values. *)
Definition affine_cls (c : cls) : Prop := forall s al bl ml ps, all_blend s al bl ml ->
  ptri s (cassem c al ps) (cassem c bl ps) (cassem c ml ps).
Definition affine_cons (c : cons) : Prop := Forall (fun m => affine_cls (ntype m)) (preorder c).
Definition const_cls (c : cls) : Prop := forall al bl ps, cassem c al ps = cassem c bl ps.

Section Leaves.
  Variable s : R.
  Lemma line_vector_tri a b m : blend s a b m -> tri s (line_vector a) (line_vector b) (line_vector m).
  Proof.
    intros H. inversion H as [ta va cha tb vb chb tm vm chm Hl Hm Hc]; subst. unfold line_vector, nvalues, dvals. cbn [nch].
    inversion Hc as [|k x1 x2 x3 c1 c2 c3 Hx Hc']; subst; [apply tri_Err|]. inversion Hc' as [|k' y1 y2 y3 e1 e2 e3 Hy He]; subst; [apply tri_Err|].
    inversion He; subst; [|apply tri_Err]. cbn [map snd]. destruct (blend_coord _ _ _ _ Hx) as [Lx ->], (blend_coord _ _ _ _ Hy) as [Ly ->]. now apply vsub_tri.
  Qed.
  Lemma get_tri k a b m (k1 k2 k3 : prim -> result (list R)) : blend s a b m ->
    (forall x y z, blend s x y z -> tri s (k1 x) (k2 y) (k3 z)) ->
    tri s (bind (get_child a k) k1) (bind (get_child b k) k2) (bind (get_child m k) k3).
  Proof.
    intros H K. pose proof (blend_get_child s k a b m H) as G. destruct (get_child a k), (get_child b k), (get_child m k); try contradiction; cbn; [now apply K|apply tri_Err].
  Qed.
  Lemma get_ptri k a b m (k1 k2 k3 : prim -> result pyval) : blend s a b m ->
    (forall x y z, blend s x y z -> ptri s (k1 x) (k2 y) (k3 z)) ->
    ptri s (bind (get_child a k) k1) (bind (get_child b k) k2) (bind (get_child m k) k3).
  Proof.
    intros H K. pose proof (blend_get_child s k a b m H) as G. destruct (get_child a k), (get_child b k), (get_child m k); try contradiction; cbn; [now apply K|apply ptri_Err].
  Qed.
  Lemma coincident_tri a b m x y z : blend s a b m -> blend s x y z -> tri s (coincident a x) (coincident b y) (coincident m z).
  Proof. intros H K. unfold coincident. destruct (blend_coord _ _ _ _ H) as [L1 ->], (blend_coord _ _ _ _ K) as [L2 ->]. now apply vsub_tri. Qed.
  Lemma midpoint_tri a b m : blend s a b m -> tri s (midpoint a) (midpoint b) (midpoint m).
  Proof.
    intros H. unfold midpoint. destruct nhalf as [h|]; [|apply tri_Err]. cbn [bind]. apply get_tri; [exact H|]. intros a1 b1 m1 H1. apply get_tri; [exact H|]. intros a2 b2 m2 H2.
    destruct (blend_coord _ _ _ _ H1) as [L1 ->], (blend_coord _ _ _ _ H2) as [L2 ->]. apply tri_bind; [now apply vadd_tri|]. intros r1 r2 Hr. unfold vscale.
    rewrite mix_map by (intros; cbn; lra). apply tri_Ok. now rewrite !map_length.
  Qed.
  Lemma directed_distance_tri d al bl ml : all_blend s al bl ml -> ptri s (directed_distance al d) (directed_distance bl d) (directed_distance ml d).
  Proof.
    intros H. destruct H as [|a0 b0 m0 al bl ml H0 H]; [apply ptri_Err|]. destruct H as [|a1 b1 m1 al bl ml H1 H]; [apply ptri_Err|]. destruct H; [|apply ptri_Err]. cbn [directed_distance].
    destruct (blend_coord _ _ _ _ H0) as [L0 ->], (blend_coord _ _ _ _ H1) as [L1 ->]. apply ptri_bind; [now apply vsub_tri|]. intros. now apply dot_tri.
  Qed.
  Lemma directed_length_tri d al bl ml : all_blend s al bl ml -> ptri s (directed_length al d) (directed_length bl d) (directed_length ml d).
  Proof.
    intros H. destruct H as [|a0 b0 m0 al bl ml H0 H]; [apply ptri_Err|]. destruct H; [|apply ptri_Err]. cbn [directed_length].
    apply ptri_bind; [now apply line_vector_tri|]. intros. now apply dot_tri.
  Qed.
  Lemma midpoint_directed_tri d al bl ml : all_blend s al bl ml -> ptri s (midpoint_directed_distance al d) (midpoint_directed_distance bl d) (midpoint_directed_distance ml d).
  Proof.
    intros H. destruct H as [|a0 b0 m0 al bl ml H0 H]; [apply ptri_Err|]. destruct H as [|a1 b1 m1 al bl ml H1 H]; [apply ptri_Err|]. destruct H; [|apply ptri_Err]. cbn [midpoint_directed_distance].
    apply ptri_bind; [now apply midpoint_tri|]. intros. apply ptri_bind; [now apply midpoint_tri|]. intros. apply ptri_bind; [now apply vsub_tri|]. intros. now apply dot_tri.
  Qed.
  Lemma coincident_lines_tri rev a b m x y z : blend s a b m -> blend s x y z -> ptri s (coincident_lines a x rev) (coincident_lines b y rev) (coincident_lines m z rev).
  Proof.
    intros H K. unfold coincident_lines. destruct (truthy rev) as [r|]; [|apply ptri_Err]. cbn [bind].
    apply get_ptri; [exact K|]. intros a0 b0 m0 H0. apply get_ptri; [exact K|]. intros a1 b1 m1 H1. apply get_ptri; [exact H|]. intros a2 b2 m2 H2. apply get_ptri; [exact H|]. intros a3 b3 m3 H3.
    assert (App : forall u v u' v', length u = length v -> length u' = length v' -> ptri s (Ok (PA1 (u ++ u'))) (Ok (PA1 (v ++ v'))) (Ok (PA1 (mix s u v ++ mix s u' v')))).
    { intros u v u' v' L L'. replace (mix s u v ++ mix s u' v')%list with (mix s (u ++ u') (v ++ v')); [apply ptri_1; rewrite !app_length; lia|]. unfold mix. now rewrite zip_app, map_app. }
    destruct r; (apply ptri_bind; [now apply coincident_tri|]; intros; apply ptri_bind; [now apply coincident_tri|]; intros; now apply App).
  Qed.
End Leaves.

(** ** Classes *)
Lemma const_affine (c : cls) : const_cls c -> affine_cls c.
Proof.
  intros H s al bl ml ps _ v E. rewrite (H bl al), (H ml al), E. do 2 eexists. split; [reflexivity|]. split; [reflexivity|]. constructor.
Qed.
Lemma leaf_affine name sg f : affine_cls {| cname := name; cisa := []; cassem := f |} -> affine_cons (mk_leaf name sg f).
Proof. intros H. unfold affine_cons, mk_leaf. cbn. constructor; [exact H|constructor]. Qed.
Lemma no_params_affine name f : (forall s al bl ml, all_blend s al bl ml -> ptri s (f al) (f bl) (f ml)) -> affine_cls {| cname := name; cisa := []; cassem := no_params f |}.
Proof. intros H s al bl ml ps Hb. cbn. unfold no_params. destruct ps; [now apply H|apply ptri_Err]. Qed.
Lemma one_param_affine name f : (forall d s al bl ml, all_blend s al bl ml -> ptri s (f al d) (f bl d) (f ml d)) ->
  affine_cls {| cname := name; cisa := []; cassem := fun prims params => match params with [d] => f prims d | _ => Err TypeErr end |}.
Proof. intros H s al bl ml ps Hb. cbn. destruct ps as [|d [|]]; [apply ptri_Err|now apply H|apply ptri_Err]. Qed.

Definition affine_leaves : list cons :=
  [Coordinate; DirectedDistance; XDistance; YDistance; LineVector; DirectedLength; XLength; YLength; Midpoint;
   MidpointDirectedDistance; MidpointXDistance; MidpointYDistance; Coincident; Vertical; Horizontal; CoincidentLines].
Lemma leaves_affine : Forall affine_cons affine_leaves.
Proof.
  unfold affine_leaves. repeat (apply Forall_cons; [apply leaf_affine|]); [..|apply Forall_nil].
  1: { intros s al bl ml ps H. cbn. destruct H as [|a b m al bl ml H0 H]; [apply ptri_Err|]. destruct H; [|destruct ps; apply ptri_Err]. cbn. destruct ps; [|apply ptri_Err].
       destruct (blend_coord _ _ _ _ H0) as [L ->]. now apply ptri_1. }
  1: { apply (one_param_affine _ directed_distance). intros. now apply directed_distance_tri. }
  1-2: apply no_params_affine; intros; now apply directed_distance_tri.
  1: { apply no_params_affine. intros s al bl ml H. destruct H as [|a b m al bl ml H0 H]; [apply ptri_Err|]. destruct H; [|apply ptri_Err]. cbn. apply ptri_bind; [now apply line_vector_tri|]. intros. now apply ptri_1. }
  1: { apply (one_param_affine _ directed_length). intros. now apply directed_length_tri. }
  1-2: apply no_params_affine; intros; now apply directed_length_tri.
  1: { apply no_params_affine. intros s al bl ml H. destruct H as [|a b m al bl ml H0 H]; [apply ptri_Err|]. destruct H; [|apply ptri_Err]. apply ptri_bind; [now apply midpoint_tri|]. intros. now apply ptri_1. }
  1: { apply (one_param_affine _ midpoint_directed_distance). intros. now apply midpoint_directed_tri. }
  1-2: apply no_params_affine; intros; now apply midpoint_directed_tri.
  1: { apply no_params_affine. intros s al bl ml H. destruct H as [|a b m al bl ml H0 H]; [apply ptri_Err|]. destruct H as [|a1 b1 m1 al bl ml H1 H]; [apply ptri_Err|]. destruct H; [|apply ptri_Err].
       apply ptri_bind; [now apply coincident_tri|]. intros. now apply ptri_1. }
  1-2: apply no_params_affine; intros; now apply directed_length_tri.
  intros s al bl ml ps H. cbn. destruct H as [|a b m al bl ml H0 H]; [apply ptri_Err|]. destruct H as [|a1 b1 m1 al bl ml H1 H]; [apply ptri_Err|]. destruct H; [|apply ptri_Err].
  destruct ps as [|d [|]]; try apply ptri_Err. now apply coincident_lines_tri.
Qed.

(** ** Transforms *)
Lemma preorder_tmap_types {T A T' A'} (P : T' -> Prop) (h : node T A -> T' * A') (n : node T A) :
  Forall (fun m => P (fst (h m))) (preorder n) -> Forall (fun m => P (ntype m)) (preorder (tmap h n)).
Proof.
  intros H. pose proof (tmap_preorder h n) as E. apply (f_equal (map (fun x => fst (fst x)))) in E. rewrite !map_map in E. cbn in E.
  rewrite <- (Forall_map (fun m => fst (h m))) in H. rewrite <- E in H. rewrite Forall_map in H. exact H.
Qed.
Lemma vtree_classes {T} (n : node T nat) : Forall (fun m => ntype m = vector_cls) (preorder (vtree (F:=R) n)).
Proof.
  induction n as [t v ch IH] using node_ind'. cbn [vtree preorder]. constructor; [reflexivity|]. clear -IH.
  induction ch as [|[k c] ch IHc]; [constructor|]. cbn. inversion IH; subst. apply Forall_app. auto.
Qed.
Lemma neg_vector_const (c : cons) : Forall (fun m => const_cls (ntype m)) (preorder (neg_vector c)).
Proof.
  unfold neg_vector. apply preorder_tmap_types. eapply Forall_impl; [|apply vtree_classes]. intros m Hm al bl ps. cbn [sc_node scalar_node fst cassem].
  repeat match goal with |- context [let (_, _) := ?x in _] => destruct x end. cbv beta in Hm. rewrite Hm. reflexivity.
Qed.
Lemma slice_blend s a b al bl ml : all_blend s al bl ml -> all_blend s (slice a b al) (slice a b bl) (slice a b ml).
Proof.
  unfold slice. intros H. assert (S : all_blend s (skipn a al) (skipn a bl) (skipn a ml)).
  { revert a. induction H as [|x y z al bl ml Hx H IH]; intros [|a]; cbn; try constructor; auto. }
  clear H. revert S. generalize (skipn a al), (skipn a bl), (skipn a ml). intros p q r S. generalize (b - a)%nat. induction S; intros [|n]; cbn; constructor; auto.
Qed.
Lemma split_blend s na nb al bl ml a1 a2 b1 b2 m1 m2 : all_blend s al bl ml -> split na nb al = (a1, a2) -> split na nb bl = (b1, b2) -> split na nb ml = (m1, m2) ->
  all_blend s a1 b1 m1 /\ all_blend s a2 b2 m2.
Proof.
  unfold split, chunk. cbn. intros H Ea Eb Em. injection Ea as <- <-. injection Eb as <- <-. injection Em as <- <-. split; [exact (slice_blend s 0 na _ _ _ H)|exact (slice_blend s na (na + nb) _ _ _ H)].
Qed.
Lemma sum_affine (a b : cons) : affine_cls (ntype a) -> const_cls (ntype b) -> affine_cls (fst (sum_parts a b)).
Proof.
  intros Ha Hb s al bl ml ps H. cbn [sum_parts fst cassem].
  set (na := length (prim_types (csig (nval a)))). set (nb := length (prim_types (csig (nval b)))).
  destruct (split na nb al) as [a1 a2] eqn:Ea, (split na nb bl) as [b1 b2] eqn:Eb, (split na nb ml) as [m1 m2] eqn:Em.
  destruct (split_blend _ _ _ _ _ _ _ _ _ _ _ _ H Ea Eb Em) as [H1 H2]. match goal with |- context [let (_, _) := ?x in _] => destruct x as [p1 p2] end.
  intros v E. destruct (cassem (ntype a) a1 p1) as [x1|] eqn:Ex; [|discriminate]. cbn in E. destruct (cassem (ntype b) a2 p2) as [y|] eqn:Ey; [|discriminate]. cbn in E.
  destruct (Ha s a1 b1 m1 p1 H1 x1 Ex) as (x2 & x3 & -> & -> & Hx). cbn. rewrite (Hb b2 a2), (Hb m2 a2), Ey. cbn. exact (add_const s y x1 x2 x3 Hx v E).
Qed.
Lemma tsum_affine (a : cons) : forall b, affine_cons a -> Forall (fun m => const_cls (ntype m)) (preorder b) -> affine_cons (tsum a b).
Proof.
  induction a as [ta va cha IH] using node_ind'. intros [tb vb chb] Ha Hb. unfold affine_cons in *. rewrite tsum_unfold. cbn [preorder] in *.
  inversion Ha as [|? ? Ha0 Ha']; inversion Hb as [|? ? Hb0 Hb']; subst. constructor; [now apply sum_affine|].
  clear Ha Hb Ha0 Hb0. revert chb Hb'. induction cha as [|[k x] cha IHc]; intros [|[k' y] chb] Hb'; cbn; try constructor.
  cbn in Ha', Hb'. apply Forall_app in Ha' as [A1 A2], Hb' as [B1 B2]. inversion IH; subst. apply Forall_app. split; [now apply H1|]. now apply IHc.
Qed.
Lemma constraint_affine (c d : cons) : wf c -> named c -> affine_cons c -> transform_constraint c = Ok d -> affine_cons d.
Proof. intros Hw Hn Hc E. rewrite constraint_ok in E by assumption. injection E as <-. apply tsum_affine; [assumption|apply neg_vector_const]. Qed.
Lemma mk_cons_affine (t : cls) v ch (c : cons) : mk_cons t v ch = Ok c -> affine_cls t -> Forall (fun kc => affine_cons (snd kc)) ch -> affine_cons c.
Proof.
  intros E Ht Hc. destruct (mk_cons_cases t v ch) as [(_ & _ & E')|[_ E']]; rewrite E' in E; [|discriminate]. injection E as <-.
  unfold affine_cons. cbn [preorder]. constructor; [exact Ht|]. clear E'. induction Hc as [|[k x] ch Hx Hc IH]; cbn; [constructor|]. apply Forall_app. auto.
Qed.
Lemma construction_affine (t : cls) keys cs pks cps sg (c : cons) : mk_construction t keys cs pks cps sg = Ok c -> affine_cls t -> Forall affine_cons cs -> affine_cons c.
Proof.
  intros E Ht Hc. eapply mk_cons_affine; [exact E|exact Ht|]. apply Forall_forall. intros [k x] H. apply dict_of_In in H. apply zip_In in H as [_ H]. rewrite Forall_forall in Hc. now apply Hc.
Qed.
Lemma compound_affine name kinds n : affine_cls {| cname := name; cisa := kinds; cassem := cassem (compound_cls name n) |}.
Proof. apply const_affine. intros al bl ps. reflexivity. Qed.
Lemma empty_affine name kinds : affine_cls {| cname := name; cisa := kinds; cassem := empty_assem |}.
Proof. apply const_affine. intros al bl ps. reflexivity. Qed.
