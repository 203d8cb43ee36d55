(** The solver in another unit of length. *)
From Coq Require Import Reals Lra.
From Verif Require Export UnitLayout P_Same.
From Verif Require Import P_Affine EndProofs.
Local Open Scope R_scope.

Section Pack.
  Variable k : R.
  Hypothesis Hk : 0 < k.
  Notation scale := (scale k).
  Notation times_k := (map (Rmult k)).
  Definition scv (v : pv R) : pv R := {| vid := vid v; vdata := times_k (vdata v) |}.

  Lemma scale_preorder (p : prim) : preorder (scale p) = map scale (preorder p).
  Proof.
    induction p as [t v ch IH] using node_ind'. cbn [ScaleSpec.scale preorder map]. f_equal. rewrite Forall_forall in IH.
    rewrite flat_map_concat_map, map_map, flat_map_concat_map, concat_map, map_map. f_equal. apply map_ext_in. intros kc H. cbn [snd]. now apply (IH kc).
  Qed.
  Lemma scale_nval (p : prim) : nval (scale p) = scv (nval p).
  Proof. destruct p. reflexivity. Qed.
  Lemma scale_values (p : prim) : node_values (scale p) = map scv (node_values p).
  Proof. unfold node_values. rewrite scale_preorder, !map_map. apply map_ext. intros n. apply scale_nval. Qed.
  Lemma scale_wf (p : prim) : wf p -> wf (scale p).
  Proof.
    induction p as [t v ch IH] using node_ind'. intros H. inversion H as [? ? ? Hd Hc]; subst. cbn. constructor.
    - unfold dkeys. rewrite map_map. exact Hd.
    - rewrite Forall_forall in *. intros kc Hin. apply in_map_iff in Hin as (kc' & <- & Hin). cbn [snd]. apply IH; auto.
  Qed.
  Lemma scale_slashfree (p : prim) : slashfree p -> slashfree (scale p).
  Proof.
    induction p as [t v ch IH] using node_ind'. intros H. inversion H as [? ? ? Hd Hc]; subst. cbn. constructor.
    - rewrite Forall_forall in *. intros kc Hin. apply in_map_iff in Hin as (kc' & <- & Hin). cbn [fst]. now apply Hd.
    - rewrite Forall_forall in *. intros kc Hin. apply in_map_iff in Hin as (kc' & <- & Hin). cbn [snd]. apply IH; auto.
  Qed.
  Lemma scale_ids (p : prim) : ids_consistent p -> ids_consistent (scale p).
  Proof.
    intros H a b. rewrite scale_values. intros Ha Hb E. apply in_map_iff in Ha as (x & <- & Hx), Hb as (y & <- & Hy). cbn [scv vid] in E. now rewrite (H x y Hx Hy E).
  Qed.
  Lemma scale_uniques (p : prim) : wf p -> slashfree p -> snd (filter_unique (scale p)) = map scv (snd (filter_unique p)).
  Proof.
    intros Hw Hs. rewrite !filter_values by auto using scale_wf, scale_slashfree. rewrite scale_values. change (@nil (pv R)) with (map scv []) at 1. apply firsts_map. intros v w _ _. reflexivity.
  Qed.
  Lemma scale_global l : global_of (map scv l) = times_k (global_of l).
  Proof. unfold global_of. rewrite map_map. cbn [scv vdata]. induction l as [|v l IH]; [reflexivity|]. cbn [map List.concat]. now rewrite map_app, IH. Qed.
  Lemma scale_initial (p : prim) : wf p -> slashfree p -> initial_global (scale p) = times_k (initial_global p).
  Proof. intros Hw Hs. unfold initial_global. rewrite scale_uniques by assumption. apply scale_global. Qed.
  Lemma scale_slices l g : slices (map scv l) (times_k g) = map times_k (slices l g).
  Proof.
    unfold slices. cbv zeta. rewrite !chunk_cut. unfold sizes_of. rewrite map_map. cbn [scv vdata].
    rewrite (map_ext (fun v : pv R => length (times_k (vdata v))) (fun v => length (vdata v))) by (intros; apply map_length).
    revert g. generalize (map (fun v : pv R => length (vdata v)) l). intros sz. induction sz as [|n sz IH]; intros g; [reflexivity|]. cbn [cut map]. now rewrite firstn_map, skipn_map, IH.
  Qed.
  Lemma fresh_scale cs : fresh_values (map times_k cs) = map scv (fresh_values cs).
  Proof.
    unfold fresh_values. rewrite map_length, map_map. generalize (seq 0 (length cs)). induction cs as [|c cs IH]; intros [|i s]; try reflexivity. cbn [map zip fst snd]. now rewrite IH.
  Qed.
  Lemma pos_scale i l : pos i (map scv l) = pos i l.
  Proof. induction l as [|v l IH]; [reflexivity|]. cbn. now rewrite IH. Qed.
  Lemma tmap_scale (G G' : prim -> ptype * pv R) (p : prim) : (forall n, In n (preorder p) -> G' (scale n) = (fst (G n), scv (snd (G n)))) -> tmap G' (scale p) = scale (tmap G p).
  Proof.
    induction p as [t v ch IH] using node_ind'. intros H. pose proof (H _ (or_introl eq_refl)) as H0. cbn [tmap ScaleSpec.scale] in *. rewrite H0. cbn [fst snd scv vid vdata]. f_equal. rewrite !map_map. apply map_ext_in. intros kc Hc. cbn [fst snd].
    f_equal. rewrite Forall_forall in IH. apply (IH kc Hc). intros n Hn. apply H. cbn [preorder]. right. apply in_flat_map. eauto.
  Qed.
  Lemma new_scale (p : prim) g : wf p -> slashfree p -> new_tree (scale p) (times_k g) = scale (new_tree p g).
  Proof.
    intros Hw Hs. unfold new_tree, rebuilt. rewrite scale_uniques by assumption. rewrite scale_slices, fresh_scale. apply tmap_scale. intros n Hn.
    cbn [fst snd]. rewrite scale_type, scale_nval, pos_scale. cbn [scv vid]. f_equal. destruct (pos _ _) as [i|]; [|reflexivity]. symmetry. rewrite <- (map_nth scv). reflexivity.
  Qed.
  Lemma scale_distance g : forall h, distance2 (times_k g) (times_k h) = (k * k) * distance2 g h.
  Proof.
    unfold distance2, sumsq, dotp, minus. induction g as [|x g IH]; intros [|y h]; try (cbn; ring). cbn [map combine fst snd fold_right]. rewrite IH. ring.
  Qed.
End Pack.
Lemma scale_back k (p : prim) : k <> 0 -> scale k (scale (/ k) p) = p.
Proof.
  intros Hk. induction p as [t [i d] ch IH] using node_ind'. cbn. f_equal.
  - f_equal. rewrite map_map. rewrite <- (map_id d) at 2. apply map_ext. intros x. field. exact Hk.
  - rewrite map_map. rewrite <- (map_id ch) at 2. rewrite Forall_forall in IH. apply map_ext_in. intros [s c] Hin. cbn [fst snd]. f_equal. exact (IH _ Hin).
Qed.
Section Reached.
  Variable k : R.
  Notation scale := (scale k).
  Lemma scale_drawn L (p : prim) : drawn L p -> drawn (map (scv k) L) (scale p).
  Proof.
    intros ((Hw & Hs) & H). split; [split; [now apply scale_wf|now apply scale_slashfree]|]. intros w. change (held (scale p)) with (node_values (scale p)). rewrite scale_values.
    intros Hin. apply in_map_iff in Hin as (x & <- & Hx). apply in_map. now apply H.
  Qed.
  Lemma scale_pool L n : pool L n -> pool (map (scv k) L) n.
  Proof.
    intros (A & B). split.
    - intros a b Ha Hb E. apply in_map_iff in Ha as (x & <- & Hx), Hb as (y & <- & Hy). cbn [scv vid] in E. now rewrite (A x y Hx Hy E).
    - intros a Ha. apply in_map_iff in Ha as (x & <- & Hx). exact (B x Hx).
  Qed.
  Lemma unit_given L acts acts' : Forall2 (act_unit k) acts acts' ->
    Forall (fun a => Forall (drawn L) (given_prims a) /\ Forall affine_constraint (given_cons a)) acts ->
    Forall (fun a => Forall (drawn (map (scv k) L)) (given_prims a) /\ Forall affine_constraint (given_cons a)) acts'.
  Proof.
    induction 1 as [|a a' acts acts' U _ IH]; intros H; [constructor|]. inversion H as [|? ? [A B] C]; subst. constructor; [|now apply IH].
    inversion U; subst; cbn [given_prims given_cons] in *; split; try assumption; try constructor.
    - inversion A; subst. now apply scale_drawn.
    - constructor.
    - rewrite map_map. apply Forall_forall. intros x Hx. apply in_map_iff in Hx as (y & <- & Hy). cbn [snd]. apply scale_drawn. rewrite Forall_forall in A. apply A. now apply in_map.
  Qed.
End Reached.
