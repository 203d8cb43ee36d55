(** Property C106: solving a layout stated in another unit of length.  Vocabulary: UnitSpec.v
    (calls in another unit), ScaleSpec.v, BackendSpec.v, P_Same.v ([satisfied]). *)
From Coq Require Import Reals Lra.
From Verif Require Import UnitSolve P_Unit P_Scale.
From Verif Require Import P_Affine EndProofs.
Local Open Scope R_scope.

(** The same calls in another unit of length.  If the constraints (affine ones) can be
    satisfied at all, the solver returns the same primitives in the other unit: every
    coordinate is multiplied by k.  The backends, tolerances and numbers of iterations may differ. *)
Theorem C106_solve k rid tw tw' acts acts' L n (l l' : layout) bk bk' r abs_tol rel_tol max_iter abs_tol' rel_tol' max_iter' :
  0 < k -> Forall2 (act_unit k) acts acts' -> runs (empty_layout rid) acts l -> runs (empty_layout rid) acts' l' ->
  Forall (shipped_act tw) acts -> Forall (shipped_act tw') acts' -> Forall top_key acts ->
  pool L n -> In {| vid := rid; vdata := [] |} L ->
  Forall (fun a => Forall (drawn L) (given_prims a) /\ Forall affine_constraint (given_cons a)) acts ->
  exact_on bk l -> exact_on bk' l' -> layout_residual l (l_prim l) = Ok r ->
  (exists q, same_structure (l_prim l) q /\ ids_consistent q /\ satisfied l q) -> (1 <= max_iter)%nat -> (1 <= max_iter')%nat ->
  exists p info info', newton_solve bk l abs_tol rel_tol max_iter = Ok (p, info) /\
    newton_solve bk' l' abs_tol' rel_tol' max_iter' = Ok (scale k p, info') /\ satisfied l p.
Proof.
  intros Hk HU Hr Hr' Hsh Hsh' Ht HP HL Ha Hbk Hbk' Er (q & Q1 & Q2 & Q3) Hm Hm'.
  assert (Hl : reached affine_constraint l). { exists rid, acts, L, n. split; [symmetry; now apply runs_after|]. auto. }
  assert (Hl' : reached affine_constraint l').
  { exists rid, acts', (map (scv k) L), n. split; [symmetry; now apply runs_after|]. split; [now apply scale_pool|]. split; [|now apply unit_given with acts]. apply (in_map (scv k)) in HL. exact HL. }
  destruct (C104_layout k tw tw' rid acts acts' l Hk Hr HU Hsh Hsh' Ht) as (l2 & Hr2 & Hp & Hres).
  assert (l2 = l') by (rewrite <- (runs_after _ _ _ Hr2); now apply runs_after). subst l2.
  destruct (reached_sane _ l affine_constraint_tidy Hl) as (Hw & Hs & Hi). set (P := l_prim l) in *.
  assert (Hsat : forall p, same_structure P p -> satisfied l p <-> satisfied l' (scale k p)) by (intros p Sp; exact (proj2 (Hres p Sp))).
  destruct (proj1 (Hres P (same_structure_refl P)) r Er) as (r' & Er' & _). rewrite <- Hp in Er'.
  destruct (C83_least_squares l bk r abs_tol rel_tol max_iter Hl Hbk Er Hm) as (p & info & z & E & S & Ez & M).
  destruct (C83_least_squares l' bk' r' abs_tol' rel_tol' max_iter' Hl' Hbk' Er' Hm') as (p' & info' & z' & E' & S' & Ez' & M').
  assert (Z : forall z z0, zeros z0 -> sumsq z <= sumsq z0 -> zeros z). { intros a b Hb H. apply sumsq_zero. now rewrite (zeros_sumsq b Hb) in H. }
  pose proof (proj1 (Hsat q Q1) Q3) as (zq' & Ezq' & Hzq'). destruct Q3 as (zq & Ezq & Hzq).
  assert (Hz : zeros z) by (apply (Z z zq Hzq); now apply (M q)).
  pose proof (scale_structure k _ _ Q1) as Q1'. rewrite <- Hp in Q1'.
  assert (Hz' : zeros z') by (apply (Z z' zq' Hzq'); apply (M' (scale k q)); [exact Q1'|now apply scale_ids|exact Ezq']).
  destruct (solved_tree l bk _ _ _ _ _ Hw Hs Hbk E) as (g & -> & Lg). fold P in Lg, S, Ez, M, E |- *.
  assert (Hw' : wf (l_prim l')) by (rewrite Hp; now apply scale_wf). assert (Hs' : slashfree (l_prim l')) by (rewrite Hp; now apply scale_slashfree).
  destruct (solved_tree l' bk' _ _ _ _ _ Hw' Hs' Hbk' E') as (g' & -> & Lg'). rewrite Hp in E', S', Ez', M', Lg'.
  rewrite scale_initial, map_length in Lg' by assumption.
  pose (h := map (Rmult (/ k)) g'). assert (Eg : g' = map (Rmult k) h). { unfold h. rewrite map_map. rewrite <- (map_id g') at 1. apply map_ext. intros x. field. lra. }
  assert (Lh : length h = length (initial_global P)) by (unfold h; rewrite map_length; exact Lg').
  rewrite Eg, new_scale in E', S', Ez', M' by assumption.
  assert (Sh : same_structure P (new_tree P h)) by (now apply new_structure).
  destruct (proj2 (Hsat _ Sh) (ex_intro _ z' (conj Ez' Hz'))) as (u & Eu & Hu).
  destruct (proj1 (Hsat _ S) (ex_intro _ z (conj Ez Hz))) as (u' & Eu' & Hu').
  destruct (M _ _ Sh (new_ids P h Hw Hs) Eu) as [_ N]. rewrite (zeros_sumsq u Hu), (zeros_sumsq z Hz) in N. destruct (N eq_refl) as [_ N2].
  destruct (M' (scale k (new_tree P g)) u') as [_ N']; [now apply scale_structure|apply scale_ids, new_ids; assumption|exact Eu'|].
  rewrite (zeros_sumsq u' Hu'), (zeros_sumsq z' Hz') in N'. destruct (N' eq_refl) as [N1' _]. clear N N'.
  rewrite !scale_initial in N1' by auto using new_wf, new_slashfree. rewrite !new_global in N1', N2 by assumption. rewrite !scale_distance in N1'.
  assert (Hgh : h = g). { apply N2. apply Rmult_le_reg_l with (k * k); [nra|exact N1']. }
  rewrite Hgh in E'. exists (new_tree P g), info, info'. split; [exact E|]. split; [exact E'|]. exists z. auto.
Qed.
(** The figure drawn from the result is the same picture, k times the size. *)
Theorem C106_figure k rid tw tw' acts acts' L n (l l' : layout) bk bk' r abs_tol rel_tol max_iter abs_tol' rel_tol' max_iter' p p' info info' fig axs tr o :
  0 < k -> Forall2 (act_unit k) acts acts' -> runs (empty_layout rid) acts l -> runs (empty_layout rid) acts' l' ->
  Forall (shipped_act tw) acts -> Forall (shipped_act tw') acts' -> Forall top_key acts ->
  pool L n -> In {| vid := rid; vdata := [] |} L ->
  Forall (fun a => Forall (drawn L) (given_prims a) /\ Forall affine_constraint (given_cons a)) acts ->
  exact_on bk l -> exact_on bk' l' -> layout_residual l (l_prim l) = Ok r ->
  (exists q, same_structure (l_prim l) q /\ ids_consistent q /\ satisfied l q) -> (1 <= max_iter)%nat -> (1 <= max_iter')%nat ->
  newton_solve bk l abs_tol rel_tol max_iter = Ok (p, info) -> newton_solve bk' l' abs_tol' rel_tol' max_iter' = Ok (p', info') ->
  update_subplots p fig axs = (tr, o) ->
  exists tr', update_subplots p' fig axs = (tr', o) /\ sizes tr' = map (fun s => (k * fst s, k * snd s)) (sizes tr) /\
    positions tr' = positions tr /\ labels tr' = labels tr /\ ticks tr' = ticks tr.
Proof.
  intros Hk HU Hr Hr' Hsh Hsh' Ht HP HL Ha Hbk Hbk' Er Hex Hm Hm' E E' Ed.
  destruct (C106_solve k rid tw tw' acts acts' L n l l' bk bk' r abs_tol rel_tol max_iter abs_tol' rel_tol' max_iter') as (q & i & i' & G & G' & _); try assumption.
  rewrite E in G. rewrite E' in G'. injection G as -> _. injection G' as -> _. now apply C103_figure.
Qed.

(** The figure of C60 (a box 3 inches by 4 at the origin), and the same in centimetres. *)
Definition metric60 : list (action R) :=
  [AddPrim (scale inch quad60) "Q"; AddConstraint (ok_cons Box) ["Q"%string] [] "B";
   AddConstraint (ok_cons crFix) ["Q/Line0/Point0"%string] [PA1 (map (Rmult inch) [0; 0])] "F";
   AddConstraint (ok_cons crWidth) ["Q"%string] [PFlt (inch * 3)] "W"; AddConstraint (ok_cons crHeight) ["Q"%string] [PFlt (inch * 4)] "H"].
Lemma unit60 : Forall2 (act_unit inch) acts60 metric60.
Proof.
  unfold acts60, metric60. repeat (apply Forall2_cons; [constructor|]); [..|apply Forall2_nil].
  - apply u_none; rewrite <- ok_of; [unfold unitless; cbn [In]; tauto|vm_compute; reflexivity].
  - apply u_fix. rewrite <- ok_of; [reflexivity|vm_compute; reflexivity].
  - apply u_length; [|apply metric_length]. rewrite <- ok_of; [unfold lengths, dimensions, margins; cbn [map app In]; tauto|vm_compute; reflexivity].
  - apply u_length; [|apply metric_length]. rewrite <- ok_of; [unfold lengths, dimensions, margins; cbn [map app In]; tauto|vm_compute; reflexivity].
Qed.
Lemma shipped_metric60 : Forall (shipped_act false) metric60.
Proof.
  unfold metric60. repeat (apply Forall_cons; [first [exact I|cbn [shipped_act]]|]); [..|apply Forall_nil].
  - apply sh_plain; [rewrite <- ok_of; [unfold plain; cbn [In app map]; tauto|vm_compute; reflexivity]|vm_compute; reflexivity].
  - apply sh_plain; [rewrite <- ok_of; [unfold plain; cbn [In app map]; tauto|vm_compute; reflexivity]|vm_compute; reflexivity].
  - apply sh_dimension; [|left; reflexivity]; rewrite <- ok_of; [unfold dimensions, margins; cbn [map app In]; tauto|vm_compute; reflexivity].
  - apply sh_dimension; [|left; reflexivity]; rewrite <- ok_of; [unfold dimensions, margins; cbn [map app In]; tauto|vm_compute; reflexivity].
Qed.
Example C106_case : exists L n l' r, 0 < inch /\ Forall2 (act_unit inch) acts60 metric60 /\ runs (empty_layout 0) acts60 l60 /\ runs (empty_layout 0) metric60 l' /\
  Forall (shipped_act false) acts60 /\ Forall (shipped_act false) metric60 /\ Forall top_key acts60 /\
  pool L n /\ In {| vid := 0; vdata := [] |} L /\ Forall (fun a => Forall (drawn L) (given_prims a) /\ Forall affine_constraint (given_cons a)) acts60 /\
  exact_on bk83 l60 /\ exact_on bk83 l' /\ layout_residual l60 (l_prim l60) = Ok r /\
  (exists q, same_structure (l_prim l60) q /\ ids_consistent q /\ satisfied l60 q).
Proof.
  destruct C60_case as (L & n & P1 & P2 & P3 & P4 & (z & H1 & H2 & H3 & H4) & _). destruct shipped_layout86 as [(rid & tw & _ & _ & _ & _ & Ht & _) _]. destruct (proj1 residual86) as (r & Er).
  assert (Hk : 0 < inch) by (unfold inch; lra). pose proof unit60 as HU. pose proof shipped_metric60 as Hm.
  assert (Hs : Forall (shipped_act false) acts60). { unfold acts60. repeat (apply Forall_cons; [first [exact I | apply shipped60; [cbn [In]; tauto|reflexivity|cbn [In]; tauto]]|]); apply Forall_nil. }
  destruct (C104_layout inch false false 0 acts60 metric60 l60 Hk P4 HU Hs Hm Ht) as (l' & Hr' & Hp & Hres).
  assert (Hl : reached affine_constraint l60) by apply reached86.
  assert (Hl' : reached affine_constraint l').
  { exists 0%nat, metric60, (map (scv inch) L), n. split; [symmetry; now apply runs_after|]. split; [now apply scale_pool|]. split; [|now apply unit_given with acts60]. apply (in_map (scv inch)) in P2. exact P2. }
  destruct (proj1 (Hres _ (same_structure_refl _)) r Er) as (r' & Er' & _). rewrite <- Hp in Er'.
  exists L, n, l', r. repeat (split; [first [assumption|exact (exact83 _ _ Hl Er)|exact (exact83 _ _ Hl' Er')]|]). exists goal60. split; [exact H1|]. split; [exact H2|]. exists z. auto.
Qed.

Print Assumptions C106_solve.
Print Assumptions C106_figure.
