(** C82: a backend that is exact on every layout exists, so the assumption of C82-C88 can
    always be met; and nonlinear cases of C87 and C88. *)
From Coq Require Import Reals Lra.
From Coquelicot Require Import Derive.
From Verif Require Export P_Move.
From Verif Require Import P_Affine.
Local Open Scope R_scope.

(** Partial derivatives as limits of difference quotients, and the solution of the normal
    equations. *)
Definition ideal : backend :=
  {| grad := fun f g => map (fun j => Derive (fun t => f (bump g j t)) 0) (seq 0 (length g)); lstsq := fun n A b => Ok (shortest n A b) |}.
Theorem C82_ideal_backend : exists bk, forall n,
  (forall res, exact bk n res) /\ same_gradients bk n /\ shift_gradients bk n.
Proof.
  exists ideal. intros n. split; [|split].
  - intros res. split; [intros k A b HA Hb; exists (shortest k A b); split; [reflexivity|now apply shortest_least]|].
    intros i g Hg. cbn [grad ideal]. split; [now rewrite map_length, seq_length|]. intros j v Hj Hv. set (h := fun j => Derive (fun t => component res i (bump g j t)) 0).
    rewrite (nth_indep _ 0 (h 0%nat)) by (rewrite map_length, seq_length; congruence). rewrite map_nth, seq_nth by congruence. unfold h. cbn [Nat.add]. apply is_derive_unique, is_derive_Reals. exact Hv.
  - intros f f' g Hg H. cbn [grad ideal]. apply map_ext. intros j. apply Derive_ext. intros t. apply H. now rewrite bump_length.
  - intros f g e Hg He. cbn [grad ideal]. rewrite shifted_length by congruence. apply map_ext. intros j. apply Derive_ext. intros t. f_equal. apply nth_eq; [rewrite bump_length, !shifted_length; rewrite ?bump_length; congruence|].
    intros i. rewrite !bump_shifted. assert (U : length (unit_vector (length g) j) = length g) by apply unit_length. rewrite (shifted_length g 1 e) by congruence. rewrite !shifted_nth; rewrite ?shifted_length; try congruence. lra.
Qed.

(** The lower side of a unit square asked to have length 2. *)
Definition acts_len : list (action R) := [AddPrim quad60 "Q"; AddConstraint (ok_cons crLength) ["Q/Line0"%string] [PFlt 2%R] "D"].
Definition l_len : layout := after (empty_layout 0) acts_len.
Lemma tidy_length : tidy_expression (ok_cons crLength) /\ tidy_relative (ok_cons crLength).
Proof.
  assert (G : (if crLength (F:=R) then true else false) = true) by (vm_compute; reflexivity). apply ok_of in G.
  assert (Sh : shipped false (ok_cons crLength) [PFlt 2]) by (apply sh_plain; [rewrite <- G; unfold plain; cbn [In List.app]; tauto|vm_compute; reflexivity]).
  destruct (shipped_neat _ _ _ Sh) as [(H1 & H2 & _) _].
  split; (split; [exact H1|split; [exact H2|]]); [now apply (shipped_expressible false _ [PFlt 2])|].
  destruct (C88_shipped false _ _ Sh) as [E|E]; [|exact E].
  exfalso. apply (f_equal (fun r => match r with Ok c => prim_types (csig (nval c)) | Err _ => [] end)) in E.
  assert (E1 : match crFix (F:=R) with Ok c => prim_types (csig (nval c)) | Err _ => [] end = [TPoint]) by (vm_compute; reflexivity).
  assert (E2 : prim_types (csig (nval (ok_cons crLength))) = [TLine]) by (vm_compute; reflexivity). rewrite E1, E2 in E. discriminate.
Qed.
Lemma given_len (P : cons -> Prop) : P (ok_cons crLength) -> reached P l_len.
Proof.
  intros HP. destruct C60_case as (L & n & H1 & H2 & H3 & _). exists 0%nat, acts_len, L, n. split; [reflexivity|]. split; [exact H1|]. split; [exact H2|].
  assert (Hq : Forall (drawn L) (given_prims (AddPrim quad60 "Q"))).
  { rewrite Forall_forall in H3. apply (H3 (AddPrim quad60 "Q")). unfold acts60. left. reflexivity. }
  cbn [given_prims] in Hq. unfold acts_len. repeat (apply Forall_cons; [split; cbn [given_prims given_cons]; [first [exact Hq|apply Forall_nil]|]; first [apply Forall_nil|apply Forall_cons; [exact HP|apply Forall_nil]]|]). apply Forall_nil.
Qed.
Lemma start_len : initial_global (l_prim l_len) = [0; 0; 1; 0; 1; 1; 0; 1].
Proof. lazy -[IZR]. reflexivity. Qed.
Lemma planar_len : planar (l_prim l_len).
Proof.
  unfold planar. assert (E : exists ds, map (fun m => vdata (nval m)) (preorder (l_prim l_len)) = ds /\ Forall flat2 ds).
  { eexists. split; [lazy -[IZR]; reflexivity|]. repeat (apply Forall_cons; [first [left; reflexivity | right; eexists _, _; reflexivity]|]). apply Forall_nil. }
  destruct E as (ds & E & H). rewrite <- E in H. now rewrite Forall_map in H.
Qed.
Lemma res_len a b c d e f u v : global_res l_len [a; b; c; d; e; f; u; v] = Ok [sqrt ((c - a) * (c - a) + (d - b) * (d - b)) - 2].
Proof.
  transitivity (Ok [sqrt ((c - a) * (c - a) + ((d - b) * (d - b) + 0)) + -1 * 2]).
  - lazy -[IZR Rplus Rminus Rmult Ropp Rlt_dec Req_EM_T Rdiv sqrt]. destruct (Rlt_dec _ 0) as [H|]; [|reflexivity]. exfalso. pose proof (Rle_0_sqr (c - a)). pose proof (Rle_0_sqr (d - b)). unfold Rsqr in *. lra.
  - f_equal. f_equal. rewrite !Rplus_0_r. lra.
Qed.
Lemma limit_len p q : derivable_pt_lim (fun t => sqrt ((1 + t * p) * (1 + t * p) + (0 + t * q) * (0 + t * q)) - 2) 0 p.
Proof.
  assert (H : derivable_pt_lim (fun t => sqrt ((1 + t * p) * (1 + t * p) + (0 + t * q) * (0 + t * q)) - 2) 0 (/ (2 * sqrt ((1 + 0 * p) * (1 + 0 * p) + (0 + 0 * q) * (0 + 0 * q))) * ((p * (1 + 0 * p) + (1 + 0 * p) * p) + (q * (0 + 0 * q) + (0 + 0 * q) * q)) - 0)).
  { apply (derivable_pt_lim_minus (fun t => sqrt ((1 + t * p) * (1 + t * p) + (0 + t * q) * (0 + t * q))) (fun _ => 2)); [|apply derivable_pt_lim_const].
    apply (derivable_pt_lim_comp (fun t => (1 + t * p) * (1 + t * p) + (0 + t * q) * (0 + t * q)) sqrt).
    - apply (derivable_pt_lim_plus (fun t => (1 + t * p) * (1 + t * p)) (fun t => (0 + t * q) * (0 + t * q))).
      + apply (derivable_pt_lim_mult (fun t => 1 + t * p) (fun t => 1 + t * p)); apply limit_line.
      + apply (derivable_pt_lim_mult (fun t => 0 + t * q) (fun t => 0 + t * q)); apply limit_line.
    - apply derivable_pt_lim_sqrt. lra. }
  replace ((1 + 0 * p) * (1 + 0 * p) + (0 + 0 * q) * (0 + 0 * q)) with 1 in H by lra. rewrite sqrt_1 in H. match type of H with derivable_pt_lim _ _ ?v => replace v with p in H by lra end. exact H.
Qed.
Lemma smooth_len : smooth_at (global_res l_len) (initial_global (l_prim l_len)).
Proof.
  rewrite start_len. exists [[-1; 0; 1; 0; 0; 0; 0; 0]]. split; [repeat constructor|]. intros y Hy. apply eight_list in Hy as (a & b & c & d & e & f & u & v & ->). split; [reflexivity|].
  exists 1, (fun t => [sqrt ((1 + t * c - (0 + t * a)) * (1 + t * c - (0 + t * a)) + (0 + t * d - (0 + t * b)) * (0 + t * d - (0 + t * b))) - 2]).
  split; [lra|]. split; [intros t _; split; [unfold shifted; cbn [map zip fst snd]; apply res_len|reflexivity]|].
  intros i. destruct i as [|i]; cbn [nth times map]; [|destruct i; apply derivable_pt_lim_const].
  replace (dotp [-1; 0; 1; 0; 0; 0; 0; 0] [a; b; c; d; e; f; u; v]) with (c - a) by (unfold dotp; cbn; lra).
  apply (near_limit (fun t => sqrt ((1 + t * (c - a)) * (1 + t * (c - a)) + (0 + t * (d - b)) * (0 + t * (d - b))) - 2) _ 1); [lra|intros t _; f_equal; f_equal; lra|].
  apply limit_len.
Qed.
Lemma residual_len : exists r, layout_residual l_len (l_prim l_len) = Ok r.
Proof. eexists. lazy -[IZR Rplus Rminus Rmult Ropp Rlt_dec Req_EM_T Rdiv sqrt]. destruct (Rlt_dec _ 0) as [H|]; [exfalso; lra|reflexivity]. Qed.
(** It meets the hypotheses of C87_descent and C88_centroid with the ideal backend. *)
Example C88_nonlinear_case : exists bk r x, reached tidy_expression l_len /\ reached tidy_relative l_len /\ planar (l_prim l_len) /\ exact_on bk l_len /\
  layout_residual l_len (l_prim l_len) = Ok r /\ smooth_at (global_res l_len) (initial_global (l_prim l_len)) /\ newton_solve bk l_len 0 0 1 = Ok x /\
  (forall k q info, (k < 1)%nat -> newton_solve bk l_len 0 0 k = Ok (q, info) -> smooth_at (global_res l_len) (initial_global q)).
Proof.
  destruct C82_ideal_backend as [bk Hbk]. destruct (Hbk (length (initial_global (l_prim l_len)))) as [H _]. specialize (H (global_res l_len)). change (exact_on bk l_len) in H.
  destruct tidy_length as [T1 T2]. pose proof (given_len _ T1) as R1. destruct residual_len as [r Er]. pose proof (start_residual l_len r R1 Er) as E0. destruct (reached_sane _ l_len tidy_expression_tidy R1) as (Hw & Hs & Hi).
  assert (Ex : exists x, newton_solve bk l_len 0 0 1 = Ok x).
  { unfold newton_solve, solve_newton. cbn [newton_loop newton_init ns_abs_err ns_rel_err gtb andb]. unfold newton_body. cbn [ns_g newton_init]. rewrite E0. cbn [bind]. destruct (lstsq_defined _ (global_res l_len) bk H (initial_global (l_prim l_len)) r eq_refl) as (d & -> & Ld & _). cbn [bind].
    rewrite shifted_vadd by exact Ld. cbn [bind]. destruct (norm_total r) as [a ->]. cbn [bind ns_g]. rewrite tree_of_global_ok by assumption. cbn [bind]. eexists. reflexivity. }
  destruct Ex as [x Ex]. exists bk, r, x. split; [exact R1|]. split; [exact (given_len _ T2)|]. split; [exact planar_len|]. split; [exact H|]. split; [exact Er|]. split; [exact smooth_len|]. split; [exact Ex|].
  intros k q info Hk E. assert (k = 0%nat) by lia. subst k. unfold newton_solve, solve_newton in E. cbn [newton_loop bind newton_init ns_g] in E. rewrite tree_of_global_ok in E by assumption. cbn [bind] in E.
  apply (f_equal (fun x => match x with Ok (p, _) => p | Err _ => l_prim l_len end)) in E. cbn [fst] in E. rewrite <- E, new_global by (try assumption; reflexivity). exact smooth_len.
Qed.

Print Assumptions C82_ideal_backend.
