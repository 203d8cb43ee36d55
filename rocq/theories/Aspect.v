(** Newton's method on a figure of given width and aspect ratio. *)
From Coq Require Import Reals Lra.
From Verif Require Import P_Station BackendLocal BackendOrder EndProofs Tangent.
From Verif Require Export AspectSpec.
From Verif Require Import P_Affine.
Local Open Scope R_scope.

Section Quotient.
  Context (n : nat) (g0 : list R) (H0 : length g0 = n).
  Lemma self_inner w : w <> (0, 0) -> inner w w / len w = len w.
  Proof. intros Hw. pose proof (len_pos w Hw). pose proof (inner_pos w Hw). replace (inner w w) with (len w * len w); [field; lra|]. unfold len. apply sqrt_sqrt. lra. Qed.
  Lemma quotient_tangent u v k : levelpt n u -> levelpt n v -> u g0 <> (0, 0) -> v g0 <> (0, 0) ->
    tangent n g0 (fun g => q <- ndiv (len (u g)) (len (v g)) ;; Ok [q - k])
      (fun g => [len (u g0) / len (v g0) - k + (inner (u g0) (u g) / len (u g0) - len (u g0)) / len (v g0) - len (u g0) * (inner (v g0) (v g) / len (v g0) - len (v g0)) / (len (v g0) * len (v g0))]).
  Proof.
    intros U V Hu Hv. pose proof (len_pos _ Hu) as Pu. pose proof (len_pos _ Hv) as Pv. split; [|split].
    - apply Tangent.parts_affine. intros s g h Hg Hh. split; [reflexivity|]. pose proof (level_inner n (u g0) u U s g h Hg Hh) as E1. pose proof (level_inner n (v g0) v V s g h Hg Hh) as E2. cbn beta in E1, E2. cbn. rewrite E1, E2. f_equal. unfold Rdiv. ring.
    - cbn [ndiv NumR]. unfold Rdiv_r. destruct (Req_EM_T (len (v g0)) 0) as [X|_]; [lra|]. cbn [bind]. rewrite !self_inner by assumption. do 2 f_equal. field. lra.
    - intros d Hd. split; [congruence|].
      pose proof (len_limit n g0 H0 u d U Hu Hd) as Du. pose proof (len_limit n g0 H0 v d V Hv Hd) as Dv. cbn beta in Du, Dv.
      set (fu := fun t => len (u (shifted g0 t d))) in *. set (fv := fun t => len (v (shifted g0 t d))) in *.
      assert (F0 : fv 0 = len (v g0)) by (unfold fv; now rewrite shift0 with (n := n)). assert (G0 : fu 0 = len (u g0)) by (unfold fu; now rewrite shift0 with (n := n)).
      assert (Near : exists eps, 0 < eps /\ forall t, Rabs t < eps -> fv t <> 0).
      { assert (C : continuity_pt fv 0) by (apply derivable_continuous_pt; eexists; exact Dv).
        destruct (C (len (v g0)) Pv) as (a & Ha & Hc). exists a. split; [exact Ha|]. intros t Ht E. destruct (Req_dec t 0) as [->|Nt]; [lra|].
        assert (X : Rabs (fv t - fv 0) < len (v g0)). { apply Hc. split; [split; [exact I|congruence]|]. cbn. unfold R_dist. now rewrite Rminus_0_r. }
        rewrite E, F0, Rminus_0_l, Rabs_Ropp, Rabs_pos_eq in X; lra. }
      destruct Near as (eps & He & Hn). exists eps, (fun t => [fu t / fv t - k]). split; [exact He|]. split.
      + intros t Ht. cbn [ndiv NumR]. unfold Rdiv_r. fold (fv t). fold (fu t). destruct (Req_EM_T (fv t) 0) as [X|_]; [now apply Hn in X|]. split; reflexivity.
      + intros i. unfold minus. destruct i as [|i]; cbn [nth zip combine map]; [|destruct i; apply derivable_pt_lim_const].
        pose proof (derivable_pt_lim_div fu fv 0 _ _ Du Dv ltac:(rewrite F0; lra)) as Q. unfold div_fct in Q. rewrite F0, G0 in Q.
        pose proof (derivable_pt_lim_minus _ _ _ _ _ Q (derivable_pt_lim_const k 0)) as M. unfold minus_fct, fct_cte in M. cbn.
        match goal with |- derivable_pt_lim _ _ ?x => match type of M with derivable_pt_lim _ _ ?y => replace x with y end end; [exact M|].
        rewrite !self_inner by assumption. unfold Rsqr. field. lra.
  Qed.
End Quotient.

Section Program.
  Context (W k : R).
  Notation l := (aspect_layout W k).
  Lemma aspect_runs : runs (empty_layout 0) (aspect_program W k) l.
  Proof. unfold aspect_layout. apply all_ok_runs. vm_compute. reflexivity. Qed.
  Lemma aspect_prim : l_prim l = Node TPrimNode {| vid := 0; vdata := [] |} [("Figure", readme_quad)].
  Proof. vm_compute. reflexivity. Qed.
  Lemma aspect_start : initial_global (l_prim l) = [0; 0; 1; 0; 1; 1; 0; 1].
  Proof. rewrite aspect_prim. vm_compute. reflexivity. Qed.
  Lemma aspect_res a b c d e f u v : global_res l [a; b; c; d; e; f; u; v] =
    (q <- ndiv (len (c - a, d - b)) (len (e - c, f - d)) ;; Ok [d - b; v - f; a - u; e - c; c - a - W; q - k]).
  Proof.
    eassert (E : global_res l [a; b; c; d; e; f; u; v] = _).
    { lazy -[IZR Rplus Rminus Rmult Ropp Rlt_dec Req_EM_T Rdiv Rinv sqrt]. reflexivity. }
    rewrite E. clear E.
    match goal with |- context [Rlt_dec ?x 0] => destruct (Rlt_dec x 0) as [X|_]; [exfalso; apply (Rlt_not_le _ _ X); pose proof (Rle_0_sqr (c - a)); pose proof (Rle_0_sqr (d - b)); unfold Rsqr in *; lra|] end.
    cbv beta iota.
    match goal with |- context [Rlt_dec ?x 0] => destruct (Rlt_dec x 0) as [X|_]; [exfalso; apply (Rlt_not_le _ _ X); pose proof (Rle_0_sqr (e - c)); pose proof (Rle_0_sqr (f - d)); unfold Rsqr in *; lra|] end.
    cbv beta iota.
    replace ((c - a) * (c - a) + ((d - b) * (d - b) + 0)) with (inner (c - a, d - b) (c - a, d - b)) by (unfold inner; cbn [fst snd]; ring).
    replace ((e - c) * (e - c) + ((f - d) * (f - d) + 0)) with (inner (e - c, f - d) (e - c, f - d)) by (unfold inner; cbn [fst snd]; ring).
    fold (len (c - a, d - b)). fold (len (e - c, f - d)). cbn [ndiv NumR]. unfold Rdiv_r. destruct (Req_EM_T (len (e - c, f - d)) 0); cbv beta iota zeta; [reflexivity|]. cbn [bind].
    f_equal. repeat (apply (f_equal2 (@Datatypes.cons R)); [try lra|]); reflexivity.
  Qed.
End Program.
