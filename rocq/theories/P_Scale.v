(** Property C103: a tree with all its coordinates multiplied by k > 0 is drawn as the same
    picture, k times the size.  Vocabulary: ScaleSpec.v. *)
From Coq Require Import Reals Lra.
From Verif Require Import MplProofs P_Mpl ScaleProofs.
Local Open Scope R_scope.

(** The same calls in the same order with the same outcome (success, or failure at the same
    point with the same exception): sizes in inches times k, everything else equal. *)
Theorem C103_update_subplots k (root : prim R) fig axs : 0 < k ->
  update_subplots (scale k root) fig axs = scale_drawing k (update_subplots root fig axs).
Proof. intros Hk. now apply update_scale. Qed.
Theorem C103_subplots k (root : prim R) fig axs_keys : 0 < k ->
  subplots (scale k root) fig axs_keys = scale_drawing k (subplots root fig axs_keys).
Proof. intros Hk. now apply subplots_scale. Qed.

Lemma scaled_calls k tr : sizes (map (scale_call k) tr) = map (fun s => (k * fst s, k * snd s)) (sizes tr) /\ positions (map (scale_call k) tr) = positions tr /\
  labels (map (scale_call k) tr) = labels tr /\ ticks (map (scale_call k) tr) = ticks tr.
Proof.
  unfold sizes, positions, labels, ticks. induction tr as [|c tr (I1 & I2 & I3 & I4)]; [repeat split|]. cbn [map flat_map]. rewrite map_app, I1, I2, I3, I4. destruct c; repeat split; reflexivity.
Qed.
(** In terms of what reaches the figure. *)
Theorem C103_figure k (root : prim R) fig axs tr r : 0 < k -> update_subplots root fig axs = (tr, r) ->
  exists tr', update_subplots (scale k root) fig axs = (tr', r) /\ sizes tr' = map (fun s => (k * fst s, k * snd s)) (sizes tr) /\
    positions tr' = positions tr /\ labels tr' = labels tr /\ ticks tr' = ticks tr.
Proof.
  intros Hk E. exists (map (scale_call k) tr). rewrite C103_update_subplots, E by exact Hk. split; [reflexivity|]. apply scaled_calls.
Qed.

(** The figure of C63_case (6 by 8 inches, one axes with an x axis and its label) and the same in
    units half as long. *)
Example C103_case : exists tr tr', update_subplots demo "Figure" ["Axes1"] = (tr, Ok tt) /\ update_subplots (scale 2 demo) "Figure" ["Axes1"] = (tr', Ok tt) /\
  sizes tr = [(5 - -1, 6 - -2)] /\ sizes tr' = [(12, 16)] /\ positions tr' = positions tr /\ labels tr' = labels tr /\ In ("Axes1", "X", "bottom")%string (ticks tr').
Proof.
  destruct C63_case as (_ & _ & tr & E & S & T & _ & _). destruct (C103_figure 2 demo "Figure" ["Axes1"] tr _ ltac:(lra) E) as (tr' & E' & S' & P' & L' & T').
  exists tr, tr'. split; [exact E|]. split; [exact E'|]. split; [exact S|]. split; [rewrite S', S; cbn; f_equal; f_equal; lra|]. split; [exact P'|]. split; [exact L'|]. now rewrite T'.
Qed.

Print Assumptions C103_update_subplots.
Print Assumptions C103_subplots.
Print Assumptions C103_figure.
