(** Properties C51-C56 and C70: histories of a Layout.
    Vocabulary: LayoutSpec.v ([action], [after], [runs], [lockstep], [added], [value_at]),
    ReadySpec.v ([whole], [served]), ShippedSpec.v ([shipped]: the constraints of
    constraints.py with parameters of the right form). *)
From Coq Require Import QArith.
From Verif Require Import HistProofs WholeProofs UpdateProofs Inst ConsSpec.
Local Open Scope nat_scope.

Section Props.
Context {F : Type} {N : Num F}.
Notation prim := (prim F).
Notation pyval := (pyval F).
Notation cons := (cons F).
Notation layout := (layout F).

(** ** C51 *)
(** The flat lists the solver reads have one entry per constraint. *)
Definition flat_lengths (l : layout) : Prop :=
  let '(cs, ks, ps) := flat_constraints l in length ks = length cs /\ length ps = length cs.

(** After every history in which each added constraint derives parameters for all its
    parts ([complete]) and its key and parameter trees can be built ([sound]); calls may
    fail in between.  Grid with too few margins is not complete (C51_lockstep_refuted). *)
Theorem C51_lockstep rid (acts : list (action F)) : Forall complete acts -> Forall sound acts ->
  lockstep (after (empty_layout rid) acts) /\ flat_lengths (after (empty_layout rid) acts).
Proof.
  intros Hc Hs. pose proof (lockstep_after acts (empty_layout rid) Hc Hs (lockstep_empty rid)) as H.
  split; [exact H|]. pose proof (lockstep_flat _ H) as L. exact L.
Qed.
(** For the shipped constraints with parameters of the documented form this always holds. *)
Theorem C51_lockstep_shipped rid (acts : list (action F)) : Forall (shipped_act true) acts ->
  lockstep (after (empty_layout rid) acts) /\ flat_lengths (after (empty_layout rid) acts).
Proof.
  intros H. apply C51_lockstep; eapply Forall_impl; try exact H; [apply shipped_complete|apply shipped_sound].
Qed.

(** ** C52 *)
(** If the constraint's key and parameter trees can be built; without that see
    C52_atomic_refuted below. *)
Theorem C52_atomic (l l' : layout) c ks ps key e : lockstep l -> derivable c ps ->
  add_constraint l c ks ps key = (l', Err e) -> same_trees l l'.
Proof.
  intros Hl Hd H. destruct (add_constraint_cases _ _ _ _ _ _ _ Hl Hd H) as [(e' & _ & S)|(k & kt & pt & E & _)]; [exact S|discriminate].
Qed.
Theorem C52_atomic_shipped rid acts tw c ks ps key l' e : Forall (shipped_act true) acts -> shipped tw c ps ->
  add_constraint (after (empty_layout rid) acts) c ks ps key = (l', Err e) -> same_trees (after (empty_layout rid) acts) l'.
Proof.
  intros Ha Hs. apply C52_atomic; [now apply C51_lockstep_shipped|]. apply shipped_ready in Hs.
  split; [eapply ready_keys, Hs|eapply ready_params, Hs].
Qed.
(** A constraint whose primitives or parameters are rejected never changes the trees. *)
Theorem C52_validation_first (l l' : layout) c ks ps key r e : validate_inputs l c ks ps = Err e ->
  add_constraint l c ks ps key = (l', r) -> (exists e', r = Err e') /\ same_trees l l'.
Proof.
  unfold add_constraint. intros Hv H.
  destruct (if String.eqb key "" then let (cnt, r) := gen_key l c in (set_counter l cnt, r) else (l, Ok key)) as [l0 rk] eqn:E0.
  assert (S0 : same_trees l l0).
  { destruct (String.eqb key ""); [destruct (gen_key l c) as [cnt r0]|]; inversion E0; subst; repeat split. }
  destruct rk as [k|e']; [|inversion H; subst; eauto].
  assert (validate_inputs l0 c ks ps = Err e) as Hv0 by (unfold validate_inputs in *; destruct S0 as [-> _]; exact Hv).
  rewrite Hv0 in H. inversion H; subst. eauto.
Qed.

(** ** C53 *)
(** The residual of a layout on a tree [root] in which the constraints' keys name
    primitives of the declared classes. *)
Theorem C53_residual rid (acts : list (action F)) l root rs : runs (empty_layout rid) acts l ->
  Forall complete acts -> Forall sound acts -> Forall toplevel acts -> added acts <> [] ->
  Forall (typed_at root) (added acts) ->
  (layout_residual l root = Ok rs <-> exists vs, Forall2 (value_at root) (added acts) vs /\ rs = List.concat vs).
Proof.
  intros Hr Hc Hs Ht Hne Hty. apply residual_values; [|exact Hne|exact Hty].
  apply (runs_holds acts (empty_layout rid) l [] Hr Hc Hs Ht (lockstep_empty rid)). constructor.
Qed.
(** On the layout's own primitives, for shipped constraints at slash-free keys. *)
Theorem C53_residual_shipped rid tw (acts : list (action F)) l rs : runs (empty_layout rid) acts l ->
  Forall (shipped_act tw) acts -> Forall top_key acts -> added acts <> [] ->
  (layout_residual l (l_prim l) = Ok rs <-> exists vs, Forall2 (value_at (l_prim l)) (added acts) vs /\ rs = List.concat vs).
Proof.
  intros Hr Hs Hk Hne.
  assert (Ht : Forall toplevel acts).
  { rewrite Forall_forall in *. intros a Ha. eapply shipped_toplevel; eauto. }
  assert (Hcl : Forall classes acts) by (eapply Forall_impl; [|exact Hs]; apply shipped_classes).
  eapply C53_residual; try eassumption.
  - eapply Forall_impl; [|exact Hs]. apply shipped_complete.
  - eapply Forall_impl; [|exact Hs]. apply shipped_sound.
  - eapply typed_runs; eassumption.
Qed.
(** Without constraints there is nothing to concatenate: ValueError. *)
Theorem C53_no_constraints rid (acts : list (action F)) l root : runs (empty_layout rid) acts l -> added acts = [] ->
  layout_residual l root = Err ValueErr.
Proof.
  intros Hr Ha.
  assert (G : forall l0 : layout, runs l0 acts l -> nch (l_cons l0) = [] -> nch (l_cons l) = []).
  { clear Hr. intros l0 Hr. induction Hr as [l0|l0 a l1 acts l2 H _ IH]; [auto|]. cbn [added flat_map] in Ha. intros Hn.
    destruct a as [p k|d|c ks ps k]; cbn [act] in H; [| |discriminate].
    - apply add_prim_trees in H as (E & _). apply IH; [exact Ha|congruence].
    - apply add_prims_trees in H as (E & _). apply IH; [exact Ha|congruence]. }
  specialize (G _ Hr eq_refl). unfold layout_residual. rewrite flat_constraints_dpre, G. reflexivity.
Qed.

(** ** C54 *)
(** [measures l axs p c a]: [a] is the x (y) axis of the axes that the constraint at path
    [p] is about. *)
Theorem C54_update rid tw (acts : list (action F)) axs l' : Forall (shipped_act tw) acts -> Forall top_key acts ->
  let l := after (empty_layout rid) acts in
  update_layout_constraints l axs = Ok l' ->
  l_prim l' = l_prim l /\ l_cons l' = l_cons l /\ l_keys l' = l_keys l /\
  (forall p c, walk p (l_cons l) = Some c -> thick c = true ->
     exists a pt, measures l axs p c a /\ root_params c [PAxis a] = Ok pt /\ forall r, walk (p ++ r) (l_params l') = walk r pt) /\
  (forall q, (forall p c, prefix_of p q -> walk p (l_cons l) = Some c -> thick c = false) ->
     same_entry (walk q (l_params l)) (walk q (l_params l'))).
Proof.
  intros Hs Hk l H.
  assert (L : lockstep l).
  { apply lockstep_after; [| |apply lockstep_empty]; (eapply Forall_impl; [|exact Hs]); [apply shipped_complete|apply shipped_sound]. }
  destruct (neat_root_ok (l_cons l)) as (T & U & R).
  { eapply neat_after; [exact Hs|exact Hk|apply lockstep_empty|apply neat_empty]. }
  now apply update_layout_result.
Qed.

(** ** C55 *)
(** Too few widths or heights always raise. *)
Theorem C55_short_sizes r k g prims vcw vrh vcm vrm cw rh cm rm out : 1 <= r -> 1 <= k -> Grid r k = Ok g ->
  py_tuple vcw = Ok cw -> py_tuple vrh = Ok rh -> py_tuple vcm = Ok cm -> py_tuple vrm = Ok rm ->
  Forall (fun p : prim => ntype p <> TNode) prims ->
  length cw < k - 1 \/ length rh < r - 1 ->
  call g prims [vcw; vrh; vcm; vrm] <> Ok out.
Proof. exact (grid_short r k g prims vcw vrh vcm vrm cw rh cm rm out). Qed.
(** Surplus entries of any of the four arrays change nothing.  Too few margins are
    silently accepted (C55_lengths_refuted below). *)
Theorem C55_surplus_ignored r k g prims cw rh cm rm out : 1 <= r -> 1 <= k -> Grid r k = Ok g ->
  Forall (fun p : prim => ntype p <> TNode) prims ->
  k - 1 <= length cw -> r - 1 <= length rh -> k - 1 <= length cm -> r - 1 <= length rm ->
  call g prims [PA1 cw; PA1 rh; PA1 cm; PA1 rm] = Ok out <->
  call g prims [PA1 (firstn (k - 1) cw); PA1 (firstn (r - 1) rh); PA1 (firstn (k - 1) cm); PA1 (firstn (r - 1) rm)] = Ok out.
Proof. exact (grid_surplus r k g prims cw rh cm rm out). Qed.

(** ** C56 *)
Theorem C56_add_prim (l l' : layout) p key path r : components key path -> add_prim l p key = (l', r) ->
  l_cons l' = l_cons l /\ l_keys l' = l_keys l /\ l_params l' = l_params l /\
  ((r = Ok tt /\ get_child (l_prim l') key = Ok p /\ walk path (l_prim l) = None /\
    (forall q, ~ prefix_of path q -> ~ prefix_of q path -> walk q (l_prim l') = walk q (l_prim l))) \/
   (r = Err (KeyError key) /\ l_prim l' = l_prim l /\
    (walk path (l_prim l) <> None \/ walk (removelast path) (l_prim l) = None))).
Proof.
  intros Hc H. apply add_prim_trees in H as (E1 & E2 & E3 & H). do 3 (split; [assumption|]).
  pose proof H as C. rewrite (add_child_cases (l_prim l) key path p Hc) in C. cbv zeta in C.
  destruct (walk (removelast path) (l_prim l)) as [par|] eqn:Ep; [|right; inversion C; auto].
  destruct (walk path (l_prim l)) eqn:Ew; [right; inversion C; subst; split; [reflexivity|]; split; [reflexivity|]; left; discriminate|].
  left. assert (r = Ok tt) by congruence. subst r. clear C. destruct (add_child_effect _ _ _ _ _ Hc H) as (G1 & _ & _ & G4 & _).
  split; [reflexivity|]. split; [exact G1|]. split; [reflexivity|]. exact G4.
Qed.
(** [add_prims] is [add_prim] for each entry in order up to the first failing key. *)
Theorem C56_add_prims (l l' : layout) (d : dict prim) r : add_prims l d = (l', r) ->
  exists done rest, d = done ++ rest /\ runs l (map (fun kp => AddPrim (snd kp) (fst kp)) done) l' /\
    l_cons l' = l_cons l /\ l_keys l' = l_keys l /\ l_params l' = l_params l /\
    (** stopped at the end, or at a key that is taken or whose parent is missing *)
    ((r = Ok tt /\ rest = []) \/
     (exists k p rest', rest = (k, p) :: rest' /\ r = Err (KeyError k) /\
        (walk (split_all k) (l_prim l') <> None \/ walk (removelast (split_all k)) (l_prim l') = None))) /\
    (** each stored key resolves to its primitive, unless a later key puts something inside it *)
    (forall before k p later, done = before ++ (k, p) :: later ->
       (forall k' p', In (k', p') later -> ~ prefix_of (split_all k) (split_all k')) -> get_child (l_prim l') k = Ok p) /\
    (** other places are as before *)
    (forall q, (forall k p, In (k, p) done -> ~ prefix_of (split_all k) q /\ ~ prefix_of q (split_all k)) ->
       walk q (l_prim l') = walk q (l_prim l)).
Proof.
  intros H. destruct (add_prims_cases d l l' r H) as (done & rest & E & Hr & Hc). exists done, rest. split; [exact E|]. split; [exact Hr|].
  destruct (adds_trees _ _ _ Hr) as (T1 & T2 & T3). do 3 (split; [assumption|]). split; [exact Hc|]. split.
  - intros before k p later Ed Hl. subst done. apply adds_app in Hr as (m & _ & Hm). eapply adds_last; eassumption.
  - intros q Hq. now apply (adds_keep l l' done).
Qed.

(** ** C70 *)
(** Every shipped constraint, applied to primitives of its declared classes that have
    their usual parts, and to parameters of the right form, gives each of its parts
    (recursively) primitives of the classes the part declares and as many parameters. *)
Theorem C70_parts_are_served tw (c : cons) ps prims : shipped tw c ps ->
  Forall2 (fun p t => issubclass (ntype p) t = true) prims (prim_types (csig (nval c))) ->
  Forall (whole tw) prims -> served c prims ps.
Proof. intros H. apply ready_served. now apply shipped_ready. Qed.
(** Primitives made by the constructors have these parts. *)
Theorem C70_constructed_primitives_are_whole tw :
  (forall nxt v (p : prim) n, mk_point nxt v = Ok (p, n) -> whole tw p) /\
  (forall nxt v ps (p : prim) n, mk_line nxt v ps = Ok (p, n) -> (forall l, ps = Some l -> Forall (whole tw) l) -> whole tw p) /\
  (forall nxt v l size (p : prim) n, mk_polygon nxt v (Some l) size = Ok (p, n) -> Forall (whole tw) l -> whole tw p) /\
  (forall nxt v ps (p : prim) n, mk_quad nxt v ps = Ok (p, n) -> (forall l, ps = Some l -> Forall (whole tw) l) -> whole tw p) /\
  (forall nxt v ps tx ty (p : prim) n, (tw = true -> tx = true /\ ty = true) ->
     mk_axes nxt v ps true true tx ty = Ok (p, n) ->
     (forall l, ps = Some l -> Forall (whole tw) l /\ length l = length (axes_children true true tx ty)) -> whole tw p).
Proof.
  exact (conj (mk_point_whole tw) (conj (mk_line_whole tw) (conj (mk_polygon_whole tw) (conj (mk_quad_whole tw) (mk_axes_whole tw))))).
Qed.
End Props.

(** ** Cases and refutations, over the rationals *)
Definition qpt (i : nat) (x y : Q) : prim Q := Node TPoint {| vid := i; vdata := [x; y] |} [].
Definition qbox (i : nat) (l b r t : Q) : prim Q :=
  match mk_quad i VNone (Some [qpt (i + 100) l b; qpt (i + 101) r b; qpt (i + 102) r t; qpt (i + 103) l t]) with
  | Ok (q, _) => q | Err _ => qpt 0 0 0 end.
(** Two rows (first row on top) and two columns of unit squares: column gap 1, row gap 5. *)
Definition four : dict (prim Q) :=
  [("A", qbox 1000 0 6 1 7); ("B", qbox 2000 2 6 3 7); ("C", qbox 3000 0 0 1 1); ("D", qbox 4000 2 0 3 1)]%Q.
Definition grid22 : cons Q := match Grid 2 2 with Ok g => g | Err _ => Scalar end.
Example grid22_ok : Grid 2 2 = Ok grid22. Proof.
  assert (H : is_ok (Grid (F:=Q) 2 2) = true) by (vm_compute; reflexivity).
  unfold grid22. destruct (Grid 2 2); [reflexivity|discriminate].
Qed.
(** col_margins is empty, row_margins is [1]. *)
Definition short_margins : list (pyval Q) := [PA1 [1%Q]; PA1 [1%Q]; PA1 []; PA1 [1%Q]].
Definition short_history : list (action Q) := [AddPrims four; AddConstraint grid22 ["A"; "B"; "C"; "D"] short_margins "G"].

(** A history without exception after which the parameter tree lacks a key that the
    constraint tree has. *)
Theorem C51_lockstep_refuted : exists l, runs (empty_layout 0) short_history l /\
  (exists c, get_child (l_cons l) "G/ColMargins/OuterMargin0" = Ok c) /\
  get_child (l_params l) "G/ColMargins/OuterMargin0" = Err (KeyError "G/ColMargins/OuterMargin0") /\ ~ lockstep l.
Proof.
  exists (after (empty_layout 0) short_history). split; [|split; [|split]].
  - apply all_ok_runs. vm_compute. reflexivity.
  - assert (H : is_ok (get_child (l_cons (after (empty_layout 0) short_history)) "G/ColMargins/OuterMargin0") = true) by (vm_compute; reflexivity).
    destruct (get_child _ _) as [c|]; [eauto|discriminate].
  - vm_compute. reflexivity.
  - intros [_ H]. apply shape_preorder_length in H. vm_compute in H. discriminate.
Qed.
(** The rejected call (parameters that are not arrays) leaves the constraint and its keys
    in the layout. *)
Theorem C52_atomic_refuted : exists l l' e, runs (empty_layout 0) [AddPrims four] l /\
  add_constraint l grid22 ["A"; "B"; "C"; "D"] [PInt 1; PInt 1; PInt 1; PInt 1] "G" = (l', Err e) /\
  contains (l_cons l) "G" = Ok false /\ contains (l_cons l') "G" = Ok true /\ ~ lockstep l'.
Proof.
  assert (E : snd (add_constraint (after (empty_layout 0) [AddPrims four]) grid22 ["A"; "B"; "C"; "D"] [PInt 1; PInt 1; PInt 1; PInt 1] "G") = Err TypeErr) by (vm_compute; reflexivity).
  exists (after (empty_layout 0) [AddPrims four]), (fst (add_constraint (after (empty_layout 0) [AddPrims four]) grid22 ["A"; "B"; "C"; "D"] [PInt 1; PInt 1; PInt 1; PInt 1] "G")), TypeErr.
  split; [apply all_ok_runs; vm_compute; reflexivity|].
  split; [rewrite <- E; apply surjective_pairing|].
  split; [vm_compute; reflexivity|]. split; [vm_compute; reflexivity|].
  intros [_ H]. apply shape_preorder_length in H. vm_compute in H. discriminate.
Qed.
(** Wrong lengths accepted: the 2 x 2 grid above with no column margin and a row margin
    of 1 vanishes although the row gap is 5 (the row margin is used as column margin);
    surplus entries are ignored; a missing row margin is no constraint. *)
Theorem C55_lengths_refuted :
  (exists out, call grid22 (dvals four) short_margins = Ok out /\ Forall (fun x => x == 0)%Q out) /\
  (exists out, call grid22 (dvals four) [PA1 [1; 7]; PA1 [1; 7]; PA1 [1; 7]; PA1 [5; 7]]%Q = Ok out /\ Forall (fun x => x == 0)%Q out) /\
  (exists out, call grid22 (dvals four) [PA1 [1]; PA1 [1]; PA1 [1]; PA1 []]%Q = Ok out /\ Forall (fun x => x == 0)%Q out).
Proof.
  split; [|split]; (eexists; split; [vm_compute; reflexivity|repeat constructor]).
Qed.
(** With the right lengths the row gap matters. *)
Example C55_right_lengths : exists out, call grid22 (dvals four) [PA1 [1]; PA1 [1]; PA1 [1]; PA1 [1]]%Q = Ok out /\ ~ Forall (fun x => x == 0)%Q out.
Proof.
  eexists. split; [vm_compute; reflexivity|]. intros H. repeat (match goal with H : Forall _ (_ :: _) |- _ => inversion H; clear H; subst end; try discriminate).
Qed.
Example C55_short_case : call grid22 (dvals four) [PA1 []; PA1 [1]; PA1 [1]; PA1 [5]]%Q = Err TypeErr.
Proof. vm_compute. reflexivity. Qed.

(** A shipped history: four boxes, a grid, a width and an axis thickness. *)
Definition good_margins : list (pyval Q) := [PA1 [1]; PA1 [1]; PA1 [1]; PA1 [5]]%Q.
Definition qaxes : prim Q := match mk_axes 5000 VNone None true true false false with Ok (a, _) => a | Err _ => qpt 0 0 0 end.
Definition width : cons Q := match crWidth with Ok c => c | Err _ => Scalar end.
Definition xthick : cons Q := match XAxisThickness with Ok c => c | Err _ => Scalar end.
Definition good_history : list (action Q) :=
  [AddPrims four; AddPrim qaxes "Axes"; AddConstraint grid22 ["A"; "B"; "C"; "D"] good_margins "G";
   AddConstraint width ["A"] [PFlt 3%Q] "W"; AddConstraint xthick ["Axes/XAxis"] [PNone] "T"].
Example good_shipped : Forall (shipped_act true) good_history /\ Forall top_key good_history /\ added good_history <> [].
Proof.
  split; [|split; [repeat constructor|discriminate]]. unfold good_history.
  constructor; [exact I|]. constructor; [exact I|]. constructor; [|constructor; [|constructor; [|constructor]]]; cbn [shipped_act].
  - eapply (sh_grid true 2 2); [lia|lia|exact grid22_ok| | | | | | | |]; reflexivity.
  - apply sh_dimension; [|now left]. apply in_or_app. left. assert (E : crWidth = Ok width) by (assert (H : is_ok (crWidth (F:=Q)) = true) by (vm_compute; reflexivity); unfold width; destruct crWidth; [reflexivity|discriminate]). rewrite <- E.
    unfold dimensions. cbn [In]. repeat (first [left; reflexivity|right]).
  - apply sh_thickness; [|left; reflexivity]. left. assert (H : is_ok (XAxisThickness (F:=Q)) = true) by (vm_compute; reflexivity); unfold xthick; destruct XAxisThickness; [reflexivity|discriminate].
Qed.
Example good_runs : exists l, runs (empty_layout 0) good_history l /\
  layout_residual l (l_prim l) = Ok (List.repeat 0%Q 20 ++ [(-2)%Q; 1%Q]).
Proof.
  exists (after (empty_layout 0) good_history). split.
  - apply all_ok_runs. vm_compute. reflexivity.
  - vm_compute. reflexivity.
Qed.
Lemma qpt_whole tw i x y : whole tw (qpt i x y).
Proof. constructor; [discriminate|constructor]. Qed.
Lemma qbox_whole tw i l b r t : whole tw (qbox i l b r t).
Proof.
  unfold qbox. destruct (mk_quad _ _ _) as [[q n]|] eqn:E; [|apply qpt_whole].
  eapply mk_quad_whole; [exact E|]. intros ps H. injection H as <-. repeat (apply Forall_cons; [apply qpt_whole|]). apply Forall_nil.
Qed.
Example good_whole : Forall (whole false) (qaxes :: dvals four).
Proof.
  constructor.
  - eapply (mk_axes_whole false 5000 VNone None false false); [discriminate|vm_compute; reflexivity|discriminate].
  - repeat (apply Forall_cons; [apply qbox_whole|]). apply Forall_nil.
Qed.

Print Assumptions C51_lockstep.
Print Assumptions C51_lockstep_shipped.
Print Assumptions C51_lockstep_refuted.
Print Assumptions C52_atomic.
Print Assumptions C52_atomic_shipped.
Print Assumptions C52_validation_first.
Print Assumptions C52_atomic_refuted.
Print Assumptions C53_residual.
Print Assumptions C53_residual_shipped.
Print Assumptions C53_no_constraints.
Print Assumptions C54_update.
Print Assumptions C55_short_sizes.
Print Assumptions C55_surplus_ignored.
Print Assumptions C55_lengths_refuted.
Print Assumptions C56_add_prim.
Print Assumptions C56_add_prims.
Print Assumptions C70_parts_are_served.
Print Assumptions C70_constructed_primitives_are_whole.
