(** The constraints of constraints.py, with parameters of the right form. *)
From Verif Require Export ShippedArrays ConsSpec.

Section ShippedSpec.
  Context {F : Type} {N : Num F}.
  Notation prim := (prim F).
  Notation pyval := (pyval F).
  Notation cons := (cons F).

  (** Constraints on the twin axes of an Axes. *)
  Definition twins : list (result cons) :=
    [PositionXAxis "bottom" true; PositionXAxis "top" true; PositionYAxis "left" true; PositionYAxis "right" true;
     PositionXAxisLabel true; PositionYAxisLabel true].
  (** [tw]: constraints on twin axes are included. *)
  Inductive shipped (tw : bool) : cons -> list pyval -> Prop :=
  | sh_plain c ps : In (Ok c) plain -> length ps = nparams (csig (nval c)) -> shipped tw c ps
  | sh_twin c ps : tw = true -> In (Ok c) twins -> length ps = nparams (csig (nval c)) -> shipped tw c ps
  | sh_dimension c v : In (Ok c) (dimensions ++ margins) -> dimension v -> shipped tw c [v]
  | sh_thickness c v : In (Ok c) [XAxisThickness; YAxisThickness] -> thickness_value v -> shipped tw c [v]
  | sh_array n side c ps : In side ["left"; "right"; "bottom"; "top"] -> OuterMarginArray n side = Ok c ->
      length ps = n - 1 -> Forall dimension ps -> shipped tw c ps
  | sh_rectilinear rows cols c : 1 <= rows -> 1 <= cols -> RectilinearGrid rows cols = Ok c -> shipped tw c []
  | sh_grid rows cols c vcw vrh vcm vrm cw rh cm rm : 1 <= rows -> 1 <= cols -> Grid rows cols = Ok c ->
      py_tuple vcw = Ok cw -> py_tuple vrh = Ok rh -> py_tuple vcm = Ok cm -> py_tuple vrm = Ok rm ->
      length cw = cols - 1 -> length rh = rows - 1 -> length cm = cols - 1 -> length rm = rows - 1 ->
      shipped tw c [vcw; vrh; vcm; vrm].

  Ltac rdy := repeat first
    [ apply readys_nil
    | eapply readys_cons; [solve [repeat (apply Forall2_cons || apply Forall2_nil); (eexists; split; [reflexivity|reflexivity])]| |]
    | eapply ready_node; [reflexivity|reflexivity|cbn [csig prim_types cpk]] ].
  Ltac build := match goal with |- exists c, ?e = Ok c /\ _ =>
    let x := eval vm_compute in e in match x with Ok ?c => exists c; split; [vm_compute; reflexivity|] end end.
  Ltac lists := repeat match goal with
    | H : length ?l = _ |- _ => is_var l; destruct l; cbn in H; try discriminate; try injection H as H end.
  Ltac last_value := match goal with |- ready _ _ ?l => match l with
    | [?a] => destruct a | [_; ?a] => destruct a | [_; _; ?a] => destruct a | _ => idtac end end.
  Lemma twins_ready : Forall (fun rc => exists c, rc = Ok c /\ forall ps, length ps = nparams (csig (nval c)) -> ready true c ps) twins.
  Proof.
    unfold twins. repeat first [apply Forall_nil | apply Forall_cons; [build; intros ps H; lists; last_value; rdy|]].
  Qed.

  Lemma shipped_ready tw c ps : shipped tw c ps -> ready tw c ps.
  Proof.
    intros [c' ps' H Hl|c' ps' -> H Hl|c' v H Hv|c' v H Hv|n side c' ps' Hs E Hl Hd|r k c' Hr Hk E|r k c' vcw vrh vcm vrm cw rh cm rm Hr Hk E T1 T2 T3 T4 L1 L2 L3 L4].
    - pose proof (plain_ready (F:=F) tw) as M. rewrite Forall_forall in M. destruct (M _ H) as (x & Ex & R). injection Ex as <-. auto.
    - pose proof twins_ready as M. rewrite Forall_forall in M. destruct (M _ H) as (x & Ex & R). injection Ex as <-. auto.
    - apply in_app_iff in H as [H|H].
      + pose proof (dimension_ready (F:=F) tw) as M. rewrite Forall_forall in M. destruct (M _ H) as (x & Ex & _ & R). injection Ex as <-. auto.
      + pose proof (margin_ready (F:=F) tw) as M. rewrite Forall_forall in M. destruct (M _ H) as (x & Ex & _ & R). injection Ex as <-. auto.
    - pose proof (thickness_ready (F:=F) tw) as M. rewrite Forall_forall in M. destruct (M _ H) as (x & Ex & R). injection Ex as <-. auto.
    - destruct (margin_array_ready tw n side Hs) as (x & Ex & _ & R). rewrite E in Ex. injection Ex as <-. auto.
    - destruct (rectilinear_ready tw r k Hr Hk) as (x & Ex & _ & R). rewrite E in Ex. injection Ex as <-. auto.
    - destruct (grid_ready tw r k Hr Hk) as (x & Ex & _ & R). rewrite E in Ex. injection Ex as <-. eapply R; eassumption.
  Qed.

  (** No shipped constraint accepts arbitrary nodes, and class names have no slash. *)
  Definition declared (rc : result cons) : bool :=
    match rc with
    | Ok c => forallb (fun t => negb (ptype_eqb t TNode)) (prim_types (csig (nval c))) && noslash (cname (ntype c))
    | Err _ => false
    end.
  Lemma lists_declared : forallb declared (plain ++ twins ++ dimensions ++ margins ++ [XAxisThickness; YAxisThickness]) = true.
  Proof. vm_compute. reflexivity. Qed.
  Lemma repeat_declared n : forallb (fun t => negb (ptype_eqb t TNode)) (List.repeat TQuad n) = true.
  Proof. induction n; auto. Qed.
  Lemma construction_name (t : cls F) keys cs pks cps s (c : cons) : mk_construction t keys cs pks cps s = Ok c -> ntype c = t.
  Proof.
    unfold mk_construction. intros E.
    destruct (mk_cons_cases t {| cpk := pks; cparams := cps; csig := s |} (dict_of (zip keys cs))) as [(_ & _ & H)|[_ H]]; rewrite H in E; [|discriminate].
    injection E as <-. reflexivity.
  Qed.
  Lemma shipped_declared tw c ps : shipped tw c ps ->
    Forall (fun t => t <> TNode) (prim_types (csig (nval c))) /\ noslash (cname (ntype c)) = true.
  Proof.
    intros H. assert (D : declared (Ok c) = true).
    { pose proof lists_declared as M. rewrite forallb_forall in M.
      destruct H as [c' ps' H Hl|c' ps' _ H Hl|c' v H Hv|c' v H Hv|n side c' ps' Hs E Hl Hd|r k c' Hr Hk E|r k c' vcw vrh vcm vrm cw rh cm rm Hr Hk E T1 T2 T3 T4 L1 L2 L3 L4].
      - apply M. apply in_or_app. now left.
      - apply M. apply in_or_app. right. apply in_or_app. now left.
      - apply M. do 2 (apply in_or_app; right). rewrite app_assoc. apply in_or_app. now left.
      - apply M. do 4 (apply in_or_app; right). exact H.
      - destruct (margin_array_ready tw n side Hs) as (x & Ex & S & _). rewrite E in Ex. injection Ex as <-. unfold declared. rewrite S. cbn [msig prim_types]. rewrite repeat_declared. cbn.
        unfold OuterMarginArray in E. inv_bind E. apply construction_name in E. rewrite E. reflexivity.
      - destruct (rectilinear_ready tw r k Hr Hk) as (x & Ex & S & _). rewrite E in Ex. injection Ex as <-. unfold declared. rewrite S. cbn [msig prim_types]. rewrite repeat_declared. cbn.
        unfold RectilinearGrid in E. inv_bind E. inv_bind E. inv_bind E. inv_bind E. apply construction_name in E. rewrite E. reflexivity.
      - destruct (grid_ready tw r k Hr Hk) as (x & Ex & S & _). rewrite E in Ex. injection Ex as <-. unfold declared. rewrite S. cbn [msig prim_types]. rewrite repeat_declared. cbn.
        unfold Grid in E. do 6 inv_bind E. apply construction_name in E. rewrite E. reflexivity. }
    unfold declared in D. apply andb_prop in D as [D1 D2]. split; [|assumption]. rewrite forallb_forall in D1. apply Forall_forall. intros t Ht E. specialize (D1 t Ht). subst. discriminate.
  Qed.
End ShippedSpec.
