(** Property C105: what [add_constraint] answers.  The key may be given or left empty (then
    one is generated).  Vocabulary: LayoutSpec.v ([same_trees]), Spec.v ([walk],
    [split_all]: the components of a key), ShippedSpec.v. *)
From Coq Require Import QArith.
From Verif Require Import HistProofs NeatProofs LayoutProofs P_Layout P_Node Inst ConsSpec.
Local Open Scope nat_scope.

Section Outcome.
  Context {F : Type} {N : Num F}.
  Notation prim := (prim F).
  Notation pyval := (pyval F).
  Notation cons := (cons F).
  Notation layout := (layout F).

  (** The key that is used: the given one, or a fresh one for the empty key. *)
  Lemma chosen (l : layout) (c : cons) key : noslash (cname (ntype c)) = true ->
    exists l0 k, (if String.eqb key "" then let (cnt, r) := gen_key l c in (set_counter l cnt, r) else (l, Ok key)) = (l0, Ok k) /\ same_trees l l0 /\
      (key <> EmptyString -> k = key /\ l0 = l) /\
      (key = EmptyString -> exists n, k = (cname (ntype c) ++ dec n)%string /\ count_of (l_counter l) (cname (ntype c)) <= n < count_of (l_counter l0) (cname (ntype c)) /\
         ~ In k (nkeys (l_cons l)) /\ ~ In k (nkeys (l_keys l)) /\ ~ In k (nkeys (l_params l))).
  Proof.
    intros Hc. destruct (String.eqb_spec key "") as [->|Hk].
    - destruct (fresh_key3 (l_cons l) (l_keys l) (l_params l) (l_counter l) (cname (ntype c)) Hc) as (c' & k & E & (n & Ek & Hn) & H1 & H2 & H3).
      unfold gen_key. rewrite (E (counter_fuel l) ltac:(unfold counter_fuel; lia)). exists (set_counter l c'), k. split; [reflexivity|]. split; [repeat split|].
      split; [congruence|]. intros _. exists n. auto.
    - exists l, key. split; [reflexivity|]. split; [repeat split|]. split; [auto|congruence].
  Qed.
  Lemma validate_trees (l l0 : layout) c ks ps : same_trees l l0 -> validate_inputs l0 c ks ps = validate_inputs l c ks ps.
  Proof. intros [E _]. unfold validate_inputs. now rewrite E. Qed.
  Lemma rejected (l : layout) (c : cons) ks ps key e : noslash (cname (ntype c)) = true -> validate_inputs l c ks ps = Err e ->
    exists l', add_constraint l c ks ps key = (l', Err e) /\ same_trees l l' /\ (key <> EmptyString -> l' = l).
  Proof.
    intros Hc Hv. destruct (chosen l c key Hc) as (l0 & k & E & S & K & _). unfold add_constraint. rewrite E, (validate_trees l l0) , Hv by exact S. exists l0. split; [reflexivity|]. split; [exact S|].
    intros Hk. now apply K.
  Qed.
  Lemma all_found (root : prim) ks : Forall (fun k => walk (split_all k) root <> None) ks -> exists prims, mapM (get_child root) ks = Ok prims.
  Proof.
    induction 1 as [|k ks H _ [prims IH]]; [exists []; reflexivity|]. cbn [mapM]. rewrite get_child_walk. destruct (walk (split_all k) root); [|congruence]. cbn [bind]. rewrite IH. cbn [bind]. eauto.
  Qed.
  Lemma one_missing (root : prim) ks1 k ks2 : Forall (fun k => walk (split_all k) root <> None) ks1 -> walk (split_all k) root = None ->
    mapM (get_child root) (ks1 ++ k :: ks2) = Err (KeyError k).
  Proof.
    intros H1 H2. induction H1 as [|s ks1 H _ IH]; cbn [app mapM]; rewrite get_child_walk.
    - rewrite H2. reflexivity.
    - destruct (walk (split_all s) root); [|congruence]. cbn [bind]. rewrite IH. reflexivity.
  Qed.

  (** A primitive key that names nothing: KeyError with the first such key. *)
  Theorem C105_missing_primitive (l : layout) (c : cons) ks1 k ks2 ps key : noslash (cname (ntype c)) = true ->
    Forall (fun k => walk (split_all k) (l_prim l) <> None) ks1 -> walk (split_all k) (l_prim l) = None ->
    exists l', add_constraint l c (ks1 ++ k :: ks2) ps key = (l', Err (KeyError k)) /\ same_trees l l' /\ (key <> EmptyString -> l' = l).
  Proof. intros Hc H1 H2. apply rejected; [exact Hc|]. unfold validate_inputs. rewrite one_missing by assumption. reflexivity. Qed.
  (** Primitives of other classes than declared, or another number of them: RuntimeError. *)
  Theorem C105_wrong_primitives (l : layout) (c : cons) ks prims ps key : noslash (cname (ntype c)) = true ->
    mapM (get_child (l_prim l)) ks = Ok prims -> ~ Forall2 (fun p t => issubclass (ntype p) t = true) prims (prim_types (csig (nval c))) ->
    exists l', add_constraint l c ks ps key = (l', Err RuntimeErr) /\ same_trees l l' /\ (key <> EmptyString -> l' = l).
  Proof.
    intros Hc H1 H2. apply rejected; [exact Hc|]. unfold validate_inputs. rewrite H1. cbn [bind]. rewrite <- valid_prims_iff in H2. unfold cvalidate_prims in *.
    destruct (negb _); [reflexivity|]. destruct (existsb _ _); [reflexivity|]. congruence.
  Qed.
  (** Another number of parameters than declared: RuntimeError. *)
  Theorem C105_wrong_parameters (l : layout) (c : cons) ks prims ps key : noslash (cname (ntype c)) = true ->
    mapM (get_child (l_prim l)) ks = Ok prims -> Forall2 (fun p t => issubclass (ntype p) t = true) prims (prim_types (csig (nval c))) ->
    length ps <> nparams (csig (nval c)) ->
    exists l', add_constraint l c ks ps key = (l', Err RuntimeErr) /\ same_trees l l' /\ (key <> EmptyString -> l' = l).
  Proof.
    intros Hc H1 H2 H3. apply rejected; [exact Hc|]. unfold validate_inputs. rewrite H1. cbn [bind]. apply valid_prims_iff in H2. rewrite H2. cbn [bind type_to_runtime].
    destruct (valid_params_err c ps) as [E|E]; [|now rewrite E]. apply valid_params_iff in E. contradiction.
  Qed.

  (** Arguments as declared, of a shipped constraint, after any history of shipped constraints. *)
  Definition proper (l : layout) (c : cons) (ks : list string) (ps : list pyval) : Prop :=
    exists prims, mapM (get_child (l_prim l)) ks = Ok prims /\ Forall2 (fun p t => issubclass (ntype p) t = true) prims (prim_types (csig (nval c))) /\
      length ps = nparams (csig (nval c)).
  Lemma proper_validates (l : layout) c ks ps : proper l c ks ps -> validate_inputs l c ks ps = Ok tt.
  Proof.
    intros (prims & H1 & H2 & H3). unfold validate_inputs. rewrite H1. cbn [bind]. apply valid_prims_iff in H2. rewrite H2. cbn [bind type_to_runtime]. apply valid_params_iff in H3. now rewrite H3.
  Qed.
  Lemma not_both {A B} (x : option A) (y : option B) : ~ (x <> None \/ y = None) -> x = None /\ y <> None.
  Proof. intros H. split; [destruct x; [exfalso; apply H; left; discriminate|reflexivity]|intros ->; apply H; now right]. Qed.

  Section Call.
    Variables (rid : nat) (acts : list (action F)) (tw : bool) (c : cons) (ks : list string) (ps : list pyval).
    Let l := after (empty_layout rid) acts.
    Hypotheses (Hs : Forall (shipped_act true) acts) (Hc : shipped tw c ps) (Hp : proper l c ks ps).
    Lemma name_ok : noslash (cname (ntype c)) = true.
    Proof. eapply shipped_declared, Hc. Qed.
    Lemma chosen_add key l0 k : (if String.eqb key "" then let (cnt, r) := gen_key l c in (set_counter l cnt, r) else (l, Ok key)) = (l0, Ok k) -> same_trees l l0 ->
      exists l' r, add_constraint l c ks ps key = (l', r) /\ l_prim l' = l_prim l /\ l_counter l' = l_counter l0 /\ add_child (l_cons l) k c = (l_cons l', r) /\
        match r with
        | Ok _ => exists kt pt, root_prim_keys c ks = Ok kt /\ root_params c ps = Ok pt /\ add_child (l_keys l) k kt = (l_keys l', Ok tt) /\ add_child (l_params l) k pt = (l_params l', Ok tt)
        | Err e => same_trees l l' /\ e = KeyError k
        end.
    Proof.
      intros E S. destruct (C51_lockstep_shipped rid acts Hs) as [[L1 L2] _]. fold l in L1, L2. unfold add_constraint. rewrite E, (validate_trees l l0), (proper_validates l c ks ps Hp) by exact S.
      destruct S as (S1 & S2 & S3 & S4). unfold insert_constraint. rewrite S2. destruct (add_child (l_cons l) k c) as [t r1] eqn:E1. destruct r1 as [[]|e].
      2: { exists (set_cons l0 t), (Err e). split; [reflexivity|]. cbn [set_cons l_prim l_counter l_cons]. split; [exact S1|]. split; [reflexivity|]. split; [reflexivity|].
           rewrite (add_child_cases _ k _ _ (components_total k)) in E1. cbv zeta in E1.
           assert (t = l_cons l /\ e = KeyError k) as [-> ->] by (destruct (walk (removelast (split_all k)) (l_cons l)); [destruct (walk (split_all k) (l_cons l))|]; inversion E1; split; reflexivity).
           split; [|reflexivity]. split; [exact S1|]. split; [reflexivity|]. split; assumption. }
      assert (Hd : derivable c ps) by exact (shipped_sound tw (AddConstraint c ks ps key) Hc). destruct Hd as [Hd1 [pt Hpt]].
      assert (Hlen : length ks = length (prim_types (csig (nval c)))). { destruct Hp as (prims & M & V & _). apply mapM_len_eq in M. apply Forall2_len in V. congruence. }
      destruct (Hd1 ks Hlen) as [kt Hkt]. rewrite Hkt. cbn [set_cons l_keys]. rewrite S3.
      assert (Ek : snd (add_child (l_keys l) k kt) = Ok tt).
      { destruct (add_child_shape (l_cons l) (l_keys l) k (Node (ntype c) (nval c) []) (Node KPrimKeys [] []) L1 ltac:(constructor; [reflexivity|constructor])) as [_ Hx].
        rewrite (add_child_snd (l_keys l) k kt (Node KPrimKeys [] [])), <- Hx, (add_child_snd _ _ _ c), E1. reflexivity. }
      assert (Ep : snd (add_child (l_params l) k pt) = Ok tt).
      { destruct (add_child_shape (l_cons l) (l_params l) k (Node (ntype c) (nval c) []) (Node KParams [] []) L2 ltac:(constructor; [reflexivity|constructor])) as [_ Hx].
        rewrite (add_child_snd (l_params l) k pt (Node KParams [] [])), <- Hx, (add_child_snd _ _ _ c), E1. reflexivity. }
      destruct (add_child (l_keys l) k kt) as [kk rr] eqn:E2. cbn in Ek. subst rr. rewrite Hpt. cbn [set_keys set_cons l_params]. rewrite S4.
      destruct (add_child (l_params l) k pt) as [pp rr] eqn:E3. cbn in Ep. subst rr.
      eexists _, (Ok tt). split; [reflexivity|]. cbn [set_params set_keys set_cons l_prim l_counter l_cons l_keys l_params]. split; [exact S1|]. split; [reflexivity|]. split; [reflexivity|]. exists kt, pt. repeat split; first [assumption|reflexivity].
    Qed.

    (** A key that is taken, or whose parent does not exist: KeyError. *)
    Theorem C105_key_refused key : key <> EmptyString ->
      walk (split_all key) (l_cons l) <> None \/ walk (removelast (split_all key)) (l_cons l) = None ->
      exists l', add_constraint l c ks ps key = (l', Err (KeyError key)) /\ same_trees l l'.
    Proof.
      intros Hk H. destruct (chosen_add key l key) as (l' & r & E & _ & _ & A & R).
      { destruct (String.eqb_spec key ""); [contradiction|reflexivity]. } { repeat split. }
      rewrite (proj1 (proj1 (C03_add_child_refuses (l_cons l) key _ c (components_total key))) H) in A. injection A as _ <-. exists l'. split; [exact E|]. apply R.
    Qed.
    (** Otherwise the call succeeds: the constraint is stored under the key with the keys and
        parameters of the call, everything else stays. *)
    Theorem C105_accepted key : key <> EmptyString ->
      walk (split_all key) (l_cons l) = None -> walk (removelast (split_all key)) (l_cons l) <> None ->
      exists l', add_constraint l c ks ps key = (l', Ok tt) /\ l_prim l' = l_prim l /\ l_counter l' = l_counter l /\
        get_child (l_cons l') key = Ok c /\ (forall q, ~ prefix_of (split_all key) q -> ~ prefix_of q (split_all key) -> walk q (l_cons l') = walk q (l_cons l)) /\
        get_child (l_keys l') key = root_prim_keys c ks /\ get_child (l_params l') key = root_params c ps.
    Proof.
      intros Hk H1 H2. destruct (chosen_add key l key) as (l' & r & E & P & C & A & R).
      { destruct (String.eqb_spec key ""); [contradiction|reflexivity]. } { repeat split. }
      destruct (proj2 (C03_add_child_refuses (l_cons l) key _ c (components_total key))) as [n' En]; [intros [G|G]; congruence|].
      rewrite En in A. injection A as -> <-. destruct R as (kt & pt & -> & -> & A2 & A3). exists l'. split; [exact E|]. split; [exact P|]. split; [exact C|].
      destruct (C02_add_child_effect _ _ _ _ _ (components_total key) En) as (G1 & _ & _ & G2 & _). split; [exact G1|]. split; [exact G2|].
      destruct (C02_add_child_effect _ _ _ _ _ (components_total key) A2) as (G3 & _). destruct (C02_add_child_effect _ _ _ _ _ (components_total key) A3) as (G4 & _). now split.
    Qed.
    (** Without a key the call always succeeds: the constraint becomes the last child, under
        its class name and a number not used before. *)
    Theorem C105_generated : exists l' n, let k := (cname (ntype c) ++ dec n)%string in
      add_constraint l c ks ps "" = (l', Ok tt) /\ l_prim l' = l_prim l /\
      count_of (l_counter l) (cname (ntype c)) <= n < count_of (l_counter l') (cname (ntype c)) /\
      ~ In k (nkeys (l_cons l)) /\ nch (l_cons l') = (nch (l_cons l) ++ [(k, c)])%list /\
      get_child (l_keys l') k = root_prim_keys c ks /\ get_child (l_params l') k = root_params c ps.
    Proof.
      destruct (chosen l c EmptyString name_ok) as (l0 & k & E & S & _ & K). destruct (K eq_refl) as (n & Ek & Hn & F1 & F2 & F3).
      assert (Nk : noslash k = true) by (rewrite Ek, noslash_app, noslash_dec, name_ok; reflexivity).
      destruct (chosen_add EmptyString l0 k E S) as (l' & r & A & P & C & G & R).
      destruct r as [[]|e].
      2: { exfalso. assert (X : walk (split_all k) (l_cons l) = None /\ walk (removelast (split_all k)) (l_cons l) <> None).
           { rewrite split_all_single by exact Nk. cbn [walk removelast]. split; [|discriminate]. destruct (dget k (nch (l_cons l))) eqn:D; [|reflexivity]. exfalso. apply F1. apply dget_In in D. unfold nkeys, dkeys. apply in_map_iff. eexists (_, _). split; [|exact D]. reflexivity. }
           destruct (proj2 (C03_add_child_refuses (l_cons l) k _ c (components_total k))) as [n' En]; [intros [Y|Y]; destruct X; congruence|]. rewrite En in G. discriminate. }
      exists l', n. cbv zeta. rewrite <- Ek. split; [exact A|]. split; [exact P|]. split; [rewrite C; exact Hn|]. split; [exact F1|].
      apply add_child_top in G as [G _]; [|exact Nk]. split; [rewrite G; reflexivity|]. destruct R as (kt & pt & -> & -> & A2 & A3).
      destruct (C02_add_child_effect _ _ _ _ _ (components_total k) A2) as (G3 & _). destruct (C02_add_child_effect _ _ _ _ _ (components_total k) A3) as (G4 & _). now split.
    Qed.
  End Call.
End Outcome.

(** ** The history of P_Layout.v: four boxes, axes, a grid "G", a width "W", a thickness "T" *)
Definition before : layout Q := after (empty_layout 0) good_history.
Definition answer (c : cons Q) ks ps key : result unit := snd (add_constraint before c ks ps key).
Lemma shipped_width v : shipped true width [PFlt v].
Proof.
  apply sh_dimension; [|now left]. apply in_or_app. left.
  assert (E : crWidth = Ok width) by (assert (H : is_ok (crWidth (F:=Q)) = true) by (vm_compute; reflexivity); unfold width; destruct crWidth; [reflexivity|discriminate]). rewrite <- E.
  unfold dimensions. cbn [In]. repeat (first [left; reflexivity|right]).
Qed.
(** The hypotheses of the theorems. *)
Example C105_case_proper : Forall (shipped_act true) good_history /\ shipped true width [PFlt 3%Q] /\ proper before width ["B"] [PFlt 3%Q] /\
  noslash (cname (ntype width)) = true.
Proof.
  split; [apply good_shipped|]. split; [apply shipped_width|]. split; [|vm_compute; reflexivity].
  destruct (all_found (l_prim before) ["B"]) as [prims E]; [constructor; [vm_compute; discriminate|constructor]|]. exists prims. split; [exact E|].
  assert (V : validate_inputs before width ["B"] [PFlt 3%Q] = Ok tt) by (vm_compute; reflexivity). apply validate_inputs_ok in V as (prims' & E' & V). rewrite E in E'. injection E' as <-. exact V.
Qed.
(** Every answer occurs. *)
Example C105_case : answer width ["B"] [PFlt 3%Q] "V" = Ok tt /\ answer width ["B"] [PFlt 3%Q] "" = Ok tt /\
  answer width ["E"] [PFlt 3%Q] "V" = Err (KeyError "E") /\ answer width ["B"; "E"] [PFlt 3%Q] "V" = Err (KeyError "E") /\
  answer width ["B/Line0"] [PFlt 3%Q] "V" = Err RuntimeErr /\ answer width ["A"; "B"] [PFlt 3%Q] "V" = Err RuntimeErr /\
  answer width ["B"] [] "V" = Err RuntimeErr /\
  answer width ["B"] [PFlt 3%Q] "W" = Err (KeyError "W") /\ answer width ["B"] [PFlt 3%Q] "X/Y" = Err (KeyError "X/Y").
Proof. repeat split; vm_compute; reflexivity. Qed.

Print Assumptions C105_missing_primitive.
Print Assumptions C105_wrong_primitives.
Print Assumptions C105_wrong_parameters.
Print Assumptions C105_key_refused.
Print Assumptions C105_accepted.
Print Assumptions C105_generated.
