(** Specification vocabulary for layouts as objects. *)
From Verif Require Export LayoutSpec HeapLayout.
From Verif Require Export HeapSpec.

Section HeapLayoutSpec.
  Context {F : Type} {N : Num F}.

  (** The layout object, followed through all references, is the layout [L] of trees. *)
  Definition shows_layout (w : world F) (l : hlayout) (L : layout F) : Prop :=
    shows (w_prims w) (r_prim l) (l_prim L) /\ shows (w_cons w) (r_cons l) (l_cons L) /\
    shows (w_keys w) (r_keys l) (l_keys L) /\ shows (w_params w) (r_params l) (l_params L) /\
    r_counter l = l_counter L.
  (** No object has a child key twice. *)
  Definition all_dicts (w : world F) : Prop :=
    dicts (w_prims w) /\ dicts (w_cons w) /\ dicts (w_keys w) /\ dicts (w_params w).

  (** The mutating calls of a Layout, with objects as arguments. *)
  Inductive request :=
  | RAddPrim (p : nat) (key : string)
  | RAddPrims (d : dict nat)
  | RAddConstraint (c : nat) (keys : list string) (params : list (pyval F)) (key : string).
  Definition perform (w : world F) (l : hlayout) (a : request) : world F * hlayout * result unit :=
    match a with
    | RAddPrim p key => let (w, r) := hadd_prim w l p key in (w, l, r)
    | RAddPrims d => let (w, r) := hadd_prims w l d in (w, l, r)
    | RAddConstraint c keys params key => hadd_constraint w l c keys params key
    end.
  (** A sequence of calls on one layout; exceptions are caught by the caller, who goes on. *)
  Fixpoint performs (w : world F) (l : hlayout) (rs : list request)
    : world F * hlayout * list (result unit) :=
    match rs with
    | [] => (w, l, [])
    | a :: rs => let '(w, l, r) := perform w l a in
                 let '(w, l, out) := performs w l rs in (w, l, r :: out)
    end.
  (** The outcomes of the same calls on trees ([after] of LayoutSpec.v has the layout). *)
  Fixpoint outcomes (L : layout F) (acts : list (action F)) : list (result unit) :=
    match acts with
    | [] => []
    | a :: acts => snd (act L a) :: outcomes (fst (act L a)) acts
    end.

  (** The object handed in is a tree and does not contain the layout's root. *)
  Definition given {T A} (h : heap T A) (root r : nat) (t : node T A) : Prop :=
    shows h r t /\ ~ holds h r root.
  Definition stands_for (w : world F) (l : hlayout) (a : request) (b : action F) : Prop :=
    match a, b with
    | RAddPrim r key, AddPrim p key' => key = key' /\ given (w_prims w) (r_prim l) r p
    | RAddPrims d, AddPrims d' =>
        Forall2 (fun kr kp => fst kr = fst kp /\ given (w_prims w) (r_prim l) (snd kr) (snd kp)) d d'
    | RAddConstraint r ks ps key, AddConstraint c ks' ps' key' =>
        ks = ks' /\ ps = ps' /\ key = key' /\ given (w_cons w) (r_cons l) r c
    | _, _ => False
    end.
  (** No key has a slash (nor the class name automatic keys are made of). *)
  Definition flat_key (b : action F) : Prop :=
    match b with
    | AddPrim _ key => noslash key = true
    | AddPrims d => Forall (fun kp => noslash (fst kp) = true) d
    | AddConstraint c _ _ key => noslash key = true /\ noslash (cname (ntype c)) = true
    end.
  (** Of the objects that existed, only [r] may have changed. *)
  Definition unchanged_but {T A} (r : nat) (h h' : heap T A) : Prop :=
    length h <= length h' /\ forall x, x < length h -> x <> r -> nth_error h' x = nth_error h x.
End HeapLayoutSpec.
