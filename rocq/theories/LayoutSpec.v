(** Vocabulary for layout histories. *)
From Verif Require Export CounterProofs Layout ConsSpec.

Section LayoutSpec.
  Context {F : Type} {N : Num F}.
  Notation prim := (prim F).
  Notation pyval := (pyval F).
  Notation cons := (cons F).
  Notation layout := (layout F).

  (** The mutating calls of a Layout. *)
  Inductive action :=
  | AddPrim (p : prim) (key : string)
  | AddPrims (d : dict prim)
  | AddConstraint (c : cons) (keys : list string) (params : list pyval) (key : string).
  Definition act (l : layout) (a : action) : layout * result unit :=
    match a with
    | AddPrim p key => add_prim l p key
    | AddPrims d => add_prims l d
    | AddConstraint c keys params key => add_constraint l c keys params key
    end.
  (** The layout after a sequence of calls on [l]; exceptions are caught by the caller,
      who goes on with the layout as the failed call left it. *)
  Definition after (l : layout) (acts : list action) : layout :=
    fold_left (fun l a => fst (act l a)) acts l.
  (** The same if no call raises. *)
  Inductive runs : layout -> list action -> layout -> Prop :=
  | runs_nil l : runs l [] l
  | runs_step l a l' acts l'' : act l a = (l', Ok tt) -> runs l' acts l'' -> runs l (a :: acts) l''.

  (** Same keys in the same order at every level of the three constraint trees. *)
  Definition lockstep (l : layout) : Prop :=
    same_shape (l_cons l) (l_keys l) /\ same_shape (l_cons l) (l_params l).
  (** The constraint can be evaluated with these parameters (on some primitives). *)
  Definition evaluable (c : cons) (params : list pyval) : Prop :=
    exists prims v, call c prims params = Ok v.
  (** The key and parameter trees of the constraint can be built for these parameters. *)
  Definition derivable (c : cons) (params : list pyval) : Prop :=
    (forall keys, length keys = length (prim_types (csig (nval c))) -> exists kt, root_prim_keys c keys = Ok kt) /\
    (exists pt, root_params c params = Ok pt).
  (** The constraints added by a history. *)
  Definition added (acts : list action) : list (cons * list string * list pyval) :=
    flat_map (fun a => match a with AddConstraint c ks ps _ => [(c, ks, ps)] | _ => [] end) acts.
  (** All keys of added constraints (and class names, from which keys are generated) are
      without slash. *)
  Definition toplevel (a : action) : Prop :=
    match a with AddConstraint c _ _ key => noslash key = true /\ noslash (cname (ntype c)) = true | _ => True end.
  (** Every node derives parameters for each child. *)
  Definition complete (a : action) : Prop :=
    match a with AddConstraint c _ ps _ => arity_ok c ps | _ => True end.
  Definition sound (a : action) : Prop :=
    match a with AddConstraint c _ ps _ => derivable c ps | _ => True end.
  (** The layout with unchanged trees (its key counter may differ). *)
  Definition same_trees (l l' : layout) : Prop :=
    l_prim l' = l_prim l /\ l_cons l' = l_cons l /\ l_keys l' = l_keys l /\ l_params l' = l_params l.
  (** [r] is the value of the constraint on the primitives its keys name in [root]. *)
  Definition value_at (root : prim) (x : cons * list string * list pyval) (r : list F) : Prop :=
    let '(c, ks, ps) := x in
    exists prims, mapM (get_child root) ks = Ok prims /\ call c prims ps = Ok r.
  (** The primitives a constraint's keys name in [root] have the declared classes. *)
  Definition typed_at (root : prim) (x : cons * list string * list pyval) : Prop :=
    let '(c, ks, ps) := x in
    exists prims, mapM (get_child root) ks = Ok prims /\ valid_args c prims ps /\
      Forall (fun p => ntype p <> TNode) prims.
End LayoutSpec.
Arguments action F : clear implicits.
