(** Specification of what evaluating a construction means, independent of how the
    code does it (flattened key/parameter trees): plain recursion on the construction. *)
From Verif Require Export CounterProofs Layout.

Section Denote.
  Context {F : Type} {N : Num F}.
  Notation prim := (prim F).
  Notation pyval := (pyval F).
  Notation cons := (cons F).

  (** The primitive a key 'arg{i}' or 'arg{i}/path' names among argument primitives.
      [select_spec] (ConsProofs.v) states it in terms of [components] and [walk]. *)
  Definition select (prims : list prim) (key : string) : result prim :=
    let (a, rest) := split1 key in
    i <- argnum_from_key a ;;
    match nth_error prims i with
    | None => Err IndexErr
    | Some q => match rest with None => Ok q | Some r => get_child q r end
    end.

  (** The outputs of a construction tree, one list per node, parent first, children
      in order.  Each child needs its own primitive keys and parameters. *)
  Fixpoint denote (c : cons) (prims : list prim) (params : list pyval)
    : result (list (list F)) :=
    match c with
    | Node t v ch =>
        own <- assem1 t prims params ;;
        sels <- mapM (mapM (select prims)) (cpk v) ;;
        cps <- cparams v params ;;
        rest <- (fix go (ch : dict cons) (sels : list (list prim)) (cps : list (list pyval))
                   : result (list (list F)) :=
                   match ch, sels, cps with
                   | [], _, _ => Ok []
                   | (_, child) :: ch', s :: sels', p :: cps' =>
                       a <- denote child s p ;;
                       b <- go ch' sels' cps' ;;
                       Ok (a ++ b)
                   | _, _, _ => Err ValueErr
                   end) ch sels cps ;;
        Ok (own :: rest)
    end.

  (** The loop of [denote] on its own. *)
  Fixpoint denotes (ch : dict cons) (sels : list (list prim)) (cps : list (list pyval))
    : result (list (list F)) :=
    match ch, sels, cps with
    | [], _, _ => Ok []
    | (_, child) :: ch', s :: sels', p :: cps' =>
        a <- denote child s p ;;
        b <- denotes ch' sels' cps' ;;
        Ok (a ++ b)
    | _, _, _ => Err ValueErr
    end.
  Lemma denote_unfold t v ch prims params :
    denote (Node t v ch) prims params =
      (own <- assem1 t prims params ;;
       sels <- mapM (mapM (select prims)) (cpk v) ;;
       cps <- cparams v params ;;
       rest <- denotes ch sels cps ;;
       Ok (own :: rest)).
  Proof.
    cbn [denote]. f_equal.
  Qed.

  (** Every node derives parameters for each of its children (and names primitives
      for each), for the given parameters. *)
  Inductive arity_ok : cons -> list pyval -> Prop :=
  | arity_node t v ch params :
      length (cpk v) = length ch ->
      (forall cps, cparams v params = Ok cps ->
         length ch <= length cps /\
         (forall i k c p, nth_error ch i = Some (k, c) -> nth_error cps i = Some p -> arity_ok c p)) ->
      arity_ok (Node t v ch) params.

  (** Stronger: at every node the derived parameters and the named primitives have the
      numbers the node's signature declares. *)
  Inductive fits : cons -> list pyval -> Prop :=
  | fits_node t v ch params :
      length params = nparams (csig v) ->
      length (cpk v) = length ch ->
      (forall i k c ks, nth_error ch i = Some (k, c) -> nth_error (cpk v) i = Some ks ->
         length ks = length (prim_types (csig (nval c)))) ->
      (forall cps, cparams v params = Ok cps ->
         length ch <= length cps /\
         (forall i k c p, nth_error ch i = Some (k, c) -> nth_error cps i = Some p -> fits c p)) ->
      fits (Node t v ch) params.

  (** Same child keys at every level, same declared size at every node. *)
  Inductive summable : cons -> cons -> Prop :=
  | summable_node ta va cha tb vb chb :
      map fst cha = map fst chb ->
      value_size (csig va) = value_size (csig vb) ->
      Forall2 (fun x y => summable (snd x) (snd y)) cha chb ->
      summable (Node ta va cha) (Node tb vb chb).

  (** At every node, [a] takes no primitives or [b]'s children take none: then joining
      the argument lists of [a] and [b] does not change what [b]'s child keys mean. *)
  Inductive independent : cons -> cons -> Prop :=
  | independent_node ta va cha tb vb chb :
      prim_types (csig va) = [] \/ Forall (fun ks => ks = []) (cpk vb) ->
      Forall2 (fun x y => independent (snd x) (snd y)) cha chb ->
      independent (Node ta va cha) (Node tb vb chb).

  (** The sizes a construction declares for its nodes. *)
  Definition declared_sizes (c : cons) : list nat :=
    map (fun m => value_size (csig (nval m))) (preorder c).
  (** Entry-wise sum. *)
  Definition vplus (a b : list F) : list F := map (fun xy => nadd (fst xy) (snd xy)) (zip a b).

  (** Argument lists the declared signature accepts. *)
  Definition valid_args (c : cons) (prims : list prim) (params : list pyval) : Prop :=
    Forall2 (fun p t => issubclass (ntype p) t = true) prims (prim_types (csig (nval c))) /\
    length params = nparams (csig (nval c)).
End Denote.
