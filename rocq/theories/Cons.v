(** Model of the core of [src/mpllayout/constructions.py]: construction nodes,
    evaluation, and the construction transforms. *)
From Verif Require Export Prim.

(** [ConstructionSignature], constructions.py:35-38.  Parameter types are never
    compared (constructions.py:280-281), only counted, so only their number is
    kept. *)
Record sig := { prim_types : list ptype; nparams : nat; value_size : nat }.

(** Classes asked for by [isinstance] somewhere in the code: [Scalar]
    (constructions.py:448,1723,1741,1796), [XAxisThickness]/[YAxisThickness]
    (layout.py:247,252). *)
Inductive ckind := KScalar | KXAxisThickness | KYAxisThickness.
Definition ckind_eqb (a b : ckind) : bool :=
  match a, b with
  | KScalar, KScalar | KXAxisThickness, KXAxisThickness
  | KYAxisThickness, KYAxisThickness => true
  | _, _ => false
  end.

(** A construction class: its [__name__], the kinds it is a subclass of, and its
    (class-level) [assem]. *)
Record cls (F : Type) := {
  cname : string;
  cisa : list ckind;
  cassem : list (prim F) -> list (pyval F) -> result (pyval F)
}.
Arguments cname {F}. Arguments cisa {F}. Arguments cassem {F}.

(** [ConstructionValue], constructions.py:42-45 *)
Record cval (F : Type) := {
  cpk : list (list string);
  cparams : list (pyval F) -> result (list (list (pyval F)));
  csig : sig
}.
Arguments cpk {F}. Arguments cparams {F}. Arguments csig {F}.

Notation cons F := (node (cls F) (cval F)).

(** Classes of the key and parameter trees, constructions.py:50-69. *)
Inductive ktype := KNode | KPrimKeys | KParams.
Notation knode := (node ktype (list string)).
Notation pnode F := (node ktype (list (pyval F))).

(** [chunk], constructions.py:1368-1396 *)
Definition chunk {A} (l : list A) (sizes : list nat) : list (list A) :=
  let b := accum 0 sizes in
  map (fun se => slice (fst se) (snd se) l) (zip (removelast b) (tl b)).

(** [split] of [concatenate_prims]/[concatenate_params],
    constructions.py:1461-1463,1475-1481 *)
Definition split {A} (na nb : nat) (l : list A) : list A * list A :=
  match chunk l [na; nb] with
  | [a; b] => (a, b)
  | _ => ([], [])
  end.

(** [argnum_from_key], constructions.py:219-224 *)
Definition argnum_from_key (arg_prefix : string) : result nat :=
  if String.eqb (String.substring 0 3 arg_prefix) "arg"
  then match parse_nat (String.substring 3 (String.length arg_prefix - 3) arg_prefix) with
       | Some n => Ok n
       | None => Err ValueErr
       end
  else Err ValueErr.

(** [replace_prim_key_prefix], constructions.py:226-229 *)
Definition replace_prim_key_prefix (arg_keys : list string) (prim_key : string)
  : result string :=
  let (arg_prefix, child_key) := split1 prim_key in
  n <- argnum_from_key arg_prefix ;;
  match nth_error arg_keys n with
  | None => Err IndexErr
  | Some new_prefix =>
      Ok (match child_key with
          | None => new_prefix
          | Some k => (new_prefix ++ String slash k)%string
          end)
  end.

Section Cons.
  Context {F : Type} {N : Num F}.
  Notation prim := (prim F).
  Notation cons := (cons F).
  Notation cls := (cls F).
  Notation pyval := (pyval F).

  (** [ConstructionNode.__init__], constructions.py:147-205.  The test
      [all(valid_child_prim_keys)] (line 181) iterates over the *keys* of a dict,
      so it is a test that no child key is the empty string; the computed arity
      booleans are not consulted.  The type checks hold by typing. *)
  Definition mk_cons (c : cls) (v : cval F) (children : dict cons) : result cons :=
    if negb (Nat.eqb (length (cpk v)) (length children)) then Err ValueErr
    else
      let child_prim_types := map (fun kc => (fst kc, prim_types (csig (nval (snd kc))))) children in
      let valid_child_prim_keys :=
        dict_of (map (fun kpk => (fst (fst kpk),
                        Nat.eqb (length (snd (fst kpk))) (length (snd kpk))))
                     (zip child_prim_types (cpk v))) in
      if negb (forallb (fun k => negb (String.eqb k EmptyString)) (dkeys valid_child_prim_keys))
      then Err ValueErr
      else Ok (Node c v children).

  (** [ConstructionNode.child_prim_keys], constructions.py:209-238 *)
  Definition child_prim_keys (c : cons) (arg_keys : list string)
    : result (list (list string)) :=
    mapM (mapM (replace_prim_key_prefix arg_keys)) (cpk (nval c)).

  (** [ConstructionNode.validate_prims], constructions.py:249-271 *)
  Definition cvalidate_prims (c : cons) (prims : list prim) : result unit :=
    let types := prim_types (csig (nval c)) in
    if negb (Nat.eqb (length prims) (length types)) then Err TypeErr
    else if existsb (fun pt => negb (issubclass (ntype (fst pt)) (snd pt))) (zip prims types)
         then Err TypeErr
         else Ok tt.

  (** [ConstructionNode.validate_params], constructions.py:273-281 *)
  Definition cvalidate_params (c : cons) (params : list pyval) : result unit :=
    if negb (Nat.eqb (length params) (nparams (csig (nval c)))) then Err TypeErr else Ok tt.

  (** [ConstructionNode.root_prim], constructions.py:294-314 *)
  Definition root_prim (prim_keys : list string) (prims : list prim) : result prim :=
    mk_primnode TPrimNode {| vid := 0; vdata := [] |} (dict_of (zip prim_keys prims)).

  (** [ConstructionNode.root_prim_keys], constructions.py:316-340 *)
  Fixpoint root_prim_keys (c : cons) (prim_keys : list string) : result knode :=
    match c with
    | Node t v ch =>
        cks <- child_prim_keys c prim_keys ;;
        children <-
          (fix go (ch : dict cons) (cks : list (list string)) : result (dict knode) :=
             match ch, cks with
             | (key, child) :: ch', ck :: cks' =>
                 n <- root_prim_keys child ck ;;
                 r <- go ch' cks' ;;
                 Ok ((key, n) :: r)
             | _, _ => Ok []
             end) ch cks ;;
        Ok (Node KPrimKeys prim_keys children)
    end.

  (** [ConstructionNode.root_params], constructions.py:342-364.  The zip with the
      list returned by [child_params] truncates to the shorter one. *)
  Fixpoint root_params (c : cons) (params : list pyval) : result (pnode F) :=
    match c with
    | Node t v ch =>
        cps <- cparams v params ;;
        children <-
          (fix go (ch : dict cons) (cps : list (list pyval)) : result (dict (pnode F)) :=
             match ch, cps with
             | (key, child) :: ch', cp :: cps' =>
                 n <- root_params child cp ;;
                 r <- go ch' cps' ;;
                 Ok ((key, n) :: r)
             | _, _ => Ok []
             end) ch cps ;;
        Ok (Node KParams params children)
    end.

  (** [ConstructionNode.assem_atleast_1d], constructions.py:399-400 *)
  Definition assem1 (c : cls) (prims : list prim) (params : list pyval) : result (list F) :=
    v <- cassem c prims params ;; atleast_1d v.

  (** [ConstructionNode.assem_from_tree], constructions.py:377-397 *)
  Definition assem_from_tree (c : cons) (root : prim) (pk : knode) (pp : pnode F)
    : result (list F) :=
    let flat_constructions := map snd (iter_flat EmptyString c) in
    let flat_prim_keys := map (fun x => nval (snd x)) (iter_flat EmptyString pk) in
    flat_prims <- mapM (mapM (get_child root)) flat_prim_keys ;;
    let flat_params := map (fun x => nval (snd x)) (iter_flat EmptyString pp) in
    residuals <- mapM (fun x : cons * (list prim * list pyval) =>
                         assem1 (ntype (fst x)) (fst (snd x)) (snd (snd x)))
                      (zip flat_constructions (zip flat_prims flat_params)) ;;
    match residuals with
    | [] => Err ValueErr  (* jnp.concatenate of an empty list *)
    | _ => Ok (List.concat residuals)
    end.

  Definition arg_keys (n : nat) : list string :=
    map (fun i => ("arg" ++ dec i)%string) (seq 0 n).

  (** [ConstructionNode.__call__], constructions.py:368-375 *)
  Definition call (c : cons) (prims : list prim) (params : list pyval) : result (list F) :=
    _ <- cvalidate_prims c prims ;;
    _ <- cvalidate_params c params ;;
    let keys := arg_keys (length prims) in
    root <- root_prim keys prims ;;
    rk <- root_prim_keys c keys ;;
    rp <- root_params c params ;;
    assem_from_tree c root rk rp.

  (** [Construction.__init__], constructions.py:477-487 *)
  Definition mk_construction (c : cls) (keys : list string) (constructions : list cons)
             (pks : list (list string))
             (cps : list pyval -> result (list (list pyval))) (s : sig) : result cons :=
    mk_cons c {| cpk := pks; cparams := cps; csig := s |} (dict_of (zip keys constructions)).

  (** [CompoundConstruction.assem], constructions.py:505-507: [np.array(())] for any
      arguments. *)
  Definition empty_assem (prims : list prim) (params : list pyval) : result pyval := Ok (PA1 []).

  (** [LeafConstruction.__init__]/[init_children], constructions.py:547-560 *)
  Definition mk_leaf (name : string) (s : sig)
             (f : list prim -> list pyval -> result pyval) : cons :=
    Node {| cname := name; cisa := []; cassem := f |}
         {| cpk := []; cparams := fun _ => Ok []; csig := s |} [].

  (** ** Constant constructions *)

  (** [isinstance(v, (float, int))]; [bool] is a subclass of [int]. *)
  Definition is_number (v : pyval) : bool :=
    match v with PInt _ | PFlt _ | PBool _ => true | _ => false end.

  (** [Vector.init_children]'s [child_params], constructions.py:642-652.  [cum] is
      the accumulated size of the node, [cums]/[sizes] the accumulated/own sizes
      of the children. *)
  Definition vector_child_params (cum : nat) (cums sizes : list nat)
             (params : list pyval) : result (list (list pyval)) :=
    match params with
    | [value] =>
        value <- (if is_number value
                  then arith2 (fun x y => Ok (nmul x y)) value (PA1 (List.repeat n1 cum))
                  else Ok value) ;;
        match cums with
        | [] => Ok []
        | _ =>
            match value with
            | PA1 l => Ok (map (fun cs => [PA1 (firstn (snd cs) (fst cs))]) (zip (chunk l cums) sizes))
            | PList l => Ok (map (fun cs => [PList (firstn (snd cs) (fst cs))]) (zip (chunk l cums) sizes))
            | PA0 _ => Err IndexErr
            | _ => Err TypeErr
            end
        end
    | _ => Err ValueErr
    end.

  (** [Vector.assem], constructions.py:659-663 *)
  Definition vector_assem (prims : list prim) (params : list pyval) : result pyval :=
    match params with [value] => Ok value | _ => Err TypeErr end.
  Definition vector_cls : cls :=
    {| cname := "Vector"; cisa := []; cassem := vector_assem |}.

  (** [class Vector], constructions.py:604-663 *)
  Fixpoint mk_vector {T} (size_node : node T nat) : result cons :=
    match size_node with
    | Node t size ch =>
        let acc := accumulate t Nat.add size_node 0 in
        children <-
          (fix go (ch : dict (node T nat)) : result (dict cons) :=
             match ch with
             | [] => Ok []
             | (k, n) :: r =>
                 c <- mk_vector n ;; cs <- go r ;; Ok ((k, c) :: cs)
             end) ch ;;
        mk_cons vector_cls
                {| cpk := List.repeat [] (length ch);
                   cparams := vector_child_params (nval acc)
                                (map (@nval _ _) (nvalues acc))
                                (map (fun kn => nval (snd kn)) ch);
                   csig := {| prim_types := []; nparams := 1; value_size := size |} |}
                children
    end.

  (** [class Scalar], constructions.py:666-689 *)
  Definition Scalar : cons :=
    Node {| cname := "Scalar"; cisa := [KScalar]; cassem := vector_assem |}
         {| cpk := []; cparams := fun _ => Ok [];
            csig := {| prim_types := []; nparams := 1; value_size := 1 |} |} [].

  (** ** Construction transforms *)

  (** [concatenate_signature], constructions.py:1433-1449 *)
  Definition concatenate_signature (a b : sig) (size : nat) : sig :=
    {| prim_types := prim_types a ++ prim_types b;
       nparams := nparams a + nparams b;
       value_size := size |}.

  (** [transform_partial], constructions.py:1808-1849.  [param_types[:-len]] is the
      empty tuple when no parameter is frozen. *)
  Definition transform_partial (c : cons) (freeze : list pyval) : result cons :=
    let v := nval c in
    let s := csig v in
    mk_cons {| cname := "Partial"; cisa := cisa (ntype c);
               cassem := fun prims params => cassem (ntype c) prims (params ++ freeze) |}
            {| cpk := cpk v;
               cparams := fun params => cparams v (params ++ freeze);
               csig := {| prim_types := prim_types s;
                          nparams := match freeze with
                                     | [] => 0
                                     | _ => nparams s - length freeze
                                     end;
                          value_size := value_size s |} |}
            (nch c).

  (** [transform_SumConstruction], constructions.py:1613-1658: class, value and
      child keys of one node of the sum. *)
  Definition sum_node (a b : cons) : result (cls * cval F * list string) :=
    if negb (if list_eq_dec string_dec (nkeys a) (nkeys b) then true else false)
    then Err AssertErr
    else
      let va := nval a in let vb := nval b in
      let sa := csig va in let sb := csig vb in
      if negb (Nat.eqb (value_size sa) (value_size sb)) then Err AssertErr
      else
        let split_prims := @split prim (length (prim_types sa)) (length (prim_types sb)) in
        let split_params := @split pyval (nparams sa) (nparams sb) in
        let assem prims params :=
          let (prims_a, prims_b) := split_prims prims in
          let (params_a, params_b) := split_params params in
          x <- cassem (ntype a) prims_a params_a ;;
          y <- cassem (ntype b) prims_b params_b ;;
          py_add x y in
        let child_params params :=
          let (params_a, params_b) := split_params params in
          ca <- cparams va params_a ;;
          cb <- cparams vb params_b ;;
          Ok (map (fun ab => fst ab ++ snd ab) (zip ca cb)) in
        Ok ({| cname := "SumConstruction"; cisa := []; cassem := assem |},
            {| cpk := map (fun ab => fst ab ++ snd ab) (zip (cpk va) (cpk vb));
               cparams := child_params;
               csig := concatenate_signature sa sb (value_size sa) |},
            nkeys a).

  (** [transform_sum], constructions.py:1606-1670: both trees flattened, zipped
      (truncating), each pair summed, unflattened. *)
  Definition transform_sum (a b : cons) : result cons :=
    flat <- mapM (fun ab : (string * cons) * (string * cons) =>
                    '(c, v, ks) <- sum_node (snd (fst ab)) (snd (snd ab)) ;;
                    Ok (fst (fst ab), c, v, ks))
                 (zip (iter_flat EmptyString a) (iter_flat EmptyString b)) ;;
    r <- unflatten flat ;;
    Ok (fst r).

  (** [transform_ScalarMultiple] / [transform_ScalarPower],
      constructions.py:1683-1719,1757-1792; they differ in the class name and in the
      combination of the two values (and in which of the two is evaluated first,
      i.e. which exception wins if both raise). *)
  Definition scalar_node (name : string) (op : pyval -> pyval -> result pyval) (a b : cons)
    : cls * cval F * list string :=
    let va := nval a in
    let sa := csig va in let sb := csig (nval b) in
    let split_prims := @split prim (length (prim_types sa)) (length (prim_types sb)) in
    let split_params := @split pyval (nparams sa) (nparams sb) in
    let assem prims params :=
      let (prims_a, prims_b) := split_prims prims in
      let (params_a, params_b) := split_params params in
      y <- cassem (ntype b) prims_b params_b ;;
      x <- cassem (ntype a) prims_a params_a ;;
      op x y in
    let child_params params :=
      let (params_a, params_b) := split_params params in
      ca <- cparams va params_a ;;
      Ok (map (fun p => p ++ params_b) ca) in
    ({| cname := name; cisa := cisa (ntype a); cassem := assem |},
     {| cpk := cpk va;
        cparams := child_params;
        csig := concatenate_signature sa sb (value_size sa) |},
     nkeys a).

  Definition transform_scalar (name : string) (op : pyval -> pyval -> result pyval)
             (c scalar : cons) : result cons :=
    r <- unflatten (map (fun kc : string * cons =>
                           let '(cl, v, ks) := scalar_node name op (snd kc) scalar in
                           (fst kc, cl, v, ks))
                        (iter_flat EmptyString c)) ;;
    Ok (fst r).

  (** The right operand of an operator: a construction or a Python value. *)
  Inductive opnd := OCons (c : cons) | OVal (v : pyval).

  Definition is_kind (k : ckind) (c : cons) : bool := existsb (ckind_eqb k) (cisa (ntype c)).

  (** The conversion of the scalar argument, constructions.py:1721-1724,1794-1797 *)
  Definition to_scalar (s : opnd) : result cons :=
    match s with
    | OVal v => if is_number v then transform_partial Scalar [v] else Err TypeErr
    | OCons c => if is_kind KScalar c then Ok c else Err TypeErr
    end.

  (** [transform_scalar_mul], constructions.py:1673-1732: the scalar is the left
      factor. *)
  Definition transform_scalar_mul (c : cons) (s : opnd) : result cons :=
    sc <- to_scalar s ;;
    transform_scalar "ScalarMultipleConstruction" (fun x y => py_mul y x) c sc.

  (** [transform_scalar_pow], constructions.py:1747-1805 *)
  Definition transform_scalar_pow (c : cons) (s : opnd) : result cons :=
    sc <- to_scalar s ;;
    transform_scalar "ScalarPowerConstruction" py_pow c sc.

  (** [transform_scalar_div], constructions.py:1735-1744.  A construction that is
      not a [Scalar] gets frozen as a parameter; arithmetic on it raises TypeError
      at evaluation, as it does for [PNone], which stands for it. *)
  Definition transform_scalar_div (c : cons) (s : opnd) : result cons :=
    sc <- match s with
          | OCons sc => if is_kind KScalar sc then Ok sc else transform_partial Scalar [PNone]
          | OVal v => transform_partial Scalar [v]
          end ;;
    p <- transform_scalar_pow sc (OVal (PInt (-1))) ;;
    transform_scalar_mul c (OCons p).

  (** [transform_map], constructions.py:1524-1603.  [N + 1 - len] on naturals is
      [max(N - (len - 1), 0)]; when it is 0 no key is produced, and otherwise
      [range(N-M, N)] starts at that number. *)
  Definition transform_map (c : cons) (PrimTypes : list ptype) : result cons :=
    let s := csig (nval c) in
    let n := length PrimTypes in
    let len := length (prim_types s) in
    let num := n + 1 - len in
    let constant := map (fun i => ("arg" ++ dec i)%string) (seq num (n - num)) in
    mk_cons {| cname := ("Map" ++ cname (ntype c))%string; cisa := []; cassem := empty_assem |}
            {| cpk := map (fun i => ("arg" ++ dec i)%string :: constant) (seq 0 num);
               cparams := fun params =>
                 Ok (map (fun i => slice (i * nparams s) ((i + 1) * nparams s) params) (seq 0 num));
               csig := {| prim_types := List.concat (List.repeat (firstn 1 (prim_types s)) num)
                                          ++ skipn 1 (prim_types s);
                          nparams := num * nparams s;
                          value_size := 0 |} |}
            (dict_of (map (fun i => ((cname (ntype c) ++ dec i)%string, c)) (seq 0 num))).

  (** [transform_constraint], constructions.py:1488-1516.  [vector_cls] is a dummy for
      the class [Node] of the size tree, which nothing looks at. *)
  Definition transform_constraint (c : cons) : result cons :=
    size_node <- node_map vector_cls (fun v : cval F => value_size (csig v)) c ;;
    vector <- mk_vector size_node ;;
    neg <- transform_scalar_mul vector (OVal (PInt (-1))) ;;
    transform_sum c neg.

  (** ** Operators, constructions.py:435-460 *)
  (** [isinstance(self, Scalar)] selects the argument order in [__mul__]; a
      non-construction first argument of a transform raises AttributeError in
      [iter_flat] (after the conversion of the scalar). *)
  Definition op_neg (c : cons) : result cons := transform_scalar_mul c (OVal (PFlt (nofZ (-1)))).
  Definition op_pos (c : cons) : cons := c.
  Definition op_add (c : cons) (o : opnd) : result cons :=
    match o with OCons b => transform_sum c b | OVal _ => Err AttrErr end.
  Definition op_radd (v : pyval) (c : cons) : result cons := Err AttrErr.
  Definition op_mul (c : cons) (o : opnd) : result cons :=
    if is_kind KScalar c
    then match o with
         | OCons b => transform_scalar_mul b (OCons c)
         | OVal _ => Err AttrErr
         end
    else transform_scalar_mul c o.
  Definition op_rmul (v : pyval) (c : cons) : result cons := transform_scalar_mul c (OVal v).
  Definition op_truediv (c : cons) (o : opnd) : result cons := transform_scalar_div c o.
  Definition op_pow (c : cons) (o : opnd) : result cons := transform_scalar_pow c o.
End Cons.
Arguments opnd F : clear implicits.
