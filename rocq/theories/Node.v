(** Model of [src/mpllayout/containers.py]. *)
From Verif Require Export Base.

(** [class Node], containers.py:18-40.  [T] is the Python class of the node
    ([type(node)]), [A] the type of [node.value]; [children] is the (insertion
    ordered) dict.  Simplification: nodes are values, so two places of a tree
    holding the same Node object are modelled as two equal subtrees (aliasing of
    Node objects is modelled separately in Heap.v). *)
Inductive node (T A : Type) : Type :=
| Node (ty : T) (value : A) (children : list (string * node T A)).
Arguments Node {T A} ty value children.

Definition ntype {T A} (n : node T A) : T := match n with Node t _ _ => t end.
(** [Node.value], containers.py:60-65 *)
Definition nval {T A} (n : node T A) : A := match n with Node _ v _ => v end.
(** [Node.children], containers.py:67-72 *)
Definition nch {T A} (n : node T A) : dict (node T A) :=
  match n with Node _ _ c => c end.
(** [Node.keys], containers.py:177-181 *)
Definition nkeys {T A} (n : node T A) : list string := dkeys (nch n).
(** [Node.values], containers.py:183-187 *)
Definition nvalues {T A} (n : node T A) : list (node T A) := dvals (nch n).
(** [Node.__len__], containers.py:174-175 *)
Definition nlen {T A} (n : node T A) : nat := length (nch n).

Section NodeOps.
  Context {T A : Type}.
  Notation nd := (node T A).

  (** [Node.get_child], containers.py:91-104.  The recursion is on the rest of
      the key; the fuel is the key length + 1, which always suffices.  A KeyError
      of an inner level is re-raised with the key of the outer level
      (lines 100-101), so the outermost key is reported. *)
  Fixpoint get_child_f (fuel : nat) (n : nd) (key : string) : result nd :=
    match fuel with
    | O => Err OutOfFuel
    | S f =>
        let (parent_key, child_keys) := split1 key in
        match child_keys with
        | None =>
            match dget parent_key (nch n) with
            | Some c => Ok c
            | None => Err (KeyError key)
            end
        | Some rest =>
            match dget parent_key (nch n) with
            | None => Err (KeyError key)
            | Some c =>
                match get_child_f f c rest with
                | Err (KeyError _) => Err (KeyError key)
                | r => r
                end
            end
        end
    end.
  Definition get_child (n : nd) (key : string) : result nd :=
    get_child_f (S (String.length key)) n key.

  (** [Node.__getitem__] with an [int] key, containers.py:241-244
      (non-negative indices only: the code only uses [line[0]]). *)
  Definition get_int (n : nd) (i : nat) : result nd :=
    match nth_error (nvalues n) i with
    | Some c => Ok c
    | None => Err IndexErr
    end.

  (** [Node.add_child] / [_add_child_nonrecursive], containers.py:106-142.
      Returns the tree after the call together with the outcome. *)
  Fixpoint add_child_f (fuel : nat) (n : nd) (key : string) (child : nd)
    : nd * result unit :=
    match fuel with
    | O => (n, Err OutOfFuel)
    | S f =>
        let (parent_key, child_keys) := split1 key in
        match child_keys with
        | None =>
            if dmem parent_key (nch n) then (n, Err (KeyError key))
            else (Node (ntype n) (nval n) (dset parent_key child (nch n)), Ok tt)
        | Some rest =>
            match dget parent_key (nch n) with
            | None => (n, Err (KeyError key))
            | Some c =>
                let (c', r) := add_child_f f c rest child in
                (Node (ntype n) (nval n) (dset parent_key c' (nch n)),
                 match r with
                 | Err (KeyError _) => Err (KeyError key)
                 | _ => r
                 end)
            end
        end
    end.
  Definition add_child (n : nd) (key : string) (child : nd) : nd * result unit :=
    add_child_f (S (String.length key)) n key child.

  (** [Node.__contains__], containers.py:164-172.  [self[parent_key]] may raise. *)
  Fixpoint contains_f (fuel : nat) (n : nd) (key : string) : result bool :=
    match fuel with
    | O => Err OutOfFuel
    | S f =>
        let (parent_key, rest) := split1 key in
        let child_key := match rest with None => EmptyString | Some r => r end in
        if String.eqb child_key EmptyString
        then Ok (dmem parent_key (nch n))
        else match get_child n parent_key with
             | Err e => Err e
             | Ok c => contains_f f c child_key
             end
    end.
  Definition contains (n : nd) (key : string) : result bool :=
    contains_f (S (String.length key)) n key.

  (** In-place update of the child dict of the node found by [get_child n key]
      (the assignment [parent.children[child_key] = node] reached through a
      reference; containers.py:222-223).  Applies [f] to the node addressed by
      [key]; unchanged if [key] does not resolve. *)
  Fixpoint update_at_f (fuel : nat) (n : nd) (key : string) (f : nd -> nd) : nd :=
    match fuel with
    | O => n
    | S fu =>
        let (parent_key, child_keys) := split1 key in
        match dget parent_key (nch n) with
        | None => n
        | Some c =>
            let c' := match child_keys with
                      | None => f c
                      | Some rest => update_at_f fu c rest f
                      end in
            Node (ntype n) (nval n) (dset parent_key c' (nch n))
        end
    end.
  Definition update_at (n : nd) (key : string) (f : nd -> nd) : nd :=
    update_at_f (S (String.length key)) n key f.

  Definition set_key (k : string) (new : nd) (n : nd) : nd :=
    Node (ntype n) (nval n) (dset k new (nch n)).

  (** [Node.__setitem__], containers.py:195-223. *)
  Definition setitem (n : nd) (key : string) (new : nd) : nd * result unit :=
    let split_keys := split_all key in
    let parent_key := join (removelast split_keys) in
    let child_key := last split_keys EmptyString in
    match contains n key with
    | Err e => (n, Err e)
    | Ok false => (n, Err (KeyError key))
    | Ok true =>
        if String.eqb parent_key EmptyString
        then (set_key child_key new n, Ok tt)
        else match get_child n parent_key with
             | Err e => (n, Err e)
             | Ok _ => (update_at n parent_key (set_key child_key new), Ok tt)
             end
    end.

  (** [Node.node_height], containers.py:74-89 *)
  Fixpoint node_height (n : nd) : nat :=
    match n with
    | Node _ _ ch =>
        match ch with
        | [] => 0
        | _ => 1 + fold_right Nat.max 0 (map (fun kc => node_height (snd kc)) ch)
        end
    end.

  (** [iter_flat], containers.py:412-440 *)
  Fixpoint iter_flat (root_key : string) (n : nd) : list (string * nd) :=
    match n with
    | Node _ _ ch =>
        (root_key, n) ::
        flat_map (fun kc => iter_flat (root_key ++ String slash (fst kc))%string (snd kc)) ch
    end.

  (** [FlatNodeStructure] and [flatten], containers.py:443-467 *)
  Definition flat_struct : Type := string * T * A * list string.
  Definition flatten (root_key : string) (n : nd) : list flat_struct :=
    map (fun kn => (fst kn, ntype (snd kn), nval (snd kn), nkeys (snd kn)))
        (iter_flat root_key n).
End NodeOps.
Arguments flat_struct : clear implicits.

Section Unflatten.
  Context {T A : Type}.

  (** [unflatten], containers.py:469-501.  [node_structs[0]] raises IndexError on
      an empty list.  Fuel: each call consumes one structure, so the list length
      + 1 suffices. *)
  Fixpoint unflatten_f (fuel : nat) (l : list (flat_struct T A))
    : result (node T A * list (flat_struct T A)) :=
    match fuel with
    | O => Err OutOfFuel
    | S f =>
        match l with
        | [] => Err IndexErr
        | (_, node_type, value, child_keys) :: rest =>
            let fix go (ks : list string) (structs : list (flat_struct T A))
              : result (list (node T A) * list (flat_struct T A)) :=
              match ks with
              | [] => Ok ([], structs)
              | _ :: ks' =>
                  '(child, structs1) <- unflatten_f f structs ;;
                  '(children, structs2) <- go ks' structs1 ;;
                  Ok (child :: children, structs2)
              end in
            '(children, leftover) <- go child_keys rest ;;
            Ok (Node node_type value (dict_of (zip child_keys children)), leftover)
        end
    end.
  Definition unflatten (l : list (flat_struct T A)) :=
    unflatten_f (S (length l)) l.
End Unflatten.

(** [map], containers.py:372-386 (named [node_map] as in constructions.py:20).
    All node classes become [Node] ([base]); line 386 takes element 0 of the
    pair. *)
Definition node_map {T A B} (base : T) (f : A -> B) (n : node T A) : result (node T B) :=
  r <- unflatten
         (map (fun s : flat_struct T A =>
                 let '(key, _, value, child_keys) := s in (key, base, f value, child_keys))
              (flatten EmptyString n)) ;;
  Ok (fst r).

(** [Node.copy], containers.py:144-147 *)
Definition node_copy {T A} (base : T) (n : node T A) : result (node T A) :=
  node_map base (fun v => v) n.

(** [accumulate], containers.py:388-408.  [functools.reduce] is a left fold from
    the node's own value. *)
Fixpoint accumulate {T A} (base : T) (f : A -> A -> A) (n : node T A) (initial : A)
  : node T A :=
  match n with
  | Node _ v ch =>
      let cnodes := map (fun kc => (fst kc, accumulate base f (snd kc) initial)) ch in
      let value := match cnodes with
                   | [] => f v initial
                   | _ => fold_left f (map (fun kc => nval (snd kc)) cnodes) v
                   end in
      Node base value cnodes
  end.

(** ** [class ItemCounter], containers.py:251-365.
    The state is [category_counts]; the item is represented by its category
    ([categorize_by_classname], lines 269-271). *)
Definition counter := dict nat.

(** [ItemCounter.add_item], containers.py:290-311 *)
Definition add_item (c : counter) (category : string) : counter * string :=
  let n := match dget category c with Some m => m + 1 | None => 1 end in
  (dset category n c, (category ++ dec (n - 1))%string).

(** [ItemCounter.add_item_until_valid], containers.py:313-339.  The while loop
    has no bound in the code; here it runs on fuel and [None] means "still
    running". *)
Fixpoint add_item_until_valid (fuel : nat) (c : counter) (category : string)
         (valid : string -> result bool) : option (counter * result string) :=
  match fuel with
  | O => None
  | S f =>
      let (c', key) := add_item c category in
      match valid key with
      | Err e => Some (c', Err e)
      | Ok true => Some (c', Ok key)
      | Ok false => add_item_until_valid f c' category valid
      end
  end.

(** [all(key not in node for node in nodes)], containers.py:362-364: stops at the
    first False. *)
Fixpoint notin_all (tests : list (string -> result bool)) (key : string) : result bool :=
  match tests with
  | [] => Ok true
  | t :: r => b <- t key ;; if b then Ok false else notin_all r key
  end.
