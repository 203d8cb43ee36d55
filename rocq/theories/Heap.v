(** Model of [src/mpllayout/containers.py] with object identity: [Node] objects are
    references into a heap, so one object can be a child of several nodes (the Points of
    a Polygon are shared by its Lines, a primitive can be handed to two layouts, ...).
    Node.v is the same code on trees without sharing; P_Heap.v relates the two. *)
From Verif Require Export Node.

Section Heap.
  Context {T A : Type}.

  (** A [Node] object, containers.py:37-40: its class, [_value], and the dict
      [_children], whose values are references.  Simplification: every object owns its
      dict (every constructor of the code passes a newly made one). *)
  Record obj := Obj { otype : T; oval : A; och : dict nat }.
  Definition heap := list obj.

  (** A reference is an index; objects are never removed. *)
  Definition look (h : heap) (r : nat) : option obj := nth_error h r.
  (** In-place change of one object. *)
  Fixpoint put (h : heap) (r : nat) (o : obj) : heap :=
    match h, r with
    | [], _ => []
    | _ :: h', O => o :: h'
    | x :: h', S r' => x :: put h' r' o
    end.
  (** [self.children[key] = child] on the object [r] *)
  Definition put_child (h : heap) (r : nat) (key : string) (c : nat) : heap :=
    match look h r with
    | Some o => put h r (Obj (otype o) (oval o) (dset key c (och o)))
    | None => h
    end.
  (** A new object. *)
  Definition alloc (h : heap) (o : obj) : heap * nat := (h ++ [o], length h).

  (** Attribute access on a reference.  A dangling reference does not exist in Python;
      it is reported as [OutOfFuel] and excluded by the hypotheses of the theorems. *)
  Definition deref (h : heap) (r : nat) : result obj :=
    match look h r with Some o => Ok o | None => Err OutOfFuel end.

  (** [Node.get_child], containers.py:91-104 *)
  Fixpoint hget_child_f (fuel : nat) (h : heap) (r : nat) (key : string) : result nat :=
    match fuel with
    | O => Err OutOfFuel
    | S f =>
        o <- deref h r ;;
        let (parent_key, child_keys) := split1 key in
        match child_keys with
        | None => match dget parent_key (och o) with
                  | Some c => Ok c
                  | None => Err (KeyError key)
                  end
        | Some rest =>
            match dget parent_key (och o) with
            | None => Err (KeyError key)
            | Some c => match hget_child_f f h c rest with
                        | Err (KeyError _) => Err (KeyError key)
                        | x => x
                        end
            end
        end
    end.
  Definition hget_child (h : heap) (r : nat) (key : string) : result nat :=
    hget_child_f (S (String.length key)) h r key.

  (** [Node.add_child], containers.py:106-142: the heap after the call and the outcome. *)
  Fixpoint hadd_child_f (fuel : nat) (h : heap) (r : nat) (key : string) (child : nat)
    : heap * result unit :=
    match fuel with
    | O => (h, Err OutOfFuel)
    | S f =>
        match deref h r with
        | Err e => (h, Err e)
        | Ok o =>
            let (parent_key, child_keys) := split1 key in
            match child_keys with
            | None =>
                if dmem parent_key (och o) then (h, Err (KeyError key))
                else (put_child h r parent_key child, Ok tt)
            | Some rest =>
                match dget parent_key (och o) with
                | None => (h, Err (KeyError key))
                | Some c =>
                    let (h', x) := hadd_child_f f h c rest child in
                    (h', match x with
                         | Err (KeyError _) => Err (KeyError key)
                         | _ => x
                         end)
                end
            end
        end
    end.
  Definition hadd_child (h : heap) (r : nat) (key : string) (child : nat) : heap * result unit :=
    hadd_child_f (S (String.length key)) h r key child.

  (** [Node.__contains__], containers.py:164-172 *)
  Fixpoint hcontains_f (fuel : nat) (h : heap) (r : nat) (key : string) : result bool :=
    match fuel with
    | O => Err OutOfFuel
    | S f =>
        o <- deref h r ;;
        let (parent_key, rest) := split1 key in
        let child_key := match rest with None => EmptyString | Some s => s end in
        if String.eqb child_key EmptyString then Ok (dmem parent_key (och o))
        else match hget_child h r parent_key with
             | Err e => Err e
             | Ok c => hcontains_f f h c child_key
             end
    end.
  Definition hcontains (h : heap) (r : nat) (key : string) : result bool :=
    hcontains_f (S (String.length key)) h r key.

  (** [Node.__setitem__], containers.py:195-223 *)
  Definition hsetitem (h : heap) (r : nat) (key : string) (new : nat) : heap * result unit :=
    let split_keys := split_all key in
    let parent_key := join (removelast split_keys) in
    let child_key := last split_keys EmptyString in
    match hcontains h r key with
    | Err e => (h, Err e)
    | Ok false => (h, Err (KeyError key))
    | Ok true =>
        if String.eqb parent_key EmptyString
        then (put_child h r child_key new, Ok tt)
        else match hget_child h r parent_key with
             | Err e => (h, Err e)
             | Ok p => (put_child h p child_key new, Ok tt)
             end
    end.

  (** [iter_flat], containers.py:412-440.  The recursion follows references and has no
      bound in the code; the fuel is a bound on the depth, and running out of it means
      that the code recurses deeper than that. *)
  Fixpoint hiter_flat (fuel : nat) (h : heap) (root_key : string) (r : nat)
    : result (list (string * nat)) :=
    match fuel with
    | O => Err OutOfFuel
    | S f =>
        o <- deref h r ;;
        below <- mapM (fun kc => hiter_flat f h (root_key ++ String slash (fst kc))%string (snd kc))
                      (och o) ;;
        Ok ((root_key, r) :: List.concat below)
    end.

  (** [flatten], containers.py:445-467 *)
  Definition hflatten (fuel : nat) (h : heap) (root_key : string) (r : nat)
    : result (list (flat_struct T A)) :=
    l <- hiter_flat fuel h root_key r ;;
    mapM (fun kr => o <- deref h (snd kr) ;;
                    Ok (fst kr, otype o, oval o, dkeys (och o))) l.
End Heap.
Arguments obj : clear implicits.
Arguments heap : clear implicits.

Section HUnflatten.
  Context {T A : Type}.
  (** [unflatten], containers.py:469-501: children are made before their parent. *)
  Fixpoint hunflatten_f (fuel : nat) (h : heap T A) (l : list (flat_struct T A))
    : result (heap T A * nat * list (flat_struct T A)) :=
    match fuel with
    | O => Err OutOfFuel
    | S f =>
        match l with
        | [] => Err IndexErr
        | (_, node_type, value, child_keys) :: rest =>
            let fix go (ks : list string) (h : heap T A) (structs : list (flat_struct T A))
              : result (heap T A * list nat * list (flat_struct T A)) :=
              match ks with
              | [] => Ok (h, [], structs)
              | _ :: ks' =>
                  '(h1, child, structs1) <- hunflatten_f f h structs ;;
                  '(h2, children, structs2) <- go ks' h1 structs1 ;;
                  Ok (h2, child :: children, structs2)
              end in
            '(h', children, leftover) <- go child_keys h rest ;;
            let (h'', r) := alloc h' (Obj node_type value (dict_of (zip child_keys children))) in
            Ok (h'', r, leftover)
        end
    end.
  Definition hunflatten (h : heap T A) (l : list (flat_struct T A)) :=
    hunflatten_f (S (length l)) h l.

  (** [Node.copy] = [map] with the identity, containers.py:144-147,372-386; [depth] bounds
      the recursion of [iter_flat]. *)
  Definition hcopy (depth : nat) (base : T) (h : heap T A) (r : nat) : result (heap T A * nat) :=
    s <- hflatten depth h EmptyString r ;;
    '(h', r', _) <- hunflatten h (map (fun s : flat_struct T A =>
                      let '(key, _, value, child_keys) := s in (key, base, value, child_keys)) s) ;;
    Ok (h', r').
End HUnflatten.
