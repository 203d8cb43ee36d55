(** Model of the pytree registration of nodes, containers.py:504-527 and
    primitives.py:562-580: a node flattens to its value and its dict of children; jax
    flattens dicts in the order of their sorted keys (and rebuilds them in that order).
    Simplification: every node value is a leaf (an array, as for primitives). *)
From Verif Require Export Node.

(** Insertion of an item into a dict with sorted keys (strings are compared by code point). *)
Fixpoint insert_item {X} (k : string) (x : X) (d : list (string * X)) : list (string * X) :=
  match d with
  | [] => [(k, x)]
  | (k', x') :: d' => if String.ltb k k' then (k, x) :: d else (k', x') :: insert_item k x d'
  end.
(** [sorted(d.items())] by keys, as jax orders dicts. *)
Definition sort_items {X} (d : list (string * X)) : list (string * X) :=
  fold_right (fun kx d => insert_item (fst kx) (snd kx) d) [] d.

(** jax's PyTreeDef of a node: its class and, in sorted key order, those of its children. *)
Inductive treedef (T : Type) : Type := TreeDef (ty : T) (children : list (string * treedef T)).
Arguments TreeDef {T} ty children.

Section Pytree.
  Context {T A B : Type}.
  (** [jax.tree_util.tree_structure(node)]: [_flatten_node], containers.py:512-515. *)
  Fixpoint tree_structure (n : node T A) : treedef T :=
    match n with Node t _ ch => TreeDef t (sort_items (map (fun kc => (fst kc, tree_structure (snd kc))) ch)) end.
  (** [jax.tree_util.tree_leaves(node)]: the value, then the leaves of the children. *)
  Fixpoint tree_leaves (n : node T A) : list A :=
    match n with Node _ v ch => v :: flat_map snd (sort_items (map (fun kc => (fst kc, tree_leaves (snd kc))) ch)) end.
  (** [jax.tree_util.tree_unflatten]: [_unflatten_node], containers.py:517-519, with
      [from_tree] of the registered class, containers.py:42-55. *)
  Fixpoint unflatten_from (d : treedef T) (leaves : list B) : result (node T B * list B) :=
    match d with
    | TreeDef t ch =>
        match leaves with
        | [] => Err ValueErr
        | v :: leaves =>
            '(children, leaves) <-
              (fix go (ch : list (string * treedef T)) (leaves : list B) : result (list (string * node T B) * list B) :=
                 match ch with
                 | [] => Ok ([], leaves)
                 | (k, d) :: ch =>
                     '(c, leaves) <- unflatten_from d leaves ;;
                     '(cs, leaves) <- go ch leaves ;;
                     Ok ((k, c) :: cs, leaves)
                 end) ch leaves ;;
            Ok (Node t v children, leaves)
        end
    end.
  (** Too few or too many leaves: ValueError. *)
  Definition tree_unflatten (d : treedef T) (leaves : list B) : result (node T B) :=
    '(n, rest) <- unflatten_from d leaves ;;
    match rest with [] => Ok n | _ => Err ValueErr end.
End Pytree.
(** [jax.tree_util.tree_map(f, node)] *)
Definition tree_map {T A B} (f : A -> B) (n : node T A) : result (node T B) :=
  tree_unflatten (tree_structure n) (map f (tree_leaves n)).
