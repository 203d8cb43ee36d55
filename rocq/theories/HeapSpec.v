(** Specification vocabulary for trees of Node objects. *)
From Verif Require Export Heap Spec.

(** Object [r] of the heap, followed through all its children, is the tree [t]. *)
Inductive shows {T A} (h : heap T A) : nat -> node T A -> Prop :=
| shows_node r o ch :
    nth_error h r = Some o ->
    Forall2 (fun kr kc => fst kr = fst kc /\ shows h (snd kr) (snd kc)) (och o) ch ->
    shows h r (Node (otype o) (oval o) ch).

(** The object reached from [r] by following one child key per step. *)
Fixpoint hwalk {T A} (h : heap T A) (path : list string) (r : nat) : option nat :=
  match path with
  | [] => Some r
  | k :: ks => match nth_error h r with
               | Some o => match dget k (och o) with
                           | Some c => hwalk h ks c
                           | None => None
                           end
               | None => None
               end
  end.

(** [x] is [r] itself or found somewhere below it. *)
Definition holds {T A} (h : heap T A) (r x : nat) : Prop := exists path, hwalk h path r = Some x.

(** All objects but [p] are as before; [p] has the same class and value, and its child
    dict is [ch]. *)
Definition only_children_of {T A} (h h' : heap T A) (p : nat) (ch : dict nat) : Prop :=
  length h' = length h /\
  (forall x, x <> p -> nth_error h' x = nth_error h x) /\
  exists o, nth_error h p = Some o /\ nth_error h' p = Some (Obj (otype o) (oval o) ch).

(** Only new objects were made. *)
Definition extends {T A} (h h' : heap T A) : Prop := exists new, h' = h ++ new.

(** The children of every object form a dict (no key twice); true of every Python heap. *)
Definition dicts {T A} (h : heap T A) : Prop := Forall (fun o => NoDup (map fst (och o))) h.

(** Is [p] the object found from [r] along this path? *)
Definition finds {T A} (h : heap T A) (r p : nat) (path : list string) : bool :=
  match hwalk h path r with Some x => Nat.eqb x p | None => false end.

(** The tree [t] with the child [tc] added under [k] at every marked place. *)
Fixpoint graft {T A} (mark : list string -> bool) (k : string) (tc t : node T A) : node T A :=
  match t with
  | Node ty v ch =>
      Node ty v (map (fun kc => (fst kc, graft (fun q => mark (fst kc :: q)) k tc (snd kc))) ch
                 ++ (if mark [] then [(k, tc)] else []))
  end.

(** No object is found along two different paths. *)
Definition unshared {T A} (h : heap T A) (r : nat) : Prop :=
  forall p q x, hwalk h p r = Some x -> hwalk h q r = Some x -> p = q.
