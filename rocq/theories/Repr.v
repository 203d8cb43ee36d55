(** Model of [Node.__repr__] and [Node.__str__], containers.py:149-157. *)
From Verif Require Export Node.

(** Python's [", ".join(l)] *)
Fixpoint comma_join (l : list string) : string :=
  match l with
  | [] => EmptyString
  | [x] => x
  | x :: r => (x ++ ", " ++ comma_join r)%string
  end.

Section Repr.
  Context {T A : Type}.
  (** [type(node).__name__] and what an f-string inserts for [node.value]. *)
  Context (name : T -> string) (show : A -> string).
  (** [Node.__repr__], containers.py:151-154 *)
  Fixpoint repr (n : node T A) : string :=
    match n with
    | Node t v ch =>
        let keys_repr := comma_join (dkeys ch) in
        let children_repr := comma_join (map (fun kc => repr (snd kc)) ch) in
        (name t ++ "(" ++ show v ++ ", (" ++ children_repr ++ "), (" ++ keys_repr ++ "))")%string
    end.
  (** [Node.__str__], containers.py:156-157 *)
  Definition str (n : node T A) : string := repr n.
End Repr.
