(** What the text of a tree is meant to tell. *)
From Verif Require Export Repr.

(** A text without parentheses and commas. *)
Fixpoint clean (s : string) : Prop :=
  match s with
  | EmptyString => True
  | String c r => c <> "("%char /\ c <> ")"%char /\ c <> ","%char /\ clean r
  end.

Section Spec.
  Context {T A : Type}.
  Context (name : T -> string) (show : A -> string).
  (** All class names, values and keys of the tree print without parentheses and commas. *)
  Inductive tidy : node T A -> Prop :=
  | Tidy t v ch : clean (name t) -> clean (show v) -> Forall (fun kc => clean (fst kc) /\ tidy (snd kc)) ch ->
                  tidy (Node t v ch).
  (** Two trees of the same shape, with the same keys in the same order everywhere, whose
      classes have the same names and whose values print the same. *)
  Inductive look_alike : node T A -> node T A -> Prop :=
  | Alike t u v w ch dh : name t = name u -> show v = show w ->
      Forall2 (fun kc kd => fst kc = fst kd /\ look_alike (snd kc) (snd kd)) ch dh ->
      look_alike (Node t v ch) (Node u w dh).
End Spec.
