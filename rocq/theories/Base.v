(** Shared Python-level vocabulary of the model: exceptions as values, dicts,
    string keys, slices.  No project code is modelled here; each definition says
    which Python construct it stands for. *)
From Coq Require Export String Ascii ZArith Bool Arith Lia List.
From Coq Require Import Decimal DecimalString DecimalNat.
Export ListNotations.
Open Scope string_scope.
Open Scope list_scope.

(** Python exceptions that the modelled code can raise.  [NonFinite] stands for
    "the numeric result contains nan/inf (or a ZeroDivisionError was raised)".
    [OutOfFuel] is never produced (proved for each fuelled function). *)
Inductive exn : Type :=
| KeyError (k : string)
| TypeErr | ValueErr | IndexErr | AssertErr | AttrErr | RuntimeErr
| NotImplemented | StopIter | NonFinite | OutOfFuel.

Inductive result (A : Type) : Type :=
| Ok (a : A)
| Err (e : exn).
Arguments Ok {A} a.
Arguments Err {A} e.

Definition bind {A B} (r : result A) (f : A -> result B) : result B :=
  match r with Ok a => f a | Err e => Err e end.
Definition rmap {A B} (f : A -> B) (r : result A) : result B :=
  match r with Ok a => Ok (f a) | Err e => Err e end.
Declare Scope result_scope.
Delimit Scope result_scope with result.
Notation "x <- r ;; k" := (bind r (fun x => k))
  (at level 61, r at next level, right associativity) : result_scope.
Notation "' p <- r ;; k" := (bind r (fun x => match x with p => k end))
  (at level 61, p pattern, r at next level, right associativity) : result_scope.
Open Scope result_scope.

Definition is_ok {A} (r : result A) : bool :=
  match r with Ok _ => true | Err _ => false end.

(** A comprehension whose body may raise: evaluated left to right, the first
    exception wins. *)
Fixpoint mapM {A B} (f : A -> result B) (l : list A) : result (list B) :=
  match l with
  | [] => Ok []
  | x :: r => y <- f x ;; ys <- mapM f r ;; Ok (y :: ys)
  end.

(** [zip(a, b)] (truncating). *)
Fixpoint zip {A B} (a : list A) (b : list B) : list (A * B) :=
  match a, b with
  | x :: a', y :: b' => (x, y) :: zip a' b'
  | _, _ => []
  end.

(** Python slice [l[i:j]] for non-negative bounds. *)
Definition slice {A} (i j : nat) (l : list A) : list A := firstn (j - i) (skipn i l).

(** [itertools.accumulate(l, initial=a)] / [np.cumsum([0]+l)] for addition. *)
Fixpoint accum (a : nat) (l : list nat) : list nat :=
  a :: match l with [] => [] | x :: r => accum (a + x) r end.

(** ** Dictionaries with string keys: insertion-ordered association lists. *)
Definition dict (V : Type) := list (string * V).

Fixpoint dget {V} (k : string) (d : dict V) : option V :=
  match d with
  | [] => None
  | (k', v) :: r => if String.eqb k k' then Some v else dget k r
  end.

(** [d[k] = v]: replaces in place if the key exists, appends otherwise. *)
Fixpoint dset {V} (k : string) (v : V) (d : dict V) : dict V :=
  match d with
  | [] => [(k, v)]
  | (k', v') :: r => if String.eqb k k' then (k', v) :: r else (k', v') :: dset k v r
  end.

Definition dmem {V} (k : string) (d : dict V) : bool :=
  match dget k d with Some _ => true | None => false end.

Definition dkeys {V} (d : dict V) : list string := map fst d.
Definition dvals {V} (d : dict V) : list V := map snd d.

(** [{k: v for k, v in l}]: later duplicates overwrite the value in place. *)
Definition dict_of {V} (l : list (string * V)) : dict V :=
  fold_left (fun d kv => dset (fst kv) (snd kv) d) l [].

(** ** Strings *)
Definition slash : ascii := "/"%char.

(** [key.split("/", 1)]: the part before the first slash, and the part after it
    if there is a slash. *)
Fixpoint split1 (s : string) : string * option string :=
  match s with
  | EmptyString => (EmptyString, None)
  | String c r =>
      if Ascii.eqb c slash then (EmptyString, Some r)
      else let (p, q) := split1 r in (String c p, q)
  end.

(** [key.split("/")]: always at least one component. *)
Fixpoint split_all (s : string) : list string :=
  match s with
  | EmptyString => [EmptyString]
  | String c r =>
      if Ascii.eqb c slash then EmptyString :: split_all r
      else match split_all r with
           | [] => [String c EmptyString]
           | p :: ps => String c p :: ps
           end
  end.

(** ["/".join(l)] *)
Fixpoint join (l : list string) : string :=
  match l with
  | [] => EmptyString
  | [x] => x
  | x :: r => (x ++ String slash (join r))%string
  end.

Fixpoint noslash (s : string) : bool :=
  match s with
  | EmptyString => true
  | String c r => negb (Ascii.eqb c slash) && noslash r
  end.

(** [f"{n}"] for a natural number. *)
Definition dec (n : nat) : string := NilEmpty.string_of_uint (Nat.to_uint n).

(** [int(s)] for a plain decimal numeral; Python additionally accepts signs,
    surrounding blanks and underscores, which this model rejects (no key made by
    the code has them, except 'arg-1' style keys of maps that have no children
    and so are never parsed). *)
Definition parse_nat (s : string) : option nat :=
  match s with
  | EmptyString => None
  | _ => match NilEmpty.uint_of_string s with
         | Some u => Some (Nat.of_uint u)
         | None => None
         end
  end.

(** [sub in s] (substring test). *)
Fixpoint is_prefix (p s : string) : bool :=
  match p, s with
  | EmptyString, _ => true
  | String a p', String b s' => Ascii.eqb a b && is_prefix p' s'
  | String _ _, EmptyString => false
  end.
Fixpoint contains_sub (p s : string) : bool :=
  is_prefix p s ||
  match s with
  | EmptyString => false
  | String _ r => contains_sub p r
  end.
