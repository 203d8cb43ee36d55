(** Numbers and run-time values (Python numbers, lists, numpy/jax arrays of rank 0
    and 1) with the operators the code applies to them.  Library behaviour only;
    no project code is modelled here. *)
From Verif Require Export Base.

(** Operations on an abstract number type.  Operations that can leave the finite
    numbers return [Err NonFinite] there instead of a default. *)
Class Num (F : Type) := {
  nofZ : Z -> F;
  nadd : F -> F -> F;
  nsub : F -> F -> F;
  nmul : F -> F -> F;
  nopp : F -> F;
  ndiv : F -> F -> result F;      (* nan/inf when the divisor is 0 *)
  nsqrt : F -> result F;          (* nan when negative *)
  npow : F -> F -> result F;      (* [x ** y] *)
  natan2 : F -> F -> result F;    (* [arctan2(y, x)] *)
  nacos_deg : F -> result F;      (* [180/pi * arccos(x)] *)
  ncircle : nat -> nat -> result (F * F); (* size i: cos, sin of 2*pi/size*i *)
  nltb : F -> F -> bool           (* [<] *)
}.

(** A bounding box in figure coordinates ([matplotlib.transforms.Bbox]). *)
Record bbox (F : Type) := { bxmin : F; bymin : F; bxmax : F; bymax : F }.
Arguments bxmin {F}. Arguments bymin {F}. Arguments bxmax {F}. Arguments bymax {F}.

(** The part of a matplotlib axis that constraints.py:638-666 reads and writes:
    label visibility, the tight bounding box (a function of the label visibility,
    already in figure coordinates), tick position, figure size, axes position. *)
Record mpl_axis (F : Type) := {
  label_visible : bool;
  tightbbox : bool -> option (bbox F);
  ticks_position : string;
  fig_size_w : F;
  fig_size_h : F;
  axes_bbox : bbox F
}.
Arguments label_visible {F}. Arguments tightbbox {F}. Arguments ticks_position {F}.
Arguments fig_size_w {F}. Arguments fig_size_h {F}. Arguments axes_bbox {F}.

(** Run-time values of parameters and of [assem] results. *)
Inductive pyval (F : Type) : Type :=
| PInt (z : Z)              (* Python int *)
| PFlt (x : F)              (* Python float / np.float64 *)
| PBool (b : bool)
| PA0 (x : F)               (* 0-d array *)
| PA1 (l : list F)          (* 1-d array *)
| PList (l : list F)        (* Python list or tuple of numbers *)
| PNone
| PDict (nonempty : bool)
| PAxis (a : mpl_axis F).
Arguments PInt {F}. Arguments PFlt {F}. Arguments PBool {F}. Arguments PA0 {F}.
Arguments PA1 {F}. Arguments PList {F}. Arguments PNone {F}. Arguments PDict {F}.
Arguments PAxis {F}.

Section Arr.
  Context {F : Type} {N : Num F}.

  Definition n0 : F := nofZ 0.
  Definition n1 : F := nofZ 1.
  Definition nhalf : result F := ndiv n1 (nofZ 2).
  Definition neqb (x y : F) : bool := negb (nltb x y) && negb (nltb y x).
  Definition nsum (l : list F) : F := fold_right nadd n0 l.

  (** Operands of numpy arithmetic. *)
  Inductive operand := N0 (python : bool) (x : F) | N1 (l : list F).
  Definition to_operand (v : pyval F) : result operand :=
    match v with
    | PInt z => Ok (N0 true (nofZ z))
    | PFlt x => Ok (N0 true x)
    | PBool b => Ok (N0 true (if b then n1 else n0))
    | PA0 x => Ok (N0 false x)
    | PA1 l => Ok (N1 l)
    | PList _ => Err TypeErr
      (* jax arrays reject lists; numpy arrays accept them, see [py_add] *)
    | _ => Err TypeErr
    end.

  (** numpy broadcasting of two 1-d arrays. *)
  Definition bcast2 (f : F -> F -> result F) (a b : list F) : result (list F) :=
    if Nat.eqb (length a) (length b)
    then mapM (fun xy => f (fst xy) (snd xy)) (zip a b)
    else match a, b with
         | [x], _ => mapM (f x) b
         | _, [y] => mapM (fun x => f x y) a
         | _, _ => Err ValueErr
         end.

  Definition arith2 (f : F -> F -> result F) (a b : pyval F) : result (pyval F) :=
    oa <- to_operand a ;; ob <- to_operand b ;;
    match oa, ob with
    | N0 pa x, N0 pb y => z <- f x y ;; Ok (if pa && pb then PFlt z else PA0 z)
    | N0 _ x, N1 l => r <- mapM (f x) l ;; Ok (PA1 r)
    | N1 l, N0 _ y => r <- mapM (fun x => f x y) l ;; Ok (PA1 r)
    | N1 a, N1 b => r <- bcast2 f a b ;; Ok (PA1 r)
    end.

  Definition repeat_list (z : Z) (l : list F) : list F :=
    List.concat (List.repeat l (Z.to_nat z)).

  (** [a + b], [a * b], [a ** b].  An int times a list repeats the list. *)
  Definition py_add (a b : pyval F) : result (pyval F) :=
    match a, b with
    | PInt x, PInt y => Ok (PInt (x + y))
    | PList x, PList y => Ok (PList (x ++ y))
    | PA1 [], PList y => (* the only numpy (not jax) array the code adds a list to is
                            the empty one of compound constructions; the two-element
                            coordinate vector fails either way *)
        r <- bcast2 (fun x y => Ok (nadd x y)) [] y ;; Ok (PA1 r)
    | _, _ => arith2 (fun x y => Ok (nadd x y)) a b
    end.
  Definition py_mul (a b : pyval F) : result (pyval F) :=
    match a, b with
    | PInt x, PInt y => Ok (PInt (x * y))
    | PInt z, PList l => Ok (PList (repeat_list z l))
    | PList l, PInt z => Ok (PList (repeat_list z l))
    | _, _ => arith2 (fun x y => Ok (nmul x y)) a b
    end.
  Definition py_pow (a b : pyval F) : result (pyval F) := arith2 npow a b.

  (** [jnp.atleast_1d] followed by use as a 1-d array. *)
  Definition atleast_1d (v : pyval F) : result (list F) :=
    match v with
    | PInt z => Ok [nofZ z]
    | PFlt x => Ok [x]
    | PBool b => Ok [if b then n1 else n0]
    | PA0 x => Ok [x]
    | PA1 l => Ok l
    | _ => Err TypeErr
    end.

  (** Truth value ([if v:]). *)
  Definition truthy (v : pyval F) : result bool :=
    match v with
    | PInt z => Ok (negb (Z.eqb z 0))
    | PFlt x | PA0 x => Ok (negb (neqb x n0))
    | PBool b => Ok b
    | PA1 [x] => Ok (negb (neqb x n0))
    | PA1 _ => Err ValueErr
    | PList l => Ok (negb (Nat.eqb (length l) 0))
    | PNone => Ok false
    | PDict b => Ok b
    | PAxis _ => Ok true
    end.

  (** [a - b] on 1-d numpy arrays. *)
  Definition vsub (a b : list F) : result (list F) :=
    bcast2 (fun x y => Ok (nsub x y)) a b.
  Definition vadd (a b : list F) : result (list F) :=
    bcast2 (fun x y => Ok (nadd x y)) a b.
  Definition vscale (c : F) (a : list F) : list F := map (nmul c) a.

  (** [jnp.dot(vec, w)] for a 1-d [vec]: inner product, or scaling if [w] is a
      number. *)
  Definition dot_list (a b : list F) : result F :=
    if Nat.eqb (length a) (length b)
    then Ok (nsum (map (fun xy => nmul (fst xy) (snd xy)) (zip a b)))
    else Err TypeErr.
  Definition dot (a : list F) (w : pyval F) : result (pyval F) :=
    match w with
    | PA1 b => r <- dot_list a b ;; Ok (PA0 r)
    | PInt _ | PFlt _ | PBool _ | PA0 _ =>
        arith2 (fun x y => Ok (nmul x y)) (PA1 a) w
    | _ => Err TypeErr
    end.

  (** [jnp.linalg.norm] / [jnp.sum(v**2)**(1/2)] *)
  Definition norm (a : list F) : result F :=
    nsqrt (nsum (map (fun x => nmul x x) a)).

  (** [jnp.cross] of two 2-vectors. *)
  Definition cross2 (a b : list F) : result F :=
    match a, b with
    | [a0; a1], [b0; b1] => Ok (nsub (nmul a0 b1) (nmul a1 b0))
    | _, _ => Err ValueErr
    end.
End Arr.
