(** Model of [Node.__getitem__] for every kind of key, containers.py:225-246: string keys,
    integers (also negative) and slices, which go through Python's list indexing. *)
From Verif Require Export Node.

(** A bound of a slice object: None, an integer (or a bool, which is one), or an object
    that is not an index. *)
Inductive bound : Type := BNone | BInt (z : Z) | BOther.
(** The key given to [node[key]]: a string, an integer (bools are integers), a slice, or
    any other object. *)
Inductive index : Type := IStr (s : string) | IInt (z : Z) | ISlice (start stop step : bound) | IOther.
(** What [node[key]] returns: a node, or a list of nodes. *)
Inductive item (X : Type) : Type := One (x : X) | Many (l : list X).
Arguments One {X} x.
Arguments Many {X} l.

Section Index.
  Context {X : Type}.
  (** Python's [list.__getitem__] with an integer (CPython list_subscript):
      negative indices count from the end. *)
  Definition list_index (l : list X) (i : Z) : result X :=
    let n := Z.of_nat (length l) in
    let i := if (i <? 0)%Z then (i + n)%Z else i in
    if ((0 <=? i) && (i <? n))%Z then
      match nth_error l (Z.to_nat i) with Some x => Ok x | None => Err IndexErr end
    else Err IndexErr.

  (** The bound [b] of a slice as an integer, [d] if absent (CPython PySlice_Unpack). *)
  Definition unpack (b : bound) (d : Z) : result Z :=
    match b with BNone => Ok d | BInt z => Ok z | BOther => Err TypeErr end.
  (** CPython PySlice_AdjustIndices, for one bound. *)
  Definition adjust (n step i : Z) : Z :=
    if (i <? 0)%Z then
      let i := (i + n)%Z in
      if (i <? 0)%Z then (if (step <? 0)%Z then -1 else 0)%Z else i
    else if (n <=? i)%Z then (if (step <? 0)%Z then n - 1 else n)%Z else i.
  (** The number of items of the slice (CPython PySlice_AdjustIndices). *)
  Definition slice_length (start stop step : Z) : nat :=
    if (step <? 0)%Z then
      if (stop <? start)%Z then Z.to_nat ((start - stop - 1) / (- step) + 1) else 0
    else if (start <? stop)%Z then Z.to_nat ((stop - start - 1) / step + 1) else 0.
  (** Python's [list.__getitem__] with a slice object (CPython list_subscript): step first,
      then start, then stop are unpacked; the items are read from [start] in steps.
      Simplification: unbounded integers instead of ssize_t (clamping does not show for
      lists that fit in memory). *)
  Definition list_slice (l : list X) (start stop step : bound) : result (list X) :=
    let n := Z.of_nat (length l) in
    c <- unpack step 1%Z ;;
    if (c =? 0)%Z then Err ValueErr else
    a <- match start with BNone => Ok (if (c <? 0)%Z then (n - 1)%Z else 0%Z) | _ => a <- unpack start 0%Z ;; Ok (adjust n c a) end ;;
    b <- match stop with BNone => Ok (if (c <? 0)%Z then (-1)%Z else n) | _ => b <- unpack stop 0%Z ;; Ok (adjust n c b) end ;;
    mapM (fun k => list_index l (a + Z.of_nat k * c)%Z) (seq 0 (slice_length a b c)).
End Index.

(** [Node.__getitem__], containers.py:225-246 *)
Definition getitem {T A} (n : node T A) (key : index) : result (item (node T A)) :=
  match key with
  | IStr s => c <- get_child n s ;; Ok (One c)
  | IInt i => c <- list_index (nvalues n) i ;; Ok (One c)
  | ISlice a b c => l <- list_slice (nvalues n) a b c ;; Ok (Many l)
  | IOther => Err TypeErr
  end.
