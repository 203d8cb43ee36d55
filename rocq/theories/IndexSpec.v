(** Indexing and slicing, as the Python manual describes them. *)
From Verif Require Export Index.

(** An index counted from the end if negative. *)
Definition from_end (n i : Z) : Z := if (i <? 0)%Z then (i + n)%Z else i.
(** The items of a list whose position satisfies [sel], in order. *)
Definition at_positions {X} (sel : Z -> bool) (l : list X) : list X :=
  map snd (filter (fun ix => sel (Z.of_nat (fst ix))) (combine (seq 0 (length l)) l)).
(** The positions of a slice with positive step: from [lo] (at least 0) up to below [hi],
    every [step]-th. *)
Definition forward (lo hi step p : Z) : bool :=
  ((Z.max 0 lo <=? p) && (p <? hi) && ((p - Z.max 0 lo) mod step =? 0))%Z.
(** With negative step, the positions (read downwards): from [hi] (at most the last, [n] - 1)
    down to above [lo], every [step]-th. *)
Definition backward (n hi lo step p : Z) : bool :=
  ((p <=? Z.min (n - 1) hi) && (lo <? p) && ((Z.min (n - 1) hi - p) mod (- step) =? 0))%Z.
(** An optional bound and its default. *)
Definition or_default (b : option Z) (n d : Z) : Z := match b with Some i => from_end n i | None => d end.
(** The bound of a slice object. *)
Definition bound_of (b : option Z) : bound := match b with Some i => BInt i | None => BNone end.
