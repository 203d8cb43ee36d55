(** Constructions built from the shipped ones, and primitives with the same content. *)
From Verif Require Export Spec Constr.

Section ExprSpec.
  Context {F : Type} {N : Num F}.
  Notation prim := (prim F).
  Notation pyval := (pyval F).
  Notation cons := (cons F).

  (** The same classes, keys and numbers at every path.  Nothing is said about which
      array objects hold the numbers, or which of them are shared. *)
  Definition same_content (p q : prim) : Prop :=
    forall k, option_map (fun n => (ntype n, nkeys n, vdata (nval n))) (walk k p) =
              option_map (fun n => (ntype n, nkeys n, vdata (nval n))) (walk k q).

  (** The same classes, keys and array sizes at every path. *)
  Definition same_sizes (p q : prim) : Prop :=
    forall k, option_map (fun n => (ntype n, nkeys n, length (vdata (nval n)))) (walk k p) =
              option_map (fun n => (ntype n, nkeys n, length (vdata (nval n)))) (walk k q).

  (** The shipped classes that compute something themselves. *)
  Definition leaves : list cons :=
    [Scalar; Coordinate; DirectedDistance; XDistance; YDistance; LineVector; UnitLineVector; Length;
     DirectedLength; XLength; YLength; Midpoint; MidpointDirectedDistance; MidpointXDistance; MidpointYDistance;
     Angle; PointOnLineDistance; PointToLineDistance; RelativePointOnLineDistance; AspectRatio;
     Coincident; Vertical; Horizontal; Orthogonal; Parallel; Collinear; CoincidentLines].

  (** Those of them whose value does not change when all primitives are moved together. *)
  Definition relative_leaves : list cons :=
    [Scalar; DirectedDistance; XDistance; YDistance; LineVector; UnitLineVector; Length;
     DirectedLength; XLength; YLength; MidpointDirectedDistance; MidpointXDistance; MidpointYDistance;
     Angle; PointOnLineDistance; PointToLineDistance; RelativePointOnLineDistance; AspectRatio;
     Coincident; Vertical; Horizontal; Orthogonal; Parallel; Collinear; CoincidentLines].

  (** Whatever the transforms, the operators and compound classes make of given
      constructions. *)
  Section Expression.
  Variable base : list cons.
  Inductive expression : cons -> Prop :=
  | ex_leaf c : In c base -> expression c
  | ex_vector {T} (sizes : node T nat) c : mk_vector sizes = Ok c -> expression c
  | ex_partial c ps d : expression c -> transform_partial c ps = Ok d -> expression d
  | ex_sum a b c : expression a -> expression b -> transform_sum a b = Ok c -> expression c
  | ex_mul c s d : expression c -> (forall b, s = OCons b -> expression b) -> transform_scalar_mul c s = Ok d -> expression d
  | ex_div c s d : expression c -> (forall b, s = OCons b -> expression b) -> transform_scalar_div c s = Ok d -> expression d
  | ex_pow c s d : expression c -> (forall b, s = OCons b -> expression b) -> transform_scalar_pow c s = Ok d -> expression d
  | ex_map c ts d : expression c -> transform_map c ts = Ok d -> expression d
  | ex_constraint c d : expression c -> transform_constraint c = Ok d -> expression d
  | ex_compound name kinds np keys cs pks cps sg c : (forall x, In x cs -> expression x) ->
      mk_construction {| cname := name; cisa := kinds; cassem := cassem (compound_cls name np) |} keys cs pks cps sg = Ok c -> expression c
  | ex_list name keys cs pks cps sg c : (forall x, In x cs -> expression x) ->
      mk_construction {| cname := name; cisa := []; cassem := empty_assem |} keys cs pks cps sg = Ok c -> expression c.
  End Expression.
  (** Constructions made of the shipped ones. *)
  Definition expressible : cons -> Prop := expression leaves.
  (** Constructions made of those that only compare positions with each other. *)
  Definition relative : cons -> Prop := expression relative_leaves.
End ExprSpec.
