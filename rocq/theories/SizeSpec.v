(** The forms of parameters constructions are documented to take, and which construction
    takes which. *)
From Verif Require Export CtorProofs ShippedSpec ConsSpec.

Section SizeSpec.
  Context {F : Type} {N : Num F}.
  Notation prim := (prim F).
  Notation pyval := (pyval F).
  Notation cons := (cons F).

  (** Every node of the primitive is what its class promises. *)
  Definition well_made (p : prim) : Prop := Forall conforms (preorder p).

  (** One number (however represented), a vector, a position or one number for both
      coordinates, anything. *)
  Inductive form := Number | Direction | Position | Anything.
  Definition has_form (f : form) (v : pyval) : Prop :=
    match f with
    | Number => exists x, atleast_1d v = Ok [x]
    | Direction => exists l, v = PA1 l
    | Position => exists l, atleast_1d v = Ok l /\ (length l = 1 \/ length l = 2)
    | Anything => True
    end.

  Definition sides : list string := ["left"; "right"; "bottom"; "top"].
  (** constructions.py, then constraints.py: every class of fixed shape, except the ones
      built on [CoincidentLines]. *)
  Definition fixed_shape : list (result cons * list form) :=
    [(Ok Coordinate, []); (Ok DirectedDistance, [Direction]); (Ok XDistance, []); (Ok YDistance, []);
     (Ok LineVector, []); (Ok UnitLineVector, []); (Ok Length, []); (Ok DirectedLength, [Direction]);
     (Ok XLength, []); (Ok YLength, []); (Ok Midpoint, []); (Ok MidpointDirectedDistance, [Direction]);
     (Ok MidpointXDistance, []); (Ok MidpointYDistance, []); (Ok Angle, []);
     (Ok PointOnLineDistance, [Anything]); (Ok PointToLineDistance, [Anything]);
     (Ok RelativePointOnLineDistance, [Anything]); (Width, []); (Height, []); (Ok AspectRatio, [])] ++
    map (fun s => (OuterMargin s, [])) sides ++ map (fun s => (InnerMargin s, [])) sides ++
    [(crFix, [Position]); (crDirectedDistance, [Direction; Number]); (crXDistance, [Number]); (crYDistance, [Number]);
     (Ok Coincident, []); (crLength, [Number]); (crDirectedLength, [Direction; Number]); (crXLength, [Number]); (crYLength, [Number]);
     (Ok Vertical, []); (Ok Horizontal, []); (RelativeLength, [Number]);
     (crMidpointXDistance, [Number]); (crMidpointYDistance, [Number]); (Ok Orthogonal, []); (Ok Parallel, []);
     (crAngle, [Number]); (Ok Collinear, []); (crPointOnLineDistance, [Anything; Number]);
     (crPointToLineDistance, [Anything; Number]); (crRelativePointOnLineDistance, [Anything; Number]);
     (Box, []); (crWidth, [Number]); (crHeight, [Number]); (crAspectRatio, [Number]);
     (XAxisThickness, [Anything]); (YAxisThickness, [Anything]); (AlignRow, []); (AlignColumn, []);
     (PositionXAxisLabel false, [Number]); (PositionYAxisLabel false, [Number])] ++
    map (fun s => (crOuterMargin s, [Number])) sides ++ map (fun s => (crInnerMargin s, [Number])) sides.

  (** Those and the arrays and grids of every size. *)
  Inductive documented : cons -> list pyval -> Prop :=
  | doc_fixed c fs ps : In (Ok c, fs) fixed_shape -> Forall2 has_form fs ps -> documented c ps
  | doc_array n side c ps : In side sides -> OuterMarginArray n side = Ok c ->
      length ps = n - 1 -> Forall (has_form Number) ps -> documented c ps
  | doc_rectilinear rows cols c : 1 <= rows -> 1 <= cols -> RectilinearGrid rows cols = Ok c -> documented c []
  | doc_grid rows cols c vcw vrh vcm vrm cw rh cm rm : 1 <= rows -> 1 <= cols -> Grid rows cols = Ok c ->
      py_tuple vcw = Ok cw -> py_tuple vrh = Ok rh -> py_tuple vcm = Ok cm -> py_tuple vrm = Ok rm ->
      length cw = cols - 1 -> length rh = rows - 1 -> length cm = cols - 1 -> length rm = rows - 1 ->
      documented c [vcw; vrh; vcm; vrm].
End SizeSpec.
