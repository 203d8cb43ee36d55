(** Model of [src/mpllayout/constraints.py].  Names of classes that also exist in
    constructions.py get the prefix [cr] (the import name of constraints.py). *)
From Verif Require Export Geom.

Section Constr.
  Context {F : Type} {N : Num F}.
  Notation prim := (prim F).
  Notation pyval := (pyval F).
  Notation cons := (cons F).

  (** [class Fix], [DirectedDistance], [XDistance], [YDistance],
      constraints.py:31-105 *)
  Definition crFix : result cons := transform_constraint Coordinate.
  Definition crDirectedDistance : result cons := transform_constraint DirectedDistance.
  Definition crXDistance : result cons := transform_constraint XDistance.
  Definition crYDistance : result cons := transform_constraint YDistance.

  (** [Coincident.assem], constraints.py:126-132 *)
  Definition coincident (p0 p1 : prim) : result (list F) := vsub (coord p1) (coord p0).
  Definition Coincident : cons :=
    mk_leaf "Coincident" (msig [TPoint; TPoint] 2 0)
      (no_params (fun prims => match prims with
                               | [p0; p1] => v <- coincident p0 p1 ;; Ok (PA1 v)
                               | _ => Err ValueErr
                               end)).

  (** [class Length], [DirectedLength], [XLength], [YLength], constraints.py:139-212 *)
  Definition crLength : result cons := transform_constraint Length.
  Definition crDirectedLength : result cons := transform_constraint DirectedLength.
  Definition crXLength : result cons := transform_constraint XLength.
  Definition crYLength : result cons := transform_constraint YLength.

  (** [class Vertical], [class Horizontal], constraints.py:215-258 *)
  Definition Vertical : cons :=
    mk_leaf "Vertical" (msig [TLine] 1 0)
      (no_params (fun prims => directed_length prims (PA1 ex))).
  Definition Horizontal : cons :=
    mk_leaf "Horizontal" (msig [TLine] 1 0)
      (no_params (fun prims => directed_length prims (PA1 ey))).

  (** [class RelativeLength], constraints.py:263-284 *)
  Definition RelativeLength : result cons :=
    neg <- transform_scalar_mul Length (OVal (PInt (-1))) ;;
    scaled <- transform_scalar_mul neg (OCons Scalar) ;;
    transform_sum Length scaled.

  (** [class MidpointXDistance], [MidpointYDistance], constraints.py:287-322 *)
  Definition crMidpointXDistance : result cons := transform_constraint MidpointXDistance.
  Definition crMidpointYDistance : result cons := transform_constraint MidpointYDistance.

  (** [Orthogonal.assem], constraints.py:343-351 *)
  Definition Orthogonal : cons :=
    mk_leaf "Orthogonal" (msig [TLine; TLine] 1 0)
      (no_params (fun prims => match prims with
         | [l0; l1] => a <- line_vector l0 ;; b <- line_vector l1 ;; dot a (PA1 b)
         | _ => Err ValueErr
         end)).

  (** [Parallel.assem], constraints.py:372-380 *)
  Definition parallel (l0 l1 : prim) : result F :=
    a <- line_vector l0 ;; b <- line_vector l1 ;; cross2 a b.
  Definition Parallel : cons :=
    mk_leaf "Parallel" (msig [TLine; TLine] 1 0)
      (no_params (fun prims => match prims with
         | [l0; l1] => x <- parallel l0 l1 ;; Ok (PA0 x)
         | _ => Err ValueErr
         end)).

  (** [class Angle], constraints.py:383-399 *)
  Definition crAngle : result cons := transform_constraint Angle.

  (** [Collinear.assem], constraints.py:419-426.  A temporary line joins the start
      points. *)
  Definition Collinear : cons :=
    mk_leaf "Collinear" (msig [TLine; TLine] 2 0)
      (no_params (fun prims => match prims with
         | [l0; l1] =>
             s1 <- get_int l1 0 ;; s0 <- get_int l0 0 ;;
             '(l2, _) <- mk_line 0 VNone (Some [s1; s0]) ;;
             x <- parallel l0 l1 ;; y <- parallel l0 l2 ;;
             Ok (PA1 [x; y])
         | _ => Err ValueErr
         end)).

  (** [CoincidentLines.assem], constraints.py:453-465 *)
  Definition coincident_lines (l0 l1 : prim) (reverse : pyval) : result pyval :=
    rev <- truthy reverse ;;
    a0 <- get_child l1 "Point0" ;; a1 <- get_child l1 "Point1" ;;
    b0 <- get_child l0 "Point0" ;; b1 <- get_child l0 "Point1" ;;
    if rev : bool then
      e0 <- coincident a0 b1 ;; e1 <- coincident a1 b0 ;; Ok (PA1 (e0 ++ e1))
    else
      e0 <- coincident a0 b0 ;; e1 <- coincident a1 b1 ;; Ok (PA1 (e0 ++ e1)).
  Definition CoincidentLines : cons :=
    mk_leaf "CoincidentLines" (msig [TLine; TLine] 2 1)
      (fun prims params => match prims, params with
         | [l0; l1], [rev] => coincident_lines l0 l1 rev
         | _, _ => Err TypeErr
         end).

  (** [class PointOnLineDistance], [PointToLineDistance],
      [RelativePointOnLineDistance], constraints.py:480-534 *)
  Definition crPointOnLineDistance : result cons := transform_constraint PointOnLineDistance.
  Definition crPointToLineDistance : result cons := transform_constraint PointToLineDistance.
  Definition crRelativePointOnLineDistance : result cons :=
    transform_constraint RelativePointOnLineDistance.

  (** [class Box], constraints.py:541-578 *)
  Definition Box : result cons :=
    mk_construction (compound_cls "Box" 0)
      ["HorizontalBottom"; "HorizontalTop"; "VerticalLeft"; "VerticalRight"]
      [Horizontal; Horizontal; Vertical; Vertical]
      [["arg0/Line0"]; ["arg0/Line2"]; ["arg0/Line3"]; ["arg0/Line1"]]
      (empties 4) (msig [TQuad] 0 0).

  (** [class Width], [Height], [AspectRatio], constraints.py:581-635 *)
  Definition crWidth : result cons := c <- Width ;; transform_constraint c.
  Definition crHeight : result cons := c <- Height ;; transform_constraint c.
  Definition crAspectRatio : result cons := transform_constraint AspectRatio.

  (** [get_axis_thickness], constraints.py:638-666: the label visibility after the
      call, and the outcome. *)
  Definition get_axis_thickness (axis : mpl_axis F) : bool * result pyval :=
    let label_visibility := label_visible axis in
    match tightbbox axis false with
    | None => (label_visibility, Ok (PInt 0))
    | Some axis_bbox =>
        let h := fig_size_h axis in let w := fig_size_w axis in
        let ab := axes_bbox axis in
        let pos := ticks_position axis in
        if String.eqb pos "bottom" then
          (label_visibility, Ok (PFlt (nmul h (nsub (bymin ab) (bymin axis_bbox)))))
        else if String.eqb pos "top" then
          (label_visibility, Ok (PFlt (nmul h (nsub (bymax axis_bbox) (bymax ab)))))
        else if String.eqb pos "left" then
          (label_visibility, Ok (PFlt (nmul w (nsub (bxmin ab) (bxmin axis_bbox)))))
        else if String.eqb pos "right" then
          (label_visibility, Ok (PFlt (nmul w (nsub (bxmax axis_bbox) (bxmax ab)))))
        else (false, Err ValueErr)
    end.

  (** [AxisThickness.init_children]'s [child_params], constraints.py:705-710.  The
      side effect on the label visibility is dropped here ([get_axis_thickness]
      has it). *)
  Definition thickness_params (params : list pyval) : result (list (list pyval)) :=
    match params with
    | [] => Err IndexErr
    | PNone :: _ => Ok [[PInt 0]]
    | PAxis a :: _ => d <- snd (get_axis_thickness a) ;; Ok [[d]]
    | _ => Err AttrErr
    end.

  (** [class AxisThickness], constraints.py:669-723 *)
  Definition AxisThickness (name : string) (kinds : list ckind) (axis : string) : result cons :=
    let x := String.eqb axis "x" in
    child <- (if x then crYLength else crXLength) ;;
    let pks := if x then [["arg0/Line1"]] else [["arg0/Line0"]] in
    mk_construction {| cname := name; cisa := kinds;
                       cassem := cassem (compound_cls name 1) |}
      ["Height"] [child] pks thickness_params (msig [TQuad] 0 1).
  (** [class XAxisThickness], [YAxisThickness], constraints.py:726-745 *)
  Definition XAxisThickness : result cons := AxisThickness "XAxisThickness" [KXAxisThickness] "x".
  Definition YAxisThickness : result cons := AxisThickness "YAxisThickness" [KYAxisThickness] "y".

  (** [class OuterMargin], [InnerMargin], constraints.py:750-785 *)
  Definition crOuterMargin (side : string) : result cons :=
    c <- OuterMargin side ;; transform_constraint c.
  Definition crInnerMargin (side : string) : result cons :=
    c <- InnerMargin side ;; transform_constraint c.

  Definition argk (n : nat) : string := ("arg" ++ dec n)%string.

  (** [class OuterMarginArray], constraints.py:788-843 *)
  Definition OuterMarginArray (num_quad : nat) (side : string) : result cons :=
    cs <- mapM (fun _ => crOuterMargin side) (seq 0 (num_quad - 1)) ;;
    mk_construction {| cname := "OuterMarginArray"; cisa := []; cassem := empty_assem |}
      (map (fun n => ("OuterMargin" ++ dec n)%string) (seq 0 num_quad))
      cs
      (map (fun n => [argk n; argk (n + 1)]) (seq 0 (num_quad - 1)))
      (fun params => Ok (map (fun p => [p]) params))
      (msig (List.repeat TQuad num_quad) 0 (num_quad - 1)).

  (** [class Align], constraints.py:846-897 *)
  Definition Align (name : string) (row : bool) : result cons :=
    let '(keys, pks) :=
      if row then (["AlignBottom"; "AlignTop"],
                   [["arg0/Line0"; "arg1/Line0"]; ["arg0/Line2"; "arg1/Line2"]])
      else (["AlignLeft"; "AlignRight"],
            [["arg0/Line3"; "arg1/Line3"]; ["arg0/Line1"; "arg1/Line1"]]) in
    mk_construction (compound_cls name 0) keys [Collinear; Collinear] pks (empties 2)
      (msig [TQuad; TQuad] 0 0).
  (** [class AlignRow], [AlignColumn], constraints.py:900-919 *)
  Definition AlignRow : result cons := Align "AlignRow" true.
  Definition AlignColumn : result cons := Align "AlignColumn" false.

  (** [class CoincidentOutwardFaces], constraints.py:922-977 *)
  Definition CoincidentOutwardFaces (side : string) : result cons :=
    pks <- (if String.eqb side "bottom" then Ok [["arg0/Line0"; "arg1/Line2"]]
            else if String.eqb side "top" then Ok [["arg0/Line2"; "arg1/Line0"]]
            else if String.eqb side "left" then Ok [["arg0/Line3"; "arg1/Line1"]]
            else if String.eqb side "right" then Ok [["arg0/Line1"; "arg1/Line3"]]
            else Err ValueErr) ;;
    mk_construction (compound_cls "CoincidentOutwardFaces" 0)
      ["CoincidentLines"] [CoincidentLines] pks (fun _ => Ok [[PBool true]])
      (msig [TQuad; TQuad] 0 0).

  (** [idx_1d], constraints.py:981-986 *)
  Definition idx_1d (multi_idx shape : list nat) : nat :=
    let strides := skipn 1 shape ++ [1] in
    fold_left Nat.add (map (fun ms => fst ms * snd ms) (zip multi_idx strides)) 0.

  (** [class RectilinearGrid], constraints.py:989-1049 (for a shape of two
      dimensions; other shapes raise ValueError at line 1006). *)
  Definition RectilinearGrid (num_row num_col : nat) : result cons :=
    let idx i j := idx_1d [i; j] [num_row; num_col] in
    row <- AlignRow ;; col <- AlignColumn ;;
    map_row <- transform_map row (List.repeat TQuad num_col) ;;
    map_col <- transform_map col (List.repeat TQuad num_row) ;;
    mk_construction (compound_cls "RectilinearGrid" 0)
      (map (fun n => ("AlignRow" ++ dec n)%string) (seq 0 num_row)
       ++ map (fun n => ("AlignColumn" ++ dec n)%string) (seq 0 num_col))
      (List.repeat map_row num_row ++ List.repeat map_col num_col)
      (map (fun r => map (fun c => argk (idx r c)) (seq 0 num_col)) (seq 0 num_row)
       ++ map (fun c => map (fun r => argk (idx r c)) (seq 0 num_row)) (seq 0 num_col))
      (empties (4 * num_row * num_col))
      (msig (List.repeat TQuad (num_row * num_col)) 0 0).

  (** [tuple(v)] of an array or list parameter, constraints.py:1133 *)
  Definition py_tuple (v : pyval) : result (list pyval) :=
    match v with
    | PA1 l | PList l => Ok (map PFlt l)
    | _ => Err TypeErr
    end.

  (** [Grid]'s [child_params], constraints.py:1131-1133 *)
  Definition grid_params (params : list pyval) : result (list (list pyval)) :=
    match params with
    | [cw; rh; cm; rm] =>
        a <- py_tuple cw ;; b <- py_tuple rh ;; c <- py_tuple cm ;; d <- py_tuple rm ;;
        Ok [[]; a; b; c; d]
    | _ => Err ValueErr
    end.

  (** [class Grid], constraints.py:1052-1155 *)
  Definition Grid (num_row num_col : nat) : result cons :=
    let idx i j := idx_1d [i; j] [num_row; num_col] in
    rg <- RectilinearGrid num_row num_col ;;
    rl <- RelativeLength ;;
    cw <- transform_map rl (List.repeat TLine num_col) ;;
    rh <- transform_map rl (List.repeat TLine num_row) ;;
    cm <- OuterMarginArray num_col "right" ;;
    rm <- OuterMarginArray num_row "bottom" ;;
    let rows := seq 0 num_row in
    let cols := seq 0 num_col in
    mk_construction (compound_cls "Grid" 4)
      ["RectilinearGrid"; "ColWidths"; "RowHeights"; "ColMargins"; "RowMargins"]
      [rg; cw; rh; cm; rm]
      [map argk (seq 0 (num_row * num_col));
       map (fun c => (argk (idx 0 c) ++ "/Line0")%string) (skipn 1 cols ++ firstn 1 cols);
       map (fun r => (argk (idx r 0) ++ "/Line1")%string) (skipn 1 rows ++ firstn 1 rows);
       map (fun c => argk (idx 0 c)) cols;
       map (fun r => argk (idx r 0)) rows]
      grid_params
      (msig (List.repeat TQuad (num_row * num_col)) 0 4).

  (** [str.upper] for ASCII letters. *)
  Fixpoint upper (s : string) : string :=
    match s with
    | EmptyString => EmptyString
    | String c r =>
        let n := nat_of_ascii c in
        String (if (Nat.leb 97 n && Nat.leb n 122)%bool then ascii_of_nat (n - 32) else c) (upper r)
    end.

  (** [class PositionAxis], constraints.py:1162-1231 *)
  Definition PositionAxis (name axis side : string) (twin : bool) : result cons :=
    c0 <- CoincidentOutwardFaces side ;;
    let k0 := ["arg0/Frame"; ("arg0/" ++ upper axis ++ "Axis")%string] in
    '(keys, cs, pks) <-
      (if twin then
         side' <- opposite_side side ;;
         c1 <- CoincidentOutwardFaces side' ;;
         Ok (["AlignOutside"; "TwinAlignOutside"], [c0; c1],
             [k0; ["arg0/Frame"; ("arg0/Twin" ++ upper axis ++ "Axis")%string]])
       else Ok (["AlignOutside"], [c0], [k0])) ;;
    mk_construction (compound_cls name 0) keys cs pks
      (empties (if twin then 2 else 1)) (msig [TAxes] 0 0).
  (** [class PositionXAxis], [PositionYAxis], constraints.py:1234-1261 *)
  Definition PositionXAxis (side : string) (twin : bool) := PositionAxis "PositionXAxis" "x" side twin.
  Definition PositionYAxis (side : string) (twin : bool) := PositionAxis "PositionYAxis" "y" side twin.

  (** [class PositionAxisLabel], constraints.py:1264-1336 *)
  Definition PositionAxisLabel (name axis : string) (twin : bool) : result cons :=
    child <- crRelativePointOnLineDistance ;;
    let prefix := if twin then "Twin" else "" in
    pks <- (if String.eqb axis "x" then
              Ok [[("arg0/" ++ prefix ++ "XAxisLabel")%string; "arg0/Frame/Line0"]]
            else if String.eqb axis "y" then
              Ok [[("arg0/" ++ prefix ++ "YAxisLabel")%string; "arg0/Frame/Line1"]]
            else Err ValueErr) ;;
    mk_construction (compound_cls name 1) ["RelativePointOnLineDistance"] [child] pks
      (fun params => match params with
                     | [distance] => Ok [[PBool false; distance]]
                     | _ => Err ValueErr
                     end)
      (msig [TAxes] 0 1).
  (** [class PositionXAxisLabel], [PositionYAxisLabel], constraints.py:1339-1356 *)
  Definition PositionXAxisLabel (twin : bool) := PositionAxisLabel "PositionXAxisLabel" "x" twin.
  Definition PositionYAxisLabel (twin : bool) := PositionAxisLabel "PositionYAxisLabel" "y" twin.
End Constr.
