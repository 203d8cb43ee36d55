(** Model of the concrete constructions of [src/mpllayout/constructions.py]:
    the [assem] methods, signatures and child tables. *)
From Verif Require Export Cons.

Section Geom.
  Context {F : Type} {N : Num F}.
  Notation prim := (prim F).
  Notation pyval := (pyval F).
  Notation cons := (cons F).

  Definition msig (ts : list ptype) (size : nat) (params : nat) : sig :=
    {| prim_types := ts; nparams := params; value_size := size |}.

  (** [np.array([1, 0])] and [np.array([0, 1])] *)
  Definition ex : list F := [n1; n0].
  Definition ey : list F := [n0; n1].

  (** [Coordinate.assem], constructions.py:712-715 *)
  Definition coord (p : prim) : list F := vdata (nval p).
  Definition coordinate_assem (prims : list prim) (params : list pyval) : result pyval :=
    match prims, params with
    | [p], [] => Ok (PA1 (coord p))
    | _, _ => Err TypeErr
    end.
  (** [class Coordinate], constructions.py:695-715 *)
  Definition Coordinate : cons := mk_leaf "Coordinate" (msig [TPoint] 2 0) coordinate_assem.

  (** [DirectedDistance.assem], constructions.py:738-744 *)
  Definition directed_distance (prims : list prim) (direction : pyval) : result pyval :=
    match prims with
    | [p0; p1] => d <- vsub (coord p1) (coord p0) ;; dot d direction
    | _ => Err TypeErr
    end.
  Definition DirectedDistance : cons :=
    mk_leaf "DirectedDistance" (msig [TPoint; TPoint] 1 1)
      (fun prims params => match params with
                           | [d] => directed_distance prims d
                           | _ => Err TypeErr
                           end).

  (** Classes whose [assem] takes no parameter and calls [super().assem] with a
      fixed direction. *)
  Definition no_params (f : list prim -> result pyval) (prims : list prim)
             (params : list pyval) : result pyval :=
    match params with [] => f prims | _ => Err TypeErr end.

  (** [class XDistance], [class YDistance], constructions.py:747-776 *)
  Definition XDistance : cons :=
    mk_leaf "XDistance" (msig [TPoint; TPoint] 1 0)
      (no_params (fun prims => directed_distance prims (PA1 ex))).
  Definition YDistance : cons :=
    mk_leaf "YDistance" (msig [TPoint; TPoint] 1 0)
      (no_params (fun prims => directed_distance prims (PA1 ey))).

  (** [LineVector.assem], constructions.py:803-807 *)
  Definition line_vector (line : prim) : result (list F) :=
    match nvalues line with
    | [a; b] => vsub (coord b) (coord a)
    | _ => Err ValueErr
    end.
  Definition line_vector_assem (prims : list prim) : result pyval :=
    match prims with
    | [line] => v <- line_vector line ;; Ok (PA1 v)
    | _ => Err ValueErr
    end.
  Definition LineVector : cons :=
    mk_leaf "LineVector" (msig [TLine] 2 0) (no_params line_vector_assem).

  (** [UnitLineVector.assem], constructions.py:827-830 *)
  Definition unit_line_vector (line : prim) : result (list F) :=
    v <- line_vector line ;; n <- norm v ;; mapM (fun x => ndiv x n) v.
  Definition UnitLineVector : cons :=
    mk_leaf "UnitLineVector" (msig [TLine] 2 0)
      (no_params (fun prims => match prims with
                               | [line] => v <- unit_line_vector line ;; Ok (PA1 v)
                               | _ => Err ValueErr
                               end)).

  (** [Length.assem], constructions.py:850-853 *)
  Definition line_length (line : prim) : result F :=
    v <- line_vector line ;; norm v.
  Definition Length : cons :=
    mk_leaf "Length" (msig [TLine] 1 0)
      (no_params (fun prims => match prims with
                               | [line] => l <- line_length line ;; Ok (PA0 l)
                               | _ => Err ValueErr
                               end)).

  (** [DirectedLength.assem], constructions.py:873-876 *)
  Definition directed_length (prims : list prim) (direction : pyval) : result pyval :=
    match prims with
    | [line] => v <- line_vector line ;; dot v direction
    | _ => Err ValueErr
    end.
  Definition DirectedLength : cons :=
    mk_leaf "DirectedLength" (msig [TLine] 1 1)
      (fun prims params => match params with
                           | [d] => directed_length prims d
                           | _ => Err TypeErr
                           end).
  (** [class XLength], [class YLength], constructions.py:879-908 *)
  Definition XLength : cons :=
    mk_leaf "XLength" (msig [TLine] 1 0)
      (no_params (fun prims => directed_length prims (PA1 ex))).
  Definition YLength : cons :=
    mk_leaf "YLength" (msig [TLine] 1 0)
      (no_params (fun prims => directed_length prims (PA1 ey))).

  (** [Midpoint.assem], constructions.py:927-933 *)
  Definition midpoint (line : prim) : result (list F) :=
    h <- nhalf ;;
    a <- get_child line "Point0" ;; b <- get_child line "Point1" ;;
    s <- vadd (coord a) (coord b) ;;
    Ok (vscale h s).
  Definition Midpoint : cons :=
    mk_leaf "Midpoint" (msig [TLine] 2 0)
      (no_params (fun prims => match prims with
                               | [line] => v <- midpoint line ;; Ok (PA1 v)
                               | _ => Err ValueErr
                               end)).

  (** [MidpointDirectedDistance.assem], constructions.py:956-961 *)
  Definition midpoint_directed_distance (prims : list prim) (direction : pyval)
    : result pyval :=
    match prims with
    | [l0; l1] =>
        m1 <- midpoint l1 ;; m0 <- midpoint l0 ;;
        d <- vsub m1 m0 ;; dot d direction
    | _ => Err ValueErr
    end.
  Definition MidpointDirectedDistance : cons :=
    mk_leaf "MidpointDirectedDistance" (msig [TLine; TLine] 1 1)
      (fun prims params => match params with
                           | [d] => midpoint_directed_distance prims d
                           | _ => Err TypeErr
                           end).
  (** [class MidpointXDistance], [class MidpointYDistance],
      constructions.py:964-993 *)
  Definition MidpointXDistance : cons :=
    mk_leaf "MidpointXDistance" (msig [TLine; TLine] 1 0)
      (no_params (fun prims => midpoint_directed_distance prims (PA1 ex))).
  Definition MidpointYDistance : cons :=
    mk_leaf "MidpointYDistance" (msig [TLine; TLine] 1 0)
      (no_params (fun prims => midpoint_directed_distance prims (PA1 ey))).

  (** [Angle.assem], constructions.py:1016-1023 *)
  Definition direction_angle (line : prim) : result F :=
    u <- unit_line_vector line ;;
    match u with
    | [x; y] => natan2 y x
    | _ => Err IndexErr
    end.
  Definition angle_assem (prims : list prim) : result pyval :=
    match prims with
    | [l0; l1] =>
        a0 <- direction_angle l0 ;; a1 <- direction_angle l1 ;;
        Ok (PA0 (nsub a1 a0))
    | _ => Err ValueErr
    end.
  Definition Angle : cons := mk_leaf "Angle" (msig [TLine; TLine] 1 0) (no_params angle_assem).

  (** [PointOnLineDistance.assem], constructions.py:1052-1062 *)
  Definition point_on_line_distance (point line : prim) (reverse : pyval) : result F :=
    rev <- truthy reverse ;;
    if rev : bool then
      o <- get_child line "Point1" ;;
      u <- unit_line_vector line ;;
      d <- vsub (coord point) (coord o) ;;
      dot_list d (map nopp u)
    else
      o <- get_child line "Point0" ;;
      u <- unit_line_vector line ;;
      d <- vsub (coord point) (coord o) ;;
      dot_list d u.
  Definition PointOnLineDistance : cons :=
    mk_leaf "PointOnLineDistance" (msig [TPoint; TLine] 1 1)
      (fun prims params =>
         match prims, params with
         | [p; l], [rev] => d <- point_on_line_distance p l rev ;; Ok (PA0 d)
         | _, _ => Err TypeErr
         end).

  (** [PointToLineDistance.assem], constructions.py:1087-1100.  [jnp.cross((a, b),
      (0, 0, s))[:2]] is [(b*s, -(a*s))] (numpy cross-product formula with third
      component 0). *)
  Definition point_to_line_distance (point line : prim) (reverse : pyval) : result F :=
    u <- unit_line_vector line ;;
    rev <- truthy reverse ;;
    let s := if rev : bool then n1 else nofZ (-1) in
    orth <- match u with
            | [a; b] => Ok [nmul b s; nopp (nmul a s)]
            | _ => Err ValueErr
            end ;;
    o <- get_child line "Point0" ;;
    d <- vsub (coord point) (coord o) ;;
    dot_list d orth.
  Definition PointToLineDistance : cons :=
    mk_leaf "PointToLineDistance" (msig [TPoint; TLine] 1 1)
      (fun prims params =>
         match prims, params with
         | [p; l], [rev] => d <- point_to_line_distance p l rev ;; Ok (PA0 d)
         | _, _ => Err TypeErr
         end).

  (** [RelativePointOnLineDistance.assem], constructions.py:1126-1135 *)
  Definition RelativePointOnLineDistance : cons :=
    mk_leaf "RelativePointOnLineDistance" (msig [TPoint; TLine] 1 1)
      (fun prims params =>
         match prims, params with
         | [p; l], [rev] =>
             d <- point_on_line_distance p l rev ;;
             len <- line_length l ;;
             r <- ndiv d len ;;
             Ok (PA1 [r])
         | _, _ => Err TypeErr
         end).

  (** [child_params] of constructions whose children take no parameters: a fixed
      number of empty tuples, whatever the parameters. *)
  Definition empties (n : nat) (params : list pyval) : result (list (list pyval)) :=
    Ok (List.repeat [] n).

  (** A compound class: [assem] returns the empty array but still has a fixed
      parameter list. *)
  Definition compound_cls (name : string) (np : nat) : cls F :=
    {| cname := name; cisa := [];
       cassem := fun prims params =>
                   if Nat.eqb (length params) np then Ok (PA1 []) else Err TypeErr |}.

  (** [class RectangleDim], constructions.py:1141-1189 *)
  Definition RectangleDim (name dim : string) : result cons :=
    '(keys, cs, pks) <-
      (if String.eqb dim "width" then Ok (["Width"], [XLength], [["arg0/Line0"]])
       else if String.eqb dim "height" then Ok (["Height"], [YLength], [["arg0/Line1"]])
       else Err ValueErr) ;;
    mk_construction (compound_cls name 0) keys cs pks (empties 1) (msig [TQuad] 0 0).
  (** [class Width], [class Height], constructions.py:1192-1211 *)
  Definition Width : result cons := RectangleDim "Width" "width".
  Definition Height : result cons := RectangleDim "Height" "height".

  (** [AspectRatio.assem], constructions.py:1233-1238 *)
  Definition AspectRatio : cons :=
    mk_leaf "AspectRatio" (msig [TQuad] 1 0)
      (no_params (fun prims => match prims with
         | [quad] =>
             l0 <- get_child quad "Line0" ;; w <- line_length l0 ;;
             l1 <- get_child quad "Line1" ;; h <- line_length l1 ;;
             r <- ndiv w h ;;
             Ok (PA0 r)
         | _ => Err ValueErr
         end)).

  (** [opposite_side], constructions.py:1243-1268 *)
  Definition opposite_side (side : string) : result string :=
    if String.eqb side "bottom" then Ok "top"
    else if String.eqb side "top" then Ok "bottom"
    else if String.eqb side "left" then Ok "right"
    else if String.eqb side "right" then Ok "left"
    else if String.eqb side "Line0" then Ok "Line2"
    else if String.eqb side "Line2" then Ok "Line0"
    else if String.eqb side "Line1" then Ok "Line3"
    else if String.eqb side "Line3" then Ok "Line1"
    else Err ValueErr.

  (** [class Margin], constructions.py:1270-1338 *)
  Definition Margin (name : string) (outer : bool) (side : string) : result cons :=
    '(keys, cs, pks) <-
      (if String.eqb side "left" then
         Ok (["LeftMargin"], [MidpointXDistance],
             if outer then [["arg1/Line1"; "arg0/Line3"]] else [["arg1/Line3"; "arg0/Line3"]])
       else if String.eqb side "right" then
         Ok (["RightMargin"], [MidpointXDistance],
             if outer then [["arg0/Line1"; "arg1/Line3"]] else [["arg0/Line1"; "arg1/Line1"]])
       else if String.eqb side "bottom" then
         Ok (["BottomMargin"], [MidpointYDistance],
             if outer then [["arg1/Line2"; "arg0/Line0"]] else [["arg1/Line0"; "arg0/Line0"]])
       else if String.eqb side "top" then
         Ok (["TopMargin"], [MidpointYDistance],
             if outer then [["arg0/Line2"; "arg1/Line0"]] else [["arg0/Line2"; "arg1/Line2"]])
       else Err ValueErr) ;;
    mk_construction (compound_cls name 0) keys cs pks (empties 1) (msig [TQuad; TQuad] 0 0).
  (** [class OuterMargin], [class InnerMargin], constructions.py:1341-1360 *)
  Definition OuterMargin (side : string) : result cons := Margin "OuterMargin" true side.
  Definition InnerMargin (side : string) : result cons := Margin "InnerMargin" false side.
End Geom.
