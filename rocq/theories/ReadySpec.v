(** When a construction hands each of its parts what the part declares: vocabulary. *)
From Verif Require Export CounterProofs LayoutSpec ConsSpec.

Section ReadySpec.
  Context {F : Type} {N : Num F}.
  Notation prim := (prim F).
  Notation pyval := (pyval F).
  Notation cons := (cons F).

  (** The parts of a primitive of a given class that a constraint may name: end points of
      lines, sides of quadrilaterals, frame, axes and labels of Axes ([tw]: with twins). *)
  Definition part (tw : bool) (t : ptype) (k : string) : option ptype :=
    match t with
    | TLine => if existsb (String.eqb k) ["Point0"; "Point1"] then Some TPoint else None
    | TQuad => if existsb (String.eqb k) ["Line0"; "Line1"; "Line2"; "Line3"] then Some TLine else None
    | TAxes => if existsb (String.eqb k) ["Frame"; "XAxis"; "YAxis"] then Some TQuad
               else if existsb (String.eqb k) ["XAxisLabel"; "YAxisLabel"] then Some TPoint
               else if tw && existsb (String.eqb k) ["TwinXAxis"; "TwinYAxis"] then Some TQuad
               else if tw && existsb (String.eqb k) ["TwinXAxisLabel"; "TwinYAxisLabel"] then Some TPoint
               else None
    | _ => None
    end.
  (** A primitive with all these parts. *)
  Inductive whole (tw : bool) : prim -> Prop :=
  | whole_intro t v ch :
      (forall k t', part tw t k = Some t' -> exists c, dget k ch = Some c /\ ntype c = t') ->
      Forall (fun kc => whole tw (snd kc)) ch ->
      whole tw (Node t v ch).

  (** Every node of the construction, applied to the arguments, gets primitives of the
      classes it declares and as many parameters as it declares. *)
  Inductive served : cons -> list prim -> list pyval -> Prop :=
  | served_node t v ch prims params sels cps :
      valid_args (Node t v ch) prims params ->
      length (cpk v) = length ch ->
      mapM (mapM (select prims)) (cpk v) = Ok sels ->
      cparams v params = Ok cps -> length ch <= length cps ->
      (forall i k c s p, nth_error ch i = Some (k, c) -> nth_error sels i = Some s -> nth_error cps i = Some p -> served c s p) ->
      served (Node t v ch) prims params.
End ReadySpec.
