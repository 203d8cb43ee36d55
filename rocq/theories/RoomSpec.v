(** Vocabulary for C95: the room that tick labels take. *)
From Coq Require Import Reals.
From Verif Require Export LayoutSpec EndSpec Constr.

Section RoomSpec.
  Context {F : Type} {N : Num F}.
  (** An added constraint with the parameter that it should have once the axes [axs] are
      drawn: an x (y) axis thickness constraint on [K/...] has the x (y) axis of the axes
      [axs[K]]; any other constraint has the parameters it was added with. *)
  Definition measured (axs : dict (mpl_axes F)) (x : cons F * list string * list (pyval F)) : cons F * list string * list (pyval F) :=
    let '(c, ks, ps) := x in
    match ks with
    | [key] =>
        match dget (hd EmptyString (split_all key)) axs with
        | Some (ax, ay) =>
            if is_kind KYAxisThickness c then (c, ks, [PAxis ay])
            else if is_kind KXAxisThickness c then (c, ks, [PAxis ax]) else (c, ks, ps)
        | None => (c, ks, ps)
        end
    | _ => (c, ks, ps)
    end.
End RoomSpec.

Local Open Scope R_scope.
(** What is asked of an axes: the sides of its x and y axis, and the margins to be kept
    clear between the axes with its tick labels and the edges of the figure. *)
Record axes_request := { x_side : string; y_side : string; clearance : margins4 }.
(** The box whose distance to the edge of the figure is asked for. *)
Definition outermost (q : axes_request) (key side : string) : string :=
  (key ++ (if String.eqb side (x_side q) then "/XAxis" else if String.eqb side (y_side q) then "/YAxis" else "/Frame"))%string.
Definition asked_axes (acts : list (action R)) (fig key : string) (q : axes_request) : Prop :=
  In (x_side q) ["bottom"; "top"]%string /\ In (y_side q) ["left"; "right"]%string /\
  (forall part, In part ["/Frame"; "/XAxis"; "/YAxis"]%string -> asked acts Box [(key ++ part)%string] []) /\
  asked acts (PositionXAxis (x_side q) false) [key] [] /\ asked acts (PositionYAxis (y_side q) false) [key] [] /\
  (exists v, asked acts XAxisThickness [(key ++ "/XAxis")%string] [v]) /\ (exists v, asked acts YAxisThickness [(key ++ "/YAxis")%string] [v]) /\
  forall side, In side ["left"; "right"; "bottom"; "top"]%string ->
    exists v, number v (margin (clearance q) side) /\ asked acts (crInnerMargin side) [outermost q key side; fig] [v].
(** The axes [key] with its frame and axis boxes, as its constructor makes it. *)
Definition axes_in (root : prim R) (key : string) : Prop :=
  exists a, get_child root key = Ok a /\ ntype a = TAxes /\ quad_in a "Frame" /\ quad_in a "XAxis" /\ quad_in a "YAxis".
(** The margins of the frame: the clearance, and on the sides of the axes their thickness. *)
Definition with_room (q : axes_request) (tx ty : R) : margins4 :=
  let m := clearance q in
  {| m_left := m_left m + (if String.eqb (y_side q) "left" then ty else 0);
     m_right := m_right m + (if String.eqb (y_side q) "right" then ty else 0);
     m_bottom := m_bottom m + (if String.eqb (x_side q) "bottom" then tx else 0);
     m_top := m_top m + (if String.eqb (x_side q) "top" then tx else 0) |}.

(** Labels: how far outside the axis box, and at which fraction of the frame. *)
Record label_request := { pad_x : R; at_x : R; pad_y : R; at_y : R }.
Definition asked_labels (acts : list (action R)) (key : string) (q : axes_request) (g : label_request) : Prop :=
  (exists v t, truthy v = Ok true /\ number t (pad_x g) /\
     asked acts crPointToLineDistance [(key ++ "/XAxisLabel")%string; (key ++ (if String.eqb (x_side q) "bottom" then "/XAxis/Line0" else "/XAxis/Line2"))%string] [v; t]) /\
  (exists v t, truthy v = Ok true /\ number t (pad_y g) /\
     asked acts crPointToLineDistance [(key ++ "/YAxisLabel")%string; (key ++ (if String.eqb (y_side q) "left" then "/YAxis/Line3" else "/YAxis/Line1"))%string] [v; t]) /\
  (exists t, number t (at_x g) /\ asked acts (PositionXAxisLabel false) [key] [t]) /\
  (exists t, number t (at_y g) /\ asked acts (PositionYAxisLabel false) [key] [t]).
(** The axes [key] has both label points. *)
Definition labels_in (root : prim R) (key : string) : Prop :=
  forall part, In part ["XAxisLabel"; "YAxisLabel"]%string ->
    exists a x i, get_child root key = Ok a /\ dget part (nch a) = Some x /\ corner x i.
