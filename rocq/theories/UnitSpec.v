(** The parameters of a constraint in another unit of length. *)
From Coq Require Import Reals.
From Verif Require Export ScaleSpec ShippedSpec CstrProofs LayoutSpec.
Local Open Scope R_scope.

(** A length, in the old unit and in the new one. *)
Definition as_length (k : R) (v v' : pyval R) : Prop :=
  is_number v = true /\ is_number v' = true /\ exists x, num_of v = Some x /\ num_of v' = Some (k * x).
(** A number without unit. *)
Definition ratio (v : pyval R) : Prop := exists x, num_of v = Some x.
(** A list of floats. *)
Definition floats (v : pyval R) (l : list R) : Prop := v = PA1 l \/ v = PList l.
(** The same matplotlib axis in a figure k times the size: positions are fractions of it. *)
Definition scale_axis (k : R) (a : mpl_axis R) : mpl_axis R :=
  {| label_visible := label_visible a; tightbbox := tightbbox a; ticks_position := ticks_position a;
     fig_size_w := k * fig_size_w a; fig_size_h := k * fig_size_h a; axes_bbox := axes_bbox a |}.

Definition unitless : list (result (cons R)) :=
  [Ok Coincident; Ok Vertical; Ok Horizontal; Ok Orthogonal; Ok Parallel; Ok Collinear; Box; AlignRow; AlignColumn;
   CoincidentOutwardFaces "left"; CoincidentOutwardFaces "right"; CoincidentOutwardFaces "bottom"; CoincidentOutwardFaces "top";
   PositionXAxis "bottom" false; PositionXAxis "top" false; PositionYAxis "left" false; PositionYAxis "right" false;
   PositionXAxis "bottom" true; PositionXAxis "top" true; PositionYAxis "left" true; PositionYAxis "right" true].
Definition ratios : list (result (cons R)) :=
  [RelativeLength; crAngle; crAspectRatio; PositionXAxisLabel false; PositionYAxisLabel false; PositionXAxisLabel true; PositionYAxisLabel true].
Definition lengths : list (result (cons R)) :=
  [crXDistance; crYDistance; crLength; crXLength; crYLength; crMidpointXDistance; crMidpointYDistance] ++ dimensions ++ margins.

(** [in_unit k c ps ps']: the constraint [c] with the parameters [ps] reads [ps'] when all
    lengths are k times as many units. *)
Inductive in_unit (k : R) : cons R -> list (pyval R) -> list (pyval R) -> Prop :=
| u_none c : In (Ok c) unitless -> in_unit k c [] []
| u_lines r : in_unit k CoincidentLines [r] [r]
| u_ratio c v : In (Ok c) ratios -> ratio v -> in_unit k c [v] [v]
| u_relative c r v : crRelativePointOnLineDistance = Ok c -> ratio v -> in_unit k c [r; v] [r; v]
| u_length c v v' : In (Ok c) lengths -> as_length k v v' -> in_unit k c [v] [v']
| u_directed c l v v' : In (Ok c) [crDirectedDistance; crDirectedLength] -> as_length k v v' -> in_unit k c [PA1 l; v] [PA1 l; v']
| u_to_line c r v v' : In (Ok c) [crPointOnLineDistance; crPointToLineDistance] -> as_length k v v' -> in_unit k c [r; v] [r; v']
| u_fix c l : crFix = Ok c -> in_unit k c [PA1 l] [PA1 (map (Rmult k) l)]
| u_no_axis c : In (Ok c) [XAxisThickness; YAxisThickness] -> in_unit k c [PNone] [PNone]
| u_axis c a d : In (Ok c) [XAxisThickness; YAxisThickness] -> snd (get_axis_thickness a) = Ok d -> in_unit k c [PAxis a] [PAxis (scale_axis k a)]
| u_array n side c ps ps' : In side ["left"; "right"; "bottom"; "top"]%string -> OuterMarginArray n side = Ok c ->
    length ps = (n - 1)%nat -> Forall2 (as_length k) ps ps' -> in_unit k c ps ps'
| u_rectilinear rows cols c : (1 <= rows)%nat -> (1 <= cols)%nat -> RectilinearGrid rows cols = Ok c -> in_unit k c [] []
| u_grid rows cols c vcw vrh vcm vrm vcm' vrm' cw rh cm rm : (1 <= rows)%nat -> (1 <= cols)%nat -> Grid rows cols = Ok c ->
    floats vcw cw -> floats vrh rh -> floats vcm cm -> floats vrm rm -> floats vcm' (map (Rmult k) cm) -> floats vrm' (map (Rmult k) rm) ->
    length cw = (cols - 1)%nat -> length rh = (rows - 1)%nat -> length cm = (cols - 1)%nat -> length rm = (rows - 1)%nat ->
    in_unit k c [vcw; vrh; vcm; vrm] [vcw; vrh; vcm'; vrm'].

(** The same call in the other unit: primitives scaled, constraint parameters converted. *)
Inductive act_unit (k : R) : action R -> action R -> Prop :=
| au_prim p key : act_unit k (AddPrim p key) (AddPrim (scale k p) key)
| au_prims d : act_unit k (AddPrims d) (AddPrims (map (fun kp => (fst kp, scale k (snd kp))) d))
| au_constraint c ks ps ps' key : in_unit k c ps ps' -> act_unit k (AddConstraint c ks ps key) (AddConstraint c ks ps' key).
