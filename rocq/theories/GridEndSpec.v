(** Vocabulary for figures with a grid of axes. *)
From Coq Require Import Reals.
From Verif Require Export EndSpec.
Local Open Scope R_scope.

(** The cells of an [r] x [c] grid, row by row. *)
Definition cells {X} (r c : nat) (f : nat -> nat -> X) : list X := flat_map (fun i => map (f i) (seq 0 c)) (seq 0 r).
Definition sum_of (l : list R) : R := fold_right Rplus 0 l.
Definition frame (key : string) : string := (key ++ "/Frame")%string.
(** A one-dimensional parameter: array or list. *)
Definition numbers (v : pyval R) (xs : list R) : Prop := v = PA1 xs \/ v = PList xs.

(** What is asked of a grid: ratios of the widths of columns 1, 2, ... to column 0, of the
    heights of rows 1, 2, ... to row 0, the gaps between columns and between rows, and the
    margins around the grid, each asked of one of the cells on that side. *)
Record grid_request := { ratios_x : list R; ratios_y : list R; gaps_x : list R; gaps_y : list R; around : margins4 }.
(** With the Grid constraint ... *)
Definition asked_at_once (acts : list (action R)) (r c : nat) (key : nat -> nat -> string) (g : grid_request) : Prop :=
  exists v1 v2 v3 v4, numbers v1 (ratios_x g) /\ numbers v2 (ratios_y g) /\ numbers v3 (gaps_x g) /\ numbers v4 (gaps_y g) /\
     asked acts (Grid r c) (cells r c (fun i j => frame (key i j))) [v1; v2; v3; v4].
(** ... or piece by piece (the "manual approach" of examples/grid_axes.ipynb): a rectilinear grid,
    the widths and gaps of the first row and the heights and gaps of the first column. *)
Definition asked_pieces (acts : list (action R)) (r c : nat) (key : nat -> nat -> string) (g : grid_request) : Prop :=
  asked acts (RectilinearGrid r c) (cells r c (fun i j => frame (key i j))) [] /\
  (forall j k, (S j < c)%nat -> nth_error (ratios_x g) j = Some k -> exists v, number v k /\
     asked acts RelativeLength [(frame (key 0%nat (S j)) ++ "/Line0")%string; (frame (key 0%nat 0%nat) ++ "/Line0")%string] [v]) /\
  (forall j m, (S j < c)%nat -> nth_error (gaps_x g) j = Some m -> exists v, number v m /\
     asked acts (crOuterMargin "right") [frame (key 0%nat j); frame (key 0%nat (S j))] [v]) /\
  (forall i k, (S i < r)%nat -> nth_error (ratios_y g) i = Some k -> exists v, number v k /\
     asked acts RelativeLength [(frame (key (S i) 0%nat) ++ "/Line1")%string; (frame (key 0%nat 0%nat) ++ "/Line1")%string] [v]) /\
  (forall i m, (S i < r)%nat -> nth_error (gaps_y g) i = Some m -> exists v, number v m /\
     asked acts (crOuterMargin "bottom") [frame (key i 0%nat); frame (key (S i) 0%nat)] [v]).
(** The cells whose frame borders on that side of the grid. *)
Definition on_border (side : string) (r c i j : nat) : Prop :=
  (i < r)%nat /\ (j < c)%nat /\
  (if String.eqb side "left" then j = 0%nat else if String.eqb side "right" then j = (c - 1)%nat
   else if String.eqb side "bottom" then i = (r - 1)%nat else i = 0%nat).
Definition asked_grid (acts : list (action R)) (fig : string) (r c : nat) (key : nat -> nat -> string) (g : grid_request) : Prop :=
  (forall i j, (i < r)%nat -> (j < c)%nat -> asked acts Box [frame (key i j)] []) /\
  (asked_at_once acts r c key g \/ asked_pieces acts r c key g) /\
  forall side, In side ["left"; "right"; "bottom"; "top"]%string ->
    exists v i j, number v (margin (around g) side) /\ on_border side r c i j /\
      asked acts (crInnerMargin side) [frame (key i j); fig] [v].

(** Where the cells should be in a figure of [w] by [h] inches: the space left by margins
    and gaps is divided among the columns (rows) in the ratio 1 : ratios. *)
Definition unit_x (w : R) (g : grid_request) : R := (w - m_left (around g) - m_right (around g) - sum_of (gaps_x g)) / (1 + sum_of (ratios_x g)).
Definition unit_y (h : R) (g : grid_request) : R := (h - m_bottom (around g) - m_top (around g) - sum_of (gaps_y g)) / (1 + sum_of (ratios_y g)).
Definition extents (u : R) (ratios : list R) : list R := u :: map (fun k => k * u) ratios.
(** Distance from the near edge of the first column (row) to that of column (row) [j]. *)
Definition offset (u : R) (ratios gaps : list R) (j : nat) : R := sum_of (firstn j (extents u ratios)) + sum_of (firstn j gaps).
(** The margins (distances to the edges of the figure) of the cell (i, j). *)
Definition cell_margins (w h : R) (g : grid_request) (i j : nat) : margins4 :=
  let left := m_left (around g) + offset (unit_x w g) (ratios_x g) (gaps_x g) j in
  let top := m_top (around g) + offset (unit_y h g) (ratios_y g) (gaps_y g) i in
  {| m_left := left; m_right := w - left - nth j (extents (unit_x w g) (ratios_x g)) 0;
     m_bottom := h - top - nth i (extents (unit_y h g) (ratios_y g)) 0; m_top := top |}.
