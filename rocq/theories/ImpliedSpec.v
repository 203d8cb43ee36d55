(** Vocabulary for figures whose size follows from that of their axes. *)
From Coq Require Import Reals.
From Verif Require Export GridEndSpec.
Local Open Scope R_scope.

(** The size that a figure with the grid [g] must have if its width is [w] (its height is
    [h]) and the first cell is [a] times as wide as high. *)
Definition implied_height (w a : R) (g : grid_request) : R :=
  m_bottom (around g) + m_top (around g) + sum_of (gaps_y g) + (1 + sum_of (ratios_y g)) * (unit_x w g / a).
Definition implied_width (h a : R) (g : grid_request) : R :=
  m_left (around g) + m_right (around g) + sum_of (gaps_x g) + (1 + sum_of (ratios_x g)) * (unit_y h g * a).

(** All axes are drawn with positive width and height. *)
Definition drawn_positive (tr : list (mplcall R)) : Prop :=
  Forall (fun kr => let '(_, _, a, b) := snd kr in 0 < a /\ 0 < b) (positions tr).

(** The figure of examples/contour_colorbar.ipynb: a plot [A] with a colour bar [B] above it.
    Asked are the width [w] of the figure, the plot to be [k] times as wide as high, the
    thickness [th] of the bar, the gap between plot and bar, the margins, and that the sides of
    plot and bar are in line. *)
Record bar_request := { bar_w : R; bar_k : R; bar_th : R; bar_gap : R; bar_around : margins4 }.
Definition asked_one (acts : list (action R)) (c : result (cons R)) (keys : list string) (x : R) : Prop :=
  exists v, number v x /\ asked acts c keys [v].
Definition asked_bar (acts : list (action R)) (fig A B : string) (q : bar_request) : Prop :=
  asked acts Box [fig] [] /\ asked acts Box [frame A] [] /\ asked acts Box [frame B] [] /\
  asked_one acts crLength [(fig ++ "/Line0")%string] (bar_w q) /\
  asked_one acts RelativeLength [(frame A ++ "/Line0")%string; (frame A ++ "/Line1")%string] (bar_k q) /\
  asked_one acts crLength [(frame B ++ "/Line1")%string] (bar_th q) /\
  asked acts (Ok Collinear) [(frame A ++ "/Line3")%string; (frame B ++ "/Line3")%string] [] /\
  asked acts (Ok Collinear) [(frame A ++ "/Line1")%string; (frame B ++ "/Line1")%string] [] /\
  asked_one acts crMidpointYDistance [(frame A ++ "/Line2")%string; (frame B ++ "/Line0")%string] (bar_gap q) /\
  asked_one acts crMidpointXDistance [(fig ++ "/Line3")%string; (frame A ++ "/Line3")%string] (m_left (bar_around q)) /\
  asked_one acts crMidpointXDistance [(frame A ++ "/Line1")%string; (fig ++ "/Line1")%string] (m_right (bar_around q)) /\
  asked_one acts crMidpointYDistance [(frame B ++ "/Line2")%string; (fig ++ "/Line2")%string] (m_top (bar_around q)) /\
  asked_one acts crMidpointYDistance [(fig ++ "/Line0")%string; (frame A ++ "/Line0")%string] (m_bottom (bar_around q)).
(** Height of the plot, and of the figure. *)
Definition plot_height (q : bar_request) : R := (bar_w q - m_left (bar_around q) - m_right (bar_around q)) / bar_k q.
Definition bar_figure_height (q : bar_request) : R :=
  m_bottom (bar_around q) + plot_height q + bar_gap q + bar_th q + m_top (bar_around q).
(** The margins that plot and bar then have in the figure. *)
Definition bar_margins (q : bar_request) : list margins4 :=
  [{| m_left := m_left (bar_around q); m_right := m_right (bar_around q); m_bottom := m_bottom (bar_around q);
      m_top := bar_gap q + bar_th q + m_top (bar_around q) |};
   {| m_left := m_left (bar_around q); m_right := m_right (bar_around q);
      m_bottom := m_bottom (bar_around q) + plot_height q + bar_gap q; m_top := m_top (bar_around q) |}].

(** The figure of examples/two_axes.ipynb: two axes side by side. Asked are the size of the
    figure, the width [pair_left] of the left axes, the gap, the outer margins, and that the two
    are in a row; neither the width of the right axes nor its upper and lower margin. *)
Record pair_request := { pair_w : R; pair_h : R; pair_left : R; pair_gap : R; pair_around : margins4 }.
Definition asked_pair (acts : list (action R)) (fig A B : string) (q : pair_request) : Prop :=
  asked acts Box [fig] [] /\ asked acts Box [frame A] [] /\ asked acts Box [frame B] [] /\
  asked_one acts crWidth [fig] (pair_w q) /\ asked_one acts crHeight [fig] (pair_h q) /\
  asked_one acts (crInnerMargin "left") [frame A; fig] (m_left (pair_around q)) /\
  asked_one acts (crInnerMargin "right") [frame B; fig] (m_right (pair_around q)) /\
  asked_one acts (crOuterMargin "right") [frame A; frame B] (pair_gap q) /\
  asked_one acts (crInnerMargin "bottom") [frame A; fig] (m_bottom (pair_around q)) /\
  asked_one acts (crInnerMargin "top") [frame A; fig] (m_top (pair_around q)) /\
  asked acts AlignRow [frame A; frame B] [] /\
  asked_one acts crWidth [frame A] (pair_left q).
Definition pair_margins (q : pair_request) : list margins4 :=
  [{| m_left := m_left (pair_around q); m_right := pair_w q - m_left (pair_around q) - pair_left q;
      m_bottom := m_bottom (pair_around q); m_top := m_top (pair_around q) |};
   {| m_left := m_left (pair_around q) + pair_left q + pair_gap q; m_right := m_right (pair_around q);
      m_bottom := m_bottom (pair_around q); m_top := m_top (pair_around q) |}].
