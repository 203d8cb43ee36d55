(** C98: figures whose size follows from that of their axes. *)
From Coq Require Import Reals Lra.
From Verif Require Import GeomProofs P_Geom CompProofs P_Comp ConsProofs TreeLemmas MplProofs P_Mpl GridProofs P_Grid.
From Verif Require Export P_GridEnd ImpliedSpec.
From Verif Require Import P_Affine.
Local Open Scope R_scope.

(** A satisfied layout: what was asked for vanishes. *)
Lemma asked_vanish rid tw acts (l : layout) p z : runs (empty_layout rid) acts l -> Forall (shipped_act tw) acts -> Forall top_key acts ->
  same_structure (l_prim l) p -> layout_residual l p = Ok z -> zeros z ->
  forall co ks ps, asked acts co ks ps -> exists c' prims, co = Ok c' /\ mapM (get_child p) ks = Ok prims /\ vanishes c' prims ps.
Proof.
  intros Hr Hs Hk Hp Hz Hzz co ks ps (c' & -> & Hin). destruct (proj1 (proj2 (C79_every_constraint rid tw acts l p z Hr Hs Hk Hp Hz)) Hzz _ _ _ Hin) as (prims & E1 & E2). eauto 8.
Qed.
(** The figure box, whatever its size. *)
Lemma figure_box rid tw acts (l : layout) p z fig keys tr w h :
  runs (empty_layout rid) acts l -> Forall (shipped_act tw) acts -> Forall top_key acts ->
  same_structure (l_prim l) p -> ids_consistent p -> layout_residual l p = Ok z -> zeros z ->
  quad_in (l_prim l) fig -> asked acts Box [fig] [] -> NoDup keys -> Forall (fun k => quad_in (l_prim l) (frame k)) keys ->
  subplots p fig (Some keys) = (tr, Ok tt) -> sizes tr = [(w, h)] ->
  exists fq F, get_child p fig = Ok fq /\ is_box fq F /\ bright F - bleft F = w /\ btop F - bbottom F = h /\
    map fst (positions tr) = keys /\ Forall (placed p (bleft F, bbottom F) (bright F, btop F) w h) (positions tr) /\
    (forall q l b r t, get_child p fig = Ok q -> box_at q l b r t -> r - l = w /\ t - b = h).
Proof.
  intros Hr Hs Hk Hp Hi Hz Hzz Hfig SB Hn Hq Hd Hsz.
  pose proof (asked_vanish rid tw acts l p z Hr Hs Hk Hp Hz Hzz) as Ev.
  destruct (quad_moved _ p fig Hp Hi Hfig) as (fq & G0 & G1 & G2 & G3 & Gf & Hf).
  destruct (Ev _ _ _ SB) as (c0 & prims & E1 & E2 & E3). cbn [mapM] in E2. rewrite Gf in E2. cbn [bind] in E2. injection E2 as <-.
  assert (B : is_box fq (span fq)) by (eapply boxed; eauto).
  assert (Hfr : Forall (fun k => exists q P0 P1 P2 P3, get_child p (k ++ "/Frame")%string = Ok q /\ quad_at q P0 P1 P2 P3) keys).
  { apply Forall_forall. intros k Hin. rewrite Forall_forall in Hq. exact (quad_moved _ p _ Hp Hi (Hq k Hin)). }
  destruct (draw_quads p fig _ tr fq _ _ _ _ Gf B Hfr Hn Hd) as (D1 & D2 & D3). cbn [fst snd] in D1, D3.
  rewrite Hsz in D1. injection D1 as Dw Dh. exists fq, (span fq). rewrite <- Dw, <- Dh in D3.
  split; [exact Gf|]. split; [exact B|]. split; [now rewrite Dw|]. split; [now rewrite Dh|]. split; [exact D2|]. split; [exact D3|].
  intros q x0 y0 x1 y1 Eq Hb. rewrite Gf in Eq. injection Eq as <-. pose proof (span_at _ _ _ _ _ Hb) as Es. cbn [fst snd] in Es. rewrite Dw, Dh, Es. split; reflexivity.
Qed.
(** Width, height and aspect ratio of a box named by a key. *)
Lemma width_asked acts (p : prim) key q B w : (forall co ks ps, asked acts co ks ps -> exists c' prims, co = Ok c' /\ mapM (get_child p) ks = Ok prims /\ vanishes c' prims ps) ->
  get_child p key = Ok q -> is_box q B -> asked_one acts crWidth [key] w -> bright B - bleft B = w.
Proof.
  intros Ev E Hb (v & [n1 n2] & Ha). destruct (Ev _ _ _ Ha) as (c1 & prims & F1 & E2 & F3). cbn [mapM] in E2. rewrite E in E2. cbn [bind] in E2. injection E2 as <-.
  destruct (C42_width _ _ _ _ _ _ _ Hb n1 n2) as (c' & F1' & _ & F3'). rewrite F1 in F1'. injection F1' as <-. apply F3' in F3. exact F3.
Qed.
Lemma height_asked acts (p : prim) key q B h : (forall co ks ps, asked acts co ks ps -> exists c' prims, co = Ok c' /\ mapM (get_child p) ks = Ok prims /\ vanishes c' prims ps) ->
  get_child p key = Ok q -> is_box q B -> asked_one acts crHeight [key] h -> btop B - bbottom B = h.
Proof.
  intros Ev E Hb (v & [n1 n2] & Ha). destruct (Ev _ _ _ Ha) as (c1 & prims & F1 & E2 & F3). cbn [mapM] in E2. rewrite E in E2. cbn [bind] in E2. injection E2 as <-.
  destruct (C42_height _ _ _ _ _ _ _ Hb n1 n2) as (c' & F1' & _ & F3'). rewrite F1 in F1'. injection F1' as <-. apply F3' in F3. exact F3.
Qed.
Lemma aspect_asked acts (p : prim) key q B a : (forall co ks ps, asked acts co ks ps -> exists c' prims, co = Ok c' /\ mapM (get_child p) ks = Ok prims /\ vanishes c' prims ps) ->
  get_child p key = Ok q -> is_box q B -> proper B -> asked_one acts crAspectRatio [key] a -> bwidth B = a * bheight B.
Proof.
  intros Ev E Hb [P1 P2] (v & [n1 n2] & Ha). destruct (Ev _ _ _ Ha) as (c1 & prims & F1 & E2 & F3). cbn [mapM] in E2. rewrite E in E2. cbn [bind] in E2. injection E2 as <-.
  destruct (C42_aspect_ratio _ _ _ _ _ v a Hb) as (c' & F1' & _ & F3'); [intros X; injection X as X; lra|exact n1|]. rewrite F1 in F1'. injection F1' as <-. apply F3' in F3.
  rewrite len_h, len_v, !Rabs_right in F3 by lra. exact F3.
Qed.

Section Grid.
  Context (rid : nat) (tw : bool) (acts : list (action R)) (l : layout) (p : prim) (z : list R) (fig : string) (r c : nat)
    (key : nat -> nat -> string) (g : grid_request) (tr : list (mplcall R)) (w h : R).
  Context (Hr : runs (empty_layout rid) acts l) (Hs : Forall (shipped_act tw) acts) (Hk : Forall top_key acts).
  Context (Hp : same_structure (l_prim l) p) (Hi : ids_consistent p) (Hz : layout_residual l p = Ok z) (Hzz : zeros z).
  Context (Hfig : quad_in (l_prim l) fig) (SB : asked acts Box [fig] []) (Pr : (1 <= r)%nat) (Pc : (1 <= c)%nat) (Hn : NoDup (GridEndSpec.cells r c key)).
  Context (Hq : forall i j, (i < r)%nat -> (j < c)%nat -> quad_in (l_prim l) (frame (key i j))).
  Context (L1 : length (ratios_x g) = (c - 1)%nat) (L2 : length (gaps_x g) = (c - 1)%nat) (L3 : length (ratios_y g) = (r - 1)%nat) (L4 : length (gaps_y g) = (r - 1)%nat).
  Context (Ag : asked_grid acts fig r c key g) (Hd : subplots p fig (Some (GridEndSpec.cells r c key)) = (tr, Ok tt)).
  Context (Hsz : sizes tr = [(w, h)]) (W0 : 0 < w) (H0 : 0 < h) (Hpos : drawn_positive tr).
  Lemma grid_drawn a : asked_one acts crAspectRatio [frame (key 0%nat 0%nat)] a ->
    (forall w', asked_one acts crWidth [fig] w' -> w = w') /\ (forall h', asked_one acts crHeight [fig] h' -> h = h') /\
    0 < a /\ unit_x w g = a * unit_y h g /\ 0 <= sum_of (ratios_x g) /\ 0 <= sum_of (ratios_y g) /\
    map fst (positions tr) = GridEndSpec.cells r c key /\ map (fun kr => inches w h (snd kr)) (positions tr) = GridEndSpec.cells r c (cell_margins w h g).
  Proof.
    intros Ha. pose proof (asked_vanish rid tw acts l p z Hr Hs Hk Hp Hz Hzz) as Ev.
    assert (Hq' : Forall (fun k => quad_in (l_prim l) (frame k)) (GridEndSpec.cells r c key)) by (apply Forall_forall; intros k Hin; apply cells_in in Hin as (i & j & Hi' & Hj & ->); auto).
    destruct (figure_box rid tw acts l p z fig _ tr w h Hr Hs Hk Hp Hi Hz Hzz Hfig SB Hn Hq' Hd Hsz) as (fq & F & Gf & FB & Fw & Fh & _ & _ & Hb).
    destruct (grid_core rid tw acts l p z fig w h r c key g tr Hr Hs Hk Hp Hi Hz Hzz Hfig SB Hb W0 H0 Pr Pc Hn Hq L1 L2 L3 L4 Ag Hd Hpos) as (_ & R2 & R3 & q & B & Eq & Bq & Pq & Uw & Uh & Sx & Sy).
    pose proof (aspect_asked acts p _ q B a Ev Eq Bq Pq Ha) as As. destruct Pq as [Px Py].
    split; [intros w' Hw; rewrite <- Fw; exact (width_asked acts p fig fq F w' Ev Gf FB Hw)|]. split; [intros h' Hh; rewrite <- Fh; exact (height_asked acts p fig fq F h' Ev Gf FB Hh)|].
    split; [|split; [rewrite <- Uw, <- Uh; exact As|auto]].
    unfold bwidth, bheight in As. destruct (Rle_lt_dec a 0) as [Na|]; [|assumption]. exfalso.
    assert (a * (btop B - bbottom B) <= 0 * (btop B - bbottom B)) by (apply Rmult_le_compat_r; lra). lra.
  Qed.
  (** The width of the figure and the aspect ratio of the first cell are given: the height
      of the figure is what the margins, gaps and rows add up to ... *)
  Theorem C98_grid_height w' a : asked_one acts crWidth [fig] w' -> asked_one acts crAspectRatio [frame (key 0%nat 0%nat)] a ->
    w = w' /\ h = implied_height w' a g /\ map fst (positions tr) = GridEndSpec.cells r c key /\
    map (fun kr => inches w h (snd kr)) (positions tr) = GridEndSpec.cells r c (cell_margins w' (implied_height w' a g) g).
  Proof.
    intros Hw Ha. destruct (grid_drawn a Ha) as (Ew & _ & Pa & U & Sx & Sy & R2 & R3). specialize (Ew w' Hw).
    assert (Eh : h = implied_height w' a g).
    { unfold implied_height. rewrite <- Ew, U. replace (a * unit_y h g / a) with (unit_y h g) by (field; lra). unfold unit_y. field. lra. }
    split; [exact Ew|]. split; [exact Eh|]. split; [exact R2|]. rewrite <- Eh, <- Ew. exact R3.
  Qed.
  (** ... and the other way round. *)
  Theorem C98_grid_width h' a : asked_one acts crHeight [fig] h' -> asked_one acts crAspectRatio [frame (key 0%nat 0%nat)] a ->
    h = h' /\ w = implied_width h' a g /\ map fst (positions tr) = GridEndSpec.cells r c key /\
    map (fun kr => inches w h (snd kr)) (positions tr) = GridEndSpec.cells r c (cell_margins (implied_width h' a g) h' g).
  Proof.
    intros Hh Ha. destruct (grid_drawn a Ha) as (_ & Eh & Pa & U & Sx & Sy & R2 & R3). specialize (Eh h' Hh).
    assert (Ew : w = implied_width h' a g).
    { unfold implied_width. rewrite <- Eh. replace (unit_y h g * a) with (unit_x w g) by (rewrite U; ring). unfold unit_x. field. lra. }
    split; [exact Eh|]. split; [exact Ew|]. split; [exact R2|]. rewrite <- Ew, <- Eh. exact R3.
  Qed.
End Grid.

(** ** A plot with a colour bar *)
Lemma top_side (p : prim) k q B : get_child p k = Ok q -> is_box q B ->
  exists l, get_child p (k ++ "/Line2")%string = Ok l /\ line_at l (bright B, btop B) (bleft B, btop B).
Proof.
  intros E H. destruct (quad_line2 _ _ _ _ _ H) as (l & E' & Hl). exists l. split; [|exact Hl]. now apply (proj2 (get_child_app p k "Line2" q E)).
Qed.
Lemma left_side (p : prim) k q B : get_child p k = Ok q -> is_box q B ->
  exists l, get_child p (k ++ "/Line3")%string = Ok l /\ line_at l (bleft B, btop B) (bleft B, bbottom B).
Proof.
  intros E H. destruct (quad_line3 _ _ _ _ _ H) as (l & E' & Hl). exists l. split; [|exact Hl]. now apply (proj2 (get_child_app p k "Line3" q E)).
Qed.
Lemma row_vanishes a b P Q c : is_box a P -> is_box b Q -> nondegenerate P -> AlignRow (F:=R) = Ok c ->
  (vanishes c [a; b] [] <-> bbottom Q = bbottom P /\ btop Q = btop P).
Proof.
  intros H H' Nd E. destruct row_zeval as (c' & Ec & Es & Z). rewrite E in Ec. injection Ec as <-.
  destruct (boxes_valid [a; b] [P; Q]) as [V1 V2]; [now repeat constructor|].
  apply zeval_vanishes; [now apply Z| |exact V1]. unfold valid_args. rewrite Es. split; [exact V2|reflexivity].
Qed.
Section Asked.
  Context (acts : list (action R)) (p : prim).
  Context (Ev : forall co ks ps, asked acts co ks ps -> exists c' prims, co = Ok c' /\ mapM (get_child p) ks = Ok prims /\ vanishes c' prims ps).
  Lemma box_asked key : (exists q P0 P1 P2 P3, get_child p key = Ok q /\ quad_at q P0 P1 P2 P3) -> asked acts Box [key] [] -> exists q B, get_child p key = Ok q /\ is_box q B.
  Proof.
    intros (q & P0 & P1 & P2 & P3 & E & H) Ha. destruct (Ev _ _ _ Ha) as (c0 & prims & E1 & E2 & E3). cbn [mapM] in E2. rewrite E in E2. cbn [bind] in E2. injection E2 as <-.
    exists q, (span q). split; [exact E|]. eapply boxed; eauto.
  Qed.
  Lemma length_asked key l A B k : get_child p key = Ok l -> line_at l A B -> asked_one acts crLength [key] k -> len (vec A B) = k.
  Proof.
    intros E H (v & [n1 n2] & Ha). destruct (Ev _ _ _ Ha) as (c1 & prims & F1 & E2 & F3). cbn [mapM] in E2. rewrite E in E2. cbn [bind] in E2. injection E2 as <-.
    destruct (C35_length l A B v k H n1) as (c' & F1' & _ & V). rewrite F1 in F1'. injection F1' as <-. now apply V.
  Qed.
  Lemma ratio_asked k1 k2 l m A B C D k : get_child p k1 = Ok l -> line_at l A B -> get_child p k2 = Ok m -> line_at m C D ->
    asked_one acts RelativeLength [k1; k2] k -> len (vec A B) = k * len (vec C D).
  Proof.
    intros E H E' H' (v & [n1 n2] & Ha). destruct (Ev _ _ _ Ha) as (c1 & prims & F1 & E2 & F3). cbn [mapM] in E2. rewrite E in E2. cbn [bind] in E2. rewrite E' in E2. cbn [bind] in E2. injection E2 as <-.
    destruct (C36_relative_length l m A B C D v k H H' n1) as (c' & F1' & _ & V). rewrite F1 in F1'. injection F1' as <-. now apply V.
  Qed.
  Lemma midx_asked k1 k2 l m A B C D k : get_child p k1 = Ok l -> line_at l A B -> get_child p k2 = Ok m -> line_at m C D ->
    asked_one acts crMidpointXDistance [k1; k2] k -> fst (mid C D) - fst (mid A B) = k.
  Proof.
    intros E H E' H' (v & [n1 n2] & Ha). destruct (Ev _ _ _ Ha) as (c1 & prims & F1 & E2 & F3). cbn [mapM] in E2. rewrite E in E2. cbn [bind] in E2. rewrite E' in E2. cbn [bind] in E2. injection E2 as <-.
    destruct (C36_midpoint_x l m A B C D v k H H' n1) as (c' & F1' & _ & V). rewrite F1 in F1'. injection F1' as <-. now apply V.
  Qed.
  Lemma midy_asked k1 k2 l m A B C D k : get_child p k1 = Ok l -> line_at l A B -> get_child p k2 = Ok m -> line_at m C D ->
    asked_one acts crMidpointYDistance [k1; k2] k -> snd (mid C D) - snd (mid A B) = k.
  Proof.
    intros E H E' H' (v & [n1 n2] & Ha). destruct (Ev _ _ _ Ha) as (c1 & prims & F1 & E2 & F3). cbn [mapM] in E2. rewrite E in E2. cbn [bind] in E2. rewrite E' in E2. cbn [bind] in E2. injection E2 as <-.
    destruct (C36_midpoint_y l m A B C D v k H H' n1) as (c' & F1' & _ & V). rewrite F1 in F1'. injection F1' as <-. now apply V.
  Qed.
  Lemma collinear_asked k1 k2 l m A B C D : get_child p k1 = Ok l -> line_at l A B -> get_child p k2 = Ok m -> line_at m C D -> A <> B ->
    asked acts (Ok Collinear) [k1; k2] [] -> on_line A B C /\ on_line A B D.
  Proof.
    intros E H E' H' Hne Ha. destruct (Ev _ _ _ Ha) as (c1 & prims & F1 & E2 & F3). cbn [mapM] in E2. rewrite E in E2. cbn [bind] in E2. rewrite E' in E2. cbn [bind] in E2. injection E2 as <-.
    apply Ok_inj in F1. rewrite <- F1 in F3. now apply (proj2 (C38_collinear l m A B C D H H') Hne).
  Qed.
  Lemma inner_asked side k1 k2 a b P Q k : In side sides -> get_child p k1 = Ok a -> is_box a P -> get_child p k2 = Ok b -> is_box b Q ->
    asked_one acts (crInnerMargin side) [k1; k2] k -> inner_gap side (bleft P) (bbottom P) (bright P) (btop P) (bleft Q) (bbottom Q) (bright Q) (btop Q) = k.
  Proof.
    intros Hs E H E' H' (v & [n1 n2] & Ha). destruct (Ev _ _ _ Ha) as (c1 & prims & F1 & E2 & F3). cbn [mapM] in E2. rewrite E in E2. cbn [bind] in E2. rewrite E' in E2. cbn [bind] in E2. injection E2 as <-.
    destruct (C43_inner_margin side a b _ _ _ _ _ _ _ _ v k Hs H H' n1 n2) as (c' & F1' & _ & V). rewrite F1 in F1'. injection F1' as <-. now apply V.
  Qed.
  Lemma outer_asked side k1 k2 a b P Q k : In side sides -> get_child p k1 = Ok a -> is_box a P -> get_child p k2 = Ok b -> is_box b Q ->
    asked_one acts (crOuterMargin side) [k1; k2] k -> outer_gap side (bleft P) (bbottom P) (bright P) (btop P) (bleft Q) (bbottom Q) (bright Q) (btop Q) = k.
  Proof.
    intros Hs E H E' H' (v & [n1 n2] & Ha). destruct (Ev _ _ _ Ha) as (c1 & prims & F1 & E2 & F3). cbn [mapM] in E2. rewrite E in E2. cbn [bind] in E2. rewrite E' in E2. cbn [bind] in E2. injection E2 as <-.
    destruct (C43_outer_margin side a b _ _ _ _ _ _ _ _ v k Hs H H' n1 n2) as (c' & F1' & _ & V). rewrite F1 in F1'. injection F1' as <-. now apply V.
  Qed.
  Lemma row_asked k1 k2 a b P Q : get_child p k1 = Ok a -> is_box a P -> get_child p k2 = Ok b -> is_box b Q -> nondegenerate P ->
    asked acts AlignRow [k1; k2] [] -> bbottom Q = bbottom P /\ btop Q = btop P.
  Proof.
    intros E H E' H' Nd Ha. destruct (Ev _ _ _ Ha) as (c1 & prims & F1 & E2 & F3). cbn [mapM] in E2. rewrite E in E2. cbn [bind] in E2. rewrite E' in E2. cbn [bind] in E2. injection E2 as <-.
    exact (proj1 (row_vanishes a b P Q c1 H H' Nd F1) F3).
  Qed.
End Asked.
Lemma on_vertical (x y y' : R) C : on_line (x, y) (x, y') C -> fst C = x.
Proof. intros (t & ->). cbn. ring. Qed.

(** Every solution of the layout that is drawn with positive sizes has the size and the
    margins that follow from what was asked for. *)
Theorem C98_colorbar rid tw acts (l : layout) p z fig A B q tr w h :
  runs (empty_layout rid) acts l -> Forall (shipped_act tw) acts -> Forall top_key acts ->
  same_structure (l_prim l) p -> ids_consistent p -> layout_residual l p = Ok z -> zeros z ->
  quad_in (l_prim l) fig -> quad_in (l_prim l) (frame A) -> quad_in (l_prim l) (frame B) -> A <> B -> asked_bar acts fig A B q ->
  subplots p fig (Some [A; B]) = (tr, Ok tt) -> sizes tr = [(w, h)] -> 0 < w -> 0 < h -> drawn_positive tr ->
  w = bar_w q /\ h = bar_figure_height q /\ map fst (positions tr) = [A; B] /\ map (fun kr => inches w h (snd kr)) (positions tr) = bar_margins q.
Proof.
  intros Hr Hs Hk Hp Hi Hz Hzz Hfig HA HB Hne (B1 & B2 & B3 & A1 & A2 & A3 & A4 & A5 & A6 & A7 & A8 & A9 & A10) Hd Hsz W0 H0 Hpos.
  pose proof (asked_vanish rid tw acts l p z Hr Hs Hk Hp Hz Hzz) as Ev.
  assert (Hn : NoDup [A; B]) by (constructor; [cbn; intuition congruence|constructor; [cbn; tauto|constructor]]).
  assert (Hq2 : Forall (fun k => quad_in (l_prim l) (frame k)) [A; B]) by (repeat constructor; assumption).
  destruct (figure_box rid tw acts l p z fig [A; B] tr w h Hr Hs Hk Hp Hi Hz Hzz Hfig B1 Hn Hq2 Hd Hsz) as (fq & F & Gf & FB & Fw & Fh & D2 & D3 & _).
  destruct (box_asked acts p Ev (frame A) (quad_moved _ p _ Hp Hi HA) B2) as (qa & P & Ga & PB).
  destruct (box_asked acts p Ev (frame B) (quad_moved _ p _ Hp Hi HB) B3) as (qb & Q & Gb & QB).
  unfold drawn_positive in Hpos. destruct (positions tr) as [|[ka ra] [|[kb rb] [|]]]; try discriminate D2. cbn [map fst] in D2. injection D2 as -> ->.
  inversion_clear D3 as [|? ? X D3']. inversion_clear D3' as [|? ? Y _]. destruct X as (_ & _ & X), Y as (_ & _ & Y). cbn [fst snd] in X, Y.
  specialize (X _ _ _ _ _ Ga PB). specialize (Y _ _ _ _ _ Gb QB).
  inversion_clear Hpos as [|? ? PA Hpos']. inversion_clear Hpos' as [|? ? PC _]. cbn [snd] in PA, PC. rewrite X in PA. rewrite Y in PC.
  assert (Pw : bleft P < bright P /\ bbottom P < btop P).
  { destruct PA as [U V]. cbn [fst snd] in U, V. split.
    - apply (Rmult_lt_compat_r w) in U; [|assumption]. match type of U with _ < ?t => replace t with (bright P - bleft P) in U by (field; lra) end. lra.
    - apply (Rmult_lt_compat_r h) in V; [|assumption]. match type of V with _ < ?t => replace t with (btop P - bbottom P) in V by (field; lra) end. lra. }
  assert (Qw : bleft Q < bright Q /\ bbottom Q < btop Q).
  { destruct PC as [U V]. cbn [fst snd] in U, V. split.
    - apply (Rmult_lt_compat_r w) in U; [|assumption]. match type of U with _ < ?t => replace t with (bright Q - bleft Q) in U by (field; lra) end. lra.
    - apply (Rmult_lt_compat_r h) in V; [|assumption]. match type of V with _ < ?t => replace t with (btop Q - bbottom Q) in V by (field; lra) end. lra. }
  destruct Pw as [Px Py], Qw as [Qx Qy].
  destruct (bottom_side p _ _ _ Gf FB) as (f0 & Ef0 & Lf0). destruct (right_side p _ _ _ Gf FB) as (f1 & Ef1 & Lf1). destruct (top_side p _ _ _ Gf FB) as (f2 & Ef2 & Lf2). destruct (left_side p _ _ _ Gf FB) as (f3 & Ef3 & Lf3).
  destruct (bottom_side p _ _ _ Ga PB) as (a0 & Ea0 & La0). destruct (right_side p _ _ _ Ga PB) as (a1 & Ea1 & La1). destruct (top_side p _ _ _ Ga PB) as (a2 & Ea2 & La2). destruct (left_side p _ _ _ Ga PB) as (a3 & Ea3 & La3).
  destruct (bottom_side p _ _ _ Gb QB) as (b0 & Eb0 & Lb0). destruct (right_side p _ _ _ Gb QB) as (b1 & Eb1 & Lb1). destruct (top_side p _ _ _ Gb QB) as (b2 & Eb2 & Lb2). destruct (left_side p _ _ _ Gb QB) as (b3 & Eb3 & Lb3).
  pose proof (length_asked acts p Ev _ _ _ _ _ Ef0 Lf0 A1) as V1. rewrite len_h, Rabs_right in V1 by lra.
  pose proof (ratio_asked acts p Ev _ _ _ _ _ _ _ _ _ Ea0 La0 Ea1 La1 A2) as V2. rewrite len_h, len_v, !Rabs_right in V2 by lra.
  pose proof (length_asked acts p Ev _ _ _ _ _ Eb1 Lb1 A3) as V3. rewrite len_v, Rabs_right in V3 by lra.
  destruct (collinear_asked acts p Ev _ _ _ _ _ _ _ _ Ea3 La3 Eb3 Lb3 ltac:(intros E; injection E as E; lra) A4) as [V4 _]. apply on_vertical in V4. cbn [fst] in V4.
  destruct (collinear_asked acts p Ev _ _ _ _ _ _ _ _ Ea1 La1 Eb1 Lb1 ltac:(intros E; injection E as E; lra) A5) as [V5 _]. apply on_vertical in V5. cbn [fst] in V5.
  pose proof (midy_asked acts p Ev _ _ _ _ _ _ _ _ _ Ea2 La2 Eb0 Lb0 A6) as V6. pose proof (midx_asked acts p Ev _ _ _ _ _ _ _ _ _ Ef3 Lf3 Ea3 La3 A7) as V7.
  pose proof (midx_asked acts p Ev _ _ _ _ _ _ _ _ _ Ea1 La1 Ef1 Lf1 A8) as V8. pose proof (midy_asked acts p Ev _ _ _ _ _ _ _ _ _ Eb2 Lb2 Ef2 Lf2 A9) as V9.
  pose proof (midy_asked acts p Ev _ _ _ _ _ _ _ _ _ Ef0 Lf0 Ea0 La0 A10) as V10. unfold mid in V6, V7, V8, V9, V10. cbn [fst snd] in V6, V7, V8, V9, V10.
  assert (Kp : bar_k q <> 0) by (intros E; rewrite E in V2; lra).
  assert (Ph : plot_height q = btop P - bbottom P).
  { unfold plot_height. replace (bar_w q - m_left (bar_around q) - m_right (bar_around q)) with (bar_k q * (btop P - bbottom P)) by lra. field. exact Kp. }
  split; [lra|]. split; [unfold bar_figure_height; rewrite Ph; lra|]. split; [reflexivity|].
  cbn [map snd]. rewrite X, Y. cbn [fst snd]. unfold inches, bar_margins. rewrite Ph.
  apply f_equal2; [|apply f_equal2; [|reflexivity]]; f_equal;
    match goal with |- ?t = _ => first
      [replace t with (bleft P - bleft F) by (field; lra); lra
      |replace t with (w - (bright P - bleft F)) by (field; lra); lra
      |replace t with (bbottom P - bbottom F) by (field; lra); lra
      |replace t with (h - (btop P - bbottom F)) by (field; lra); lra
      |replace t with (bleft Q - bleft F) by (field; lra); lra
      |replace t with (w - (bright Q - bleft F)) by (field; lra); lra
      |replace t with (bbottom Q - bbottom F) by (field; lra); lra
      |replace t with (h - (btop Q - bbottom F)) by (field; lra); lra] end.
Qed.

(** Two axes side by side, of which the right one gets the space that is left. *)
Theorem C98_two_axes rid tw acts (l : layout) p z fig A B q tr w h :
  runs (empty_layout rid) acts l -> Forall (shipped_act tw) acts -> Forall top_key acts ->
  same_structure (l_prim l) p -> ids_consistent p -> layout_residual l p = Ok z -> zeros z ->
  quad_in (l_prim l) fig -> quad_in (l_prim l) (frame A) -> quad_in (l_prim l) (frame B) -> A <> B -> asked_pair acts fig A B q ->
  subplots p fig (Some [A; B]) = (tr, Ok tt) -> sizes tr = [(w, h)] -> 0 < w -> 0 < h -> drawn_positive tr ->
  w = pair_w q /\ h = pair_h q /\ map fst (positions tr) = [A; B] /\ map (fun kr => inches w h (snd kr)) (positions tr) = pair_margins q.
Proof.
  intros Hr Hs Hk Hp Hi Hz Hzz Hfig HA HB Hne (B1 & B2 & B3 & A1 & A2 & A3 & A4 & A5 & A6 & A7 & A8 & A9) Hd Hsz W0 H0 Hpos.
  pose proof (asked_vanish rid tw acts l p z Hr Hs Hk Hp Hz Hzz) as Ev.
  assert (Hn : NoDup [A; B]) by (constructor; [cbn; intuition congruence|constructor; [cbn; tauto|constructor]]).
  assert (Hq2 : Forall (fun k => quad_in (l_prim l) (frame k)) [A; B]) by (repeat constructor; assumption).
  destruct (figure_box rid tw acts l p z fig [A; B] tr w h Hr Hs Hk Hp Hi Hz Hzz Hfig B1 Hn Hq2 Hd Hsz) as (fq & F & Gf & FB & Fw & Fh & D2 & D3 & _).
  destruct (box_asked acts p Ev (frame A) (quad_moved _ p _ Hp Hi HA) B2) as (qa & P & Ga & PB).
  destruct (box_asked acts p Ev (frame B) (quad_moved _ p _ Hp Hi HB) B3) as (qb & Q & Gb & QB).
  unfold drawn_positive in Hpos. destruct (positions tr) as [|[ka ra] [|[kb rb] [|]]]; try discriminate D2. cbn [map fst] in D2. injection D2 as -> ->.
  inversion_clear D3 as [|? ? X D3']. inversion_clear D3' as [|? ? Y _]. destruct X as (_ & _ & X), Y as (_ & _ & Y). cbn [fst snd] in X, Y.
  specialize (X _ _ _ _ _ Ga PB). specialize (Y _ _ _ _ _ Gb QB).
  inversion_clear Hpos as [|? ? PA Hpos']. cbn [snd] in PA. rewrite X in PA.
  assert (Pw : bleft P < bright P /\ bbottom P < btop P).
  { destruct PA as [U V]. cbn [fst snd] in U, V. split.
    - apply (Rmult_lt_compat_r w) in U; [|assumption]. match type of U with _ < ?t => replace t with (bright P - bleft P) in U by (field; lra) end. lra.
    - apply (Rmult_lt_compat_r h) in V; [|assumption]. match type of V with _ < ?t => replace t with (btop P - bbottom P) in V by (field; lra) end. lra. }
  destruct Pw as [Px Py].
  pose proof (width_asked acts p _ _ _ _ Ev Gf FB A1) as V1. pose proof (height_asked acts p _ _ _ _ Ev Gf FB A2) as V2.
  pose proof (inner_asked acts p Ev "left" _ _ _ _ _ _ _ (or_introl eq_refl) Ga PB Gf FB A3) as V3.
  pose proof (inner_asked acts p Ev "right" _ _ _ _ _ _ _ (or_intror (or_introl eq_refl)) Gb QB Gf FB A4) as V4.
  pose proof (outer_asked acts p Ev "right" _ _ _ _ _ _ _ (or_intror (or_introl eq_refl)) Ga PB Gb QB A5) as V5.
  pose proof (inner_asked acts p Ev "bottom" _ _ _ _ _ _ _ (or_intror (or_intror (or_introl eq_refl))) Ga PB Gf FB A6) as V6.
  pose proof (inner_asked acts p Ev "top" _ _ _ _ _ _ _ (or_intror (or_intror (or_intror (or_introl eq_refl)))) Ga PB Gf FB A7) as V7.
  destruct (row_asked acts p Ev _ _ _ _ _ _ Ga PB Gb QB ltac:(split; lra) A8) as [V8 V8'].
  pose proof (width_asked acts p _ _ _ _ Ev Ga PB A9) as V9.
  unfold inner_gap, outer_gap in V3, V4, V5, V6, V7. cbn [String.eqb Ascii.eqb Bool.eqb] in V3, V4, V5, V6, V7.
  split; [lra|]. split; [lra|]. split; [reflexivity|].
  cbn [map snd]. rewrite X, Y. cbn [fst snd]. unfold inches, pair_margins.
  apply f_equal2; [|apply f_equal2; [|reflexivity]]; f_equal;
    match goal with |- ?t = _ => first
      [replace t with (bleft P - bleft F) by (field; lra); lra
      |replace t with (w - (bright P - bleft F)) by (field; lra); lra
      |replace t with (bbottom P - bbottom F) by (field; lra); lra
      |replace t with (h - (btop P - bbottom F)) by (field; lra); lra
      |replace t with (bleft Q - bleft F) by (field; lra); lra
      |replace t with (w - (bright Q - bleft F)) by (field; lra); lra
      |replace t with (bbottom Q - bbottom F) by (field; lra); lra
      |replace t with (h - (btop Q - bbottom F)) by (field; lra); lra] end.
Qed.

(** ** The hypotheses can be met: a figure with the two axes of P_GridEnd.v, asked for in
    three ways *)
Definition prims98 : list (action R) := [AddPrim quad92 "Figure"; AddPrim (axes92 10) "A"; AddPrim (axes92 20) "B"].
Definition tree98 : prim := Node TPrimNode {| vid := 0; vdata := [] |} [("Figure"%string, quad92); ("A"%string, axes92 10); ("B"%string, axes92 20)].
Definition at98 (F A B : box) : prim :=
  new_tree tree98 (flat_map (fun b => [bleft b; bbottom b; bright b; bbottom b; bright b; btop b; bleft b; btop b]) [F; A; B]).
Lemma boxes98 F A B : exists f a b, get_child (at98 F A B) "Figure" = Ok f /\ is_box f F /\ get_child (at98 F A B) "A/Frame" = Ok a /\ is_box a A /\ get_child (at98 F A B) "B/Frame" = Ok b /\ is_box b B.
Proof.
  unfold at98, tree98, is_box. cbn [flat_map List.app]. generalize (bleft F) (bbottom F) (bright F) (btop F) (bleft A) (bbottom A) (bright A) (btop A) (bleft B) (bbottom B) (bright B) (btop B).
  intros. eexists _, _, _. split; [lazy; reflexivity|]. split; [|split; [lazy; reflexivity|split; [|split; [lazy; reflexivity|]]]];
    (eexists _, _, _, _, _; split; [reflexivity|]); repeat split; eexists _, _, _; (split; [reflexivity|]); split; eexists _, _; reflexivity.
Qed.
Lemma drawn98 F A B : proper F -> proper A -> proper B -> exists tr, subplots (at98 F A B) "Figure" (Some ["A"; "B"]%string) = (tr, Ok tt) /\
  sizes tr = [(bright F - bleft F, btop F - bbottom F)] /\ drawn_positive tr.
Proof.
  unfold proper, at98, tree98. cbn [flat_map List.app]. generalize (bleft F) (bbottom F) (bright F) (btop F) (bleft A) (bbottom A) (bright A) (btop A) (bleft B) (bbottom B) (bright B) (btop B).
  intros x0 y0 x1 y1 a0 b0 a1 b1 c0 d0 c1 d1 [HF1 HF2] [HA1 HA2] [HB1 HB2]. lazy -[IZR Rplus Rminus Rmult Ropp Rlt_dec Req_EM_T Rdiv Rinv sqrt Rlt].
  destruct (Req_EM_T (x1 - x0) 0) as [X|_]; [exfalso; lra|]. destruct (Req_EM_T (y1 - y0) 0) as [X|_]; [exfalso; lra|].
  eexists. split; [reflexivity|]. split; [reflexivity|]. unfold drawn_positive. lazy -[IZR Rplus Rminus Rmult Ropp Rdiv Rinv Rlt].
  assert (P : forall u v, 0 < u -> 0 < v -> 0 < u / v) by (intros; now apply Rdiv_lt_0_compat).
  repeat (constructor; [split; (match goal with |- 0 < ?t => first [replace t with ((a1 - a0) / (x1 - x0)) by (field; lra)|replace t with ((b1 - b0) / (y1 - y0)) by (field; lra)|replace t with ((c1 - c0) / (x1 - x0)) by (field; lra)|replace t with ((d1 - d0) / (y1 - y0)) by (field; lra)] end); apply P; lra|]). constructor.
Qed.
Lemma structure98 F A B : same_structure tree98 (at98 F A B) /\ ids_consistent (at98 F A B).
Proof.
  assert (E : tree98 = l_prim l92) by (symmetry; exact prim92). destruct sane92 as (S1 & S2 & S3). unfold at98. rewrite E. split; [apply new_structure; auto; now rewrite size92|now apply new_ids].
Qed.

Definition met (acts : list (action R)) (l : layout) (p : prim) (z : list R) (w h : R) (tr : list (mplcall R)) : Prop :=
  runs (empty_layout 0) acts l /\ Forall (shipped_act false) acts /\ Forall top_key acts /\ same_structure (l_prim l) p /\ ids_consistent p /\ layout_residual l p = Ok z /\ zeros z /\
  quad_in (l_prim l) "Figure" /\ quad_in (l_prim l) (frame "A") /\ quad_in (l_prim l) (frame "B") /\
  subplots p "Figure" (Some ["A"; "B"]%string) = (tr, Ok tt) /\ sizes tr = [(w, h)] /\ 0 < w /\ 0 < h /\ drawn_positive tr.
Lemma met98 acts (l : layout) F A B : runs (empty_layout 0) acts l -> l_prim l = tree98 -> Forall (shipped_act false) acts -> Forall top_key acts -> Forall flat_keys acts ->
  (forall a, In a prims98 -> In a acts) -> LayoutSpec.added acts <> [] -> proper F -> proper A -> proper B ->
  (forall c ks ps, In (c, ks, ps) (LayoutSpec.added acts) -> exists prims, mapM (get_child (at98 F A B)) ks = Ok prims /\ vanishes c prims ps) ->
  exists z tr, met acts l (at98 F A B) z (bright F - bleft F) (btop F - bbottom F) tr.
Proof.
  intros Hr Hp Hs Hk Hf Hi Hn PF PA PB Hv. destruct (structure98 F A B) as [S1 S2]. rewrite <- Hp in S1.
  destruct (all_satisfied 0 false acts l _ Hr Hs Hk S1 Hn Hv) as (z & Z1 & Z2). destruct (drawn98 F A B PF PA PB) as (tr & D1 & D2 & D3).
  assert (Fr : forall k n m, In (AddPrim (axes92 n) k) prims98 -> noslash k = true -> mk_axes (F:=R) n VNone None false false false false = Ok (axes92 n, m) -> quad_in (l_prim l) (frame k)).
  { intros k n m Ha Hk' Hm. apply Hi in Ha.
    assert (Q : exists f, dget "Frame" (nch (axes92 n)) = Some f /\ closed_quad f).
    { eapply (C79_quads_qualify 0 acts l (AddPrim (axes92 n) k) k (axes92 n) Hr Hf Ha); [split; reflexivity|exact Hk'|exact Hm]. }
    destruct Q as (fr & Q1 & Q2). eapply (C79_quads_qualify 0 acts l (AddPrim (axes92 n) k) k (axes92 n) Hr Hf Ha); [split; reflexivity|exact Hk'|exact Q1|exact Q2]. }
  exists z, tr. split; [exact Hr|]. split; [exact Hs|]. split; [exact Hk|]. split; [exact S1|]. split; [exact S2|]. split; [exact Z1|]. split; [exact Z2|].
  split; [|split; [|split; [|split; [exact D1|split; [exact D2|]]]]].
  - apply (C79_quads_qualify 0 acts l (AddPrim quad92 "Figure") "Figure" quad92 Hr Hf); [apply Hi; now left|split; reflexivity|reflexivity|].
    apply (built_quad_closed 1 VNone None quad92 10 I). vm_compute. reflexivity.
  - apply (Fr "A"%string 10%nat 20%nat); [unfold prims98; cbn [In]; tauto|reflexivity|vm_compute; reflexivity].
  - apply (Fr "B"%string 20%nat 30%nat); [unfold prims98; cbn [In]; tauto|reflexivity|vm_compute; reflexivity].
  - destruct PF. split; [lra|]. split; [lra|exact D3].
Qed.
Lemma asked98 acts (rc : result cons) ks ps : (if rc then true else false) = true -> In (ok_cons rc, ks, ps) (LayoutSpec.added acts) -> asked acts rc ks ps.
Proof. intros H1 H2. exists (ok_cons rc). split; [now apply ok_of|exact H2]. Qed.
Lemma asked1_98 acts (rc : result cons) ks x : (if rc then true else false) = true -> In (ok_cons rc, ks, [PFlt x]) (LayoutSpec.added acts) -> asked_one acts rc ks x.
Proof. intros H1 H2. exists (PFlt x). split; [apply number_flt|now apply asked98]. Qed.
Lemma aspect_vanishes q B k : is_box q B -> proper B -> bwidth B = k * bheight B -> vanishes (ok_cons crAspectRatio) [q] [PFlt k].
Proof.
  intros H [P1 P2] E. destruct (C42_aspect_ratio _ _ _ _ _ (PFlt k) k H) as (c & Ec & _ & V); [intros X; injection X as X; lra|reflexivity|]. rewrite (ok_cons_of _ _ Ec). apply V.
  rewrite len_h, len_v, !Rabs_right by lra. exact E.
Qed.
Lemma width_vanishes q B k : is_box q B -> bwidth B = k -> vanishes (ok_cons crWidth) [q] [PFlt k].
Proof. intros H E. destruct (C42_width _ _ _ _ _ (PFlt k) k H eq_refl eq_refl) as (c' & Ec & _ & V). rewrite (ok_cons_of _ _ Ec). now apply V. Qed.
Lemma height_vanishes q B k : is_box q B -> bheight B = k -> vanishes (ok_cons crHeight) [q] [PFlt k].
Proof. intros H E. destruct (C42_height _ _ _ _ _ (PFlt k) k H eq_refl eq_refl) as (c' & Ec & _ & V). rewrite (ok_cons_of _ _ Ec). now apply V. Qed.
Lemma outer_vanishes side a b A B k : In side sides -> is_box a A -> is_box b B -> gap side A B = k -> vanishes (ok_cons (crOuterMargin side)) [a; b] [PFlt k].
Proof. intros Hs H H' E. destruct (C43_outer_margin side _ _ _ _ _ _ _ _ _ _ (PFlt k) k Hs H H' eq_refl eq_refl) as (c' & Ec & _ & V). rewrite (ok_cons_of _ _ Ec). now apply V. Qed.
Lemma inner_vanishes side a b A B k : In side sides -> is_box a A -> is_box b B ->
  inner_gap side (bleft A) (bbottom A) (bright A) (btop A) (bleft B) (bbottom B) (bright B) (btop B) = k -> vanishes (ok_cons (crInnerMargin side)) [a; b] [PFlt k].
Proof. intros Hs H H' E. destruct (C43_inner_margin side _ _ _ _ _ _ _ _ _ _ (PFlt k) k Hs H H' eq_refl eq_refl) as (c' & Ec & _ & V). rewrite (ok_cons_of _ _ Ec). now apply V. Qed.
Lemma align_vanishes a b A B : is_box a A -> is_box b B -> nondegenerate A -> bbottom B = bbottom A -> btop B = btop A -> vanishes (ok_cons AlignRow) [a; b] [].
Proof. intros H H' Nd E E'. destruct row_zeval as (c & Ec & _). rewrite (ok_cons_of _ _ Ec). now apply (row_vanishes a b A B c H H' Nd Ec). Qed.
Lemma ratio_vanishes l m A B C D k : line_at l A B -> line_at m C D -> len (vec A B) = k * len (vec C D) -> vanishes (ok_cons RelativeLength) [l; m] [PFlt k].
Proof. intros H H' E. destruct (C36_relative_length l m A B C D (PFlt k) k H H' eq_refl) as (c & Ec & _ & V). rewrite (ok_cons_of _ _ Ec). now apply V. Qed.
Lemma length_vanishes l A B k : line_at l A B -> len (vec A B) = k -> vanishes (ok_cons crLength) [l] [PFlt k].
Proof. intros H E. destruct (C35_length l A B (PFlt k) k H eq_refl) as (c & Ec & _ & V). rewrite (ok_cons_of _ _ Ec). now apply V. Qed.
Lemma midx_vanishes l m A B C D k : line_at l A B -> line_at m C D -> fst (mid C D) - fst (mid A B) = k -> vanishes (ok_cons crMidpointXDistance) [l; m] [PFlt k].
Proof. intros H H' E. destruct (C36_midpoint_x l m A B C D (PFlt k) k H H' eq_refl) as (c & Ec & _ & V). rewrite (ok_cons_of _ _ Ec). now apply V. Qed.
Lemma midy_vanishes l m A B C D k : line_at l A B -> line_at m C D -> snd (mid C D) - snd (mid A B) = k -> vanishes (ok_cons crMidpointYDistance) [l; m] [PFlt k].
Proof. intros H H' E. destruct (C36_midpoint_y l m A B C D (PFlt k) k H H' eq_refl) as (c & Ec & _ & V). rewrite (ok_cons_of _ _ Ec). now apply V. Qed.
Lemma line_vanishes l m x y y' z z' : line_at l (x, y) (x, y') -> line_at m (x, z) (x, z') -> vanishes (ok_cons (Ok Collinear)) [l; m] [].
Proof.
  intros H H'. exists [cross (vec (x, y) (x, y')) (vec (x, z) (x, z')); cross (vec (x, y) (x, y')) (vec (x, z) (x, y))].
  split; [exact (proj1 (C38_collinear l m _ _ _ _ H H'))|]. unfold cross, vec. cbn [fst snd]. repeat (constructor; [lra|]). constructor.
Qed.

(** A grid of one row, asked for piece by piece; the first axes are square and the second 3/2
    times as wide: the figure of 8 inches must be 4 inches high. *)
Definition acts98 : list (action R) := prims98 ++
  [AddConstraint (ok_cons Box) ["Figure"%string] [] ""; AddConstraint (ok_cons crWidth) ["Figure"%string] [PFlt 8] "";
   AddConstraint (ok_cons crAspectRatio) ["A/Frame"%string] [PFlt 1] "";
   AddConstraint (ok_cons Box) ["A/Frame"%string] [] ""; AddConstraint (ok_cons Box) ["B/Frame"%string] [] "";
   AddConstraint (ok_cons (RectilinearGrid 1 2)) ["A/Frame"%string; "B/Frame"%string] [] "";
   AddConstraint (ok_cons RelativeLength) ["B/Frame/Line0"%string; "A/Frame/Line0"%string] [PFlt (3/2)] "";
   AddConstraint (ok_cons (crOuterMargin "right")) ["A/Frame"%string; "B/Frame"%string] [PFlt 1] "";
   AddConstraint (ok_cons (crInnerMargin "left")) ["A/Frame"%string; "Figure"%string] [PFlt 1] "";
   AddConstraint (ok_cons (crInnerMargin "top")) ["B/Frame"%string; "Figure"%string] [PFlt 1] "";
   AddConstraint (ok_cons (crInnerMargin "right")) ["B/Frame"%string; "Figure"%string] [PFlt 1] "";
   AddConstraint (ok_cons (crInnerMargin "bottom")) ["A/Frame"%string; "Figure"%string] [PFlt 1] ""].
(** The colour bar of examples/contour_colorbar.ipynb. *)
Definition acts98b : list (action R) := prims98 ++
  [AddConstraint (ok_cons Box) ["Figure"%string] [] ""; AddConstraint (ok_cons Box) ["A/Frame"%string] [] ""; AddConstraint (ok_cons Box) ["B/Frame"%string] [] "";
   AddConstraint (ok_cons crLength) ["Figure/Line0"%string] [PFlt 5] "";
   AddConstraint (ok_cons RelativeLength) ["A/Frame/Line0"%string; "A/Frame/Line1"%string] [PFlt 2] "";
   AddConstraint (ok_cons crLength) ["B/Frame/Line1"%string] [PFlt (1/8)] "";
   AddConstraint (ok_cons (Ok Collinear)) ["A/Frame/Line3"%string; "B/Frame/Line3"%string] [] "";
   AddConstraint (ok_cons (Ok Collinear)) ["A/Frame/Line1"%string; "B/Frame/Line1"%string] [] "";
   AddConstraint (ok_cons crMidpointYDistance) ["A/Frame/Line2"%string; "B/Frame/Line0"%string] [PFlt (1/16)] "";
   AddConstraint (ok_cons crMidpointXDistance) ["Figure/Line3"%string; "A/Frame/Line3"%string] [PFlt (3/4)] "";
   AddConstraint (ok_cons crMidpointXDistance) ["A/Frame/Line1"%string; "Figure/Line1"%string] [PFlt (1/8)] "";
   AddConstraint (ok_cons crMidpointYDistance) ["B/Frame/Line2"%string; "Figure/Line2"%string] [PFlt (1/2)] "";
   AddConstraint (ok_cons crMidpointYDistance) ["Figure/Line0"%string; "A/Frame/Line0"%string] [PFlt (3/4)] ""].
(** The two axes of examples/two_axes.ipynb. *)
Definition acts98p : list (action R) := prims98 ++
  [AddConstraint (ok_cons Box) ["Figure"%string] [] ""; AddConstraint (ok_cons Box) ["A/Frame"%string] [] ""; AddConstraint (ok_cons Box) ["B/Frame"%string] [] "";
   AddConstraint (ok_cons crWidth) ["Figure"%string] [PFlt 6] ""; AddConstraint (ok_cons crHeight) ["Figure"%string] [PFlt 3] "";
   AddConstraint (ok_cons (crInnerMargin "left")) ["A/Frame"%string; "Figure"%string] [PFlt (1/2)] "";
   AddConstraint (ok_cons (crInnerMargin "right")) ["B/Frame"%string; "Figure"%string] [PFlt (1/2)] "";
   AddConstraint (ok_cons (crOuterMargin "right")) ["A/Frame"%string; "B/Frame"%string] [PFlt (1/2)] "";
   AddConstraint (ok_cons (crInnerMargin "bottom")) ["A/Frame"%string; "Figure"%string] [PFlt (1/2)] "";
   AddConstraint (ok_cons (crInnerMargin "top")) ["A/Frame"%string; "Figure"%string] [PFlt 1] "";
   AddConstraint (ok_cons AlignRow) ["A/Frame"%string; "B/Frame"%string] [] "";
   AddConstraint (ok_cons crWidth) ["A/Frame"%string] [PFlt 2] ""].
Definition l98 : layout := after (empty_layout 0) acts98.
Definition l98b : layout := after (empty_layout 0) acts98b.
Definition l98p : layout := after (empty_layout 0) acts98p.

Ltac shipped_each := repeat (apply Forall_cons; [first [exact I|cbn [shipped_act]]|]); [..|apply Forall_nil];
  try (apply sh_dimension; [|left; reflexivity]; rewrite <- ok_of; [unfold dimensions, margins; cbn [map app In]; tauto|vm_compute; reflexivity]);
  try (apply sh_plain; [rewrite <- ok_of; [unfold plain; cbn [In app map]; tauto|vm_compute; reflexivity]|vm_compute; reflexivity]).
Ltac keys_each := repeat (apply Forall_cons; [first [exact I|reflexivity]|]); apply Forall_nil.
Lemma shipped98 : Forall (shipped_act false) acts98.
Proof.
  unfold acts98, prims98. cbn [List.app]. shipped_each. eapply (sh_rectilinear false 1 2); [lia|lia|apply ok_of; vm_compute; reflexivity].
Qed.
Lemma shipped98b : Forall (shipped_act false) acts98b.
Proof. unfold acts98b, prims98. cbn [List.app]. shipped_each. Qed.
Lemma shipped98p : Forall (shipped_act false) acts98p.
Proof. unfold acts98p, prims98. cbn [List.app]. shipped_each. Qed.

Ltac each H := repeat (destruct H as [H|H]; [apply pair_equal_spec in H as [H <-]; apply pair_equal_spec in H as [<- <-]|]); [..|contradiction].
Ltac numeric := unfold gap, inner_gap, outer_gap, bwidth, bheight, bleft, bright, bbottom, btop, mid; cbn [String.eqb Ascii.eqb Bool.eqb fst snd]; lra.
Ltac side := cbn [In sides]; tauto.
Section Satisfied.
  Context (p f a b : prim) (F A B : box).
  Context (Ef : get_child p "Figure" = Ok f) (Ea : get_child p "A/Frame" = Ok a) (Eb : get_child p "B/Frame" = Ok b).
  Context (Bf : is_box f F) (Ba : is_box a A) (Bb : is_box b B).
  Let mF : mapM (get_child p) ["Figure"%string] = Ok [f]. Proof. cbn [mapM]. now rewrite Ef. Qed.
  Let mA : mapM (get_child p) ["A/Frame"%string] = Ok [a]. Proof. cbn [mapM]. now rewrite Ea. Qed.
  Let mB : mapM (get_child p) ["B/Frame"%string] = Ok [b]. Proof. cbn [mapM]. now rewrite Eb. Qed.
  Let mAB : mapM (get_child p) ["A/Frame"%string; "B/Frame"%string] = Ok [a; b]. Proof. cbn [mapM]. now rewrite Ea, Eb. Qed.
  Let mAF : mapM (get_child p) ["A/Frame"%string; "Figure"%string] = Ok [a; f]. Proof. cbn [mapM]. now rewrite Ea, Ef. Qed.
  Let mBF : mapM (get_child p) ["B/Frame"%string; "Figure"%string] = Ok [b; f]. Proof. cbn [mapM]. now rewrite Eb, Ef. Qed.
  Lemma one_line k l : get_child p k = Ok l -> mapM (get_child p) [k] = Ok [l].
  Proof. intros E. cbn [mapM]. now rewrite E. Qed.
  Lemma two_lines k k' l m : get_child p k = Ok l -> get_child p k' = Ok m -> mapM (get_child p) [k; k'] = Ok [l; m].
  Proof. intros E E'. cbn [mapM]. now rewrite E, E'. Qed.
  Lemma satisfied98 : F = (0, 0, 8, 4) -> A = (1, 1, 3, 3) -> B = (4, 1, 7, 3) ->
    forall c ks ps, In (c, ks, ps) (LayoutSpec.added acts98) -> exists prims, mapM (get_child p) ks = Ok prims /\ vanishes c prims ps.
  Proof.
    intros HF HA HB c ks ps. destruct (bottom_side p _ _ _ Ea Ba) as (a0 & Ea0 & La0). destruct (bottom_side p _ _ _ Eb Bb) as (b0 & Eb0 & Lb0). subst F A B.
    unfold acts98, prims98. cbn [List.app LayoutSpec.added In]. intros H. each H.
    - exists [f]. split; [exact mF|]. eapply box_vanishes, Bf.
    - exists [f]. split; [exact mF|]. apply (width_vanishes f _ 8 Bf). numeric.
    - exists [a]. split; [exact mA|]. apply (aspect_vanishes a _ 1 Ba); [split|]; numeric.
    - exists [a]. split; [exact mA|]. eapply box_vanishes, Ba.
    - exists [b]. split; [exact mB|]. eapply box_vanishes, Bb.
    - exists [a; b]. split; [exact mAB|].
      destruct (C45_rectilinear_grid 1 2 [a; b] (fun _ j => match j with O => (1, 1, 3, 3) | _ => (4, 1, 7, 3) end)) as (c' & Ec & V); try lia.
      + split; [reflexivity|]. unfold Nat.lt. intros [|i] [|[|j]] Hi Hj; try lia; eexists; (split; [reflexivity|]); assumption.
      + intros i [|j] _ _; split; numeric.
      + rewrite (ok_cons_of _ _ Ec). apply V. unfold aligned, Nat.lt. split.
        * intros [|i] [|[|j]] [|[|j']] ? ? ?; try lia; cbn; auto.
        * intros [|i] [|i'] [|[|j]] ? ? ?; try lia; cbn; auto.
    - exists [b0; a0]. split; [exact (two_lines _ _ _ _ Eb0 Ea0)|]. apply (ratio_vanishes _ _ _ _ _ _ _ Lb0 La0). rewrite !len_h, !Rabs_right by numeric. numeric.
    - exists [a; b]. split; [exact mAB|]. apply (outer_vanishes "right" a b _ _ 1 ltac:(side) Ba Bb). numeric.
    - exists [a; f]. split; [exact mAF|]. apply (inner_vanishes "left" a f _ _ 1 ltac:(side) Ba Bf). numeric.
    - exists [b; f]. split; [exact mBF|]. apply (inner_vanishes "top" b f _ _ 1 ltac:(side) Bb Bf). numeric.
    - exists [b; f]. split; [exact mBF|]. apply (inner_vanishes "right" b f _ _ 1 ltac:(side) Bb Bf). numeric.
    - exists [a; f]. split; [exact mAF|]. apply (inner_vanishes "bottom" a f _ _ 1 ltac:(side) Ba Bf). numeric.
  Qed.
  Lemma satisfied98p : F = (0, 0, 6, 3) -> A = (1/2, 1/2, 5/2, 2) -> B = (3, 1/2, 11/2, 2) ->
    forall c ks ps, In (c, ks, ps) (LayoutSpec.added acts98p) -> exists prims, mapM (get_child p) ks = Ok prims /\ vanishes c prims ps.
  Proof.
    intros HF HA HB c ks ps. subst F A B.
    unfold acts98p, prims98. cbn [List.app LayoutSpec.added In]. intros H. each H.
    - exists [f]. split; [exact mF|]. eapply box_vanishes, Bf.
    - exists [a]. split; [exact mA|]. eapply box_vanishes, Ba.
    - exists [b]. split; [exact mB|]. eapply box_vanishes, Bb.
    - exists [f]. split; [exact mF|]. apply (width_vanishes f _ 6 Bf). numeric.
    - exists [f]. split; [exact mF|]. apply (height_vanishes f _ 3 Bf). numeric.
    - exists [a; f]. split; [exact mAF|]. apply (inner_vanishes "left" a f _ _ (1/2) ltac:(side) Ba Bf). numeric.
    - exists [b; f]. split; [exact mBF|]. apply (inner_vanishes "right" b f _ _ (1/2) ltac:(side) Bb Bf). numeric.
    - exists [a; b]. split; [exact mAB|]. apply (outer_vanishes "right" a b _ _ (1/2) ltac:(side) Ba Bb). numeric.
    - exists [a; f]. split; [exact mAF|]. apply (inner_vanishes "bottom" a f _ _ (1/2) ltac:(side) Ba Bf). numeric.
    - exists [a; f]. split; [exact mAF|]. apply (inner_vanishes "top" a f _ _ 1 ltac:(side) Ba Bf). numeric.
    - exists [a; b]. split; [exact mAB|]. apply (align_vanishes a b _ _ Ba Bb); [split; numeric|reflexivity..].
    - exists [a]. split; [exact mA|]. apply (width_vanishes a _ 2 Ba). numeric.
  Qed.
  Lemma satisfied98b : F = (0, 0, 5, 7/2) -> A = (3/4, 3/4, 39/8, 45/16) -> B = (3/4, 23/8, 39/8, 3) ->
    forall c ks ps, In (c, ks, ps) (LayoutSpec.added acts98b) -> exists prims, mapM (get_child p) ks = Ok prims /\ vanishes c prims ps.
  Proof.
    intros HF HA HB c ks ps.
    destruct (bottom_side p _ _ _ Ef Bf) as (f0 & Ef0 & Lf0). destruct (right_side p _ _ _ Ef Bf) as (f1 & Ef1 & Lf1). destruct (top_side p _ _ _ Ef Bf) as (f2 & Ef2 & Lf2). destruct (left_side p _ _ _ Ef Bf) as (f3 & Ef3 & Lf3).
    destruct (bottom_side p _ _ _ Ea Ba) as (a0 & Ea0 & La0). destruct (right_side p _ _ _ Ea Ba) as (a1 & Ea1 & La1). destruct (top_side p _ _ _ Ea Ba) as (a2 & Ea2 & La2). destruct (left_side p _ _ _ Ea Ba) as (a3 & Ea3 & La3).
    destruct (bottom_side p _ _ _ Eb Bb) as (b0 & Eb0 & Lb0). destruct (right_side p _ _ _ Eb Bb) as (b1 & Eb1 & Lb1). destruct (top_side p _ _ _ Eb Bb) as (b2 & Eb2 & Lb2). destruct (left_side p _ _ _ Eb Bb) as (b3 & Eb3 & Lb3).
    subst F A B. unfold acts98b, prims98. cbn [List.app LayoutSpec.added In]. intros H. each H.
    - exists [f]. split; [exact mF|]. eapply box_vanishes, Bf.
    - exists [a]. split; [exact mA|]. eapply box_vanishes, Ba.
    - exists [b]. split; [exact mB|]. eapply box_vanishes, Bb.
    - exists [f0]. split; [exact (one_line _ _ Ef0)|]. apply (length_vanishes _ _ _ _ Lf0). rewrite len_h, Rabs_right by numeric. numeric.
    - exists [a0; a1]. split; [exact (two_lines _ _ _ _ Ea0 Ea1)|]. apply (ratio_vanishes _ _ _ _ _ _ _ La0 La1). rewrite len_h, len_v, !Rabs_right by numeric. numeric.
    - exists [b1]. split; [exact (one_line _ _ Eb1)|]. apply (length_vanishes _ _ _ _ Lb1). rewrite len_v, Rabs_right by numeric. numeric.
    - exists [a3; b3]. split; [exact (two_lines _ _ _ _ Ea3 Eb3)|]. exact (line_vanishes _ _ _ _ _ _ _ La3 Lb3).
    - exists [a1; b1]. split; [exact (two_lines _ _ _ _ Ea1 Eb1)|]. exact (line_vanishes _ _ _ _ _ _ _ La1 Lb1).
    - exists [a2; b0]. split; [exact (two_lines _ _ _ _ Ea2 Eb0)|]. apply (midy_vanishes _ _ _ _ _ _ _ La2 Lb0). numeric.
    - exists [f3; a3]. split; [exact (two_lines _ _ _ _ Ef3 Ea3)|]. apply (midx_vanishes _ _ _ _ _ _ _ Lf3 La3). numeric.
    - exists [a1; f1]. split; [exact (two_lines _ _ _ _ Ea1 Ef1)|]. apply (midx_vanishes _ _ _ _ _ _ _ La1 Lf1). numeric.
    - exists [b2; f2]. split; [exact (two_lines _ _ _ _ Eb2 Ef2)|]. apply (midy_vanishes _ _ _ _ _ _ _ Lb2 Lf2). numeric.
    - exists [f0; a0]. split; [exact (two_lines _ _ _ _ Ef0 Ea0)|]. apply (midy_vanishes _ _ _ _ _ _ _ Lf0 La0). numeric.
  Qed.
End Satisfied.

Ltac inside := unfold acts98, acts98b, acts98p, prims98, LayoutSpec.added; cbn [String.eqb Ascii.eqb Bool.eqb orb key92 Nat.sub frame append List.app flat_map In];
  repeat match goal with |- ?x = ?x \/ _ => left; reflexivity | |- _ \/ _ => right end.
Example C98_grid_case : exists z tr, met acts98 l98 (at98 (0, 0, 8, 4) (1, 1, 3, 3) (4, 1, 7, 3)) z 8 4 tr /\
  asked acts98 Box ["Figure"%string] [] /\ asked_one acts98 crWidth ["Figure"%string] 8 /\ asked_one acts98 crAspectRatio [frame "A"] 1 /\
  asked_grid acts98 "Figure" 1 2 key92 request92 /\ implied_height 8 1 request92 = 4.
Proof.
  destruct (boxes98 (0, 0, 8, 4) (1, 1, 3, 3) (4, 1, 7, 3)) as (f & a & b & Ef & Bf & Ea & Ba & Eb & Bb).
  destruct (met98 acts98 l98 (0, 0, 8, 4) (1, 1, 3, 3) (4, 1, 7, 3)) as (z & tr & M).
  - apply all_ok_runs. vm_compute. reflexivity.
  - vm_compute. reflexivity.
  - exact shipped98.
  - unfold acts98, prims98. cbn [List.app]. keys_each.
  - unfold acts98, prims98. cbn [List.app]. keys_each.
  - unfold acts98. intros x Hx. apply in_or_app. now left.
  - unfold acts98, prims98. cbn [List.app LayoutSpec.added]. intros E. symmetry in E. exact (nil_cons E).
  - split; numeric.
  - split; numeric.
  - split; numeric.
  - exact (satisfied98 _ f a b _ _ _ Ef Ea Eb Bf Ba Bb eq_refl eq_refl eq_refl).
  - exists z, tr. unfold bleft, bright, bbottom, btop in M. cbn [fst snd] in M. replace (8 - 0) with 8 in M by lra. replace (4 - 0) with 4 in M by lra. split; [exact M|].
    split; [apply asked98; [vm_compute; reflexivity|inside]|].
    split; [apply asked1_98; [vm_compute; reflexivity|inside]|].
    split; [apply asked1_98; [vm_compute; reflexivity|inside]|].
    split.
    + split; [|split].
      * intros i j _ Hj. apply asked98; [vm_compute; reflexivity|]. destruct j as [|[|j]]; [| |lia]; inside.
      * right. split; [|split; [|split; [|split]]].
        -- apply asked98; [vm_compute; reflexivity|]. change (GridEndSpec.cells 1 2 (fun i j => frame (key92 i j))) with ["A/Frame"%string; "B/Frame"%string]. inside.
        -- intros [|j] k Hj E; [|lia]. injection E as <-. apply asked1_98; [vm_compute; reflexivity|]. inside.
        -- intros [|j] k Hj E; [|lia]. injection E as <-. apply asked1_98; [vm_compute; reflexivity|]. inside.
        -- intros i k Hi. lia.
        -- intros i k Hi. lia.
      * intros sd Hs. cbn [In] in Hs. destruct Hs as [<-|[<-|[<-|[<-|[]]]]]; exists (PFlt 1), 0%nat; [exists 0%nat|exists 1%nat|exists 0%nat|exists 1%nat]; (split; [apply number_flt|]);
          (split; [split; [lia|split; [lia|cbn [String.eqb Ascii.eqb Bool.eqb]; lia]]|]); apply asked98; try (vm_compute; reflexivity); inside.
    + unfold implied_height, unit_x, sum_of, request92. cbn [around ratios_x ratios_y gaps_x gaps_y m_left m_right m_top m_bottom fold_right]. field.
Qed.

Example C98_colorbar_case : exists z tr, met acts98b l98b (at98 (0, 0, 5, 7/2) (3/4, 3/4, 39/8, 45/16) (3/4, 23/8, 39/8, 3)) z 5 (7/2) tr /\
  asked_bar acts98b "Figure" "A" "B" {| bar_w := 5; bar_k := 2; bar_th := 1/8; bar_gap := 1/16; bar_around := {| m_left := 3/4; m_right := 1/8; m_bottom := 3/4; m_top := 1/2 |} |}.
Proof.
  destruct (boxes98 (0, 0, 5, 7/2) (3/4, 3/4, 39/8, 45/16) (3/4, 23/8, 39/8, 3)) as (f & a & b & Ef & Bf & Ea & Ba & Eb & Bb).
  destruct (met98 acts98b l98b (0, 0, 5, 7/2) (3/4, 3/4, 39/8, 45/16) (3/4, 23/8, 39/8, 3)) as (z & tr & M).
  - apply all_ok_runs. vm_compute. reflexivity.
  - vm_compute. reflexivity.
  - exact shipped98b.
  - unfold acts98b, prims98. cbn [List.app]. keys_each.
  - unfold acts98b, prims98. cbn [List.app]. keys_each.
  - unfold acts98b. intros x Hx. apply in_or_app. now left.
  - unfold acts98b, prims98. cbn [List.app LayoutSpec.added]. intros E. symmetry in E. exact (nil_cons E).
  - split; numeric.
  - split; numeric.
  - split; numeric.
  - exact (satisfied98b _ f a b _ _ _ Ef Ea Eb Bf Ba Bb eq_refl eq_refl eq_refl).
  - exists z, tr. unfold bleft, bright, bbottom, btop in M. cbn [fst snd] in M. replace (5 - 0) with 5 in M by lra. replace (7/2 - 0) with (7/2) in M by lra. split; [exact M|].
    unfold asked_bar. cbn [bar_w bar_k bar_th bar_gap bar_around m_left m_right m_bottom m_top].
    split; [apply asked98; [vm_compute; reflexivity|inside]|]. split; [apply asked98; [vm_compute; reflexivity|inside]|]. split; [apply asked98; [vm_compute; reflexivity|inside]|].
    split; [apply asked1_98; [vm_compute; reflexivity|inside]|]. split; [apply asked1_98; [vm_compute; reflexivity|inside]|]. split; [apply asked1_98; [vm_compute; reflexivity|inside]|].
    split; [apply asked98; [reflexivity|inside]|]. split; [apply asked98; [reflexivity|inside]|].
    split; [apply asked1_98; [vm_compute; reflexivity|inside]|]. split; [apply asked1_98; [vm_compute; reflexivity|inside]|]. split; [apply asked1_98; [vm_compute; reflexivity|inside]|].
    split; [apply asked1_98; [vm_compute; reflexivity|inside]|apply asked1_98; [vm_compute; reflexivity|inside]].
Qed.
Example C98_two_axes_case : exists z tr, met acts98p l98p (at98 (0, 0, 6, 3) (1/2, 1/2, 5/2, 2) (3, 1/2, 11/2, 2)) z 6 3 tr /\
  asked_pair acts98p "Figure" "A" "B" {| pair_w := 6; pair_h := 3; pair_left := 2; pair_gap := 1/2; pair_around := {| m_left := 1/2; m_right := 1/2; m_bottom := 1/2; m_top := 1 |} |}.
Proof.
  destruct (boxes98 (0, 0, 6, 3) (1/2, 1/2, 5/2, 2) (3, 1/2, 11/2, 2)) as (f & a & b & Ef & Bf & Ea & Ba & Eb & Bb).
  destruct (met98 acts98p l98p (0, 0, 6, 3) (1/2, 1/2, 5/2, 2) (3, 1/2, 11/2, 2)) as (z & tr & M).
  - apply all_ok_runs. vm_compute. reflexivity.
  - vm_compute. reflexivity.
  - exact shipped98p.
  - unfold acts98p, prims98. cbn [List.app]. keys_each.
  - unfold acts98p, prims98. cbn [List.app]. keys_each.
  - unfold acts98p. intros x Hx. apply in_or_app. now left.
  - unfold acts98p, prims98. cbn [List.app LayoutSpec.added]. intros E. symmetry in E. exact (nil_cons E).
  - split; numeric.
  - split; numeric.
  - split; numeric.
  - exact (satisfied98p _ f a b _ _ _ Ef Ea Eb Bf Ba Bb eq_refl eq_refl eq_refl).
  - exists z, tr. unfold bleft, bright, bbottom, btop in M. cbn [fst snd] in M. replace (6 - 0) with 6 in M by lra. replace (3 - 0) with 3 in M by lra. split; [exact M|].
    unfold asked_pair. cbn [pair_w pair_h pair_left pair_gap pair_around m_left m_right m_bottom m_top].
    split; [apply asked98; [vm_compute; reflexivity|inside]|]. split; [apply asked98; [vm_compute; reflexivity|inside]|]. split; [apply asked98; [vm_compute; reflexivity|inside]|].
    do 7 (split; [apply asked1_98; [vm_compute; reflexivity|inside]|]).
    split; [apply asked98; [vm_compute; reflexivity|inside]|]. apply asked1_98; [vm_compute; reflexivity|inside].
Qed.

Print Assumptions C98_grid_height.
Print Assumptions C98_grid_width.
Print Assumptions C98_colorbar.
Print Assumptions C98_two_axes.
