(** Model of the drawing logic of [src/mpllayout/ui.py].  The observable effect is
    the list of drawn items. *)
From Verif Require Export Geom.

Section Ui.
  Context {F : Type} {N : Num F}.
  Notation prim := (prim F).

  (** What one [plot_...] function draws (ui.py:22-118); [alpha] is the opacity of
      the item, [label] its text; a polygon's label is put at [origin]. *)
  Inductive drawn :=
  | DPoint (label : option string) (alpha : F) (x y : F)
  | DLine (label : option string) (alpha : F) (xs ys : list F) (xmid ymid theta : F)
  | DPolygon (label : option string) (alpha patch_alpha : F) (origin : list F) (verts : list (list F)).

  (** [rotation_from_line], ui.py:41-53 *)
  Definition rotation_from_line (line : prim) : result F :=
    v <- line_vector line ;; n <- norm v ;; u <- mapM (fun x => ndiv x n) v ;;
    match u with
    | [x; y] =>
        theta <- nacos_deg x ;;
        Ok (if nltb y n0 then nadd theta (nofZ 180) else theta)
    | _ => Err IndexErr
    end.

  (** [plot_point], ui.py:22-39 *)
  Definition plot_point (p : prim) (label : option string) (alpha : F) : result (list drawn) :=
    match vdata (nval p) with
    | [x; y] => Ok [DPoint label alpha x y]
    | _ => Err ValueErr
    end.

  (** [plot_line], ui.py:55-79: zero-length lines are not drawn. *)
  Definition plot_line (line : prim) (label : option string) (alpha : F) : result (list drawn) :=
    len <- line_length line ;;
    if neqb len n0 then Ok []
    else
      pts <- mapM (fun p : prim => match vdata (nval p) with
                                   | x :: y :: _ => Ok (x, y)
                                   | _ => Err IndexErr
                                   end) (nvalues line) ;;
      h <- nhalf ;;
      theta <- rotation_from_line line ;;
      let xs := map fst pts in let ys := map snd pts in
      Ok [DLine label alpha xs ys (nmul h (nsum xs)) (nmul h (nsum ys)) theta].

  (** [plot_polygon], ui.py:81-118 *)
  Definition plot_polygon (poly : prim) (label : option string) (alpha : F)
    : result (list drawn) :=
    l0 <- get_child poly "Line0" ;;
    o <- get_child l0 "Point0" ;;
    pts <- mapM (fun i => l <- get_child poly ("Line" ++ dec i)%string ;;
                          p <- get_child l "Point0" ;; Ok (vdata (nval p)))
                (seq 0 (nlen poly)) ;;
    tenth <- ndiv n1 (nofZ 10) ;;
    Ok [DPolygon label alpha (nmul tenth alpha) (vdata (nval o)) pts].

  (** [make_plot], ui.py:190-216 *)
  Definition plot_one (p : prim) (label : option string) (alpha : F) : result (list drawn) :=
    if issubclass (ntype p) TPoint then plot_point p label alpha
    else if issubclass (ntype p) TLine then plot_line p label alpha
    else if issubclass (ntype p) TPolygon then plot_polygon p label alpha
    else Ok [].

  Fixpoint dots (n : nat) : string :=
    match n with O => EmptyString | S m => String "."%char (dots m) end.

  (** The opacity computed by [plot_prim], ui.py:144-167, for a primitive at depth
      [depth] with [node_height] [height]. *)
  Definition opacity (height depth : nat) : result F :=
    let prim_height := height + depth in
    s <- (if Nat.eqb prim_height 0 then Ok n1
          else ndiv (nofZ (Z.of_nat (prim_height - depth))) (nofZ (Z.of_nat prim_height))) ;;
    fifth <- ndiv n1 (nofZ 5) ;;
    Ok (nadd s (nmul fifth (nsub n1 s))).

  (** [plot_prim], ui.py:123-186 *)
  Fixpoint plot_prim (p : prim) (prim_key : string) (max_label_depth : nat)
    : result (list drawn) :=
    match p with
    | Node t v ch =>
        let split_key := split_all prim_key in
        let depth := length split_key - 1 in
        let label :=
          if Nat.ltb max_label_depth depth || String.eqb prim_key EmptyString then None
          else Some (dots depth ++ String slash (last split_key EmptyString))%string in
        alpha <- opacity (node_height p) depth ;;
        here <- plot_one p label alpha ;;
        if issubclass t TLine then Ok here
        else
          rest <- (fix go (ch : dict prim) : result (list drawn) :=
                     match ch with
                     | [] => Ok []
                     | (k, c) :: r =>
                         a <- plot_prim c (prim_key ++ String slash k)%string max_label_depth ;;
                         b <- go r ;;
                         Ok (a ++ b)
                     end) ch ;;
          Ok (here ++ rest)
    end.

  (** [plot_prims], ui.py:219-233; colours are not modelled. *)
  Definition plot_prims (root : prim) : result (list drawn) :=
    rmap (@List.concat _) (mapM (fun kp => plot_prim (snd kp) (fst kp) 99) (nch root)).
End Ui.
