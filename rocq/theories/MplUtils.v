(** Model of [src/mpllayout/matplotlibutils.py].  The observable effect is the
    sequence of matplotlib setter calls. *)
From Verif Require Export Layout.

Section Mpl.
  Context {F : Type} {N : Num F}.
  Notation prim := (prim F).

  Inductive mplcall :=
  | NewFigure
  | AddAxes (key : string)
  | SetSizeInches (w h : F)
  | SetPosition (key : string) (left bottom width height : F)
  | SetLabelCoords (key axis : string) (x y : F)
  | SetTicksPosition (key axis position : string).

  (** A computation that issues setter calls and may raise. *)
  Definition M (A : Type) : Type := list mplcall * result A.
  Definition mret {A} (a : A) : M A := ([], Ok a).
  Definition mlift {A} (r : result A) : M A := ([], r).
  Definition mcall (c : mplcall) : M unit := ([c], Ok tt).
  Definition mbind {A B} (m : M A) (f : A -> M B) : M B :=
    match m with
    | (t, Ok a) => let (t', r) := f a in (t ++ t', r)
    | (t, Err e) => (t, Err e)
    end.
  Fixpoint mseq {A} (f : A -> M unit) (l : list A) : M unit :=
    match l with
    | [] => mret tt
    | x :: r => mbind (f x) (fun _ => mseq f r)
    end.

  (** [xmin, ymin = v] of a 2-vector. *)
  Definition unpack2 (v : list F) : result (F * F) :=
    match v with [x; y] => Ok (x, y) | _ => Err ValueErr end.

  (** [width_and_height_from_quad], matplotlibutils.py:167-187 *)
  Definition width_and_height_from_quad (quad : prim) : result (F * F) :=
    bl <- get_child quad "Line0/Point0" ;;
    '(xmin, ymin) <- unpack2 (vdata (nval bl)) ;;
    tr <- get_child quad "Line1/Point1" ;;
    '(xmax, ymax) <- unpack2 (vdata (nval tr)) ;;
    Ok (nsub xmax xmin, nsub ymax ymin).

  (** [rect_from_box], matplotlibutils.py:190-226 *)
  Definition rect_from_box (quad : prim) (fig_origin fig_size : list F)
    : result (F * F * F * F) :=
    let rel p :=
      d <- vsub (vdata (nval p)) fig_origin ;; q <- bcast2 ndiv d fig_size ;; unpack2 q in
    bl <- get_child quad "Line0/Point0" ;;
    '(xmin, ymin) <- rel bl ;;
    tr <- get_child quad "Line1/Point1" ;;
    '(xmax, ymax) <- rel tr ;;
    Ok (xmin, ymin, nsub xmax xmin, nsub ymax ymin).

  (** [np.argmin]: the first index of a smallest element. *)
  Fixpoint argmin_from (i best : nat) (bestv : F) (l : list F) : nat :=
    match l with
    | [] => best
    | x :: r => if nltb x bestv then argmin_from (S i) i x r else argmin_from (S i) best bestv r
    end.
  Definition argmin (l : list F) : nat :=
    match l with [] => 0 | x :: r => argmin_from 1 0 x r end.

  (** [find_axis_position], matplotlibutils.py:131-164.  The parameter passed is a
      (non-empty) dict, line 150; the warning at line 161 is not modelled. *)
  Definition find_axis_position (axes_frame axis : prim) : result string :=
    let res fl al :=
      f <- get_child axes_frame fl ;; a <- get_child axis al ;;
      call CoincidentLines [f; a] [PDict true] in
    bottom_res <- res "Line0" "Line2" ;;
    top_res <- res "Line2" "Line0" ;;
    left_res <- res "Line3" "Line1" ;;
    right_res <- res "Line1" "Line3" ;;
    residuals <- mapM norm [bottom_res; top_res; left_res; right_res] ;;
    match nth_error ["bottom"; "top"; "left"; "right"] (argmin residuals) with
    | Some p => Ok p
    | None => Err IndexErr
    end.

  (** Body of the inner loop, matplotlibutils.py:112-127 *)
  Definition update_axis (root : prim) (key : string) (quad : prim) (fig_size : list F)
             (axis_prefix : string) : M unit :=
    let axis_label := (axis_prefix ++ "AxisLabel")%string in
    mbind (mlift (ax <- get_child root key ;; contains ax axis_label)) (fun has_label =>
    mbind (if has_label : bool then
             mbind (mlift (p <- get_child root (key ++ "/" ++ axis_label)%string ;;
                           q <- bcast2 ndiv (vdata (nval p)) fig_size ;; unpack2 q))
                   (fun xy => mcall (SetLabelCoords key axis_prefix (fst xy) (snd xy)))
           else mret tt) (fun _ =>
    let axis_bbox := (axis_prefix ++ "Axis")%string in
    mbind (mlift (ax <- get_child root key ;; contains ax axis_bbox)) (fun has_axis =>
    if has_axis : bool then
      mbind (mlift (q <- get_child root (key ++ "/" ++ axis_bbox)%string ;;
                    find_axis_position quad q))
            (fun pos => mcall (SetTicksPosition key axis_prefix pos))
    else mret tt))).

  (** [update_subplots], matplotlibutils.py:69-129; [axs] is represented by its
      keys, the axis objects of key [k] by [k] and the prefix. *)
  Definition update_subplots (root : prim) (fig_key : string) (axs : list string) : M unit :=
    mbind (mlift (quad <- get_child root fig_key ;;
                  o <- get_child quad "Line0/Point0" ;;
                  '(w, h) <- width_and_height_from_quad quad ;;
                  Ok (vdata (nval o), w, h))) (fun owh =>
    let '(fig_origin, w, h) := owh in
    mbind (mcall (SetSizeInches w h)) (fun _ =>
    mseq (fun key =>
      mbind (mlift (quad <- get_child root (key ++ "/Frame")%string ;;
                    r <- rect_from_box quad fig_origin [w; h] ;; Ok (quad, r))) (fun qr =>
      let '(quad, (xmin, ymin, width, height)) := qr in
      mbind (mcall (SetPosition key xmin ymin width height)) (fun _ =>
      mseq (update_axis root key quad [w; h]) ["X"; "Y"]))) axs)).

  (** [subplots], matplotlibutils.py:21-66 *)
  Definition subplots (root : prim) (fig_key : string) (axs_keys : option (list string)) : M unit :=
    mbind (mcall NewFigure) (fun _ =>
    let keys := match axs_keys with
                | Some ks => ks
                | None => filter (contains_sub "Axes") (nkeys root)
                end in
    mbind (mseq (fun k => mcall (AddAxes k)) keys) (fun _ =>
    let axs := dkeys (dict_of (map (fun k => (k, tt)) keys)) in
    update_subplots root fig_key axs)).
End Mpl.
Arguments mplcall F : clear implicits.
