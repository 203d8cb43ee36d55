(** Model of [src/mpllayout/primitives.py]. *)
From Verif Require Export Num Node.

(** The classes a primitive-tree node can have: [containers.Node] and the classes
    of primitives.py.  User-defined subclasses are not modelled; the abstract
    [Primitive] / [StaticPrimitive] cannot be instantiated (their
    [init_children] raises, primitives.py:215,258). *)
Inductive ptype := TNode | TPrimNode | TPoint | TLine | TPolygon | TQuad | TAxes.

Definition ptype_eqb (a b : ptype) : bool :=
  match a, b with
  | TNode, TNode | TPrimNode, TPrimNode | TPoint, TPoint | TLine, TLine
  | TPolygon, TPolygon | TQuad, TQuad | TAxes, TAxes => true
  | _, _ => false
  end.

(** [issubclass(a, b)] (class statements at primitives.py:79,148,232,276,303,330,
    387,436). *)
Definition issubclass (a b : ptype) : bool :=
  match b with
  | TNode => true
  | TPrimNode => match a with TNode => false | _ => true end
  | TPolygon => match a with TPolygon | TQuad => true | _ => false end
  | _ => ptype_eqb a b
  end.

(** A parameter vector (np.ndarray object): its identity [id(value)] and data. *)
Record pv (F : Type) := { vid : nat; vdata : list F }.
Arguments vid {F}. Arguments vdata {F}.

Notation prim F := (node ptype (pv F)).

(** Declared child types, primitives.py:21-23: a tuple of classes ([None] stands
    for [PrimitiveNode], lines 107-109) that may end in [...]. *)
Inductive sigtypes := Exact (l : list (option ptype)) | Repeating (l : list (option ptype)).

Section Prim.
  Context {F : Type} {N : Num F}.
  Notation prim := (prim F).

  (** [validate_prims], primitives.py:25-71 *)
  Definition validate_prims (prims : list prim) (types : sigtypes) : result unit :=
    types1 <- match types with
              | Exact l => Ok l
              | Repeating [] => Err NonFinite (* len // 0: ZeroDivisionError *)
              | Repeating l => Ok (List.concat (List.repeat l (length prims / length l)))
              end ;;
    let types2 := map (fun t => match t with None => TPrimNode | Some t => t end) types1 in
    if negb (Nat.eqb (length prims) (length types2)) then Err ValueErr
    else if forallb (fun pt => issubclass (ntype (fst pt)) (snd pt)) (zip prims types2)
         then Ok tt
         else Err ValueErr.

  (** Class attribute [signature]: parameter size and alternatives for the child
      types (primitives.py:109,288,315,352,407,469-479).  A tuple signature is a
      single alternative. *)
  Definition axis_prims (n : nat) : list (option ptype) :=
    List.concat (List.repeat [Some TQuad; Some TPoint] n).
  Definition signature_of (t : ptype) : nat * list sigtypes :=
    match t with
    | TNode => (0, [Repeating [None]]) (* not a PrimitiveNode; never validated *)
    | TPrimNode => (0, [Repeating [None]])
    | TPoint => (2, [Exact []])
    | TLine => (0, [Exact [Some TPoint; Some TPoint]])
    | TPolygon => (0, [Repeating [Some TLine]])
    | TQuad => (0, [Exact [Some TLine; Some TLine; Some TLine; Some TLine]])
    | TAxes => (0, map (fun n => Exact (Some TQuad :: axis_prims n)) [0; 1; 2; 3; 4])
    end.

  (** [PrimitiveNode.__init__], primitives.py:111-145 *)
  Definition mk_primnode (t : ptype) (value : pv F) (children : dict prim) : result prim :=
    if negb (forallb (fun kc => issubclass (ntype (snd kc)) TPrimNode) children)
    then Err AssertErr
    else
      let (param_size, alts) := signature_of t in
      if negb (Nat.eqb (length (vdata value)) param_size) then Err AssertErr
      else
        let prims := dvals children in
        if existsb (fun a => is_ok (validate_prims prims a)) alts
        then Ok (Node t value children)
        else Err ValueErr.

  (** The [value] argument of [Primitive.__init__], primitives.py:178-185: [None],
      a list/tuple (copied to a fresh array) or an existing array (kept, so its
      identity is kept). *)
  Inductive valarg := VNone | VSeq (l : list F) | VArr (a : pv F).

  (** [Primitive.__init__], primitives.py:172-194, after [init_children]: [nxt] is
      the next unused array identity. *)
  Definition take_value (nxt : nat) (v : valarg) (default : list F) : pv F * nat :=
    match v with
    | VNone => ({| vid := nxt; vdata := default |}, S nxt)
    | VSeq l => ({| vid := nxt; vdata := l |}, S nxt)
    | VArr a => (a, nxt)
    end.
  Definition finish_prim (t : ptype) (value : pv F) (keys : list string)
             (prims : list prim) : result prim :=
    mk_primnode t value (dict_of (zip keys prims)).

  (** [class Point], primitives.py:276-300.  Argument prims are ignored
      ([init_children] returns no children, line 292). *)
  Definition mk_point (nxt : nat) (v : valarg) : result (prim * nat) :=
    let (value, nxt) := take_value nxt v [n0; n0] in
    p <- finish_prim TPoint value [] [] ;; Ok (p, nxt).

  (** [class Line], primitives.py:303-327 *)
  Definition mk_line (nxt : nat) (v : valarg) (prims : option (list prim))
    : result (prim * nat) :=
    let (value, nxt) := take_value nxt v [] in
    '(ps, nxt) <- match prims with
                  | Some ps => Ok (ps, nxt)
                  | None =>
                      '(p0, nxt) <- mk_point nxt (VSeq [n0; n0]) ;;
                      '(p1, nxt) <- mk_point nxt (VSeq [n0; n1]) ;;
                      Ok ([p0; p1], nxt)
                  end ;;
    p <- finish_prim TLine value ["Point0"; "Point1"] ps ;; Ok (p, nxt).

  (** A list of primitives built one after the other. *)
  Fixpoint mapM_alloc {A} (f : nat -> A -> result (prim * nat)) (nxt : nat) (l : list A)
    : result (list prim * nat) :=
    match l with
    | [] => Ok ([], nxt)
    | x :: r =>
        '(p, nxt) <- f nxt x ;;
        '(ps, nxt) <- mapM_alloc f nxt r ;;
        Ok (p :: ps, nxt)
    end.

  (** [Polygon.init_children], primitives.py:362-372: fresh lines through
      consecutive points, cyclically. *)
  Definition polygon_children (nxt : nat) (points : list prim)
    : result (list string * list prim * nat) :=
    '(lines, nxt) <- mapM_alloc
         (fun nxt ab => mk_line (S nxt) (VArr {| vid := nxt; vdata := [] |})
                                (Some [fst ab; snd ab]))
         nxt (zip points (skipn 1 points ++ firstn 1 points)) ;;
    Ok (map (fun n => ("Line" ++ dec n)%string) (seq 0 (length lines)), lines, nxt).

  (** [Polygon.default_prims], primitives.py:378-384 ([2*np.pi/size] raises
      ZeroDivisionError for size 0). *)
  Definition polygon_default (nxt : nat) (size : nat) : result (list prim * nat) :=
    if Nat.eqb size 0 then Err NonFinite
    else mapM_alloc (fun nxt i => '(x, y) <- ncircle size i ;; mk_point nxt (VSeq [x; y]))
               nxt (seq 0 size).

  (** [class Polygon], primitives.py:330-384.  [size] only affects the default
      points. *)
  Definition mk_polygon (nxt : nat) (v : valarg) (points : option (list prim)) (size : nat)
    : result (prim * nat) :=
    let (value, nxt) := take_value nxt v [] in
    '(ps, nxt) <- match points with
                  | Some ps => Ok (ps, nxt)
                  | None => polygon_default nxt size
                  end ;;
    '(keys, lines, nxt) <- polygon_children nxt ps ;;
    p <- finish_prim TPolygon value keys lines ;; Ok (p, nxt).

  (** [class Quadrilateral], primitives.py:387-425; the default points are the
      unit square. *)
  Definition mk_quad (nxt : nat) (v : valarg) (points : option (list prim))
    : result (prim * nat) :=
    let (value, nxt) := take_value nxt v [] in
    '(ps, nxt) <- match points with
                  | Some ps => Ok (ps, nxt)
                  | None =>
                      mapM_alloc (fun nxt xy => mk_point nxt (VSeq [fst xy; snd xy])) nxt
                                 [(n0, n0); (n1, n0); (n1, n1); (n0, n1)]
                  end ;;
    '(keys, lines, nxt) <- polygon_children nxt ps ;;
    p <- finish_prim TQuad value keys lines ;; Ok (p, nxt).

  (** [Axes.init_children], primitives.py:492-521 *)
  Definition axes_keys (xaxis yaxis twinx twiny : bool) : list string :=
    let xaxis_keys := if xaxis then ["XAxis"; "XAxisLabel"] else [] in
    let twin_xaxis_keys :=
      if xaxis then if twinx then ["TwinXAxis"; "TwinXAxisLabel"] else [] else [] in
    let yaxis_keys := if yaxis then ["YAxis"; "YAxisLabel"] else [] in
    let twin_yaxis_keys :=
      if yaxis then if twiny then ["TwinYAxis"; "TwinYAxisLabel"] else [] else [] in
    ["Frame"] ++ (xaxis_keys ++ yaxis_keys) ++ (twin_xaxis_keys ++ twin_yaxis_keys).

  Definition mk_quad_point (nxt : nat) (b : bool) : result (list prim * nat) :=
    if b then
      '(q, nxt) <- mk_quad nxt VNone None ;;
      '(p, nxt) <- mk_point nxt VNone ;;
      Ok ([q; p], nxt)
    else Ok ([], nxt).

  (** [Axes.default_prims], primitives.py:533-559 (the order of allocation of the
      fresh arrays is x, twin x, y, twin y, frame). *)
  Definition axes_default (nxt : nat) (xaxis yaxis twinx twiny : bool)
    : result (list prim * nat) :=
    '(xs, nxt) <- mk_quad_point nxt xaxis ;;
    '(txs, nxt) <- mk_quad_point nxt (xaxis && twinx) ;;
    '(ys, nxt) <- mk_quad_point nxt yaxis ;;
    '(tys, nxt) <- mk_quad_point nxt (yaxis && twiny) ;;
    '(frame, nxt) <- mk_quad nxt VNone None ;;
    Ok ([frame] ++ (xs ++ ys) ++ (txs ++ tys), nxt).

  (** [class Axes], primitives.py:436-559 *)
  Definition mk_axes (nxt : nat) (v : valarg) (prims : option (list prim))
             (xaxis yaxis twinx twiny : bool) : result (prim * nat) :=
    let (value, nxt) := take_value nxt v [] in
    '(ps, nxt) <- match prims with
                  | Some ps => Ok (ps, nxt)
                  | None => axes_default nxt xaxis yaxis twinx twiny
                  end ;;
    p <- finish_prim TAxes value (axes_keys xaxis yaxis twinx twiny) ps ;; Ok (p, nxt).

  (** ** Unique values *)

  Definition id_index := list (nat * nat).
  Fixpoint idget (i : nat) (d : id_index) : option nat :=
    match d with
    | [] => None
    | (j, x) :: r => if Nat.eqb i j then Some x else idget i r
    end.

  Record filter_state := { fs_ids : id_index; fs_values : list (pv F); fs_map : dict nat }.

  (** One iteration of the loop at primitives.py:606-616. *)
  Definition filter_step (s : filter_state) (kn : string * prim) : filter_state :=
    let v := nval (snd kn) in
    match idget (vid v) (fs_ids s) with
    | None =>
        let values := fs_values s ++ [v] in
        let idx := length values - 1 in
        {| fs_ids := (vid v, idx) :: fs_ids s; fs_values := values;
           fs_map := dset (fst kn) idx (fs_map s) |}
    | Some idx =>
        {| fs_ids := fs_ids s; fs_values := fs_values s;
           fs_map := dset (fst kn) idx (fs_map s) |}
    end.

  (** [filter_unique_values_from_prim], primitives.py:583-618 *)
  Definition filter_unique (root : prim) : dict nat * list (pv F) :=
    let s := fold_left filter_step (iter_flat EmptyString root)
               {| fs_ids := []; fs_values := []; fs_map := [] |} in
    (fs_map s, fs_values s).

  (** [build_prim_from_unique_values], primitives.py:620-648 *)
  Definition build_prim (flat : list (flat_struct ptype (pv F))) (prim_to_idx : dict nat)
             (values : list (pv F)) : result prim :=
    structs <- mapM (fun s : flat_struct ptype (pv F) =>
                 let '(key, t, _, child_keys) := s in
                 match dget key prim_to_idx with
                 | None => Err (KeyError key)
                 | Some i =>
                     match nth_error values i with
                     | None => Err IndexErr
                     | Some v => Ok (key, t, v, child_keys)
                     end
                 end) flat ;;
    r <- unflatten structs ;;
    Ok (fst r).
End Prim.
Arguments valarg F : clear implicits.
