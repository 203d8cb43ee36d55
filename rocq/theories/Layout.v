(** Model of [src/mpllayout/layout.py]. *)
From Verif Require Export Constr.

Section Layout.
  Context {F : Type} {N : Num F}.
  Notation prim := (prim F).
  Notation pyval := (pyval F).
  Notation cons := (cons F).
  Notation pnode := (pnode F).

  (** [class Layout], layout.py:22-105: the four trees and the counter. *)
  Record layout := {
    l_prim : prim;
    l_cons : cons;
    l_keys : knode;
    l_params : pnode;
    l_counter : counter
  }.

  (** [cr.ConstraintNode.from_tree(None, {})], layout.py:76: the root constraint has
      value [None]; it is a container only, its value is never read (a use would
      raise). *)
  Definition root_cls : cls F :=
    {| cname := "ConstructionNode"; cisa := []; cassem := fun _ _ => Err NotImplemented |}.
  Definition root_cval : cval F :=
    {| cpk := []; cparams := fun _ => Err AttrErr;
       csig := {| prim_types := []; nparams := 0; value_size := 0 |} |}.

  (** [Layout()], layout.py:64-89.  [rid] is the identity of the root primitive's
      (empty) array; the values [None] of the other roots are represented by [[]]
      (they are never read either). *)
  Definition empty_layout (rid : nat) : layout :=
    {| l_prim := Node TPrimNode {| vid := rid; vdata := [] |} [];
       l_cons := Node root_cls root_cval [];
       l_keys := Node KPrimKeys [] [];
       l_params := Node KParams [] [];
       l_counter := [] |}.

  (** [Layout.flat_constraints], layout.py:107-135 *)
  Definition flat_constraints (l : layout)
    : list (cls F) * list (list string) * list (list pyval) :=
    (skipn 1 (map (fun x => ntype (snd x)) (iter_flat EmptyString (l_cons l))),
     skipn 1 (map (fun x => nval (snd x)) (iter_flat EmptyString (l_keys l))),
     skipn 1 (map (fun x => nval (snd x)) (iter_flat EmptyString (l_params l)))).

  (** [Layout.add_prim], layout.py:137-150 *)
  Definition add_prim (l : layout) (p : prim) (key : string) : layout * result unit :=
    let (r, res) := add_child (l_prim l) key p in
    ({| l_prim := r; l_cons := l_cons l; l_keys := l_keys l; l_params := l_params l;
        l_counter := l_counter l |}, res).

  (** [Layout.add_prims], layout.py:152-162: stops at the first exception. *)
  Fixpoint add_prims (l : layout) (prims : dict prim) : layout * result unit :=
    match prims with
    | [] => (l, Ok tt)
    | (key, p) :: r =>
        match add_prim l p key with
        | (l', Ok _) => add_prims l' r
        | (l', Err e) => (l', Err e)
        end
    end.

  (** [ItemCounter.add_item_to_nodes] on the three constraint trees,
      containers.py:341-365, layout.py:190-194.  The while loop is run with fuel
      one more than the number of keys present, which always suffices
      (see [P_Counter]). *)
  Definition counter_fuel (l : layout) : nat :=
    S (nlen (l_cons l) + nlen (l_keys l) + nlen (l_params l)).
  Definition gen_key (l : layout) (c : cons) : counter * result string :=
    match add_item_until_valid (counter_fuel l) (l_counter l) (cname (ntype c))
            (notin_all [contains (l_cons l); contains (l_keys l); contains (l_params l)]) with
    | Some r => r
    | None => (l_counter l, Err OutOfFuel)
    end.

  Definition set_counter (l : layout) (c : counter) : layout :=
    {| l_prim := l_prim l; l_cons := l_cons l; l_keys := l_keys l;
       l_params := l_params l; l_counter := c |}.
  Definition set_cons (l : layout) (c : cons) : layout :=
    {| l_prim := l_prim l; l_cons := c; l_keys := l_keys l;
       l_params := l_params l; l_counter := l_counter l |}.
  Definition set_keys (l : layout) (k : knode) : layout :=
    {| l_prim := l_prim l; l_cons := l_cons l; l_keys := k;
       l_params := l_params l; l_counter := l_counter l |}.
  Definition set_params (l : layout) (p : pnode) : layout :=
    {| l_prim := l_prim l; l_cons := l_cons l; l_keys := l_keys l;
       l_params := p; l_counter := l_counter l |}.

  Definition type_to_runtime {A} (r : result A) : result A :=
    match r with Err TypeErr => Err RuntimeErr | _ => r end.

  (** The two try blocks, layout.py:196-206. *)
  Definition validate_inputs (l : layout) (c : cons) (prim_keys : list string)
             (params : list pyval) : result unit :=
    _ <- type_to_runtime (prims <- mapM (get_child (l_prim l)) prim_keys ;;
                          cvalidate_prims c prims) ;;
    type_to_runtime (cvalidate_params c params).

  (** The three insertions, layout.py:208-210, with the state after a partial
      failure. *)
  Definition insert_constraint (l : layout) (c : cons) (prim_keys : list string)
             (params : list pyval) (key : string) : layout * result unit :=
    match add_child (l_cons l) key c with
    | (t, Err e) => (set_cons l t, Err e)
    | (t, Ok _) =>
        let l := set_cons l t in
        match root_prim_keys c prim_keys with
        | Err e => (l, Err e)
        | Ok pk =>
            match add_child (l_keys l) key pk with
            | (k, Err e) => (set_keys l k, Err e)
            | (k, Ok _) =>
                let l := set_keys l k in
                match root_params c params with
                | Err e => (l, Err e)
                | Ok pp =>
                    match add_child (l_params l) key pp with
                    | (p, r) => (set_params l p, r)
                    end
                end
            end
        end
    end.

  (** [Layout.add_constraint], layout.py:164-210 *)
  Definition add_constraint (l : layout) (c : cons) (prim_keys : list string)
             (params : list pyval) (key : string) : layout * result unit :=
    let '(l, rkey) :=
      if String.eqb key EmptyString
      then let (cnt, r) := gen_key l c in (set_counter l cnt, r)
      else (l, Ok key) in
    match rkey with
    | Err e => (l, Err e)
    | Ok key =>
        match validate_inputs l c prim_keys params with
        | Err e => (l, Err e)
        | Ok _ => insert_constraint l c prim_keys params key
        end
    end.

  (** [update_root_param], layout.py:270-295 *)
  Definition update_root_param (root_constraint : cons) (root_param : pnode)
             (new : dict (list pyval)) : result pnode :=
    r <- node_copy KNode root_param ;;
    fold_left (fun (acc : result pnode) (kp : string * list pyval) =>
                 acc <- acc ;;
                 c <- get_child root_constraint (fst kp) ;;
                 pp <- root_params c (snd kp) ;;
                 match setitem acc (fst kp) pp with
                 | (t, Ok _) => Ok t
                 | (_, Err e) => Err e
                 end) new (Ok r).

  (** A matplotlib Axes: its x and y axis. *)
  Definition mpl_axes : Type := mpl_axis F * mpl_axis F.

  (** [key[1:]] *)
  Definition drop1 (s : string) : string :=
    match s with EmptyString => EmptyString | String _ r => r end.

  (** One iteration of the loop at layout.py:239-255. *)
  Definition thickness_entry (l : layout) (axs : dict mpl_axes) (d : dict (list pyval))
             (kc : string * cons) : result (dict (list pyval)) :=
    let key := drop1 (fst kc) in
    if String.eqb key EmptyString then Ok d
    else
      pk <- get_child (l_keys l) key ;;
      _ <- get_child (l_params l) key ;;
      let axes_of :=
        match nval pk with
        | [axis_key] =>
            let axes_key := fst (split1 axis_key) in
            match dget axes_key axs with
            | Some a => Ok a
            | None => Err (KeyError axes_key)
            end
        | _ => Err ValueErr
        end in
      d <- (if is_kind KXAxisThickness (snd kc)
            then a <- axes_of ;; Ok (dset key [PAxis (fst a)] d) else Ok d) ;;
      (if is_kind KYAxisThickness (snd kc)
       then a <- axes_of ;; Ok (dset key [PAxis (snd a)] d) else Ok d).

  (** [update_layout_constraints], layout.py:212-268.  The result has a fresh
      constraint counter. *)
  Definition update_layout_constraints (l : layout) (axs : dict mpl_axes) : result layout :=
    d <- fold_left (fun acc kc => d <- acc ;; thickness_entry l axs d kc)
                   (iter_flat EmptyString (l_cons l)) (Ok []) ;;
    p <- update_root_param (l_cons l) (l_params l) d ;;
    Ok {| l_prim := l_prim l; l_cons := l_cons l; l_keys := l_keys l;
          l_params := p; l_counter := [] |}.
End Layout.
Arguments layout F : clear implicits.
Arguments mpl_axes F : clear implicits.
