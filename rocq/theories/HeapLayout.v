(** Model of [src/mpllayout/layout.py] with object identity: the trees of a layout are
    objects in four heaps (primitives, constraints, key nodes, parameter nodes), and
    several layouts may hold the same objects.  Layout.v is the same code on trees
    without sharing; P_HeapLayout.v relates the two. *)
From Verif Require Export Heap Layout.

Section Read.
  Context {T A : Type}.
  (** The tree seen by code that follows references recursively.  Following more
      references in a row than there are objects means going around a cycle; the code
      then raises RecursionError ([OutOfFuel]). *)
  Fixpoint read (fuel : nat) (h : heap T A) (r : nat) : result (node T A) :=
    match fuel with
    | O => Err OutOfFuel
    | S f =>
        o <- deref h r ;;
        ch <- mapM (fun kc => c <- read f h (snd kc) ;; Ok (fst kc, c)) (och o) ;;
        Ok (Node (otype o) (oval o) ch)
    end.
  Definition tree_at (h : heap T A) (r : nat) : result (node T A) := read (length h) h r.

  (** New objects for a tree built by the code, children before parents
      (constructions.py:316-364). *)
  Fixpoint plant (h : heap T A) (t : node T A) : heap T A * nat :=
    match t with
    | Node ty v ch =>
        let (h', cs) :=
          (fix go (h : heap T A) (ch : dict (node T A)) : heap T A * dict nat :=
             match ch with
             | [] => (h, [])
             | (k, c) :: r =>
                 let (h1, x) := plant h c in
                 let (h2, xs) := go h1 r in
                 (h2, (k, x) :: xs)
             end) h ch in
        alloc h' (Obj ty v cs)
    end.
End Read.

Section HeapLayout.
  Context {F : Type} {N : Num F}.
  Notation pyval := (pyval F).

  Record world := {
    w_prims : heap ptype (pv F);
    w_cons : heap (cls F) (cval F);
    w_keys : heap ktype (list string);
    w_params : heap ktype (list pyval)
  }.
  Definition set_w_prims (w : world) h := {| w_prims := h; w_cons := w_cons w; w_keys := w_keys w; w_params := w_params w |}.
  Definition set_w_cons (w : world) h := {| w_prims := w_prims w; w_cons := h; w_keys := w_keys w; w_params := w_params w |}.
  Definition set_w_keys (w : world) h := {| w_prims := w_prims w; w_cons := w_cons w; w_keys := h; w_params := w_params w |}.
  Definition set_w_params (w : world) h := {| w_prims := w_prims w; w_cons := w_cons w; w_keys := w_keys w; w_params := h |}.

  (** [class Layout], layout.py:22-105: references to the four roots, and the counter
      (simplification: every layout has its own counter, i.e. no counter is passed to
      two constructors). *)
  Record hlayout := {
    r_prim : nat; r_cons : nat; r_keys : nat; r_params : nat;
    r_counter : counter
  }.
  Definition set_r_counter (l : hlayout) (c : counter) : hlayout :=
    {| r_prim := r_prim l; r_cons := r_cons l; r_keys := r_keys l; r_params := r_params l; r_counter := c |}.

  (** [Layout()], layout.py:64-89: four new roots. *)
  Definition hempty_layout (rid : nat) (w : world) : world * hlayout :=
    let (hp, p) := alloc (w_prims w) (Obj TPrimNode {| vid := rid; vdata := [] |} []) in
    let (hc, c) := alloc (w_cons w) (Obj root_cls root_cval []) in
    let (hk, k) := alloc (w_keys w) (Obj KPrimKeys [] []) in
    let (hm, m) := alloc (w_params w) (Obj KParams [] []) in
    ({| w_prims := hp; w_cons := hc; w_keys := hk; w_params := hm |},
     {| r_prim := p; r_cons := c; r_keys := k; r_params := m; r_counter := [] |}).

  (** [Layout.add_prim], layout.py:137-150 *)
  Definition hadd_prim (w : world) (l : hlayout) (p : nat) (key : string) : world * result unit :=
    let (h, res) := hadd_child (w_prims w) (r_prim l) key p in (set_w_prims w h, res).

  (** [Layout.add_prims], layout.py:152-162 *)
  Fixpoint hadd_prims (w : world) (l : hlayout) (prims : dict nat) : world * result unit :=
    match prims with
    | [] => (w, Ok tt)
    | (key, p) :: r =>
        match hadd_prim w l p key with
        | (w', Ok _) => hadd_prims w' l r
        | (w', Err e) => (w', Err e)
        end
    end.

  (** [ItemCounter.add_item_to_nodes], containers.py:341-365, layout.py:190-194, with
      the fuel of [gen_key]. *)
  Definition children_at {T A} (h : heap T A) (r : nat) : nat :=
    match look h r with Some o => length (och o) | None => 0 end.
  Definition hgen_key (w : world) (l : hlayout) (category : string) : counter * result string :=
    match add_item_until_valid
            (S (children_at (w_cons w) (r_cons l) + children_at (w_keys w) (r_keys l)
                + children_at (w_params w) (r_params l)))
            (r_counter l) category
            (notin_all [hcontains (w_cons w) (r_cons l); hcontains (w_keys w) (r_keys l);
                        hcontains (w_params w) (r_params l)]) with
    | Some r => r
    | None => (r_counter l, Err OutOfFuel)
    end.

  (** What [isinstance] and attribute access see of one object: class and value. *)
  Definition glance {T A} (h : heap T A) (r : nat) : result (node T A) :=
    o <- deref h r ;; Ok (Node (otype o) (oval o) []).

  (** The two try blocks, layout.py:196-206. *)
  Definition hvalidate_inputs (w : world) (l : hlayout) (c : nat) (prim_keys : list string)
             (params : list pyval) : result unit :=
    ct <- glance (w_cons w) c ;;
    _ <- type_to_runtime
           (prims <- mapM (fun k => x <- hget_child (w_prims w) (r_prim l) k ;;
                                    glance (w_prims w) x) prim_keys ;;
            cvalidate_prims ct prims) ;;
    type_to_runtime (cvalidate_params ct params).

  (** The three insertions, layout.py:208-210: the constraint object itself becomes a
      child; key and parameter nodes are made for it. *)
  Definition hinsert_constraint (w : world) (l : hlayout) (c : nat) (prim_keys : list string)
             (params : list pyval) (key : string) : world * result unit :=
    match hadd_child (w_cons w) (r_cons l) key c with
    | (h, Err e) => (set_w_cons w h, Err e)
    | (h, Ok _) =>
        let w := set_w_cons w h in
        match (ct <- tree_at h c ;; root_prim_keys ct prim_keys) with
        | Err e => (w, Err e)
        | Ok pk =>
            let (hk, x) := plant (w_keys w) pk in
            match hadd_child hk (r_keys l) key x with
            | (hk, Err e) => (set_w_keys w hk, Err e)
            | (hk, Ok _) =>
                let w := set_w_keys w hk in
                match (ct <- tree_at h c ;; root_params ct params) with
                | Err e => (w, Err e)
                | Ok pp =>
                    let (hm, y) := plant (w_params w) pp in
                    let (hm, res) := hadd_child hm (r_params l) key y in
                    (set_w_params w hm, res)
                end
            end
        end
    end.

  (** [Layout.add_constraint], layout.py:164-210 *)
  Definition hadd_constraint (w : world) (l : hlayout) (c : nat) (prim_keys : list string)
             (params : list pyval) (key : string) : world * hlayout * result unit :=
    match glance (w_cons w) c with
    | Err e => (w, l, Err e)
    | Ok ct =>
        let '(l, rkey) :=
          if String.eqb key EmptyString
          then let (cnt, r) := hgen_key w l (cname (ntype ct)) in (set_r_counter l cnt, r)
          else (l, Ok key) in
        match rkey with
        | Err e => (w, l, Err e)
        | Ok key =>
            match hvalidate_inputs w l c prim_keys params with
            | Err e => (w, l, Err e)
            | Ok _ => let (w, res) := hinsert_constraint w l c prim_keys params key in (w, l, res)
            end
        end
    end.

  (** One iteration of the loop at layout.py:239-255. *)
  Definition hthickness_entry (w : world) (l : hlayout) (axs : dict (mpl_axes F))
             (d : dict (list pyval)) (kc : string * nat) : result (dict (list pyval)) :=
    let key := drop1 (fst kc) in
    if String.eqb key EmptyString then Ok d
    else
      pk <- hget_child (w_keys w) (r_keys l) key ;;
      pko <- deref (w_keys w) pk ;;
      _ <- hget_child (w_params w) (r_params l) key ;;
      ct <- glance (w_cons w) (snd kc) ;;
      let axes_of :=
        match oval pko with
        | [axis_key] =>
            let axes_key := fst (split1 axis_key) in
            match dget axes_key axs with
            | Some a => Ok a
            | None => Err (KeyError axes_key)
            end
        | _ => Err ValueErr
        end in
      d <- (if is_kind KXAxisThickness ct
            then a <- axes_of ;; Ok (dset key [PAxis (fst a)] d) else Ok d) ;;
      (if is_kind KYAxisThickness ct
       then a <- axes_of ;; Ok (dset key [PAxis (snd a)] d) else Ok d).

  (** [update_root_param], layout.py:270-295: the parameter objects afterwards and the
      new root.  Objects made before an exception are unreachable and not reported. *)
  Definition hupdate_root_param (w : world) (l : hlayout) (new : dict (list pyval))
    : result (heap ktype (list pyval) * nat) :=
    '(h, r) <- hcopy (length (w_params w)) KNode (w_params w) (r_params l) ;;
    h <- fold_left (fun (acc : result (heap ktype (list pyval))) (kp : string * list pyval) =>
                 h <- acc ;;
                 c <- hget_child (w_cons w) (r_cons l) (fst kp) ;;
                 ct <- tree_at (w_cons w) c ;;
                 pp <- root_params ct (snd kp) ;;
                 let (h, x) := plant h pp in
                 match hsetitem h r (fst kp) x with
                 | (h, Ok _) => Ok h
                 | (_, Err e) => Err e
                 end) new (Ok h) ;;
    Ok (h, r).

  (** [update_layout_constraints], layout.py:212-268: the new layout is given the same
      primitive, constraint and key objects, and a new counter. *)
  Definition hupdate_layout_constraints (w : world) (l : hlayout) (axs : dict (mpl_axes F))
    : result (world * hlayout) :=
    flat <- hiter_flat (length (w_cons w)) (w_cons w) EmptyString (r_cons l) ;;
    d <- fold_left (fun acc kc => d <- acc ;; hthickness_entry w l axs d kc) flat (Ok []) ;;
    '(h, r) <- hupdate_root_param w l d ;;
    Ok (set_w_params w h,
        {| r_prim := r_prim l; r_cons := r_cons l; r_keys := r_keys l; r_params := r;
           r_counter := [] |}).

  (** [Layout.flat_constraints], layout.py:107-135 *)
  Definition hflat_constraints (w : world) (l : hlayout)
    : result (list (cls F) * list (list string) * list (list pyval)) :=
    cs <- hiter_flat (length (w_cons w)) (w_cons w) EmptyString (r_cons l) ;;
    cs <- mapM (fun kr => o <- deref (w_cons w) (snd kr) ;; Ok (otype o)) cs ;;
    ks <- hiter_flat (length (w_keys w)) (w_keys w) EmptyString (r_keys l) ;;
    ks <- mapM (fun kr => o <- deref (w_keys w) (snd kr) ;; Ok (oval o)) ks ;;
    ps <- hiter_flat (length (w_params w)) (w_params w) EmptyString (r_params l) ;;
    ps <- mapM (fun kr => o <- deref (w_params w) (snd kr) ;; Ok (oval o)) ps ;;
    Ok (skipn 1 cs, skipn 1 ks, skipn 1 ps).
End HeapLayout.
Arguments world F : clear implicits.
