(** Model of the colours and of the figure of [src/mpllayout/ui.py]: [plot_prims] with its
    colour map, [figure_prims]. *)
From Verif Require Export Ui.

Section Fig.
  Context {F : Type} {N : Num F} {C : Type}.
  Notation prim := (prim F).

  (** Calls on the figure and its axes, ui.py:262-276, and items drawn with their colour. *)
  Inductive figcall :=
  | NewSubplots (w h : F)
  | MinorLocator (axis : string) (interval : F)
  | MajorLocator (axis : string) (interval : F)
  | SetAspect (a : F)
  | GridLines
  | AxisLabel (axis text : string)
  | Draw (color : C) (d : drawn (F := F)).

  (** The loop of [plot_prims], ui.py:230-233, from position [i] of [n].  Simplification:
      what the failing primitive drew before the exception is not recorded. *)
  Fixpoint plot_from (cmap : F -> C) (i n : nat) (ch : dict prim) : list figcall * result unit :=
    match ch with
    | [] => ([], Ok tt)
    | (key, p) :: r =>
        match (x <- ndiv (nofZ (Z.of_nat i)) (nofZ (Z.of_nat n)) ;; ds <- plot_prim p key 99 ;; Ok (cmap x, ds)) with
        | Err e => ([], Err e)
        | Ok (color, ds) =>
            let (calls, res) := plot_from cmap (S i) n r in (map (Draw color) ds ++ calls, res)
        end
    end.
  (** [plot_prims], ui.py:219-233 *)
  Definition plot_colored (cmap : F -> C) (root : prim) : list figcall * result unit :=
    plot_from cmap 0 (nlen root) (nch root).

  (** [figure_prims], ui.py:236-278 *)
  Definition figure_prims (cmap : F -> C) (root : prim) (w h major minor : F) : list figcall * result unit :=
    let before :=
      [NewSubplots w h; MinorLocator "x" minor; MajorLocator "x" major; MinorLocator "y" minor;
       MajorLocator "y" major; SetAspect n1; GridLines; AxisLabel "x" "x [in]"; AxisLabel "y" "y [in]"] in
    let (calls, res) := plot_colored cmap root in (before ++ calls, res).
End Fig.
Arguments figcall F C : clear implicits.
