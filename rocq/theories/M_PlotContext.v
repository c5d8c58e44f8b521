(** Model of post/post.py 334-420 (plotting_context) and of how the plotting methods use it: which calls of pyplot, figure and axes are made, in which order.
    What is drawn is modelled in M_Plots.v, M_Draw.v and M_StressPost.v; here it is an argument. Definitions only. *)
From Coq Require Import String ZArith List Bool.
From Verif Require Import Base.
Import ListNotations.
Local Open Scope string_scope.
Local Open Scope list_scope.

(** Errors: those of Base, and AttributeError *)
Inductive plot_error : Type := Raises (e : exn) | AttributeError.
(** Axes: those of the caller, or those of the new figure at this position of the array that subplots returns (none: not an array) *)
Inductive axes : Type := Caller (k : nat) | Fresh (position : list Z).
(** What plt.subplots returns for the remaining keyword arguments: one Axes, or an array of one or two dimensions (of positive lengths; others are refused by matplotlib) *)
Inductive shape : Type := Single | Array1 (n : Z) | Array2 (rows columns : Z).
(** axis_index: int | tuple[int, int] *)
Inductive index : Type := At (i : Z) | At2 (i j : Z).
(** What is yielded as ax: an Axes, or a row of an array *)
Inductive target : Type := One (a : axes) | Row (i : Z).
(** The calls *)
Inductive event : Type :=
| EIoff | EIon | ESubplots                                    (** plt.ioff(), plt.ion(), plt.subplots() *)
| EDrawn (a : axes) (what : nat)                              (** a drawing call on the axes *)
| ETitle (a : axes) (title : string) | ELayout | EAspect (a : axes)
| ESave (filename : string) | EClose                          (** fig.savefig(filename), plt.close(fig) *)
| EShow | EPyplotDraw | EPause.                               (** plt.show(), plt.draw(), plt.pause(0.001) *)
(** The keyword arguments, without title; [o_subplots] stands for what subplots makes of the remaining ones *)
Record options : Type := mkOptions { o_ax : option axes; o_pause : bool; o_filename : string; o_render : bool; o_index : option index; o_subplots : shape }.
(** The calls made, and the exception that ended them *)
Definition trace : Type := list event * option plot_error.
Definition then_do (t1 : trace) (t2 : trace) : trace := match snd t1 with None => (fst t1 ++ fst t2, snd t2) | Some e => (fst t1, Some e) end.

(** An index of a numpy array of length n: negative ones count from the end *)
Definition entry (n i : Z) : option Z := if (0 <=? i)%Z && (i <? n)%Z then Some i else if (- n <=? i)%Z && (i <? 0)%Z then Some (i + n)%Z else None.
(** post.py 380-390: the selection of the axes; None: IndexError, which becomes ValueError. A single Axes has no ndim (AttributeError) and cannot be indexed
    (TypeError); both are caught and the Axes is kept. An array of two dimensions with one index gives a row. *)
Definition select (s : shape) (i : option index) : option target :=
  match s, i with
  | Single, _ => Some (One (Fresh []))
  | Array1 n, None => option_map (fun k => One (Fresh [k])) (entry n 0)
  | Array1 n, Some (At k) => option_map (fun k => One (Fresh [k])) (entry n k)
  | Array1 _, Some (At2 _ _) => None
  | Array2 r c, None => match entry r 0, entry c 0 with Some a, Some b => Some (One (Fresh [a; b])) | _, _ => None end
  | Array2 r _, Some (At k) => option_map Row (entry r k)
  | Array2 r c, Some (At2 j k) => match entry r j, entry c k with Some a, Some b => Some (One (Fresh [a; b])) | _, _ => None end
  end.
(** post.py 400-403: a row has no set_title *)
Definition finish_axes (t : target) (title : string) : trace :=
  match t with One a => ([ETitle a title; ELayout; EAspect a], None) | Row _ => ([], Some AttributeError) end.
(** post.py 334-420: with plotting_context(...) as (fig, ax): body. An exception of the body is raised at the yield: nothing after it runs.
    savefig, show and the other calls of matplotlib are taken to succeed. *)
Definition plotting_context (o : options) (title : string) (body : target -> trace) : trace :=
  let named := negb (o_filename o =? "") in
  let render := if named then false else o_render o in
  match o_ax o with
  | Some a => then_do (if render then [] else [EIoff], None) (then_do (body (One a)) (finish_axes (One a) title))
  | None =>
      then_do ([if negb render || o_pause o then EIoff else EIon; ESubplots], None)
      match select (o_subplots o) (o_index o) with
      | None => ([], Some (Raises ValueError))
      | Some t =>
          then_do (body t) (then_do (finish_axes t title)
            (if named then [ESave (o_filename o); EClose] else if render then (if o_pause o then [EShow] else [EPyplotDraw; EPause]) else [], None))
      end
  end.

(** The drawing calls of a method on one Axes, and an exception that may end them *)
Definition drawing : Type := list nat * option plot_error.
(** "if not ax" is False for an Axes and raises ValueError for a row (of more than one Axes; for one Axes the first drawing call raises AttributeError instead) *)
Definition draw (d : drawing) (t : target) : trace :=
  match t with One a => (map (EDrawn a) (fst d), snd d) | Row _ => ([], Some (Raises ValueError)) end.
(** section.py 1607-1665 plot_mesh, geometry.py 1180-1238 plot_geometry, stress_post.py 836-895 plot_mohrs_circles *)
Definition plot_alone (o : options) (title : string) (d : drawing) : trace := plotting_context o title (draw d).
(** dict(kwargs, ax=ax) *)
Definition on_axes (o : options) (a : axes) : options := mkOptions (Some a) (o_pause o) (o_filename o) (o_render o) (o_index o) (o_subplots o).
(** section.py 1709-1780 plot_centroids and 1814-1843 plot_warping_function, stress_post.py 307-369 plot_stress and 474-548 plot_stress_vector: drawing calls,
    plot_mesh with the same keyword arguments on these axes (section.py 1551: its own title), further drawing calls *)
Definition plot_on_mesh (o : options) (title : string) (before mesh after : drawing) : trace :=
  plotting_context o title (fun t =>
    then_do (draw before t) (then_do (match t with One a => plot_alone (on_axes o a) "Finite Element Mesh" mesh | Row _ => ([], Some (Raises ValueError)) end) (draw after t))).
