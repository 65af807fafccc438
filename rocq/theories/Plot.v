(** * Model of pytspl/plot/plot.py

    A call becomes the list of drawing commands handed to matplotlib and networkx, up to the exception
    if there is one.  Numbers form an ordered field.  Figure sizes, fonts of titles and tick labels, tick
    removal and plt.show are not modelled; the argument checks made inside matplotlib are not modelled
    either.  Definitions only. *)

From Coq Require Import ZArith String List.
From mathcomp Require Import all_ssreflect all_algebra ssrZ.
From Verif Require Import Py Complex Signal Eigen.

Set Implicit Arguments.
Unset Strict Implicit.
Unset Printing Implicit Defensive.

Import GRing.Theory Num.Theory Order.Theory.
Local Open Scope ring_scope.

Section Plot.
Variable R : realFieldType.

(** plot.py 58-59: a pair of coordinates. *)
Definition point := (R * R)%type.
(** plot.py 32: self.pos, from nodes to coordinates. *)
Definition positions := dict Z point.

(** Values of keyword arguments and of flow dictionaries: None, a number, a string, a list of numbers,
    a matplotlib Colormap.  (plot.py 89-103, 224-236 and 397-406.) *)
Inductive kval := KNone | KNum (x : R) | KStr (s : string) | KNums (l : seq R) | KCmap.
(** plot.py 455-462: the keyword arguments. *)
Definition kwargs := dict string kval.

(** A colour argument: a single value, or the list of values of a flow dictionary.  (plot.py 92, 227 and
    274-279.) *)
Inductive colour := CRaw (c : kval) | CList (l : seq kval).

(** What is accepted as an edge flow: None, a dictionary, a numpy array, a list, a tuple, a number.
    (plot.py 457 and 569-576.) *)
Inductive flow_arg :=
| FlNone
| FlDict (d : dict (Z * Z) kval)
| FlArray (l : seq R)
| FlList (l : seq R)
| FlTuple (l : seq R)
| FlNumber (x : R).

(** Drawing commands; [ax] is the number of the axes.  (plot.py 54-73, 155-188, 210-222, 302-346,
    440-449, 620-674 and 730-754.) *)
Inductive cmd :=
| Limits (ax : nat) (xlo xhi ylo yhi : R)
| Colorbar (ax : nat) (vmin vmax : kval)
| Scatter (ax : nat) (points : seq point) (opts : kwargs)
| Margins (ax : nat) (m : kval)
| NodeText (ax : nat) (p : point) (node : Z) (opts : kwargs)
| EdgeLines (ax : nat) (edges : seq (Z * Z)) (ends : seq (point * point)) (c : colour) (arrows : bool) (opts : kwargs)
| Polygon (ax : nat) (corners : seq point)
| EdgeText (ax : nat) (p : point) (label : kval) (opts : kwargs)
| Subplot (ax : nat) (rows cols number : nat)
| Title (ax : nat) (letter : string) (value : option R).

(** The plot object (self.pos) and pyplot: the current axes, the number of axes made so far, the
    commands.  (plot.py 18-32.) *)
Record pstate := mkP { p_pos : option positions; p_cur : nat; p_next : nat; p_cmds : seq cmd }.

(** ** Computations that draw and may raise *)

(** Executions of the methods, plot.py 34-754: the state afterwards, and the result or exception. *)
Definition draw (A : Type) := pstate -> pstate * res A.
(** No effect; plot.py 34-754. *)
Definition dret A (a : A) : draw A := fun s => (s, Ok a).
(** raise; plot.py 559. *)
Definition draise A (e : exn) : draw A := fun s => (s, Raise e).
(** A computation that draws nothing; plot.py 623-659. *)
Definition dlift A (r : res A) : draw A := fun s => (s, r).
(** Sequence of statements; plot.py 34-754. *)
Definition dbind A B (m : draw A) (f : A -> draw B) : draw B :=
  fun s => match m s with (s', Ok a) => f a s' | (s', Raise e) => (s', Raise e) end.
(** A drawing command; plot.py 34-754. *)
Definition emit (c : cmd) : draw unit := fun s => (mkP (p_pos s) (p_cur s) (p_next s) (rcons (p_cmds s) c), Ok tt).
(** plot.py 45: reading self.pos. *)
Definition get_pos : draw (option positions) := fun s => (s, Ok (p_pos s)).
(** plot.py 52: assigning self.pos. *)
Definition put_pos (p : positions) : draw unit := fun s => (mkP (Some p) (p_cur s) (p_next s) (p_cmds s), Ok tt).

(** plt.gca() where no axes are given.  (plot.py 136-137, 266-267, 429-430 and 566-567.) *)
Definition axes (ax : option nat) : draw nat := fun s => (s, Ok (match ax with Some a => a | None => p_cur s end)).

(** fig.add_subplot: new axes, which become the current ones.  (plot.py 630, 662, 667, 672 and 738.) *)
Definition add_subplot (rows cols number : nat) : draw nat :=
  fun s => (mkP (p_pos s) (p_next s) (p_next s).+1 (rcons (p_cmds s) (Subplot (p_next s) rows cols number)), Ok (p_next s)).

(** A for loop; plot.py 210, 334, 435 and 736. *)
Fixpoint dfor A (l : seq A) (f : A -> draw unit) : draw unit :=
  match l with
  | [::] => dret tt
  | a :: l' => dbind (f a) (fun _ => dfor l' f)
  end.

(** [f(a) for a in l].  (plot.py 164-165.) *)
Fixpoint dmap A B (l : seq A) (f : A -> draw B) : draw (seq B) :=
  match l with
  | [::] => dret [::]
  | a :: l' => dbind (f a) (fun b => dbind (dmap l' f) (fun bs => dret (b :: bs)))
  end.

End Plot.

Arguments KNone {R}.
Arguments KStr {R} s.
Arguments KCmap {R}.
Arguments FlNone {R}.
Arguments dret {R A} a _.
Arguments draise {R A} e _.
Arguments dlift {R A} r _.
Arguments get_pos {R} _.
Arguments axes {R} ax _.
Arguments add_subplot {R} rows cols number _.

Declare Scope draw_scope.
Notation "'do!' x := m 'in' k" := (dbind m (fun x => k)) (at level 200, x name, right associativity) : draw_scope.
Notation "'do!' '_' := m 'in' k" := (dbind m (fun _ => k)) (at level 200, right associativity) : draw_scope.
Local Open Scope draw_scope.

Section Plot2.
Variable R : realFieldType.
Local Notation kval := (kval R).
Local Notation kwargs := (kwargs R).
Local Notation draw := (draw R).

(** nx.spring_layout for the nodes of a graph, in order. *)
Variable layout : seq Z -> positions R.
Variable lstsq : forall m n, 'M[R]_(m, n) -> 'cV[R]_m -> 'cV[R]_n.
Variable rint : R -> int.
Variable eigsh : forall n, 'M[R]_n -> seq (R * 'cV[R]_n).

(** Keyword with its default value.  (plot.py 89-103, 224-236 and 397-406.) *)
Definition arg (kw : kwargs) (name : string) (default : kval) : kval :=
  match dget String.eqb kw name with Ok v => v | Raise _ => default end.

(** The parameter lists of draw_sc_nodes (plot.py 89-103), draw_sc_edges (224-236) and draw_edge_labels (397-406). *)
Definition node_params : seq string :=
  [:: "node_size"; "node_color"; "node_edge_colors"; "font_size"; "font_color"; "font_weight"; "cmap"; "vmin"; "vmax";
      "alpha"; "margins"; "with_labels"; "ax"]%string.
(** plot.py 224-236. *)
Definition edge_params : seq string :=
  [:: "edge_flow"; "edge_color"; "edge_width"; "arrowsize"; "edge_cmap"; "edge_vmin"; "edge_vmax"; "directed"; "alpha"; "ax"]%string.
(** plot.py 397-406. *)
Definition label_params : seq string :=
  [:: "edge_labels"; "font_size"; "font_color"; "font_weight"; "offset"; "alpha"; "ax"]%string.

(** A call f(explicit..., **kw): an unknown keyword or one given twice is a TypeError.  (plot.py 579-590.) *)
Definition call_kw (params explicit : seq string) (kw : kwargs) : draw unit :=
  if all (fun k => py_in String.eqb k params && ~~ py_in String.eqb k explicit) (dkeys kw) then dret tt
  else draise TypeError.

(** n tenths; plot.py 54-55. *)
Definition tenth (n : nat) : R := n%:R / 10%:R.

(** min(l), max(l): ValueError for an empty list.  (plot.py 60-61, 151 and 298.) *)
Definition list_min (l : seq R) : res R :=
  match l with [::] => Raise ValueError | a :: l' => Ok (foldl Num.min a l') end.
(** plot.py 60-61, 153 and 300. *)
Definition list_max (l : seq R) : res R :=
  match l with [::] => Raise ValueError | a :: l' => Ok (foldl Num.max a l') end.

(** plot.py 34-75: _init_axes. *)
Definition init_axes (sc : SC) (ax : nat) : draw unit :=
  do! pos := get_pos in
  match pos with
  | None =>
      do! _ := put_pos (layout (graph_keys [::] (sc_edges sc))) in
      emit (Limits ax (- tenth 11) (tenth 11) (- tenth 11) (tenth 11))
  | Some pos =>
      let x := [seq p.2.1 | p <- pos] in
      let y := [seq p.2.2 | p <- pos] in
      do! min_x := dlift (list_min x) in
      do! max_x := dlift (list_max x) in
      do! min_y := dlift (list_min y) in
      do! max_y := dlift (list_max y) in
      let x_padding := (max_x - min_x) * (5%:R / 100%:R) in
      let y_padding := (max_y - min_y) * (5%:R / 100%:R) in
      emit (Limits ax (min_x - x_padding) (max_x + x_padding) (min_y - y_padding) (max_y + y_padding))
  end.

(** self.pos[node]; self.pos is set when this is evaluated.  (plot.py 164-165, 211 and 335-337.) *)
Definition node_pos (node : Z) : draw (point R) :=
  do! pos := get_pos in
  match pos with Some pos => dlift (dget Z.eqb pos node) | None => draise TypeError end.

(** plot.py 77-87: create_edge_flow. *)
Definition create_edge_flow (sc : SC) (flow : seq R) : dict (Z * Z) kval :=
  dict_of pair_eqb (zip (sc_edges sc) [seq KNum x | x <- flow]).

(** np.iterable(c) and all elements are numbers: the numbers.  (All characters of the empty string
    are.  (plot.py 141-143, 286-288 and 589.) *)
Definition number (v : kval) : bool := match v with KNum _ => true | _ => false end.
(** plot.py 151: the number in a list that consists of numbers. *)
Definition number_value (v : kval) : R := match v with KNum x => x | _ => 0 end.
(** plot.py 141-143, 286-288: np.iterable(c) and all elements are numbers. *)
Definition numbers_of (c : colour R) : option (seq R) :=
  match c with
  | CRaw (KNums l) => Some l
  | CRaw (KStr s) => if String.eqb s "" then Some [::] else None
  | CRaw _ => None
  | CList l => if all number l then Some [seq number_value v | v <- l] else None
  end.

(** plot.py 141-159 and 285-311: limits of the colour map, and a colour bar. *)
Definition colour_scale (ax : nat) (cmap vmin vmax : kval) (l : seq R) : draw (kval * kval) :=
  match cmap with
  | KNone | KCmap =>
      do! lo := (match vmin with
                 | KNone => do! m := dlift (list_min l) in dret (KNum (m - `|m| * (5%:R / 10%:R)))
                 | _ => dret vmin
                 end) in
      do! hi := (match vmax with KNone => do! m := dlift (list_max l) in dret (KNum m) | _ => dret vmax end) in
      do! _ := emit (Colorbar ax lo hi) in
      dret (lo, hi)
  | _ => draise AssertionError
  end.

(** plot.py 190-222: _draw_node_labels.  plt.text draws in the current axes. *)
Definition draw_node_labels (sc : SC) (font_size font_color font_weight alpha : kval) : draw unit :=
  dfor (sc_nodes sc) (fun node =>
    do! p := node_pos node in
    do! cur := axes None in
    emit (NodeText cur p node
      [:: ("fontsize", font_size); ("color", font_color); ("weight", font_weight); ("alpha", alpha)]%string)).

(** plot.py 89-188: draw_sc_nodes. *)
Definition draw_sc_nodes (sc : SC) (with_labels : bool) (ax : option nat) (kw : kwargs) : draw unit :=
  let node_size := arg kw "node_size" (KNum 300%:R) in
  let node_color := arg kw "node_color" (KStr "#ff7f0e") in
  let node_edge_colors := arg kw "node_edge_colors" (KStr "black") in
  let font_size := arg kw "font_size" (KNum 12%:R) in
  let font_color := arg kw "font_color" (KStr "k") in
  let font_weight := arg kw "font_weight" (KStr "normal") in
  let cmap := arg kw "cmap" KCmap in
  let vmin := arg kw "vmin" KNone in
  let vmax := arg kw "vmax" KNone in
  let alpha := arg kw "alpha" (KNum (tenth 8)) in
  let margins := arg kw "margins" KNone in
  do! ax := axes ax in
  do! _ := init_axes sc ax in
  do! lim := (match numbers_of (CRaw node_color) with
              | Some l => colour_scale ax cmap vmin vmax l
              | None => dret (vmin, vmax)
              end) in
  do! points := dmap (sc_nodes sc) node_pos in
  do! _ := emit (Scatter ax points
    [:: ("s", node_size); ("c", node_color); ("edgecolors", node_edge_colors); ("vmin", lim.1); ("vmax", lim.2);
        ("alpha", alpha)]%string) in
  do! _ := (match margins with KNone => dret tt | _ => emit (Margins ax margins) end) in
  if with_labels then draw_node_labels sc font_size font_color font_weight alpha else dret tt.

(** Truth value of the edge_flow argument; that of an array with more than one element is a ValueError.
    (plot.py 263.) *)
Definition truth (f : flow_arg R) : res bool :=
  match f with
  | FlNone => Ok false
  | FlDict d => Ok (negb (nilp d))
  | FlArray l => match l with [::] => Ok false | [:: x] => Ok (x != 0) | _ => Raise ValueError end
  | FlList l | FlTuple l => Ok (negb (nilp l))
  | FlNumber x => Ok (x != 0)
  end.
(** plot.py 264: a dictionary. *)
Definition is_dict (f : flow_arg R) : bool := match f with FlDict _ => true | _ => false end.

(** networkx DiGraph.edges() after add_edges_from(edges): by source node in order of first mention, then in order
    of insertion, each edge once.  (plot.py 282-283 and 315.) *)
Definition digraph_edges (edges : seq (Z * Z)) : seq (Z * Z) :=
  let distinct := foldl (fun l e => if py_in pair_eqb e l then l else rcons l e) [::] edges in
  flatten [seq [seq e <- distinct | Z.eqb e.1 u] | u <- graph_keys [::] edges].

(** nx.draw_networkx_edges: nothing for a graph without edges.  (plot.py 319-331.) *)
Definition nx_draw_edges (ax : nat) (edges : seq (Z * Z)) (c : colour R) (arrows : bool) (opts : kwargs) : draw unit :=
  if nilp edges then dret tt
  else
    do! ends := dmap edges (fun e => do! p := node_pos e.1 in do! q := node_pos e.2 in dret (p, q)) in
    emit (EdgeLines ax edges ends c arrows opts).

(** edge_color[edges.index(edge)].  (plot.py 314-316.) *)
Definition colour_of (edges : seq (Z * Z)) (colours : seq R) (e : Z * Z) : res kval :=
  let! i := py_index pair_eqb edges e in
  let! x := py_nth colours (Z.of_nat i) in
  Ok (KNum x).

(** plot.py 333-346: the triangles. *)
Definition draw_triangles (sc : SC) (ax : nat) : draw unit :=
  dfor (sc_triangles sc) (fun t =>
    match t with
    | [:: i; j; k] =>
        do! a := node_pos i in do! b := node_pos j in do! c := node_pos k in
        emit (Polygon ax [:: a; b; c])
    | _ => draise ValueError
    end).

(** plot.py 224-346: draw_sc_edges. *)
Definition draw_sc_edges (sc : SC) (edge_flow : flow_arg R) (directed : bool) (ax : option nat) (kw : kwargs)
  : draw unit :=
  let edge_color := arg kw "edge_color" (KStr "lightblue") in
  let edge_width := arg kw "edge_width" (KNum 1) in
  let arrowsize := arg kw "arrowsize" (KNum 10%:R) in
  let edge_cmap := arg kw "edge_cmap" KCmap in
  let edge_vmin := arg kw "edge_vmin" KNone in
  let edge_vmax := arg kw "edge_vmax" KNone in
  let alpha := arg kw "alpha" (KNum (tenth 8)) in
  do! t := dlift (truth edge_flow) in
  if t && ~~ is_dict edge_flow then draise AssertionError
  else
    do! ax := axes ax in
    do! _ := init_axes sc ax in
    do! ec := (match edge_flow with
               | FlNone => dret (sc_edges sc, CRaw edge_color)
               | FlDict d => dret (dkeys d, CList (dvalues d))
               | _ => draise AttributeError
               end) in
    let graph := digraph_edges ec.1 in
    do! clim := (match numbers_of ec.2 with
                 | Some l =>
                     do! lim := colour_scale ax edge_cmap edge_vmin edge_vmax l in
                     do! c := dlift (mapM (colour_of ec.1 l) graph) in
                     dret (CList c, lim)
                 | None => dret (ec.2, (edge_vmin, edge_vmax))
                 end) in
    do! _ := nx_draw_edges ax graph clim.1 directed
      [:: ("width", edge_width); ("alpha", alpha); ("arrowsize", arrowsize); ("edge_vmin", clim.2.1);
          ("edge_vmax", clim.2.2)]%string in
    draw_triangles sc ax.

(** plot.py 348-395: _calculate_edge_label_position, from the positions of the end points. *)
Definition label_position (p q : point R) (offset : R) : point R :=
  let center_coeff := 5%:R / 10%:R in
  let (x1, y1) := p in
  let (x2, y2) := q in
  let mx := x1 * center_coeff + x2 * (1 - center_coeff) in
  let my := y1 * center_coeff + y2 * (1 - center_coeff) in
  let slope := if x2 - x1 == 0 then 0 else (y2 - y1) / (x2 - x1) in
  if `|slope| == 0 then
    if x1 == x2 then (mx + offset / 3%:R, my) else (mx, my - offset)
  else if `|slope| <= tenth 1 then (mx, my + offset / 2%:R)
  else (mx - offset, my + offset).

(** plot.py 397-453: draw_edge_labels (without the dictionary of text objects it returns). *)
Definition draw_edge_labels (sc : SC) (edge_labels : flow_arg R) (ax : option nat) (kw : kwargs) : draw unit :=
  let font_size := arg kw "font_size" (KNum 10%:R) in
  let font_color := arg kw "font_color" (KStr "k") in
  let font_weight := arg kw "font_weight" (KStr "normal") in
  let offset := arg kw "offset" (KNum (15%:R / 100%:R)) in
  let alpha := arg kw "alpha" KNone in
  match edge_labels with
  | FlDict d =>
      do! ax := axes ax in
      do! _ := init_axes sc ax in
      dfor d (fun it =>
        do! p := node_pos it.1.1 in
        do! q := node_pos it.1.2 in
        match offset with
        | KNum off =>
            emit (EdgeText ax (label_position p q off) it.2
              [:: ("size", font_size); ("color", font_color); ("weight", font_weight); ("alpha", alpha)]%string)
        | _ => draise TypeError
        end)
  | _ => draise AssertionError
  end.

(** plot.py 534-541. *)
Definition default_kwargs : kwargs :=
  [:: ("node_size", KNum 400%:R); ("edge_width", KNum 5%:R); ("arrowsize", KNum 30%:R); ("font_size", KNum 12%:R)]%string.

(** plot.py 543-553. *)
Definition valid_kwarg (k : string) : bool :=
  py_in String.eqb k (node_params ++ edge_params ++ label_params) &&
  ~~ py_in String.eqb k [:: "edge_flow"; "directed"; "with_labels"; "ax"]%string.

(** The entries whose key is a parameter of the routine.  (plot.py 561-563.) *)
Definition restrict (params : seq string) (kw : kwargs) : kwargs := [seq it <- kw | py_in String.eqb it.1 params].

(** plot.py 455-590: draw_network.  [kw] are the keywords other than the four named parameters. *)
Definition draw_network (sc : SC) (edge_flow : flow_arg R) (directed with_labels : bool) (ax : option nat) (kw : kwargs)
  : draw unit :=
  let kw := if nilp kw then default_kwargs else kw in
  if has (fun k => ~~ valid_kwarg k) (dkeys kw) then draise ValueError
  else
    let node_kwargs := restrict node_params kw in
    let edge_kwargs := restrict edge_params kw in
    let label_kwargs := restrict label_params kw in
    do! ax := axes ax in
    let edge_flow := match edge_flow with
                     | FlArray l | FlList l => FlDict (create_edge_flow sc l)
                     | f => f
                     end in
    do! numeric := (match edge_flow with
                    | FlNone | FlNumber _ => dret false
                    | FlDict d => dret (all number (dvalues d))
                    | _ => draise AttributeError
                    end) in
    do! _ := call_kw node_params [:: "with_labels"; "ax"]%string node_kwargs in
    do! _ := draw_sc_nodes sc with_labels (Some ax) node_kwargs in
    do! _ := call_kw edge_params [:: "edge_flow"; "directed"; "ax"]%string edge_kwargs in
    do! _ := draw_sc_edges sc edge_flow directed (Some ax) edge_kwargs in
    if with_labels && numeric then
      do! _ := call_kw label_params [:: "edge_labels"; "ax"]%string label_kwargs in
      draw_edge_labels sc edge_flow (Some ax) label_kwargs
    else dret tt.

(** component[0].upper() for the three component names.  (plot.py 632 and 741.) *)
Definition initial (component : string) : string :=
  if String.eqb component "gradient" then "G"%string else if String.eqb component "curl" then "C"%string else "H"%string.

(** One panel.  (plot.py 630-635 and 661-674.) *)
Definition flow_panel (sc : SC) (cols number : nat) (letter : string) (flow : seq R) : draw unit :=
  do! ax := add_subplot 1 cols number in
  do! _ := emit (Title ax letter None) in
  draw_network sc (FlArray flow) true true (Some ax) [::].

(** plot.py 592-676: draw_hodge_decomposition. *)
Definition draw_hodge_decomposition (sc : SC) (flow : seq R) (component : option string) (round_fig : bool)
    (round_sig_fig : int) : draw unit :=
  match component with
  | Some c =>
      do! f := dlift (get_component_flow lstsq rint sc flow c round_fig round_sig_fig) in
      flow_panel sc 1 1 (initial c) f
  | None =>
      do! f_g := dlift (get_component_flow lstsq rint sc flow "gradient" round_fig round_sig_fig) in
      do! f_c := dlift (get_component_flow lstsq rint sc flow "curl" round_fig round_sig_fig) in
      do! f_h := dlift (get_component_flow lstsq rint sc flow "harmonic" round_fig round_sig_fig) in
      do! _ := flow_panel sc 3 1 "G" f_g in
      do! _ := flow_panel sc 3 2 "C" f_c in
      flow_panel sc 3 3 "H" f_h
  end.

(** plot.py 678-754: draw_eigenvectors. *)
Definition draw_eigenvectors (sc : SC) (component : string) (eigenvector_indices : seq Z) (round_fig : bool)
    (round_sig_fig : int) (with_labels : bool) : draw unit :=
  do! ps := dlift (get_component_eigenpair eigsh sc component (milli R)) in
  let indices := if nilp eigenvector_indices then [seq Z.of_nat i | i <- iota 0 (size ps)] else eigenvector_indices in
  let num_plots := size indices in
  let num_cols := minn num_plots 3 in
  if num_cols == 0%N then draise ZeroDivisionError
  else
    let num_rows := (num_plots %/ num_cols + (num_plots %% num_cols != 0))%N in
    dfor (enumerate indices) (fun it =>
      do! ax := add_subplot num_rows num_cols it.1.+1 in
      do! p := dlift (py_nth ps it.2) in
      do! _ := emit (Title ax (initial component) (Some (np_round1 rint round_sig_fig p.1))) in
      draw_network sc (FlArray (if round_fig then np_round rint p.2 round_sig_fig else p.2)) true with_labels (Some ax) [::]).

End Plot2.
