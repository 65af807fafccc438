(** * Model of the dataset loaders

    pytspl/io/dataset_loader.py and pytspl/io/data_loaders/*.py.  Definitions only.

    Files are read through an abstract file system: [fs_frame path sep skip] is the result of
    [pd.read_csv(path, sep=sep, skiprows=skip)], [fs_table path] the cells of
    [pd.read_csv(path, header=None)], [fs_exists] is os.path.exists and [fs_listdir] os.listdir.
    Paths are written relative to the installed package instead of with the absolute prefix that
    pkg_resources.resource_filename returns.  Printing is not modelled. *)

From Coq Require Import ZArith QArith String List Bool.
From Verif Require Import Py Complex Builder Reader.
Import ListNotations.
Open Scope Z_scope.
Local Open Scope string_scope.

(** pytspl/data/wsn/water_network.pkl as unpickled (wsn_loader.py, lines 25-26); the third component
    is not used. *)
Record wsn_file := mkWsn {
  w_B1 : list (list fval);
  w_flow_rate : list Q;
  w_head : list Q;
  w_hr : list Q
}.

(** The files the loaders read: forex_loader.py 22-24 and 35, transportation_loader.py 35, 53-54,
    116-117 and 160-182, paper_loader.py 23, 38 and 48-49, lastfm_loader.py 21-24 and 30-33,
    wsn_loader.py 25-26. *)
Record filesystem := mkFs {
  fs_listdir : string -> res (list string);
  fs_exists : string -> bool;
  fs_frame : string -> string -> nat -> res frame;
  fs_table : string -> res (list (list fval));
  fs_pickle : string -> res wsn_file
}.

(** dataset_loader.py 57-60: node coordinates. *)
Definition coords := dict fval (fval * fval).

(** The third component of a loaded dataset: a dictionary, or an array (wsn only).  (dataset_loader.py
    57-60.) *)
Inductive flow :=
| FlowDict (d : dict (Z * Z) fval)
| FlowArr (y : list Q).

(** dataset_loader.py 57-60: complex, coordinates (or None) and flow. *)
Definition loaded := (SC * option coords * flow)%type.

(** Columns are named by tab-separated headers.  (network_reader.py 289; transportation_loader.py 125.) *)
Definition tab : string := String (Ascii.ascii_of_nat 9) EmptyString.

(** [to_simplicial_complex()] with default arguments, and with triangles given
    (scbuilder.py, lines 86-92). *)
Definition build_default (b : builder) : res SC :=
  to_simplicial_complex (b_nodes b) (b_edges b) (b_node_features b) (b_edge_features b)
    "all" "distance" (3 # 2) None.
(** forex_loader.py 26-29; scbuilder.py 86-132. *)
Definition build_with (b : builder) (triangles : list (list Z)) : res SC :=
  to_simplicial_complex (b_nodes b) (b_edges b) (b_node_features b) (b_edge_features b)
    "all" "distance" (3 # 2) (Some triangles).

(** ** Generated coordinates *)

(** networkx Graph.add_nodes_from / add_edges_from: nodes in order of first mention.
    (simplicial_complex.py 133-137.) *)
Definition layout_nodes (nodes : list Z) (edges : list (Z * Z)) : list Z :=
  fold_left (fun acc x => if py_in Z.eqb x acc then acc else (acc ++ [x])%list)
            (nodes ++ flat_map (fun e => [fst e; snd e]) edges)%list [].

(** simplicial_complex.py, lines 120-138: generate_coordinates.  [spring] stands for the positions
    computed by networkx.spring_layout, which pairs them with the nodes of the graph. *)
Definition generate_coordinates (spring : list Z -> list (Z * Z) -> list (fval * fval)) (sc : SC) : coords :=
  let ns := layout_nodes (sc_nodes sc) (sc_edges sc) in
  combine (map (fun z => FNum (inject_Z z)) ns) (spring ns (sc_edges sc)).

(** ** Flow files *)

(** [values[:, 0]] of a table (forex_loader.py, line 35; paper_loader.py, line 49). *)
Definition first_column (t : list (list fval)) : res (list fval) :=
  mapM (fun r => py_nth r 0) t.

(** [{edge: flow[i] for i, edge in enumerate(sc.edges)}] (forex_loader.py, line 36; lastfm_loader.py,
    line 35; paper_loader.py, line 50; transportation_loader.py, lines 185-187). *)
Definition flow_by_position (edges : list (Z * Z)) (values : list fval) : res (dict (Z * Z) fval) :=
  foldM (fun d ie => let! v := py_nth values (Z.of_nat (fst ie)) in Ok (dset pair_eqb d (snd ie) v))
        [] (enumerate edges).

(** [a - b] on cells.  (transportation_loader.py 83.) *)
Definition cell_sub (a b : fval) : res fval :=
  match a, b with
  | FStr _, _ | _, FStr _ => Raise TypeError
  | FNum p, FNum q => Ok (FNum (p - q)%Q)
  | _, _ => Ok FNaN
  end.

(** transportation_loader.py, lines 69-71 and 75-78:
    [df[(df["From "] == s) & (df["To "] == t)]["Volume "].values[0]]. *)
Definition lookup_volume (df : frame) (s t : Z) : res fval :=
  let! froms := column df "From " in
  let! tos := column df "To " in
  let! volumes := column df "Volume " in
  let sel := filter (fun x => cell_is s (fst x) && cell_is t (fst (snd x)))
                    (combine froms (combine tos volumes)) in
  let! x := py_nth sel 0 in
  Ok (snd (snd x)).

(** transportation_loader.py, lines 62-90: loop body.  Visited edges are recorded zero-based (line 90)
    and looked up one-based (line 67). *)
Definition flow_step (df : frame) (st : list (Z * Z) * dict (Z * Z) fval) (edge : Z * Z)
  : res (list (Z * Z) * dict (Z * Z) fval) :=
  let (visited, d) := st in
  let source := fst edge + 1 in
  let target := snd edge + 1 in
  if py_in pair_eqb (source, target) visited then Ok (visited, d)
  else
    let! flow_pos := lookup_volume df source target in
    let! flow_neg :=
      try_except (lookup_volume df target source) IndexError (Ok (FNum 0)) in
    let! net := cell_sub flow_pos flow_neg in
    let source := source - 1 in
    let target := target - 1 in
    Ok ((visited ++ [(source, target)])%list, dset pair_eqb d (source, target) net).

(** transportation_loader.py 17-19: the folder of the transportation networks. *)
Definition data_folder : string := "data/transportation_networks".

(** transportation_loader.py, lines 42-92: load_flow_transportation. *)
Definition load_flow_transportation (fs : filesystem) (dataset : string) (edges : list (Z * Z))
  : res (dict (Z * Z) fval) :=
  let path := data_folder ++ "/" ++ dataset ++ "/" ++ dataset ++ "_flow.tntp" in
  let! df := read_flow (fs_exists fs path) (fs_frame fs path tab 0) in
  if frame_empty df then Ok []
  else
    let! st := foldM (flow_step df) ([], []) edges in
    Ok (snd st).

(** ** Loaders *)

Section Loaders.
Variable atoi : string -> option Z.
Variable spring : list Z -> list (Z * Z) -> list (fval * fval).
Variable pow1852 : Q -> Q.
Variable fs : filesystem.

(** forex_loader.py, lines 11-38. *)
Definition load_forex_data : res loaded :=
  let! bt := read_B1_B2 (fs_table fs "data/foreign_exchange/B1.csv")
                        (fs_table fs "data/foreign_exchange/B2t.csv") in
  let (b, triangles) := bt in
  let! sc := build_with b triangles in
  let c := generate_coordinates spring sc in
  let! t := fs_table fs "data/foreign_exchange/flow_FX_1538755200.csv" in
  let! y := first_column t in
  let! d := flow_by_position (sc_edges sc) y in
  Ok (sc, Some c, FlowDict d).

(** lastfm_loader.py, lines 11-37; [to_numpy().flatten()] is the row-wise concatenation. *)
Definition load_lastfm_1k_artist : res loaded :=
  let! bt := read_B1_B2 (fs_table fs "data/lastfm-dataset-1K/B1-artist.csv")
                        (fs_table fs "data/lastfm-dataset-1K/B2t-artist.csv") in
  let (b, triangles) := bt in
  let! sc := build_with b triangles in
  let c := generate_coordinates spring sc in
  let! t := fs_table fs "data/lastfm-dataset-1K/flow-artist.csv" in
  let! d := flow_by_position (sc_edges sc) (concat t) in
  Ok (sc, Some c, FlowDict d).

(** paper_loader.py, lines 11-52. *)
Definition load_paper_data : res loaded :=
  let! b := read_csv atoi (fs_frame fs "data/paper_data/edges.csv" " " 0) "Source" "Target"
              (Some ["Distance"]) true in
  let! sc := build_default b in
  let path := "data/paper_data/coordinates.csv" in
  let! c := read_coordinates (fs_exists fs path) (fs_frame fs path " " 0) "Id" "X" "Y" true in
  let! t := fs_table fs "data/paper_data/flow.csv" in
  let! y := first_column t in
  let! d := flow_by_position (sc_edges sc) y in
  Ok (sc, c, FlowDict d).

(** transportation_loader.py, lines 150-188: load_chicago_sketch. *)
Definition load_chicago_sketch : res loaded :=
  let! bt := read_B1_B2 (fs_table fs "data/transportation_networks/chicago-sketch/B1_chicago_sketch.csv")
                        (fs_table fs "data/transportation_networks/chicago-sketch/B2t_chicago_sketch.csv") in
  let (b, triangles) := bt in
  let! sc := build_with b triangles in
  let path := "data/transportation_networks/chicago-sketch/coordinates_chicago_sketch.csv" in
  let! c := read_coordinates (fs_exists fs path) (fs_frame fs path "," 0) "Id" "X" "Y" true in
  let! t := fs_table fs "data/transportation_networks/chicago-sketch/flow_chicago_sketch.csv" in
  let! d := flow_by_position (sc_edges sc) (concat t) in
  Ok (sc, c, FlowDict d).

(** transportation_loader.py, lines 95-147: load_transportation_dataset. *)
Definition load_transportation_dataset (dataset : string) : res loaded :=
  if String.eqb dataset "chicago-sketch" then load_chicago_sketch
  else
    let network := data_folder ++ "/" ++ dataset ++ "/" ++ dataset ++ "_net.tntp" in
    let nodes := data_folder ++ "/" ++ dataset ++ "/" ++ dataset ++ "_node.tntp" in
    let! b := read_tntp atoi (fs_frame fs network tab 8) "init_node" "term_node" false in
    let! sc := build_default b in
    let! c := read_coordinates (fs_exists fs nodes) (fs_frame fs nodes tab 0) "node" "X" "Y" false in
    let c := match c with None => generate_coordinates spring sc | Some c => c end in
    let! d := load_flow_transportation fs dataset (sc_edges sc) in
    Ok (sc, Some c, FlowDict d).

(** [np.sign].  (wsn_loader.py 54.) *)
Definition sign (q : Q) : Q := if Qle_bool 0 q then (if Qle_bool q 0 then 0%Q else 1%Q) else (- 1)%Q.

(** wsn_loader.py, line 55: [-hr * sign * np.abs(flow_rate) ** 1.852] with numpy broadcasting of one
    vector against another. *)
Definition head_loss (hr q : Q) : Q := (- hr * sign q * pow1852 (if Qle_bool 0 q then q else - q))%Q.
(** wsn_loader.py 55: for arrays. *)
Definition head_losses (hr flow_rate : list Q) : res (list Q) :=
  if Nat.eqb (length hr) (length flow_rate) then
    Ok (map (fun x => head_loss (fst x) (snd x)) (combine hr flow_rate))
  else
    match flow_rate with
    | [q] => Ok (map (fun h => head_loss h q) hr)
    | _ => match hr with
           | [h] => Ok (map (head_loss h) flow_rate)
           | _ => Raise ValueError
           end
    end.

(** wsn_loader.py, lines 11-60: load_wsn_data.  [hr[:] = 1] (line 56) changes only the unpickled array,
    and raises IndexError if squeezing (line 50) left a zero-dimensional array. *)
Definition load_wsn_data : res loaded :=
  let! w := fs_pickle fs "data/wsn/water_network.pkl" in
  let! ne := read_B1 (w_B1 w) in
  let (nodes, edges) := ne in
  let! sc := build_default (mkBuilder nodes edges [] []) in
  let c := generate_coordinates spring sc in
  let! fl := head_losses (w_hr w) (w_flow_rate w) in
  if Nat.eqb (length (w_hr w)) 1 then Raise IndexError
  else Ok (sc, Some c, FlowArr (w_head w ++ fl)%list).

(** transportation_loader.py, lines 29-39: list_transportation_datasets. *)
Definition list_transportation_datasets : res (list string) :=
  let! datasets := fs_listdir fs data_folder in
  Ok (filter (fun d => negb (py_in String.eqb d [".DS_Store"; "README.md"])) datasets).

(** dataset_loader.py, lines 13-18: DATASETS. *)
Definition registry : dict string (res loaded) :=
  [("paper", load_paper_data); ("forex", load_forex_data);
   ("lastfm-1k-artist", load_lastfm_1k_artist); ("wsn", load_wsn_data)].

(** dataset_loader.py, lines 21-30: list_datasets. *)
Definition list_datasets : res (list string) :=
  let! t := list_transportation_datasets in
  Ok (t ++ dkeys registry)%list.

(** dataset_loader.py, lines 33-74: load_dataset.  Of the summary only the maximum dimension
    (simplicial_complex.py, lines 58-66) can raise. *)
Definition load_dataset (dataset : string) : res (SC * coords * flow) :=
  let! datasets := list_datasets in
  if negb (py_in String.eqb dataset datasets) then Raise ValueError
  else
    let! r :=
      match dget String.eqb registry dataset with
      | Ok load => load
      | Raise _ => load_transportation_dataset dataset
      end in
    let '(sc, c, f) := r in
    match c with
    | None => Raise AssertionError
    | Some c =>
        if negb (Nat.eqb (length (sc_nodes sc)) (length c)) then Raise AssertionError
        else
          let! _ := max_dim sc in
          Ok (sc, c, f)
    end.

End Loaders.
