(** * Model of pytspl/io/network_reader.py

    Definitions only.  Line numbers refer to that file unless another file is named.

    Opening and parsing a file (pd.read_csv) is outside the model: every reader takes the outcome of
    its read_csv call as an argument of type [res frame] (a table, or the exception pandas raised:
    FileNotFoundError for a missing file, ValueError for an empty or ragged one), and the outcome of
    os.path.exists as a boolean.  Column names of a table are assumed to be distinct (pandas renames
    duplicates when it reads a file; two names that only differ in surrounding blanks are not
    considered).  Numbers in a table are exact rationals; infinities do not occur. *)

From Coq Require Import ZArith String Ascii QArith List Bool.
From Verif Require Import Py Complex.
Import ListNotations.
Open Scope Z_scope.

(** ** Pandas vocabulary *)

(** A DataFrame: column names and rows of cells.  (network_reader.py 93, 152, 273 and 303.) *)
Record frame := mkFrame { f_cols : list string; f_rows : list (list fval) }.

(** [df.iloc[i]] / a row yielded by iterrows: a mapping from column names to cells.  (network_reader.py
    43 and 117.) *)
Definition row_dict (df : frame) (r : list fval) : fdict := combine (f_cols df) r.

(** [row[col]]; KeyError if there is no such column.  (network_reader.py 45-46.) *)
Definition row_get (df : frame) (r : list fval) (col : string) : res fval :=
  dget String.eqb (row_dict df r) col.

(** [row[cols].to_dict()]; KeyError if some column is missing.  (network_reader.py 117-119 and 168-170.) *)
Definition row_select (df : frame) (r : list fval) (cols : list string) : res fdict :=
  let! kvs := mapM (fun c => let! v := row_get df r c in Ok (c, v)) cols in
  Ok (dict_of String.eqb kvs).

(** [df[col]] as the list of its cells.  (network_reader.py 278 and 283-284.) *)
Definition column (df : frame) (col : string) : res (list fval) :=
  if py_in String.eqb col (f_cols df) then mapM (fun r => row_get df r col) (f_rows df)
  else Raise KeyError.

(** [df.empty].  (transportation_loader.py 55.) *)
Definition frame_empty (df : frame) : bool :=
  match f_cols df, f_rows df with
  | [], _ => true
  | _, [] => true
  | _, _ => false
  end.

(** [s.strip()] for the ASCII white-space characters.  (network_reader.py 95 and 274.) *)
Definition is_blank (c : ascii) : bool :=
  let n := nat_of_ascii c in
  (Nat.eqb n 32 || (Nat.leb 9 n && Nat.leb n 13) || (Nat.leb 28 n && Nat.leb n 31))%bool.
(** [s.lstrip()]; network_reader.py 95 and 274. *)
Fixpoint lstrip (s : list ascii) : list ascii :=
  match s with
  | [] => []
  | c :: s' => if is_blank c then lstrip s' else s
  end.
(** [s.strip()]; network_reader.py 95 and 274. *)
Definition py_strip (s : string) : string :=
  string_of_list_ascii (rev (lstrip (rev (lstrip (list_ascii_of_string s))))).

(** [df.columns = [s.strip() for s in df.columns]].  (network_reader.py 95 and 274.) *)
Definition strip_columns (df : frame) : frame := mkFrame (map py_strip (f_cols df)) (f_rows df).

(** [df.drop(names, axis=1)]: KeyError unless every name is a column.  (network_reader.py 98.) *)
Definition drop_columns (df : frame) (names : list string) : res frame :=
  if forallb (fun c => py_in String.eqb c (f_cols df)) names then
    let kept := fun kv : string * fval => negb (py_in String.eqb (fst kv) names) in
    Ok (mkFrame (filter (fun c => negb (py_in String.eqb c names)) (f_cols df))
                (map (fun r => map snd (filter kept (row_dict df r))) (f_rows df)))
  else Raise KeyError.

(** [int(x)] of a table cell: truncation towards zero; ValueError for nan.  How a string is parsed
    is left open ([atoi]); ValueError if it is not a number.  (network_reader.py 45-46.) *)
Definition py_int (atoi : string -> option Z) (v : fval) : res Z :=
  match v with
  | FNum q => Ok (Z.quot (Qnum q) (Zpos (Qden q)))
  | FNaN => Raise ValueError
  | FStr s => match atoi s with Some z => Ok z | None => Raise ValueError end
  end.

(** [max] of a set of ints; ValueError if it is empty.  (network_reader.py 60 and 238.) *)
Definition py_max (l : list Z) : res Z :=
  match l with
  | [] => Raise ValueError
  | x :: l' => Ok (fold_left Z.max l' x)
  end.

(** ** The builder object (pytspl/simplicial_complex/scbuilder.py, lines 19-34) *)
Record builder := mkBuilder {
  b_nodes : list Z;
  b_edges : list (Z * Z);
  b_node_features : dict Z fdict;
  b_edge_features : dict (Z * Z) fdict
}.

(** ** Reading edge tables *)

(** network_reader.py 43-58: loop body.  The set [nodes] is a list here; only its maximum is used. *)
Definition extract_step (atoi : string -> option Z) (df : frame) (src_col dest_col : string)
    (start_index_zero : bool) (st : list Z * list (Z * Z)) (row : list fval)
  : res (list Z * list (Z * Z)) :=
  let (nodes, edges) := st in
  let! src := row_get df row src_col in
  let! from_node := py_int atoi src in
  let! dest := row_get df row dest_col in
  let! to_node := py_int atoi dest in
  let from_node := if start_index_zero then from_node else from_node - 1 in
  let to_node := if start_index_zero then to_node else to_node - 1 in
  let nodes := nodes ++ [from_node; to_node] in
  if py_in pair_eqb (from_node, to_node) edges || py_in pair_eqb (to_node, from_node) edges
  then Ok (nodes, edges)
  else Ok (nodes, edges ++ [(from_node, to_node)]).

(** network_reader.py 24-64: _extract_nodes_edges. *)
Definition extract_nodes_edges (atoi : string -> option Z) (df : frame) (src_col dest_col : string)
    (start_index_zero : bool) : res (list Z * list (Z * Z)) :=
  let! st := foldM (extract_step atoi df src_col dest_col start_index_zero) ([], []) (f_rows df) in
  let (nodes, edges) := st in
  let! m := py_max nodes in
  Ok (py_range (Z.to_nat (m + 1)), py_sorted pair_leb edges).

(** network_reader.py 113-119 and 166-170: the i-th edge gets the feature cells of the i-th row. *)
Definition edge_features_of (df : frame) (feature_cols : list string) (edges : list (Z * Z))
  : res (dict (Z * Z) fdict) :=
  match feature_cols with
  | [] => Ok []
  | _ :: _ =>
      foldM (fun ef ie =>
               let! row := py_nth (f_rows df) (Z.of_nat (fst ie)) in
               let! f := row_select df row feature_cols in
               Ok (dset pair_eqb ef (snd ie) f))
            [] (enumerate edges)
  end.

(** network_reader.py 67-126: read_tntp. *)
Definition read_tntp (atoi : string -> option Z) (file : res frame) (src_col dest_col : string)
    (start_index_zero : bool) : res builder :=
  let! df := file in
  let df := strip_columns df in
  let! df := drop_columns df ["~"%string; ";"%string] in
  let! ne := extract_nodes_edges atoi df src_col dest_col start_index_zero in
  let (nodes, edges) := ne in
  let feature_cols :=
    filter (fun c => negb (py_in String.eqb c [src_col; dest_col])) (f_cols df) in
  let! ef := edge_features_of df feature_cols edges in
  Ok (mkBuilder nodes edges [] ef).

(** network_reader.py 129-177: read_csv; [feature_cols = None] is the default, and [len(None)] a TypeError. *)
Definition read_csv (atoi : string -> option Z) (file : res frame) (src_col dest_col : string)
    (feature_cols : option (list string)) (start_index_zero : bool) : res builder :=
  let! df := file in
  let! ne := extract_nodes_edges atoi df src_col dest_col start_index_zero in
  let (nodes, edges) := ne in
  let! ef :=
    match feature_cols with
    | None => Raise TypeError
    | Some cols => edge_features_of df cols edges
    end in
  Ok (mkBuilder nodes edges [] ef).

(** ** Reading incidence matrices *)

(** [cell == z] and [cell != z] of numpy; nan and strings differ from every number.  (network_reader.py
    201 and 230-231.) *)
Definition cell_is (z : Z) (v : fval) : bool :=
  match v with FNum q => Qeq_bool q (inject_Z z) | _ => false end.

(** [np.where(mask)[0]] of a column: ascending positions.  (network_reader.py 201 and 230-231.) *)
Definition np_where (f : fval -> bool) (col : list fval) : list nat :=
  map fst (filter (fun iv => f (snd iv)) (enumerate col)).

(** [M[:, j]] of a rectangular table.  (network_reader.py 200 and 229.) *)
Definition table_col (M : list (list fval)) (j : nat) : list fval := map (fun r => nth j r FNaN) M.
(** Number of columns; network_reader.py 195 and 224. *)
Definition table_width (M : list (list fval)) : nat :=
  match M with [] => O | r :: _ => length r end.

(** network_reader.py 199-205: loop body of read_B2 for one column of the transposed table, i.e. one row of the
    table.  [edges[ones]] raises IndexError for a position beyond the last edge. *)
Definition read_triangle (edges : list (Z * Z)) (row : list fval) : res (list Z) :=
  let ones := np_where (fun v => negb (cell_is 0 v)) row in
  let! es := mapM (fun i => py_nth edges (Z.of_nat i)) ones in
  Ok (py_sorted Z.leb (py_set Z.eqb (flat_map (fun e => [fst e; snd e]) es))).

(** network_reader.py 180-207: read_B2.  The isinstance assertion of line 192 holds at the only call. *)
Definition read_B2 (file : res (list (list fval))) (edges : list (Z * Z)) : res (list (list Z)) :=
  let! B2t := file in
  mapM (read_triangle edges) B2t.

(** network_reader.py 229-236 (and pytspl/io/data_loaders/wsn_loader.py, lines 33-40): the edge of a column. *)
Definition read_edge (col : list fval) : res (Z * Z) :=
  let! from_node := py_nth (np_where (cell_is (-1)) col) 0 in
  let! to_node := py_nth (np_where (cell_is 1) col) 0 in
  Ok (Z.of_nat from_node, Z.of_nat to_node).

(** network_reader.py 225-239: edges of B1 in column order and the largest endpoint. *)
Definition read_B1 (B1 : list (list fval)) : res (list Z * list (Z * Z)) :=
  let! edges := mapM (fun j => read_edge (table_col B1 j)) (List.seq 0 (table_width B1)) in
  let! m := py_max (flat_map (fun e => [fst e; snd e]) edges) in
  Ok (py_range (Z.to_nat (m + 1)), edges).

(** network_reader.py 210-244: read_B1_B2.  The builder gets its default (empty) feature dictionaries. *)
Definition read_B1_B2 (B1_file B2_file : res (list (list fval)))
  : res (builder * list (list Z)) :=
  let! B1 := B1_file in
  let! ne := read_B1 B1 in
  let (nodes, edges) := ne in
  let edges := py_sorted pair_leb edges in
  let! triangles := read_B2 B2_file edges in
  Ok (mkBuilder nodes edges [] [], triangles).

(** ** Coordinates and flow *)

(** [==] on dictionary keys: numbers by value, strings by content.  Two nan keys are different
    float objects and so never the same key.  (network_reader.py 281-286.) *)
Definition key_eqb (a b : fval) : bool :=
  match a, b with
  | FNum p, FNum q => Qeq_bool p q
  | FStr s, FStr t => String.eqb s t
  | _, _ => false
  end.

(** [cell - 1].  (network_reader.py 278.) *)
Definition cell_dec (v : fval) : res fval :=
  match v with
  | FNum q => Ok (FNum (q - 1)%Q)
  | FNaN => Ok FNaN
  | FStr _ => Raise TypeError
  end.

(** network_reader.py 247-286: read_coordinates; [None] if the file does not exist. *)
Definition read_coordinates (exists_ : bool) (file : res frame) (node_id_col x_col y_col : string)
    (start_index_zero : bool) : res (option (dict fval (fval * fval))) :=
  if negb exists_ then Ok None
  else
    let! df := file in
    let df := strip_columns df in
    let! ids := column df node_id_col in
    let! ids := if start_index_zero then Ok ids else mapM cell_dec ids in
    let! xs := column df x_col in
    let! ys := column df y_col in
    Ok (Some (dict_of key_eqb (combine ids (combine xs ys)))).

(** network_reader.py 289-307: read_flow; an empty DataFrame if the file does not exist. *)
Definition read_flow (exists_ : bool) (file : res frame) : res frame :=
  if exists_ then file else Ok (mkFrame [] []).
