(** * Model of pytspl/simplicial_complex/simplicial_complex.py (combinatorial part)

    Definitions only.  Line numbers refer to that file unless another file is named. *)

From Coq Require Import ZArith String List Bool.
From Verif Require Import Py.
Import ListNotations.
Open Scope Z_scope.

(** Attributes of a SimplicialComplex object (simplicial_complex.py 48-56).  Nodes are ints; an edge is a pair of
    ints (the code would raise on a tuple of another length; such edges are not modelled); a
    triangle is a sequence of ints of any length.  Aliasing of the argument lists is modelled
    separately (Sharing.v). *)
Record SC := mkSC {
  sc_nodes : list Z;
  sc_edges : list (Z * Z);
  sc_triangles : list (list Z);
  sc_node_features : dict Z fdict;
  sc_edge_features : dict (Z * Z) fdict;
  sc_B1 : arr2;
  sc_B2 : arr2 }.

(** simplicial_complex.py 68-85, loop body 81-84. *)
Definition B1_step (B : arr2) (je : nat * (Z * Z)) : res arr2 :=
  let '(j, (from_node, to_node)) := je in
  let! B := aset B from_node j (-1) in
  aset B to_node j 1.

(** simplicial_complex.py 68-85: edges_to_B1. *)
Definition edges_to_B1 (edges : list (Z * Z)) (num_nodes : nat) : res arr2 :=
  foldM B1_step (azeros num_nodes (length edges)) (enumerate edges).

(** simplicial_complex.py 101-112: index of a vertex pair, tried in the given direction first. *)
Definition edge_index (edges : list (Z * Z)) (u v : Z) : res nat :=
  try_except (py_index pair_eqb edges (u, v)) ValueError (py_index pair_eqb edges (v, u)).

(** simplicial_complex.py 99-116: loop body.  Tuple unpacking of a sequence that does not have three members
    raises ValueError. *)
Definition B2_step (edges : list (Z * Z)) (B : arr2) (jt : nat * list Z) : res arr2 :=
  let '(j, triangle) := jt in
  match triangle with
  | [a; b; c] =>
      let! index_a := edge_index edges a b in
      let! index_b := edge_index edges b c in
      let! index_c := edge_index edges a c in
      let! B := aset B (Z.of_nat index_a) j 1 in
      let! B := aset B (Z.of_nat index_c) j (-1) in
      aset B (Z.of_nat index_b) j 1
  | _ => Raise ValueError
  end.

(** simplicial_complex.py 87-118: triangles_to_B2. *)
Definition triangles_to_B2 (triangles : list (list Z)) (edges : list (Z * Z)) : res arr2 :=
  foldM (B2_step edges) (azeros (length edges) (length triangles)) (enumerate triangles).

(** simplicial_complex.py 28-56: __init__. *)
Definition make_sc (nodes : list Z) (edges : list (Z * Z)) (triangles : list (list Z))
    (node_features : dict Z fdict) (edge_features : dict (Z * Z) fdict) : res SC :=
  let! B1 := edges_to_B1 edges (length nodes) in
  let! B2 := triangles_to_B2 triangles edges in
  Ok (mkSC nodes edges triangles node_features edge_features B1 B2).

(** simplicial_complex.py 140-143: shape. *)
Definition shape (sc : SC) : nat * nat * nat :=
  (length (sc_nodes sc), length (sc_edges sc), length (sc_triangles sc)).

(** simplicial_complex.py 150-161: simplices; tuples and lists are both rendered as lists. *)
Definition simplices (sc : SC) : list (list Z) :=
  map (fun node => [node]) (sc_nodes sc)
  ++ map (fun e => [fst e; snd e]) (sc_edges sc)
  ++ sc_triangles sc.

(** simplicial_complex.py 145-148: max_dim; max of an empty sequence raises ValueError. *)
Definition max_dim (sc : SC) : res Z :=
  match map (@length Z) (simplices sc) with
  | [] => Raise ValueError
  | n :: ns => Ok (Z.of_nat (fold_left Nat.max ns n) - 1)
  end.

(** simplicial_complex.py 174-191: get_edge_features with a name given.  [None] and the empty string are falsy. *)
Definition get_edge_features_named (sc : SC) (name : string) : res (dict (Z * Z) fval) :=
  mapM (fun kv => let! v := dget String.eqb (snd kv) name in Ok (fst kv, v))
       (sc_edge_features sc).

(** simplicial_complex.py 174-191: get_edge_features. *)
Definition get_edge_features (sc : SC) (name : option string)
  : res (dict (Z * Z) fdict + dict (Z * Z) fval) :=
  match name with
  | None | Some EmptyString => Ok (inl (sc_edge_features sc))
  | Some n => let! d := get_edge_features_named sc n in Ok (inr d)
  end.

(** simplicial_complex.py 163-168: edge_feature_names. *)
Definition edge_feature_names (sc : SC) : list string :=
  match sc_edge_features sc with
  | [] => []
  | (_, f) :: _ => dkeys f
  end.

(** simplicial_complex.py 170-172: get_node_features. *)
Definition get_node_features (sc : SC) : dict Z fdict := sc_node_features sc.

(** simplicial_complex.py 193-210: get_faces, for vertices that are ints.  [range(n, 0, -1)] is the list
    n, ..., 1. *)
Definition get_faces (simplex : list Z) : list (list Z) :=
  let num_of_nodes := length simplex in
  let face_set :=
    py_set list_eqb
      (flat_map (fun r => map (py_sorted Z.leb) (combinations simplex r))
                (rev (seq 1 num_of_nodes))) in
  let k := Z.of_nat (length simplex) - 1 in
  py_sorted lex_leb (filter (fun face => Z.of_nat (length face) =? k) face_set).

(** simplicial_complex.py 228-247: incidence_matrix.  [np.ones(n)] is a 1-d array; tocsr (216-226) keeps the
    entries. *)
Definition incidence_matrix (sc : SC) (rank : Z) : res pymat :=
  if rank =? 0 then Ok (Vec (repeat 1 (length (sc_nodes sc))))
  else if rank =? 1 then Ok (Csr (sc_B1 sc))
  else if rank =? 2 then Ok (Csr (sc_B2 sc))
  else Raise ValueError.

(** simplicial_complex.py 259: [np.where(B1[:, col] != 0)[0]]. *)
Definition col_nonzero (B : arr2) (col : nat) : list nat :=
  filter (fun i => negb (at2 B i col =? 0)) (seq 0 (sh0 B)).

(** simplicial_complex.py 258-262: loop body of adjacency_matrix. *)
Definition adj_step (B1 : arr2) (A : arr2) (col : nat) : res arr2 :=
  let nz := col_nonzero B1 col in
  let! from_node := py_nth nz 0 in
  let! to_node := py_nth nz 1 in
  let! A := aset A (Z.of_nat from_node) to_node 1 in
  aset A (Z.of_nat to_node) from_node 1.

(** simplicial_complex.py 249-265: adjacency_matrix. *)
Definition adjacency_matrix (sc : SC) : res pymat :=
  let B1 := sc_B1 sc in
  let! A := foldM (adj_step B1) (azeros (sh0 B1) (sh0 B1)) (seq 0 (sh1 B1)) in
  Ok (Csr A).

(** simplicial_complex.py 267-275: laplacian_matrix. *)
Definition laplacian_matrix (sc : SC) : pymat :=
  Csr (amul (sc_B1 sc) (atr (sc_B1 sc))).

(** simplicial_complex.py 277-297: lower_laplacian_matrix. *)
Definition lower_laplacian_matrix (sc : SC) (rank : Z) : res pymat :=
  if rank =? 1 then Ok (Csr (amul (atr (sc_B1 sc)) (sc_B1 sc)))
  else if rank =? 2 then Ok (Csr (amul (atr (sc_B2 sc)) (sc_B2 sc)))
  else Raise ValueError.

(** simplicial_complex.py 299-318: upper_laplacian_matrix. *)
Definition upper_laplacian_matrix (sc : SC) (rank : Z) : res pymat :=
  if rank =? 0 then Ok (laplacian_matrix sc)
  else if rank =? 1 then Ok (Csr (amul (sc_B2 sc) (atr (sc_B2 sc))))
  else Raise ValueError.

(** csr + csr.  (simplicial_complex.py 336-338.) *)
Definition csr_add (M N : pymat) : res pymat :=
  match M, N with
  | Csr A, Csr B => Ok (Csr (aadd A B))
  | _, _ => Raise TypeError
  end.

(** simplicial_complex.py 320-340: hodge_laplacian_matrix. *)
Definition hodge_laplacian_matrix (sc : SC) (rank : Z) : res pymat :=
  if rank =? 0 then Ok (laplacian_matrix sc)
  else if rank =? 1 then
    let! l := lower_laplacian_matrix sc rank in
    let! u := upper_laplacian_matrix sc rank in
    csr_add l u
  else Raise ValueError.

(** simplicial_complex.py 212-214: identity_matrix (note: sized by the number of nodes). *)
Definition identity_matrix (sc : SC) : pymat :=
  Dense (mkArr (length (sc_nodes sc)) (length (sc_nodes sc))
           (fun i j => if Nat.eqb i j then 1 else 0)).

(** networkx Graph keys after [add_nodes_from nodes] and [add_edges_from edges]: insertion order,
    each once.  (simplicial_complex.py 133-135; plot.py 49-50.) *)
Definition add_key (ks : list Z) (k : Z) : list Z :=
  if py_in Z.eqb k ks then ks else ks ++ [k].
(** simplicial_complex.py 133-135; plot.py 49-50: all keys of the graph. *)
Definition graph_keys (nodes : list Z) (edges : list (Z * Z)) : list Z :=
  fold_left (fun ks e => add_key (add_key ks (fst e)) (snd e)) edges
            (fold_left add_key nodes []).

(** simplicial_complex.py 120-138: generate_coordinates.  [nx.spring_layout] is the parameter [layout], assigning
    a position to each node of the graph. *)
Definition generate_coordinates {P : Type} (layout : list Z -> dict Z P) (sc : SC) : dict Z P :=
  layout (graph_keys (sc_nodes sc) (sc_edges sc)).
