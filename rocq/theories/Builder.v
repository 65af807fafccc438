(** * Model of pytspl/simplicial_complex/scbuilder.py

    Definitions only.  Line numbers refer to that file unless another file is named.  The networkx
    calls of [SCBuilder.triangles] (scbuilder.py 43-45) are modelled after the networkx sources
    (Graph.add_edges_from; algorithms/clique.py, enumerate_all_cliques), which are not part of
    /repo. *)

From Coq Require Import ZArith String QArith List Bool.
From Verif Require Import Py Complex.
Import ListNotations.
Open Scope Z_scope.

(** scbuilder.py 43-44: nodes of the graph in the order in which add_edges_from first meets them. *)
Fixpoint first_seen (seen l : list Z) : list Z :=
  match l with
  | [] => []
  | x :: l' => if py_in Z.eqb x seen then first_seen seen l'
               else x :: first_seen (x :: seen) l'
  end.
(** scbuilder.py 43-44: the nodes of the graph. *)
Definition graph_nodes (edges : list (Z * Z)) : list Z :=
  first_seen [] (flat_map (fun e => [fst e; snd e]) edges).

(** scbuilder.py 44: [v in G[u]]. *)
Definition has_edge (edges : list (Z * Z)) (u v : Z) : bool :=
  py_in pair_eqb (u, v) edges || py_in pair_eqb (v, u) edges.

(** enumerate_all_cliques, first loop: [nbrs[u]] is the set of neighbours of u that are not in
    [index] once u has been entered into it.  A set is represented by its members in graph order.
    (Called at scbuilder.py 45.) *)
Fixpoint nbrs_table (V : list Z) (edges : list (Z * Z)) (index l : list Z) : dict Z (list Z) :=
  match l with
  | [] => []
  | u :: l' =>
      let index := u :: index in
      (u, filter (fun v => has_edge edges u v && negb (py_in Z.eqb v index)) V)
      :: nbrs_table V edges index l'
  end.

(** [nbrs[u]]; every u looked up is a node of the graph.  (Called at scbuilder.py 45.) *)
Definition nbrs_of (nbrs : dict Z (list Z)) (u : Z) : list Z :=
  match dget Z.eqb nbrs u with Ok s => s | Raise _ => [] end.

(** [sorted(s, key=index.__getitem__)]: the members of [s] in graph order.  (Called at scbuilder.py 45.) *)
Definition sort_by_index (V s : list Z) : list Z := filter (fun v => py_in Z.eqb v s) V.

(** enumerate_all_cliques, inner for loop: the pairs appended to the queue.  (Called at scbuilder.py 45.) *)
Fixpoint extensions (nbrs : dict Z (list Z)) (base cnbrs : list Z) : list (list Z * list Z) :=
  match cnbrs with
  | [] => []
  | u :: rest =>
      (base ++ [u], filter (fun v => py_in Z.eqb v (nbrs_of nbrs u)) rest)
      :: extensions nbrs base rest
  end.

(** enumerate_all_cliques, while loop.  [fuel] bounds the number of iterations; [queue_work] below
    is always enough (BuilderFacts.bfs_fuel), so running out never happens.  (Called at scbuilder.py 45.) *)
Fixpoint clique_loop (nbrs : dict Z (list Z)) (fuel : nat) (queue : list (list Z * list Z))
  : list (list Z) :=
  match fuel, queue with
  | O, _ => []
  | _, [] => []
  | S fuel', (base, cnbrs) :: queue' =>
      base :: clique_loop nbrs fuel' (queue' ++ extensions nbrs base cnbrs)
  end.

(** scbuilder.py 45: a bound on the number of iterations (no counterpart in the code). *)
Definition queue_work (queue : list (list Z * list Z)) : nat :=
  nsum (map (fun bc => Nat.pow 2 (length (snd bc))) queue).

(** scbuilder.py 45: enumerate_all_cliques of the graph with these edges. *)
Definition enumerate_all_cliques (edges : list (Z * Z)) : list (list Z) :=
  let V := graph_nodes edges in
  let nbrs := nbrs_table V edges [] V in
  let queue := map (fun u => ([u], sort_by_index V (nbrs_of nbrs u))) V in
  clique_loop nbrs (queue_work queue) queue.

(** scbuilder.py 36-49: triangles. *)
Definition triangles (edges : list (Z * Z)) : list (list Z) :=
  let triangle_nodes := filter (fun x => Nat.eqb (length x) 3) (enumerate_all_cliques edges) in
  map (py_sorted Z.leb) triangle_nodes.

(** [self.edge_features[(u, v)][name]].  (scbuilder.py 69-75.) *)
Definition edge_feature (ef : dict (Z * Z) fdict) (u v : Z) (name : string) : res fval :=
  let! f := dget pair_eqb ef (u, v) in dget String.eqb f name.

(** Python's [m1 and m2] where the right operand is only evaluated if the left one is truthy.
    (scbuilder.py 69-71 and 78-80.) *)
Definition and_then (m1 m2 : res bool) : res bool := let! b := m1 in if b then m2 else Ok false.

(** scbuilder.py 68-82: loop body of triangles_dist_based; the three lookups of lines 74-76 are repeated
    after the truthiness test and use the same keys. *)
Definition keep_triangle (ef : dict (Z * Z) fdict) (name : string) (epsilon : Q) (t : list Z)
  : res bool :=
  match t with
  | [a; b; c] =>
      let! all_truthy :=
        and_then (let! x := edge_feature ef a b name in Ok (truthy x))
       (and_then (let! x := edge_feature ef b c name in Ok (truthy x))
                 (let! x := edge_feature ef a c name in Ok (truthy x))) in
      if all_truthy then
        let! dist_ab := edge_feature ef a b name in
        let! dist_ac := edge_feature ef b c name in
        let! dist_bc := edge_feature ef a c name in
        and_then (flt dist_ab epsilon) (and_then (flt dist_ac epsilon) (flt dist_bc epsilon))
      else Ok false
  | _ => Raise ValueError
  end.

(** scbuilder.py 51-84: triangles_dist_based.  [epsilon] is a finite number. *)
Definition triangles_dist_based (edges : list (Z * Z)) (ef : dict (Z * Z) fdict)
    (name : string) (epsilon : Q) : res (list (list Z)) :=
  foldM (fun acc t => let! k := keep_triangle ef name epsilon t in
                      Ok (if k then acc ++ [t] else acc))
        [] (triangles edges).

(** scbuilder.py 86-132: to_simplicial_complex. *)
Definition to_simplicial_complex (nodes : list Z) (edges : list (Z * Z))
    (node_features : dict Z fdict) (edge_features : dict (Z * Z) fdict)
    (condition dist_col_name : string) (dist_threshold : Q) (tris : option (list (list Z)))
  : res SC :=
  let! ts :=
    match tris with
    | Some ts => Ok ts
    | None =>
        if String.eqb condition "all" then Ok (triangles edges)
        else triangles_dist_based edges edge_features dist_col_name dist_threshold
    end in
  make_sc nodes edges ts node_features edge_features.
