(** * Model of pytspl/io/sc_generator.py

    Definitions only.

    Random numbers: [draw k] is the k-th number drawn from the generator that networkx seeds with the
    given seed, [weight k] the k-th number random.random() returns after the call started (sc_generator.py 29; it
    uses Python's global generator, which the seed does not touch).  Both are exact rationals here. *)

From Coq Require Import ZArith QArith String List Bool.
From Verif Require Import Py Complex Builder Reader Loader.
Import ListNotations.
Open Scope Z_scope.

(** [itertools.combinations(range(n), 2)].  (sc_generator.py 24.) *)
Definition node_pairs (n : nat) : list (Z * Z) :=
  flat_map (fun c => match c with [u; v] => [(u, v)] | _ => [] end) (combinations (py_range n) 2).

(** sc_generator.py 24: the edges of nx.erdos_renyi_graph(n, p, seed, directed=False) as listed by G.edges():
    ascending pairs in lexicographic order.  For p <= 0 networkx returns the empty and for p >= 1 the
    complete graph without drawing.  n is not negative. *)
Definition erdos_renyi (n : nat) (p : Q) (draw : nat -> Q) : list (Z * Z) :=
  if Qle_bool p 0 then []
  else if Qle_bool 1 p then node_pairs n
  else map snd (filter (fun ie => negb (Qle_bool p (draw (fst ie)))) (enumerate (node_pairs n))).

(** sc_generator.py 29-32 and 38-41: the weight of the i-th edge becomes its only feature. *)
Definition weight_features (weight : nat -> Q) (edges : list (Z * Z)) : dict (Z * Z) fdict :=
  fold_left (fun d ie => dset pair_eqb d (snd ie) [("distance"%string, FNum (weight (fst ie)))])
            (enumerate edges) [].

(** sc_generator.py 8-50: generate_random_simplicial_complex. *)
Definition generate_random_simplicial_complex
    (spring : list Z -> list (Z * Z) -> list (fval * fval))
    (draw weight : nat -> Q) (n : nat) (p dist_threshold : Q) : res (SC * coords) :=
  let nodes := py_range n in
  let edges := erdos_renyi n p draw in
  let ef := weight_features weight edges in
  let! sc := to_simplicial_complex nodes edges [] ef "distance" "distance" dist_threshold None in
  Ok (sc, combine (map (fun z => FNum (inject_Z z)) nodes) (spring nodes edges)).
