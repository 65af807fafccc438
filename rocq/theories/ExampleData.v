(** * Concrete complexes used by the examples *)

From Coq Require Import ZArith String List.
From Verif Require Import Py Complex.
Import ListNotations.
Open Scope Z_scope.

(** The complex of /repo/pytspl/data/paper_data (tests/conftest.py, fixture [sc]). *)
Definition paper_nodes : list Z := [0; 1; 2; 3; 4; 5; 6].
Definition paper_edges : list (Z * Z) :=
  [(0,1); (0,2); (0,3); (1,2); (2,3); (2,5); (3,4); (4,5); (4,6); (5,6)].
Definition paper_triangles : list (list Z) := [[0;1;2]; [0;2;3]; [4;5;6]].

(** One filled triangle. *)
Definition tri_nodes : list Z := [0; 1; 2].
Definition tri_edges : list (Z * Z) := [(0,1); (0,2); (1,2)].
Definition tri_triangles : list (list Z) := [[0;1;2]].

(** The same triangle with one edge stored the other way round; ascending as an edge list. *)
Definition twisted_edges : list (Z * Z) := [(0,1); (0,2); (2,1)].
