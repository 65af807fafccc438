(** * Model of the feature dictionaries as shared objects

    pytspl/simplicial_complex/scbuilder.py, lines 19-34 and 124-130, and
    pytspl/simplicial_complex/simplicial_complex.py, lines 28-53 and 170-191.  Definitions only.

    A Python default argument is evaluated once, when the function is defined, so the four default
    dictionaries of the two constructors are four objects that live as long as the program.  The state is a
    heap of dictionaries and the list of builders and complexes created so far; objects store references to
    dictionaries.  Node, edge and triangle lists and the incidence matrices are left out. *)

From Coq Require Import ZArith String List Bool.
From Verif Require Import Py.
Import ListNotations.
Local Open Scope nat_scope.

(** A feature dictionary: from keys (nodes or edges, both written as lists of integers) to features.
    (scbuilder.py 33-34; simplicial_complex.py 52-53.) *)
Definition fmap := dict (list Z) fdict.

(** The two classes: scbuilder.py 15 and simplicial_complex.py 25. *)
Inductive kind := KBuilder | KComplex.

(** The attributes of an object: scbuilder.py 33-34; simplicial_complex.py 52-53. *)
Record obj := mkObj { o_kind : kind; o_nodes : nat; o_edges : nat }.

(** The dictionaries and objects made so far by calls of scbuilder.py 19-34, 86-132 and
    simplicial_complex.py 28-56. *)
Record world := mkWorld { w_heap : list fmap; w_objs : list obj }.

(** References of the default arguments: scbuilder.py, lines 23-24; simplicial_complex.py, lines 33-34. *)
Definition default_node (k : kind) : nat := match k with KBuilder => 0 | KComplex => 2 end.
(** scbuilder.py 24; simplicial_complex.py 34. *)
Definition default_edge (k : kind) : nat := match k with KBuilder => 1 | KComplex => 3 end.

(** When the modules have been imported.  (The defaults of scbuilder.py 23-24 and simplicial_complex.py
    33-34 exist from then on.) *)
Definition initial : world := mkWorld [[]; []; []; []] [].

(** What a program can do:
    - create a dictionary,
    - call a constructor, passing dictionaries or leaving out the arguments,
    - call to_simplicial_complex on a builder,
    - assign one entry of obj.node_features or obj.edge_features.  (scbuilder.py 19-34 and 124-130;
    simplicial_complex.py 28-53.) *)
Inductive op :=
| NewDict (d : fmap)
| New (k : kind) (nf ef : option nat)
| Build (b : nat)
| SetNode (o : nat) (key : list Z) (v : fdict)
| SetEdge (o : nat) (key : list Z) (v : fdict).

(** A dictionary passed to scbuilder.py 19 or simplicial_complex.py 28 exists. *)
Definition ref_ok (w : world) (r : option nat) : bool :=
  match r with None => true | Some r => Nat.ltb r (length (w_heap w)) end.

(** An argument left out is the default: scbuilder.py 23-24; simplicial_complex.py 33-34. *)
Definition pass (d : nat) (r : option nat) : nat := match r with None => d | Some r => r end.

(** Change of one entry of the heap, for assignments to the attributes of scbuilder.py 33-34 and
    simplicial_complex.py 52-53. *)
Fixpoint update {A} (l : list A) (i : nat) (f : A -> A) : list A :=
  match l, i with
  | [], _ => []
  | x :: l', O => f x :: l'
  | x :: l', S i' => x :: update l' i' f
  end.

(** An object by number; scbuilder.py 15; simplicial_complex.py 25. *)
Definition get_obj (w : world) (o : nat) : res obj :=
  match nth_error (w_objs w) o with Some x => Ok x | None => Raise AttributeError end.

(** One operation.  A reference that does not exist, to_simplicial_complex on a complex and the like are
    AttributeError; they cannot be written down in a Python program that has not failed before.
    (scbuilder.py 19-34 and 124-130; simplicial_complex.py 28-53.) *)
Definition exec1 (w : world) (a : op) : res world :=
  match a with
  | NewDict d => Ok (mkWorld (w_heap w ++ [d]) (w_objs w))
  | New k nf ef =>
      if ref_ok w nf && ref_ok w ef then
        Ok (mkWorld (w_heap w) (w_objs w ++ [mkObj k (pass (default_node k) nf) (pass (default_edge k) ef)]))
      else Raise AttributeError
  | Build b =>
      let! o := get_obj w b in
      match o_kind o with
      | KBuilder => Ok (mkWorld (w_heap w) (w_objs w ++ [mkObj KComplex (o_nodes o) (o_edges o)]))
      | KComplex => Raise AttributeError
      end
  | SetNode o key v =>
      let! o := get_obj w o in
      Ok (mkWorld (update (w_heap w) (o_nodes o) (fun d => dset list_eqb d key v)) (w_objs w))
  | SetEdge o key v =>
      let! o := get_obj w o in
      Ok (mkWorld (update (w_heap w) (o_edges o) (fun d => dset list_eqb d key v)) (w_objs w))
  end.

(** A program made of calls of scbuilder.py 19-34 and 124-130 and simplicial_complex.py 28-53. *)
Definition exec (w : world) (l : list op) : res world := foldM exec1 w l.

(** simplicial_complex.py, lines 170-172 and 174-176 and 191: get_node_features() and get_edge_features()
    return the dictionary itself; this is its present content (for builders the attributes are read). *)
Definition node_features_of (w : world) (o : nat) : res fmap :=
  let! x := get_obj w o in
  match nth_error (w_heap w) (o_nodes x) with Some d => Ok d | None => Raise AttributeError end.
(** simplicial_complex.py 174-191. *)
Definition edge_features_of_obj (w : world) (o : nat) : res fmap :=
  let! x := get_obj w o in
  match nth_error (w_heap w) (o_edges x) with Some d => Ok d | None => Raise AttributeError end.
