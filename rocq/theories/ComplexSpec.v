(** * Specification vocabulary for simplicial complexes

    Independent of the model: only lists, integers and propositions. *)

From Coq Require Import ZArith List Bool Permutation Sorted.
Import ListNotations.
Open Scope Z_scope.

(** The integer [x] addresses row [i] of an axis of length [n] (numpy convention: either [i] itself
    or [i - n]). *)
Definition addresses (n : nat) (x : Z) (i : nat) : Prop :=
  (i < n)%nat /\ (x = Z.of_nat i \/ x = Z.of_nat i - Z.of_nat n).

(** [x] addresses some row. *)
Definition in_range (n : nat) (x : Z) : Prop := - Z.of_nat n <= x < Z.of_nat n.

(** A well-numbered loop-free edge list over nodes 0..n-1. *)
Definition proper_edges (n : nat) (E : list (Z * Z)) : Prop :=
  forall u v, In (u, v) E -> 0 <= u < Z.of_nat n /\ 0 <= v < Z.of_nat n /\ u <> v.

(** [u] and [v] are joined by an edge, in one of the two directions. *)
Definition linked (E : list (Z * Z)) (u v : Z) : Prop := In (u, v) E \/ In (v, u) E.

(** No undirected edge is listed twice. *)
Definition simple_edges (E : list (Z * Z)) : Prop :=
  NoDup E /\ forall u v, In (u, v) E -> ~ In (v, u) E.

(** A triangle: three pairwise linked vertices. *)
Definition closed_triangle (E : list (Z * Z)) (t : list Z) : Prop :=
  exists a b c, t = [a; b; c] /\ linked E a b /\ linked E b c /\ linked E a c.

Definition proper_triangles (T : list (list Z)) : Prop :=
  forall a b c, In [a; b; c] T -> a <> b /\ b <> c /\ a <> c.

(** What the constructor is supposed to accept. *)
Definition good_edges (n : nat) (E : list (Z * Z)) : Prop :=
  forall u v, In (u, v) E -> in_range n u /\ in_range n v.
Definition good_triangles (E : list (Z * Z)) (T : list (list Z)) : Prop :=
  forall t, In t T -> closed_triangle E t.

(** Position [k] is where the pair u,v is stored: the first occurrence of (u,v), or of (v,u) if
    (u,v) does not occur. *)
Definition first_at {A} (l : list A) (x : A) (k : nat) : Prop :=
  nth_error l k = Some x /\ forall k', (k' < k)%nat -> nth_error l k' <> Some x.
Definition stored_at (E : list (Z * Z)) (u v : Z) (k : nat) : Prop :=
  first_at E (u, v) k \/ (~ In (u, v) E /\ first_at E (v, u) k).

(** A triangle (a,b,c) is coherently oriented if its three edges are all stored forward or all
    stored backward with respect to the vertex order. *)
Definition coherent (E : list (Z * Z)) (t : list Z) : Prop :=
  exists a b c, t = [a; b; c] /\
    ((In (a, b) E /\ In (b, c) E /\ In (a, c) E) \/
     (~ In (a, b) E /\ ~ In (b, c) E /\ ~ In (a, c) E)).

(** Indicator of a decidable condition, as an integer. *)
Definition ind (b : bool) : Z := if b then 1 else 0.

(** [e] joins x and y (in either direction). *)
Definition joinsb (e : Z * Z) (x y : Z) : bool :=
  ((fst e =? x) && (snd e =? y)) || ((fst e =? y) && (snd e =? x)).

(** [e] has endpoint x. *)
Definition touchesb (e : Z * Z) (x : Z) : bool := (fst e =? x) || (snd e =? x).

(** Incidence sign of edge [e] in triangle [t] = (a,b,c). *)
Definition tri_sign (t : list Z) (e : Z * Z) : Z :=
  match t with
  | [a; b; c] =>
      if joinsb e a b then 1 else if joinsb e b c then 1 else if joinsb e a c then -1 else 0
  | _ => 0
  end.

(** Both endpoints of [e] are vertices of [t]. *)
Definition edge_of_tri (t : list Z) (e : Z * Z) : bool :=
  existsb (Z.eqb (fst e)) t && existsb (Z.eqb (snd e)) t.

(** Number of members satisfying a test; sum of a weight over a list. *)
Definition count {A} (f : A -> bool) (l : list A) : Z := Z.of_nat (length (filter f l)).
Definition lsum {A} (f : A -> Z) (l : list A) : Z := fold_right (fun x s => f x + s) 0 l.

(** Strict lexicographic order of sequences. *)
Definition lex_lt (a b : list Z) : Prop :=
  (exists y r, b = a ++ y :: r) \/
  (exists p x y r s, a = p ++ x :: r /\ b = p ++ y :: s /\ x < y).

(** Ascending sequence. *)
Definition ascending (l : list Z) : Prop := StronglySorted Z.le l.

(** [f] is the sorted sequence obtained from [s] by deleting one member. *)
Definition facet (s f : list Z) : Prop :=
  exists pre x post, s = pre ++ x :: post /\ Permutation f (pre ++ post) /\ ascending f.
