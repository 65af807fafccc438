(** * Python / numpy / networkx vocabulary used by the model

    No definition in this file models a line of /repo by itself; each one states the meaning of a
    built-in the code in /repo calls.  Definitions only: facts about them are in [PyFacts.v]. *)

From Coq Require Import ZArith String QArith List Bool.
Import ListNotations.
Open Scope Z_scope.

(** ** Exceptions as values *)

(** The exception classes that pytspl (or a library call it makes) can raise.  Messages are not
    modelled.  [NonFinite] is not a Python exception: it marks executions in which a float becomes
    inf or nan (with at most a warning); the model does not follow them any further. *)
Inductive exn :=
| IndexError | ValueError | KeyError | TypeError | AssertionError | AttributeError
| UnboundLocalError | ZeroDivisionError | LinAlgError | FileNotFoundError | RuntimeError | NonFinite.

(** Result of running Python code: a value or an exception.  Non-termination and memory errors
    are not modelled. *)
Inductive res (A : Type) :=
| Ok (a : A)
| Raise (e : exn).
Arguments Ok {A} a.
Arguments Raise {A} e.

(** Sequencing: an exception aborts the rest. *)
Definition bind {A B : Type} (m : res A) (k : A -> res B) : res B :=
  match m with Ok a => k a | Raise e => Raise e end.

Notation "'let!' x ':=' m 'in' k" := (bind m (fun x => k))
  (at level 200, x pattern, m at level 100, k at level 200, right associativity).

(** [try m except e: h] *)
Definition try_except {A : Type} (m : res A) (e : exn) (h : res A) : res A :=
  match m with
  | Ok a => Ok a
  | Raise e' =>
      match e, e' with
      | IndexError, IndexError | ValueError, ValueError | KeyError, KeyError
      | TypeError, TypeError | AssertionError, AssertionError
      | AttributeError, AttributeError | UnboundLocalError, UnboundLocalError
      | ZeroDivisionError, ZeroDivisionError | LinAlgError, LinAlgError
      | FileNotFoundError, FileNotFoundError | RuntimeError, RuntimeError => h
      | _, _ => Raise e'
      end
  end.

(** A for loop whose body may raise: left fold in the result monad. *)
Fixpoint foldM {A S : Type} (f : S -> A -> res S) (s : S) (l : list A) : res S :=
  match l with
  | [] => Ok s
  | x :: l' => let! s' := f s x in foldM f s' l'
  end.

(** A list comprehension whose element expression may raise. *)
Fixpoint mapM {A B : Type} (f : A -> res B) (l : list A) : res (list B) :=
  match l with
  | [] => Ok []
  | x :: l' => let! y := f x in let! ys := mapM f l' in Ok (y :: ys)
  end.

(** [enumerate l], starting at [i]. *)
Fixpoint enumerate_from {A : Type} (i : nat) (l : list A) : list (nat * A) :=
  match l with
  | [] => []
  | x :: l' => (i, x) :: enumerate_from (S i) l'
  end.
Definition enumerate {A : Type} (l : list A) : list (nat * A) := enumerate_from 0 l.

(** ** Indexing *)

(** Normalisation of a Python/numpy integer index along an axis of length [n]: negative indices
    count from the end, anything outside [-n, n) raises IndexError. *)
Definition np_index (n : nat) (i : Z) : res nat :=
  if (0 <=? i) && (i <? Z.of_nat n) then Ok (Z.to_nat i)
  else if (- Z.of_nat n <=? i) && (i <? 0) then Ok (Z.to_nat (i + Z.of_nat n))
  else Raise IndexError.

(** [l[i]] for a Python list and an integer. *)
Definition py_nth {A : Type} (l : list A) (i : Z) : res A :=
  let! k := np_index (length l) i in
  match nth_error l k with Some a => Ok a | None => Raise IndexError end.

(** [l.index(x)]: position of the first element equal to [x], else ValueError. *)
Fixpoint py_index {A : Type} (eqb : A -> A -> bool) (l : list A) (x : A) : res nat :=
  match l with
  | [] => Raise ValueError
  | y :: l' => if eqb y x then Ok O
               else let! k := py_index eqb l' x in Ok (S k)
  end.

(** [x in l] *)
Fixpoint py_in {A : Type} (eqb : A -> A -> bool) (x : A) (l : list A) : bool :=
  match l with
  | [] => false
  | y :: l' => eqb y x || py_in eqb x l'
  end.

Definition pair_eqb (e e' : Z * Z) : bool := (fst e =? fst e') && (snd e =? snd e').

(** ** Dictionaries: association lists in insertion order, one entry per key *)

Definition dict (K V : Type) := list (K * V).

(** [d[k]] *)
Fixpoint dget {K V : Type} (eqb : K -> K -> bool) (d : dict K V) (k : K) : res V :=
  match d with
  | [] => Raise KeyError
  | (k', v) :: d' => if eqb k' k then Ok v else dget eqb d' k
  end.

(** [d[k] = v]: overwrite in place, or append a new entry. *)
Fixpoint dset {K V : Type} (eqb : K -> K -> bool) (d : dict K V) (k : K) (v : V) : dict K V :=
  match d with
  | [] => [(k, v)]
  | (k', v') :: d' => if eqb k' k then (k', v) :: d' else (k', v') :: dset eqb d' k v
  end.

Definition dkeys {K V : Type} (d : dict K V) : list K := map fst d.
Definition dvalues {K V : Type} (d : dict K V) : list V := map snd d.
Definition dmem {K V : Type} (eqb : K -> K -> bool) (d : dict K V) (k : K) : bool :=
  py_in eqb k (dkeys d).

(** [dict(pairs)]: later pairs overwrite earlier ones. *)
Definition dict_of {K V : Type} (eqb : K -> K -> bool) (l : list (K * V)) : dict K V :=
  fold_left (fun d kv => dset eqb d (fst kv) (snd kv)) l [].

(** ** Sorting *)

(** [sorted(l)]: stable insertion sort (Python's sort is stable, so for a total preorder the
    result is the same list). *)
Fixpoint insert {A : Type} (leb : A -> A -> bool) (x : A) (l : list A) : list A :=
  match l with
  | [] => [x]
  | y :: l' => if leb x y then x :: y :: l' else y :: insert leb x l'
  end.
Fixpoint py_sorted {A : Type} (leb : A -> A -> bool) (l : list A) : list A :=
  match l with
  | [] => []
  | x :: l' => insert leb x (py_sorted leb l')
  end.

(** Lexicographic comparison of tuples of ints. *)
Fixpoint lex_leb (a b : list Z) : bool :=
  match a, b with
  | [], _ => true
  | _ :: _, [] => false
  | x :: a', y :: b' => if x <? y then true else if y <? x then false else lex_leb a' b'
  end.
Definition pair_leb (a b : Z * Z) : bool :=
  if fst a <? fst b then true else if fst b <? fst a then false else snd a <=? snd b.

Fixpoint list_eqb (a b : list Z) : bool :=
  match a, b with
  | [], [] => true
  | x :: a', y :: b' => (x =? y) && list_eqb a' b'
  | _, _ => false
  end.

(** Elements of a Python set built by adding the members of [l]; a list without repetitions.
    Iteration order of sets is not used by any modelled code without sorting afterwards. *)
Fixpoint py_set {A : Type} (eqb : A -> A -> bool) (l : list A) : list A :=
  match l with
  | [] => []
  | x :: l' => if py_in eqb x l' then py_set eqb l' else x :: py_set eqb l'
  end.

(** [itertools.combinations(l, r)]: subsequences of length [r], in lexicographic order of
    positions. *)
Fixpoint combinations {A : Type} (l : list A) (r : nat) : list (list A) :=
  match r, l with
  | O, _ => [[]]
  | S _, [] => []
  | S r', x :: l' => map (cons x) (combinations l' r') ++ combinations l' r
  end.

(** ** Two-dimensional numpy arrays with integer entries

    Shape is explicit; [at2] is only meaningful inside the shape.  The code stores these numbers
    as float64; they are small integers, hence exact. *)
Record arr2 := mkArr { sh0 : nat; sh1 : nat; at2 : nat -> nat -> Z }.

(** [np.zeros((n, m))] *)
Definition azeros (n m : nat) : arr2 := mkArr n m (fun _ _ => 0).

(** [A[i, j] = v] with an integer (possibly negative) row index and an in-range column. *)
Definition aset (A : arr2) (i : Z) (j : nat) (v : Z) : res arr2 :=
  let! k := np_index (sh0 A) i in
  let! l := np_index (sh1 A) (Z.of_nat j) in
  Ok (mkArr (sh0 A) (sh1 A)
        (fun p q => if (Nat.eqb p k && Nat.eqb q l)%bool then v else at2 A p q)).

(** Sum of [f 0 .. f (n-1)]. *)
Fixpoint zsum (n : nat) (f : nat -> Z) : Z :=
  match n with
  | O => 0
  | S n' => zsum n' f + f n'
  end.

(** [A @ B] for conforming shapes (all products in the modelled code conform by construction). *)
Definition amul (A B : arr2) : arr2 :=
  mkArr (sh0 A) (sh1 B) (fun i j => zsum (sh1 A) (fun k => at2 A i k * at2 B k j)).

(** [A + B] for equal shapes. *)
Definition aadd (A B : arr2) : arr2 :=
  mkArr (sh0 A) (sh1 A) (fun i j => at2 A i j + at2 B i j).

(** [A.T] *)
Definition atr (A : arr2) : arr2 := mkArr (sh1 A) (sh0 A) (fun i j => at2 A j i).

(** Rows of an array as lists (used to display and compare concrete arrays). *)
Definition alist (A : arr2) : list (list Z) :=
  map (fun i => map (fun j => at2 A i j) (seq 0 (sh1 A))) (seq 0 (sh0 A)).

(** A matrix object: the code distinguishes dense ndarrays, scipy csr matrices and 1-d arrays
    (an [isinstance] check depends on it). *)
Inductive pymat :=
| Vec (v : list Z)
| Dense (A : arr2)
| Csr (A : arr2).

(** [M.toarray()] on a csr matrix; ndarrays have no such method. *)
Definition toarray (M : pymat) : res pymat :=
  match M with Csr A => Ok (Dense A) | _ => Raise AttributeError end.

(** ** Feature values: what pandas puts into a feature dictionary *)
Inductive fval := FNum (q : Q) | FNaN | FStr (s : string).

(** Python truth value. *)
Definition truthy (v : fval) : bool :=
  match v with
  | FNum q => negb (Qeq_bool q 0)
  | FNaN => true
  | FStr s => negb (String.eqb s EmptyString)
  end.

(** [v < eps] with a float [eps]. *)
Definition flt (v : fval) (eps : Q) : res bool :=
  match v with
  | FNum q => Ok (negb (Qle_bool eps q))
  | FNaN => Ok false
  | FStr _ => Raise TypeError
  end.

Definition fdict := dict string fval.

(** [sum] of a nat list. *)
Definition nsum (l : list nat) : nat := fold_right Nat.add O l.

(** [range(n)] as Python ints. *)
Definition py_range (n : nat) : list Z := map Z.of_nat (seq 0 n).
