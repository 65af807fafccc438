(** * Specification vocabulary for the spectral part; independent of the model *)

From Coq Require Import ZArith List.
From mathcomp Require Import all_ssreflect all_algebra ssrZ zify.
From Verif Require Import Py LinAlg SignalSpec.

Set Implicit Arguments.
Unset Strict Implicit.
Unset Printing Implicit Defensive.

Import GRing.Theory Num.Theory Order.Theory.
Local Open Scope ring_scope.

Section Spec.
Variable R : realFieldType.

(** Contract of a symmetric eigensolver: n pairs in ascending order of the eigenvalue, with
    orthonormal eigenvectors. *)
Definition eigsh_contract (eigsh : forall n, 'M[R]_n -> seq (R * 'cV[R]_n)) : Prop :=
  forall n (A : 'M[R]_n), (0 < n)%N -> A^T = A ->
    size (eigsh n A) = n /\
    sorted <=%R [seq p.1 | p <- eigsh n A] /\
    (forall p, p \in eigsh n A -> A *m p.2 = p.1 *: p.2) /\
    (forall i j, (i < n)%N -> (j < n)%N ->
       dot (nth (0, 0) (eigsh n A) i).2 (nth (0, 0) (eigsh n A) j).2 = (i == j)%:R).

(** [u] is an eigenvector of the array [L] for the eigenvalue [lam]. *)
Definition is_eigen (L : arr2) (lam : R) (u : seq R) : Prop := mv L u = scalef lam u.

(** A list of flows is orthonormal. *)
Definition orthonormal (us : seq (seq R)) : Prop :=
  forall i j, (i < size us)%N -> (j < size us)%N ->
    dotp (nth [::] us i) (nth [::] us j) = (i == j)%:R.

(** Linear combination of flows of length [n]. *)
Definition lincomb (n : nat) (w : seq R) (us : seq (seq R)) : seq R :=
  mkseq (fun k => \sum_(i < size us) w`_i * (nth [::] us i)`_k) n.

(** Coefficients of a flow with respect to a list of flows. *)
Definition weights (us : seq (seq R)) (f : seq R) : seq R := [seq dotp u f | u <- us].

(** Vectors and values of a list of pairs. *)
Definition vectors (ps : seq (R * seq R)) : seq (seq R) := [seq p.2 | p <- ps].
Definition values (ps : seq (R * seq R)) : seq R := [seq p.1 | p <- ps].

(** [t] is not an eigenvalue of [L]. *)
Definition not_eigenvalue (L : arr2) (t : R) : Prop :=
  forall u, size u = sh1 L -> is_eigen L t u -> u = zerof R (sh1 L).

(** Every eigenvalue of [L] that is at most [t] is zero. *)
Definition below_positive_spectrum (L : arr2) (t : R) : Prop :=
  forall lam u, size u = sh1 L -> is_eigen L lam u -> u <> zerof R (sh1 L) -> lam <= t -> lam = 0.

(** [t] is a positive fraction that is not an integer. *)
Definition proper_fraction (t : R) : Prop :=
  exists a b : nat, ~~ (b %| a)%N /\ (0 < b)%N /\ t = a%:R / b%:R.

End Spec.
