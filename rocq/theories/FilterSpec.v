(** * Specification vocabulary for the filters; independent of the model *)

From Coq Require Import ZArith List.
From mathcomp Require Import all_ssreflect all_algebra ssrZ zify.
From Verif Require Import Py LinAlg SignalSpec EigenSpec.

Set Implicit Arguments.
Unset Strict Implicit.
Unset Printing Implicit Defensive.

Import GRing.Theory Num.Theory Order.Theory.
Local Open Scope ring_scope.

Section Spec.
Variable R : realFieldType.

(** Contract of np.linalg.lstsq: a minimiser of the residual, of least norm among the minimisers. *)
Definition lstsq_min_contract (lstsq : forall m n, 'M[R]_(m, n) -> 'cV[R]_m -> 'cV[R]_n) : Prop :=
  lstsq_contract lstsq /\
  forall m n (A : 'M[R]_(m, n)) (b : 'cV[R]_m) (x : 'cV[R]_n),
    nrm2 (b - A *m x) <= nrm2 (b - A *m lstsq m n A b) -> nrm2 (lstsq m n A b) <= nrm2 x.

(** Contract of np.argsort: a permutation of the indices that sorts the values. *)
Definition argsort_contract (argsort : seq R -> seq nat) : Prop :=
  forall s, perm_eq (argsort s) (iota 0 (size s)) /\ sorted <=%R [seq s`_i | i <- argsort s].

(** A matrix given by its rows, applied to a vector. *)
Definition rmv (H : seq (seq R)) (x : seq R) : seq R := [seq dotp r x | r <- H].

(** Shape of a matrix given by its rows. *)
Definition shaped (H : seq (seq R)) (n m : nat) : Prop := size H = n /\ forall r, r \in H -> size r = m.

(** Symmetric matrix. *)
Definition symmetric (H : seq (seq R)) : Prop :=
  forall i j, (i < size H)%N -> (j < size H)%N -> (nth [::] H i)`_j = (nth [::] H j)`_i.

(** A 0/1 sequence. *)
Definition binary (m : seq R) : Prop := forall x, x \in m -> x = 0 \/ x = 1.
Definition ones (m : seq R) : nat := seq.count (pred1 1) m.

(** Difference of two signals. *)
Definition subf (x y : seq R) : seq R := addf x (scalef (-1) y).

(** [A] applied [k] times. *)
Definition mv_pow (A : arr2) (k : nat) (x : seq R) : seq R := iter k (mv A) x.

(** The polynomial with coefficients [h] in the matrix [A], applied to a vector of length [sh0 A]. *)
Definition poly_mv (A : arr2) (h : seq R) (x : seq R) : seq R :=
  mkseq (fun i => \sum_(k < size h) h`_k * (mv_pow A k x)`_i) (sh0 A).

(** The value of the polynomial with coefficients [h]. *)
Definition poly_at (h : seq R) (x : R) : R := \sum_(k < size h) h`_k * x ^+ k.

(** Squared distance between the values of the polynomial [h] at the points [xs] and the targets [ys]. *)
Definition misfit (xs ys h : seq R) : R := \sum_(i < size xs) (ys`_i - poly_at h xs`_i) ^+ 2.

(** [h] has length [L], only its first [k+1] coefficients are nonzero, and among those polynomials it
    fits best. *)
Definition best_fit (L k : nat) (xs ys h : seq R) : Prop :=
  size h = L /\ (forall j, (k < j)%N -> h`_j = 0) /\
  forall g, size g = L -> (forall j, (k < j)%N -> g`_j = 0) -> misfit xs ys h <= misfit xs ys g.

(** An orthonormal basis of eigenvectors [us] of the square array [A] with eigenvalues [lams]. *)
Definition spectral_basis (A : arr2) (lams : seq R) (us : seq (seq R)) : Prop :=
  size lams = sh0 A /\ size us = sh0 A /\ orthonormal us /\
  forall i, (i < sh0 A)%N -> size (nth [::] us i) = sh0 A /\ is_eigen A lams`_i (nth [::] us i).

(** [num] points evenly spread from 0 to [b]; the single point 0 if [num] is 1. *)
Definition even_grid (b : R) (num : nat) : seq R := mkseq (fun i => b * i%:R / num.-1%:R) num.

(** Two arrays have no eigenvalue in common, except zero. *)
Definition disjoint_spectra (A B : arr2) : Prop :=
  forall lam u v, size u = sh1 A -> size v = sh1 B -> u <> zerof R (sh1 A) -> v <> zerof R (sh1 B) ->
    is_eigen A lam u -> is_eigen B lam v -> lam = 0.

(** [x] minimises [cost] among the signals of length [n], and nothing else does. *)
Definition unique_minimiser (n : nat) (cost : seq R -> R) (x : seq R) : Prop :=
  size x = n /\ forall y, size y = n -> cost x <= cost y /\ (cost y <= cost x -> y = x).

End Spec.
