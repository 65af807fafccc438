(** * Specification vocabulary for signals on simplicial complexes

    Independent of the model: sequences of numbers and explicit sums. *)

From Coq Require Import ZArith List.
From mathcomp Require Import all_ssreflect all_algebra ssrZ zify.
From Verif Require Import Py ComplexSpec LinAlg.

Set Implicit Arguments.
Unset Strict Implicit.
Unset Printing Implicit Defensive.

Import GRing.Theory Num.Theory Order.Theory.
Local Open Scope ring_scope.

Section Spec.
Variable R : realFieldType.
Implicit Types (x y : seq R) (a : R).

(** Entrywise sum, difference and multiple of signals. *)
Definition addf x y : seq R := mkseq (fun i => x`_i + y`_i) (size x).
Definition scalef a x : seq R := [seq a * t | t <- x].
Definition zerof n : seq R := nseq n 0.

(** Inner product and energy. *)
Definition dotp x y : R := \sum_(i < size x) x`_i * y`_i.
Definition energy x : R := dotp x x.

(** Integer multiple of a number, for signs. *)
Definition zmul (z : Z) a : R := a *~ int_of_Z z.

(** Matrix times vector and quadratic form of an integer array, as explicit sums. *)
Definition mv (A : arr2) x : seq R :=
  mkseq (fun i => \sum_(j < sh1 A) zmul (at2 A i j) x`_j) (sh0 A).
Definition qform (A : arr2) x : R :=
  \sum_(i < sh0 A) \sum_(j < sh1 A) x`_i * zmul (at2 A i j) x`_j.

(** Value at edge number [k] of the gradient of a node potential. *)
Definition potential_diff (E : list (Z * Z)) (p : seq R) : seq R :=
  [seq p`_(Z.to_nat e.2) - p`_(Z.to_nat e.1) | e <- E].

(** Flow induced on the edges by a triangle signal: at edge [e] the signed sum over triangles. *)
Definition circulation (E : list (Z * Z)) (T : list (list Z)) (w : seq R) : seq R :=
  [seq \sum_(j < size T) zmul (tri_sign (nth nil T j) e) w`_j | e <- E].

(** What flows into node number [i] minus what flows out of it. *)
Definition net_inflow (E : list (Z * Z)) (f : seq R) (i : nat) : R :=
  \sum_(k < size E) ((Z.eqb (nth (Z0, Z0) E k).2 (Z.of_nat i))%:R
                    - (Z.eqb (nth (Z0, Z0) E k).1 (Z.of_nat i))%:R) * f`_k.

(** Signed sum of the flow around triangle [t]. *)
Definition around (E : list (Z * Z)) (t : list Z) (f : seq R) : R :=
  \sum_(k < size E) zmul (tri_sign t (nth (Z0, Z0) E k)) f`_k.

(** Everything the Hodge theory needs from a complex. *)
Definition oriented (n : nat) (E : list (Z * Z)) (T : list (list Z)) : Prop :=
  proper_edges n E /\ proper_triangles T /\ forall t, List.In t T -> coherent E t.

(** Contract of a least-squares solver: the returned vector minimises the residual. *)
Definition lstsq_contract (lstsq : forall m n, 'M[R]_(m, n) -> 'cV[R]_m -> 'cV[R]_n) : Prop :=
  forall m n (A : 'M[R]_(m, n)) (b : 'cV[R]_m) (x : 'cV[R]_n),
    nrm2 (b - A *m lstsq m n A b) <= nrm2 (b - A *m x).

(** Contract of rounding to an integer: nearest, ties to even. *)
Definition rint_contract (rint : R -> int) : Prop :=
  forall x : R, `|x - (rint x)%:~R| <= 2%:R^-1 /\
            (`|x - (rint x)%:~R| = 2%:R^-1 -> ~~ odd `|rint x|%N).

End Spec.
