(** * Specification vocabulary for the Gaussian-process part

    Independent of the model, except for the names of the kernel classes. *)

From Coq Require Import ZArith String List.
From mathcomp Require Import all_ssreflect all_algebra ssrZ.
From Verif Require Import Py Complex Signal SignalSpec EigenSpec Gp.

Set Implicit Arguments.
Unset Strict Implicit.
Unset Printing Implicit Defensive.

Import GRing.Theory Num.Theory Order.Theory.
Local Open Scope ring_scope.
Delimit Scope Z_scope with zz.

(** Edge numbers may be negative, as in Python: [z] stands for edge number [wrap n z]. *)
Definition in_range (n : nat) (z : Z) : Prop := (- Z.of_nat n <= z < Z.of_nat n)%zz.
Definition wrap (n : nat) (z : Z) : nat := Z.to_nat (Z.modulo z (Z.of_nat n)).

Inductive comp := Harmonic | Gradient | Curl.

Section Spec.
Variable R : rcfType.

(** What is used of the exponential, of powers and of the positivity constraint. *)
Definition exp_contract (exp : R -> R) : Prop := forall x, 0 < exp x.
Definition pow_contract (pow : R -> R -> R) : Prop := forall x a, 0 < x -> 0 < pow x a.
Definition positive_contract (softplus inv_softplus : R -> R) : Prop :=
  (forall x, 0 < softplus x) /\ forall v, 0 < v -> softplus (inv_softplus v) = v.

(** The factor by which the covariance of a kernel class multiplies an eigenvector of a component, as a
    function of the eigenvalue [x] and the hyperparameters [v]. *)
Definition multiplier (exp : R -> R) (pow : R -> R -> R) (t : ktype) (v : string -> R) (c : comp) (x : R) : R :=
  match t, c with
  | Diffusion, Harmonic => v "h"%string * exp (- x)
  | Diffusion, Gradient => v "h_down"%string * exp (- (v "kappa_down"%string * x))
  | Diffusion, Curl => v "h_up"%string * exp (- (v "kappa_up"%string * x))
  | DiffusionNonHC, Harmonic => exp (- x)
  | DiffusionNonHC, _ => exp (- (v "kappa_down"%string * x))
  | Matern, Harmonic => v "h"%string * v "mu"%string
  | Matern, Gradient =>
      v "h_down"%string * pow (2%:R * v "mu_down"%string / v "kappa_down"%string ^+ 2 + x) (- v "mu_down"%string)
  | Matern, Curl =>
      v "h_up"%string * pow (2%:R * v "mu_up"%string / v "kappa_up"%string ^+ 2 + x) (- v "mu_up"%string)
  | MaternNonHC, _ => pow (2%:R * v "mu_down"%string / v "kappa_down"%string ^+ 2 + x) (- v "mu_down"%string)
  | Laplacian, Harmonic => v "mu"%string / (1000%:R^-1 + x)
  | Laplacian, Gradient => v "kappa_down"%string / x
  | Laplacian, Curl => v "kappa_up"%string / x
  end.

(** Covariance of the edges i and j: sum over the eigenpairs of the three components. *)
Definition mixture (g : R -> R) (ps : seq (R * seq R)) (i j : nat) : R :=
  \sum_(p <- ps) g p.1 * p.2`_i * p.2`_j.
Definition covariance (g : comp -> R -> R) (hp gp cp : seq (R * seq R)) (i j : nat) : R :=
  mixture (g Harmonic) hp i j + mixture (g Gradient) gp i j + mixture (g Curl) cp i j.

(** Quadratic form of a table of numbers. *)
Definition quad (K : seq (seq R)) (w : seq R) : R :=
  \sum_(i < size w) \sum_(j < size w) w`_i * w`_j * (nth [::] K i)`_j.

(** Arithmetic mean and sample variance. *)
Definition average (y : seq R) : R := (\sum_(x <- y) x) / (size y)%:R.
Definition sample_variance (y : seq R) : R :=
  (\sum_(x <- y) (x - average y) ^+ 2) / ((size y)%:R - 1).

End Spec.
