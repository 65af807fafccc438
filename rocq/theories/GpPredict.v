(** * Model of predict in pytspl/hogde_gp/hodge_gp_trainer.py

    Definitions only.  The prediction of gpytorch's ExactGP and GaussianLikelihood in evaluation mode is
    written out in exact arithmetic.  Not modelled: the Lanczos approximation that fast_pred_var uses
    above 800 training edges, and the two logarithmic metrics (they are only printed). *)

From Coq Require Import ZArith String List.
From mathcomp Require Import all_ssreflect all_algebra ssrZ.
From Verif Require Import Py Complex Signal Eigen Gp.

Set Implicit Arguments.
Unset Strict Implicit.
Unset Printing Implicit Defensive.

Import GRing.Theory Num.Theory Order.Theory.
Local Open Scope ring_scope.

Section Predict.
Variable R : rcfType.
Variable exp : R -> R.
Variable pow : R -> R -> R.
Variable softplus : R -> R.

(** Part of a matrix given by its rows: [r] rows from row [a], [c] columns from column [b]; used for
    hodge_gp_trainer.py 297. *)
Definition block (K : seq (seq R)) (a b r c : nat) : 'M[R]_(r, c) :=
  \matrix_(i < r, j < c) (nth [::] K (a + i))`_(b + j).

(** The distribution returned, by mean and covariance; hodge_gp_trainer.py 297-299. *)
Record prediction := mkPrediction { p_mean : seq R; p_covar : seq (seq R) }.

(** model(x_test) in evaluation mode: the prior on the training edges followed by the test edges
    (exact_gp.py 39-48), conditioned on the training labels with the noise of the likelihood.  A singular
    matrix cannot be factorised.  Labels of another length are a RuntimeError; a single label, which
    torch would repeat, is not treated separately.  (hodge_gp_trainer.py 297; exact_gp.py 28: train_x
    and train_y are stored in the model.) *)
Definition posterior (m : gpmodel R) (x_train : seq Z) (y_train : seq R) (x_test : seq Z) : res prediction :=
  let! prior := model_forward exp pow softplus m (x_train ++ x_test) in
  let '(mu, K) := prior in
  let n := size x_train in
  let t := size x_test in
  if size y_train != n then Raise RuntimeError
  else
    let A := block K 0 0 n n + (m_noise m)%:M in
    if A \notin unitmx then Raise NonFinite
    else
      let S := block K n 0 t n *m invmx A in
      Ok (mkPrediction
            (unvec (vec t (drop n mu) + S *m (vec n y_train - vec n mu)))
            (let C := block K n n t t - S *m block K 0 n n t in
             [seq [seq C i j | j <- enum 'I_t] | i <- enum 'I_t])).

(** likelihood(...): the noise is added to the variances.  (hodge_gp_trainer.py 297.) *)
Definition observed (noise : R) (p : prediction) : prediction :=
  let t := size (p_mean p) in
  mkPrediction (p_mean p)
    (mkseq (fun i => mkseq (fun j => (nth [::] (p_covar p) i)`_j + (if i == j then noise else 0)) t) t).

(** Sum of squares of the differences of two arrays and of the deviations from the mean; used for
    hodge_gp_trainer.py 303-304. *)
Definition sum_sq (u v : seq R) : R := \sum_(i < size u) (u`_i - v`_i) ^+ 2.
(** hodge_gp_trainer.py 304. *)
Definition sum_dev (u : seq R) : R := \sum_(i < size u) (u`_i - tmean u) ^+ 2.

(** gpytorch.metrics.mean_absolute_error and mean_squared_error: hodge_gp_trainer.py 302-303. *)
Definition metric_mae (p : prediction) (y : seq R) : R :=
  (\sum_(i < size y) `|(p_mean p)`_i - y`_i|) / (size y)%:R.
(** hodge_gp_trainer.py 303. *)
Definition metric_mse (p : prediction) (y : seq R) : R := sum_sq (p_mean p) y / (size y)%:R.

(** torcheval's r2_score(input, target), where [input] are the predicted and [target] the true values: two
    samples are needed; [None] for an infinite result or NaN (constant [target]).
    (hodge_gp_trainer.py 7 and 304.) *)
Definition r2_score (input target : seq R) : res (option R) :=
  if size input != size target then Raise ValueError
  else if (size target < 2)%N then Raise ValueError
  else if sum_dev target == 0 then Ok None
  else Ok (Some (1 - sum_sq target input / sum_dev target)).

(** The numbers printed by lines 310-312 (hodge_gp_trainer.py). *)
Record metrics := mkMetrics { r_mae : R; r_mse : R; r_r2 : option R }.

(** hodge_gp_trainer.py 269-316: predict, for a likelihood with the noise of the model.  Labels whose
    number differs from that of the test edges cannot be subtracted (RuntimeError), unless one of the
    two numbers is one; then r2_score rejects them. *)
Definition predict (m : gpmodel R) (x_train : seq Z) (y_train : seq R) (x_test : seq Z) (y_test : seq R)
  : res (prediction * metrics) :=
  let! p := posterior m x_train y_train x_test in
  let p := observed (m_noise m) p in
  if (size y_test != size (p_mean p)) && (size y_test != 1%N) && (size (p_mean p) != 1%N) then Raise RuntimeError
  else
    let! r2 := r2_score y_test (p_mean p) in
    Ok (p, mkMetrics (metric_mae p y_test) (metric_mse p y_test) r2).

End Predict.
