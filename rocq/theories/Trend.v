(** * Model of pytspl/filters/simplicial_trend_filter.py *)

From Coq Require Import ZArith String List.
From mathcomp Require Import all_ssreflect all_algebra ssrZ.
From Verif Require Import Py Complex LinAlg Signal Bridge Filter.

Set Implicit Arguments.
Unset Strict Implicit.
Unset Printing Implicit Defensive.

Import GRing.Theory Num.Theory Order.Theory.
Local Open Scope ring_scope.

(** [A ** k] of a square csr_matrix (matrix power, k >= 1 in the code).  (simplicial_trend_filter.py
    147, 153, 167 and 173.) *)
Fixpoint apow (A : arr2) (k : nat) : arr2 :=
  match k with
  | O => mkArr (sh0 A) (sh0 A) (fun i j => if Nat.eqb i j then 1%zz else 0%zz)
  | S O => A
  | S k' => amul A (apow A k')
  end.
(** The same for a matrix object; simplicial_trend_filter.py 147. *)
Definition csr_pow (M : pymat) (k : nat) : res pymat :=
  match M with Csr A => Ok (Csr (apow A k)) | _ => Raise TypeError end.
(** [M @ N] of two csr matrices.  (simplicial_trend_filter.py 148 and 168.) *)
Definition csr_mul (M N : pymat) : res pymat :=
  match M, N with Csr A, Csr B => Ok (Csr (amul A B)) | _, _ => Raise TypeError end.
(** [M.T].  (simplicial_trend_filter.py 162 and 168.) *)
Definition csr_tr (M : pymat) : pymat :=
  match M with Csr A => Csr (atr A) | Dense A => Dense (atr A) | Vec v => Vec v end.

(** simplicial_trend_filter.py 118-176: get_shift_operator.  Every component other than "divergence" is
    treated as the curl. *)
Definition get_shift_operator (sc : SC) (component : string) (order : Z) : res pymat :=
  if Z.ltb order 0 then Raise ValueError
  else if String.eqb component "divergence" then
    let! B1 := incidence_matrix sc 1 in
    if Z.eqb order 0 then Ok B1
    else if Z.eqb (Z.modulo order 2) 0 then
      let! L1l := lower_laplacian_matrix sc 1 in
      let! L1l := csr_pow L1l (Z.to_nat (Z.div order 2)) in
      csr_mul B1 L1l
    else
      let! L1l := lower_laplacian_matrix sc 1 in
      csr_pow L1l (Z.to_nat (Z.div (order + 1) 2))
  else
    let! B2 := incidence_matrix sc 2 in
    if Z.eqb order 0 then Ok (csr_tr B2)
    else if Z.eqb (Z.modulo order 2) 0 then
      let! L1u := upper_laplacian_matrix sc 1 in
      let! L1u := csr_pow L1u (Z.to_nat (Z.div order 2)) in
      csr_mul (csr_tr B2) L1u
    else
      let! L1u := upper_laplacian_matrix sc 1 in
      csr_pow L1u (Z.to_nat (Z.div (order + 1) 2)).

Section Trend.
Variable R : rcfType.

(** External calls.
    [pow10 x]: [10 ** x].
    [randn i j n]: what np.random.randn(n, 1).flatten() returns in realisation j at the i-th SNR.
    [solver S y mu]: the value cvxpy finds for the problem of _solver (68-85).
    [solver_eq S y rows mu]: the value cvxpy finds for the problem of lines 446-455, [rows] being the
    sampling matrix.
    [floor x]: np.floor(x).astype(int).
    [choice i j n m]: np.random.choice(n, m, replace=False) in realisation j at the i-th ratio.
    Simplification: a solver that stops without a value raises NonFinite (the code stores nan). *)
Variable pow10 : R -> R.
Variable randn : nat -> nat -> nat -> seq R.
Variable solver : arr2 -> seq R -> R -> res (seq R).
Variable solver_eq : arr2 -> seq R -> seq (seq R) -> R -> res (seq R).
Variable floor : R -> Z.
Variable choice : nat -> nat -> nat -> nat -> seq nat.

(** simplicial_trend_filter.py 93-96: _calculate_snr. *)
Definition calculate_snr (snr_db : seq R) : seq R := [seq pow10 (x / 10%:R) | x <- snr_db].

(** simplicial_trend_filter.py 98-116: get_power_noise.  Simplification: without edges the code divides
    by zero (nan); here NonFinite. *)
Definition get_power_noise (sc : SC) (flow snr_db : seq R) : res (seq R * seq R) :=
  let snr := calculate_snr snr_db in
  let num_edges := size (sc_edges sc) in
  if num_edges == 0%N then Raise NonFinite
  else Ok ([seq norm flow / s / num_edges%:R | s <- snr], snr).

(** Mean of a 1-d array.  (simplicial_trend_filter.py 90.) *)
Definition mean (x : seq R) : R := (\sum_(i < size x) x`_i) / (size x)%:R.

(** simplicial_trend_filter.py 87-91: _calculate_correlation, np.corrcoef(A, B)[0, 1]; nan if an array is
    constant (0/0), ValueError for different lengths.  Simplification: numpy clips the quotient to
    [-1, 1], which changes nothing in exact arithmetic. *)
Definition calculate_correlation (A B : seq R) : res (fl R) :=
  if size A == size B then
    let dA := [seq a - mean A | a <- A] in
    let dB := [seq b - mean B | b <- B] in
    if (norm dA == 0) || (norm dB == 0) then Ok (NaN R)
    else Ok (Fin ((\sum_(i < size A) dA`_i * dB`_i) / (norm dA * norm dB)))
  else Raise ValueError.

(** np.mean of a row of floats; nan for an empty row.  (simplicial_trend_filter.py 262-264.) *)
Definition fl_is_nan (x : fl R) : bool := if x is NaN then true else false.
(** An infinite entry; simplicial_trend_filter.py 262-264. *)
Definition fl_is_inf (x : fl R) : bool := if x is PInf then true else false.
(** The value of a finite entry; simplicial_trend_filter.py 262-264. *)
Definition fl_val (x : fl R) : R := if x is Fin v then v else 0.
(** simplicial_trend_filter.py 262-264: np.mean. *)
Definition fl_mean (xs : seq (fl R)) : fl R :=
  if has fl_is_nan xs || (size xs == 0%N) then NaN R
  else if has fl_is_inf xs then PInf R
  else Fin ((\sum_(x <- xs) fl_val x) / (size xs)%:R).

(** What set_history (43-66) stores: filter (or None), responses [i][j] = frequency_responses[:, i, j],
    and the means over the realisations.  All five entries are always written together. *)
Record trend_run := mkTrend {
  trend_filter : option (seq (seq R));
  trend_responses : seq (seq (seq R));
  trend_component : seq (fl R);
  trend_errors : seq (fl R);
  trend_correlations : seq (fl R)
}.
(** simplicial_trend_filter.py 29-35 and 42-66: the history of an object, None before the first
    completed call. *)
Definition trend_obj := option trend_run.

(** simplicial_trend_filter.py 37-40: the dictionary self.components. *)
Definition components (sc : SC) (component : string) : option (seq R -> res (seq R)) :=
  if String.eqb component "divergence" then Some (get_divergence sc)
  else if String.eqb component "curl" then Some (get_curl sc)
  else None.

(** One cell of the tables: response, error, norm of the component and correlation
    (239-254, 347-362, 463-478). *)
Definition cell (comp : seq R -> res (seq R)) (flow response : seq R)
  : res (seq R * fl R * fl R * fl R) :=
  let! e := calculate_error_NRMSE response flow in
  let! c := comp response in
  let! r := calculate_correlation flow response in
  Ok (response, e, Fin (norm c), r).

(** The double loop: [n] rows of [m] cells.  (simplicial_trend_filter.py 222-253, 325-357 and 427-479.) *)
Definition table (n m : nat) (body : nat -> nat -> res (seq R * fl R * fl R * fl R)) :=
  mapM (fun i => mapM (body i) (iota 0 m)) (iota 0 n).

(** simplicial_trend_filter.py 262-272, 365-376 and 487-498: what is stored. *)
Definition trend_result (H : option (seq (seq R))) (t : seq (seq (seq R * fl R * fl R * fl R)))
  : trend_run :=
  mkTrend H [seq [seq x.1.1.1 | x <- r] | r <- t] [seq fl_mean [seq x.1.2 | x <- r] | r <- t]
    [seq fl_mean [seq x.1.1.2 | x <- r] | r <- t] [seq fl_mean [seq x.2 | x <- r] | r <- t].

(** The noisy flow of realisation j at the i-th SNR (228-232, 329-333). *)
Definition noisy (flow power_noise : seq R) (n i j : nat) : res (seq R) :=
  np_add flow [seq power_noise`_i * z | z <- randn i j n].

(** simplicial_trend_filter.py 178-272: denoising_l2_regularizer (printing left out).  The filter is an
    np.matrix and H @ f_noisy a 1 x n matrix, which numpy stores in the column without complaint.
    H is unbound if there are no realisations. *)
Definition denoise_l2 (sc : SC) (flow : seq R) (component : string) (num_realizations : Z)
    (snr_db : seq R) (mu : R) : res trend_run :=
  match components sc component with
  | None => Raise ValueError
  | Some comp =>
      let! (power_noise, snr) := get_power_noise sc flow snr_db in
      let! L1l := lower_laplacian_matrix sc 1 in
      let! L1l := to_arr L1l in
      let n := size (sc_edges sc) in
      if Z.ltb num_realizations 0 then Raise ValueError
      else
        let m := Z.to_nat num_realizations in
        let A : 'M[R]_n := 1%:M + mu *: toM R n n L1l in
        let! t := table (size snr) m (fun i j =>
          let! f_noisy := noisy flow power_noise n i j in
          let! _ := calculate_error_NRMSE f_noisy flow in
          let! H := np_inv A in
          let! f := mat_dot H f_noisy in
          cell comp flow f) in
        if (size snr == 0%N) || (m == 0%N) then Raise UnboundLocalError
        else
          let! H := np_inv A in
          Ok (trend_result (Some (rows H)) t)
  end.

(** simplicial_trend_filter.py 274-376: denoising_l1_regularizer. *)
Definition denoise_l1 (sc : SC) (flow : seq R) (component : string) (num_realizations : Z)
    (snr_db : seq R) (order : Z) (regularization : R) : res trend_run :=
  match components sc component with
  | None => Raise ValueError
  | Some comp =>
      let! Sh := get_shift_operator sc component order in
      let! Sh := to_arr Sh in
      let! (power_noise, snr) := get_power_noise sc flow snr_db in
      let n := size (sc_edges sc) in
      if Z.ltb num_realizations 0 then Raise ValueError
      else
        let! t := table (size snr) (Z.to_nat num_realizations) (fun i j =>
          let! f_noisy := noisy flow power_noise n i j in
          if size f_noisy == n then
            let! f := solver Sh f_noisy regularization in
            cell comp flow f
          else Raise ValueError) in
        Ok (trend_result None t)
  end.

(** simplicial_trend_filter.py 429-436: the mask of a sample. *)
Definition sample_mask (n : nat) (sample : seq nat) : seq R :=
  mkseq (fun i => (i \in sample)%:R) n.

(** simplicial_trend_filter.py 437-442: the rows of np.diag(mask) that are not all zero. *)
Definition sampling_matrix (mask : seq R) : seq (seq R) :=
  [seq r <- [seq mkseq (fun j => if i == j then mask`_i else 0) (size mask) | i <- iota 0 (size mask)]
     | has (fun x => x != 0) r].

(** simplicial_trend_filter.py 378-498: interpolation_l1_regularizer. *)
Definition interpolate_l1 (sc : SC) (flow : seq R) (component : string) (ratio : seq R)
    (num_realizations : Z) (order : Z) (regularization : R) : res trend_run :=
  match components sc component with
  | None => Raise ValueError
  | Some comp =>
      let! Sh := get_shift_operator sc component order in
      let! Sh := to_arr Sh in
      let n := size (sc_edges sc) in
      if Z.ltb num_realizations 0 then Raise ValueError
      else
        let! t := table (size ratio) (Z.to_nat num_realizations) (fun i j =>
          let M := floor (n%:R * ratio`_i) in
          if Z.ltb M 0 || Z.ltb (Z.of_nat n) M then Raise ValueError
          else
            let mask := sample_mask n (choice i j n (Z.to_nat M)) in
            let! f_in := np_zip *%R flow mask in
            if size f_in == n then
              let! f := solver_eq Sh f_in (sampling_matrix mask) regularization in
              cell comp flow f
            else Raise ValueError) in
        Ok (trend_result None t)
  end.

(** The calls on one SimplicialTrendFilter object: a completed call replaces all entries of the history
    (43-66), a failing one leaves them. *)
Inductive tcall :=
| TL2 (flow : seq R) (component : string) (num : Z) (snr : seq R) (mu : R)
| TL1 (flow : seq R) (component : string) (num : Z) (snr : seq R) (order : Z) (mu : R)
| TInterp (flow : seq R) (component : string) (ratio : seq R) (num : Z) (order : Z) (mu : R).
(** simplicial_trend_filter.py 178-498: one call. *)
Definition trend_call (sc : SC) (c : tcall) : res trend_run :=
  match c with
  | TL2 f k n s mu => denoise_l2 sc f k n s mu
  | TL1 f k n s o mu => denoise_l1 sc f k n s o mu
  | TInterp f k r n o mu => interpolate_l1 sc f k r n o mu
  end.
(** simplicial_trend_filter.py 42-66: the history after a call. *)
Definition trend_exec (sc : SC) (s : trend_obj) (c : tcall) : trend_obj :=
  match trend_call sc c with Ok r => Some r | Raise _ => s end.

End Trend.
