(** * Model of the numerical part of pytspl/filters

    base_filter.py, edge_flow_denoising.py, ls_filter_design.py, grid_based_filter_design.py and
    chebyshev_filter_design.py, without the [history] attribute (FilterState.v) and without
    plotting and printing.  Definitions only.  The numbers form a real closed field instead of
    floats. *)

From Coq Require Import ZArith String List.
From mathcomp Require Import all_ssreflect all_algebra ssrZ zify.
From Verif Require Import Py Complex Signal Eigen.

Set Implicit Arguments.
Unset Strict Implicit.
Unset Printing Implicit Defensive.

Import GRing.Theory Num.Theory Order.Theory.
Local Open Scope ring_scope.
Delimit Scope Z_scope with zz.

Section Filter.
Variable R : rcfType.

(** External calls.
    [eigsh]: scipy.sparse.linalg.eigsh, contract [eigsh_contract] (EigenSpec.v).
    [lstsq]: np.linalg.lstsq(A, b, rcond=None)[0], contract [lstsq_min_contract] (FilterSpec.v).
    [rint]: rounding, only reached with rounding switched off.
    [argsort]: np.argsort, contract [argsort_contract] (FilterSpec.v).
    [expf]: np.exp.
    [chebfun f a b n]: chebpy's chebfun(f=f, domain=[a, b], n=n), given by its coefficients funs[0].coeffs,
    or the error it raises; contract [chebfun_contract] (ChebSeries.v).
    [norm_2]: np.linalg.norm(A, ord=2) of a square array. *)
Variable eigsh : forall n, 'M[R]_n -> seq (R * 'cV[R]_n).
Variable lstsq : forall m n, 'M[R]_(m, n) -> 'cV[R]_m -> 'cV[R]_n.
Variable rint : R -> int.
Variable argsort : seq R -> seq nat.
Variable expf : R -> R.
Variable chebfun : (R -> R) -> R -> R -> Z -> res (seq R).
Variable norm_2 : forall n, 'M[R]_n -> R.

(** 2-d float arrays as lists of rows.  (For example edge_flow_denoising.py 54.) *)
Definition rows m n (A : 'M[R]_(m, n)) : seq (seq R) :=
  [seq [seq A i j | j <- enum 'I_n] | i <- enum 'I_m].

(** Matrix power, [A ** k] of a square scipy sparse matrix.  (ls_filter_design.py 67;
    grid_based_filter_design.py 137.) *)
Definition mpow n (A : 'M[R]_n) (k : nat) : 'M[R]_n := iter k (mulmx A) 1%:M.

(** [H @ f] for a dense n x n array.  (edge_flow_denoising.py 56; ls_filter_design.py 70.) *)
Definition mat_dot n (H : 'M[R]_n) (f : seq R) : res (seq R) :=
  if size f == n then Ok (unvec (H *m vec n f)) else Raise ValueError.

(** np.diag(U.T @ H @ U), U the array whose columns are the vectors in [us].  (edge_flow_denoising.py
    60; ls_filter_design.py 76.) *)
Definition diag_response n (H : 'M[R]_n) (us : eigpairs R) : seq R :=
  [seq ((vec n p.2)^T *m H *m vec n p.2) 0 0 | p <- us].

(** An entry of an array of errors: a number, nan or inf.  (base_filter.py 57.) *)
Inductive fl := Fin (x : R) | NaN | PInf.

(** np.linalg.norm of a 1-d array.  (base_filter.py 57.) *)
Definition norm (x : seq R) : R := Num.sqrt (\sum_(i < size x) x`_i ^+ 2).

(** base_filter.py 54-57: calculate_error_NRMSE.  The quotient of two nonnegative floats is nan for
    0/0 and inf for a positive number over 0. *)
Definition calculate_error_NRMSE (f_estimated f_true : seq R) : res fl :=
  let! d := np_sub f_estimated f_true in
  Ok (if norm f_true == 0 then if norm d == 0 then NaN else PInf
      else Fin (norm d / norm f_true)).

(** base_filter.py 59-73: logistic_function; exp is positive, so nothing is divided by zero. *)
Definition logistic_function (cut_off_frequency steep lam : R) : R :=
  1 / (1 + expf (- steep * (lam - cut_off_frequency))).

(** base_filter.py 75-95: power_iteration.  A zero norm makes every entry nan. *)
Fixpoint power_loop n (P : 'M[R]_n) (iterations : nat) (v : 'cV[R]_n) : res 'cV[R]_n :=
  if iterations is k.+1 then
    let w := P *m v in
    let s := Num.sqrt (\sum_i w i 0 ^+ 2) in
    if s == 0 then Raise NonFinite else power_loop P k (s^-1 *: w)
  else Ok v.
(** base_filter.py 86-95: the loop and the addition of eps. *)
Definition power_iteration n (P : 'M[R]_n) (iterations : nat) : res 'cV[R]_n :=
  let! v := power_loop P iterations (const_mx 1) in
  Ok (v + const_mx (eps64 R)).

(** base_filter.py 97-111: get_true_signal. *)
Definition get_true_signal (sc : SC) (f : seq R) (component : string) : res (seq R) :=
  get_component_flow lstsq rint sc f component false 2.

(** base_filter.py 113-142: get_p_matrix.  The dictionary is built first, so all three matrices are
    computed. *)
Definition get_p_matrix (sc : SC) (p_choice : string) : res pymat :=
  let! L1 := hodge_laplacian_matrix sc 1 in
  let! L1L := lower_laplacian_matrix sc 1 in
  let! L1U := upper_laplacian_matrix sc 1 in
  if String.eqb p_choice "L1" then Ok L1
  else if String.eqb p_choice "L1L" then Ok L1L
  else if String.eqb p_choice "L1U" then Ok L1U
  else Raise ValueError.

(** A sparse matrix is turned into the integer array of its entries.  (edge_flow_denoising.py 42 and the
    other calls of toarray.) *)
Definition to_arr (M : pymat) : res arr2 :=
  match M with Csr A | Dense A => Ok A | Vec _ => Raise ValueError end.

(** base_filter.py 144-196: get_component_coefficients. *)
Definition get_component_coefficients (sc : SC) (component : string) : res (seq R) :=
  let! L1 := hodge_laplacian_matrix sc 1 in
  let! L1 := to_arr L1 in
  let! U_H := get_component_eigenpair eigsh sc "harmonic" (milli R) in
  let! U_C := get_component_eigenpair eigsh sc "curl" (milli R) in
  let! U_G := get_component_eigenpair eigsh sc "gradient" (milli R) in
  let eigen_vals := [seq p.1 | p <- U_H] ++ [seq p.1 | p <- U_C] ++ [seq p.1 | p <- U_G] in
  let n := sh0 L1 in
  let h := size U_H in
  let c := size U_C in
  let! mask :=
    if String.eqb component "harmonic" then Ok (mkseq (fun i => (i < h)%N%:R) n)
    else if String.eqb component "curl" then Ok (mkseq (fun i => ((h <= i) && (i < h + c))%N%:R) n)
    else if String.eqb component "gradient" then Ok (mkseq (fun i => (h + c <= i)%N%:R) n)
    else Raise ValueError in
  mapM (fun i => if (i < size mask)%N then Ok mask`_i else Raise IndexError) (argsort eigen_vals).

(** What a completed run puts into the history: filter, estimate, responses and errors.  (base_filter.py
    37-52.) *)
Record run := mkRun {
  run_filter : seq (seq R);
  run_estimated : seq R;
  run_responses : seq (seq R);
  run_errors : seq fl
}.

(** ** EdgeFlowDenoising *)

(** np.linalg.inv.  (edge_flow_denoising.py 54; simplicial_trend_filter.py 235.) *)
Definition np_inv n (A : 'M[R]_n) : res 'M[R]_n :=
  if A \in unitmx then Ok (invmx A) else Raise LinAlgError.

(** edge_flow_denoising.py 53-62: body of the loop over mu. *)
Definition denoise_step n (P : 'M[R]_n) (U : eigpairs R) (f f_true : seq R) (mu : R)
  : res ('M[R]_n * seq R * seq R * fl) :=
  let! H := np_inv (1%:M + mu *: P) in
  let! f_estimated := mat_dot H f in
  let! e := calculate_error_NRMSE f_estimated f_true in
  Ok (H, f_estimated, diag_response H U, e).

(** The values left after a loop that binds them anew in every round; a loop that never runs leaves
    H unbound.  (edge_flow_denoising.py 65-72; ls_filter_design.py 80-82.) *)
Definition collect n (steps : seq ('M[R]_n * seq R * seq R * fl)) : res run :=
  if steps is s :: rest then
    let: (H, f_estimated, _, _) := last s rest in
    Ok (mkRun (rows H) f_estimated [seq x.1.2 | x <- steps] [seq x.2 | x <- steps])
  else Raise UnboundLocalError.

(** edge_flow_denoising.py 25-72: denoise. *)
Definition edge_flow_denoise (sc : SC) (f f_true : seq R) (p_choice : string) (mu_vals : seq R)
  : res run :=
  let! P := get_p_matrix sc p_choice in
  let! P := to_arr P in
  let! U1 := get_eigendecomposition eigsh (Dense P) (eps64 R) in
  let! steps := mapM (denoise_step (toM R (sh0 P) (sh0 P) P) U1 f f_true) mu_vals in
  collect steps.

(** ** Least-squares polynomial filters *)

(** The matrix [system_mat] after columns 0..l have been filled.  (ls_filter_design.py 49 and 58;
    grid_based_filter_design.py 117 and 127.) *)
Definition system_mat (eigenvals : seq R) (L l : nat) : 'M[R]_(size eigenvals, L) :=
  \matrix_(i, j) if (j <= l)%N then eigenvals`_i ^+ j else 0.

(** H = sum_i h[i] P**i.  (ls_filter_design.py 64-67; grid_based_filter_design.py 134-137.) *)
Definition poly_filter n (P : 'M[R]_n) L (h : 'cV[R]_L) : 'M[R]_n :=
  \sum_(i < L) h i 0 *: mpow P i.

(** ls_filter_design.py 56-78 and grid_based_filter_design.py 125-146 (the same statements): body of
    the loop over the filter sizes. *)
Definition filter_step (P : arr2) (U : eigpairs R) (f f_true eigenvals alpha : seq R) (L l : nat)
  : res ('M[R]_(sh0 P) * seq R * seq R * fl) :=
  let! h := (if size alpha == size eigenvals
             then Ok (lstsq (system_mat eigenvals L l) (vec (size eigenvals) alpha))
             else Raise LinAlgError) in
  let H := poly_filter (toM R (sh0 P) (sh0 P) P) h in
  let! f_estimated := mat_dot H f in
  let! e := calculate_error_NRMSE f_estimated f_true in
  Ok (H, f_estimated, diag_response H U, e).

(** ls_filter_design.py 19-82 and grid_based_filter_design.py 88-148: _apply_filter.  np.zeros
    rejects a negative L. *)
Definition apply_filter (P : arr2) (U : eigpairs R) (f f_true eigenvals alpha : seq R) (L : Z)
  : res run :=
  if Z.ltb L 0 then Raise ValueError
  else
    let n := Z.to_nat L in
    let! steps := mapM (filter_step P U f f_true eigenvals alpha n) (iota 0 n) in
    collect steps.

(** ls_filter_design.py 84-132: subcomponent_extraction_type_one. *)
Definition ls_type_one (sc : SC) (f : seq R) (component : string) (L : Z) : res run :=
  let! L1 := hodge_laplacian_matrix sc 1 in
  let! L1 := to_arr L1 in
  let! U := get_eigendecomposition eigsh (Dense L1) (eps64 R) in
  let! f_true := get_true_signal sc f component in
  let! alpha := get_component_coefficients sc component in
  apply_filter L1 U f f_true [seq p.1 | p <- U] alpha L.

(** np.unique: ascending, without repetitions.  (ls_filter_design.py 176.) *)
Definition np_unique (x : seq R) : seq R := sort <=%R (undup x).

(** ls_filter_design.py 134-201: subcomponent_extraction_type_two (default tolerance 1e-6). *)
Definition ls_type_two (sc : SC) (f : seq R) (component : string) (L : Z) (tolerance : R) : res run :=
  let! lap_matrix :=
    if String.eqb component "gradient" then lower_laplacian_matrix sc 1
    else if String.eqb component "curl" then upper_laplacian_matrix sc 1
    else Raise ValueError in
  let! lap_matrix := to_arr lap_matrix in
  let! U := get_eigendecomposition eigsh (Dense lap_matrix) (eps64 R) in
  let eigenvals := np_unique [seq if `|p.1| < tolerance then 0 else p.1 | p <- U] in
  let! f_true := get_true_signal sc f component in
  let alpha := 0 :: nseq (size eigenvals - 1) 1 in
  apply_filter lap_matrix U f f_true eigenvals alpha L.

(** ** Grid-based filters *)

(** np.linspace(a, b, num).  (grid_based_filter_design.py 41.) *)
Definition linspace (a b : R) (num : Z) : res (seq R) :=
  if Z.ltb num 0 then Raise ValueError
  else
    let n := Z.to_nat num in
    Ok (mkseq (fun i => if n == 1%N then a else a + i%:R * ((b - a) / n.-1%:R)) n).

(** np.mean(P @ v / v): nan or inf if an entry of v is zero.  (grid_based_filter_design.py 40;
    chebyshev_filter_design.py 109.) *)
Definition mean_quotient n (P : 'M[R]_n) (v : 'cV[R]_n) : res R :=
  if [exists i, v i 0 == 0] then Raise NonFinite
  else Ok ((\sum_i (P *m v) i 0 / v i 0) / n%:R).

(** grid_based_filter_design.py 23-41: _sample_grid_points (50 iterations). *)
Definition sample_grid_points n (P : 'M[R]_n) (num_of_samples : Z) : res (seq R) :=
  let! v := power_iteration P 50 in
  let! lambda_max := mean_quotient P v in
  linspace 0 lambda_max num_of_samples.

(** grid_based_filter_design.py 43-58: _compute_frequency_response_hp; numpy scalars give inf when
    divided by zero. *)
Definition frequency_response_hp (mu eigenvalue : R) : res R :=
  if 1 + mu * eigenvalue == 0 then Raise NonFinite else Ok (1 / (1 + mu * eigenvalue)).

(** grid_based_filter_design.py 60-86: _compute_sampled_continuous_freq_response. *)
Definition sampled_freq_response n (P : 'M[R]_n) (num_of_samples : Z) (mu : R)
  : res (seq R * seq R) :=
  let! sampled_eigenvals := sample_grid_points P num_of_samples in
  let! sampled_freq_response := mapM (frequency_response_hp mu) sampled_eigenvals in
  Ok (sampled_freq_response, sampled_eigenvals).

(** grid_based_filter_design.py 150-194: denoise. *)
Definition grid_denoise (sc : SC) (f f_true : seq R) (p_choice : string) (L : Z) (mu : R) : res run :=
  let! P := get_p_matrix sc p_choice in
  let! P := to_arr P in
  let! U := get_eigendecomposition eigsh (Dense P) (eps64 R) in
  let! (g, eigenvals_sampled) :=
    sampled_freq_response (toM R (sh0 P) (sh0 P) P) (Z.of_nat (size f_true)) mu in
  apply_filter P U f f_true eigenvals_sampled g L.

(** grid_based_filter_design.py 196-254: subcomponent_extraction (defaults 10, 0.5, 0.01, 100). *)
Definition grid_extraction (sc : SC) (f : seq R) (component p_choice : string) (L num_of_samples : Z)
    (mu cut_off_frequency steep : R) : res run :=
  let! P := get_p_matrix sc p_choice in
  let! P := to_arr P in
  let! U := get_eigendecomposition eigsh (Dense P) (eps64 R) in
  let! (_, eigenvals_sampled) :=
    sampled_freq_response (toM R (sh0 P) (sh0 P) P) num_of_samples mu in
  let alpha := [seq logistic_function cut_off_frequency steep x | x <- eigenvals_sampled] in
  let! f_true := get_true_signal sc f component in
  apply_filter P U f f_true eigenvals_sampled alpha L.

(** ** Chebyshev filters *)

(** chebyshev_filter_design.py 75-86: the array H_cheb_approx[k, :, :] for k < K; 1/alpha is inf for
    alpha = 0 (guarded in [chebyshev_filter_approximate]). *)
Fixpoint cheb_stack n (P : 'M[R]_n) (alpha : R) (k : nat) : 'M[R]_n :=
  match k with
  | O => 1%:M
  | S k' =>
      match k' with
      | O => alpha^-1 *: (P - alpha *: 1%:M)
      | S k'' => (2%:R / alpha) *: (P - alpha *: 1%:M) *m cheb_stack P alpha k'
                 - cheb_stack P alpha k''
      end
  end.

(** chebyshev_filter_design.py 19-49: _get_chebyshev_series; the series is its list of coefficients. *)
Definition get_chebyshev_series (n : Z) (domain_min domain_max cut_off_frequency steep : R) : res (seq R) :=
  chebfun (logistic_function cut_off_frequency steep) domain_min domain_max n.

(** chebyshev_filter_design.py 51-92: _chebyshev_filter_approximate for order >= 0.
    coeffs[:, None, None] * H has shapes (K,1,1) and (order,n,n): they broadcast if K = order or one
    of them is 1.  With K = 1 the remaining slices are zero; with K = 0 the sum is empty. *)
Definition chebyshev_filter_approximate n (P : 'M[R]_n) (coefficients : seq R) (alpha : R)
    (order : nat) : res 'M[R]_n :=
  let coeffs := take order coefficients in
  let K := size coeffs in
  if (1 < K)%N && (alpha == 0) then Raise NonFinite
  else if (K == order) || (K == 1%N) || (order == 1%N)
  then Ok (\sum_(k < K) coeffs`_k *: cheb_stack P alpha k)
  else Raise ValueError.

(** chebyshev_filter_design.py 94-112: get_alpha. *)
Definition get_alpha (sc : SC) (p_choice : string) : res (R * R) :=
  let! P := get_p_matrix sc p_choice in
  let! P := to_arr P in
  let M := toM R (sh0 P) (sh0 P) P in
  let! v := power_iteration M 50 in
  let! lambda_max := mean_quotient M v in
  Ok (lambda_max / 2%:R, lambda_max).

(** chebyshev_filter_design.py 114-127: get_ideal_frequency. *)
Definition get_ideal_frequency (sc : SC) (component_coeffs : seq R) : res (seq (seq R)) :=
  let! P := get_p_matrix sc "L1" in
  let! P := to_arr P in
  let! U := get_eigendecomposition eigsh (Dense P) (eps64 R) in
  let n := sh0 P in
  if size component_coeffs == size U then
    Ok (rows (\sum_(i < size U) component_coeffs`_i *:
          (vec n (nth (0, [::]) U i).2 *m (vec n (nth (0, [::]) U i).2)^T)))
  else Raise ValueError.

(** [a[i:] = x] for an integer i: negative indices count from the end.  (chebyshev_filter_design.py
    154-156.) *)
Definition set_from (A : Type) (a : seq A) (i : Z) (x : A) : seq A :=
  let s := if Z.ltb i 0 then Z.to_nat (Z.max 0 (i + Z.of_nat (size a))%zz) else Z.to_nat i in
  take s a ++ nseq (size a - s) x.

(** chebyshev_filter_design.py 129-158: get_chebyshev_frequency_approx on a given matrix; the stack
    starts with [order] zero matrices. *)
Definition chebyshev_frequency_approx n (P : 'M[R]_n) (coeffs : seq R) (alpha : R) (order : nat)
  : res (seq 'M[R]_n) :=
  foldM (fun H k =>
           let! A := chebyshev_filter_approximate P coeffs alpha k.+1 in
           Ok (set_from H (Z.of_nat k - 1)%zz A))
        (nseq order 0) (iota 0 order).

(** What ChebyshevFilterDesign.apply puts into the history.  (chebyshev_filter_design.py 264-270.) *)
Record cheb_run := mkChebRun {
  cheb_filter : seq (seq (seq R));
  cheb_estimated : seq (seq R);
  cheb_responses : seq (seq R);
  cheb_errors : seq fl;
  cheb_filter_error : seq R
}.

(** chebyshev_filter_design.py 237-261: body of the loop of apply.  np.squeeze turns a 1 x 1 slice into
    a 0-d array, which [@] rejects. *)
Definition cheb_step n (U U_l : eigpairs R) (H_ideal : 'M[R]_n) (f f_true h_ideal : seq R)
    (H : 'M[R]_n) : res (seq R * seq R * fl * R) :=
  if n == 1%N then Raise ValueError
  else
  let g := diag_response H U_l in
  let! _ := calculate_error_NRMSE g h_ideal in
  let e_filter := norm_2 (H - H_ideal) in
  let! f_cheb := mat_dot H f in
  let! e := calculate_error_NRMSE f_cheb f_true in
  let tilde x := [seq ((vec n p.2)^T *m vec n x) 0 0 | p <- U] in
  let! _ := calculate_error_NRMSE (tilde f_cheb) (tilde f_true) in
  Ok (f_cheb, tilde f_cheb, e, e_filter).

(** chebyshev_filter_design.py 160-270: apply (defaults "L1L", "gradient", 10, None, 0.01, 100).
    [n = None] and [n = 0] both mean L.  Simplification: H_ideal is rebuilt from its rows. *)
Definition cheb_apply (sc : SC) (f : seq R) (p_choice component : string) (L : Z) (n : option Z)
    (cut_off_frequency steep : R) : res cheb_run :=
  let n := match n with None => L | Some m => if Z.eqb m 0 then L else m end in
  let! L1 := hodge_laplacian_matrix sc 1 in
  let! L1 := to_arr L1 in
  let! U := get_eigendecomposition eigsh (Dense L1) (eps64 R) in
  let! P := get_p_matrix sc p_choice in
  let! P := to_arr P in
  let! U_l := get_eigendecomposition eigsh (Dense P) (eps64 R) in
  let! f_true := get_true_signal sc f component in
  let! h_ideal := get_component_coefficients sc component in
  let! (alpha, lambda_max) := get_alpha sc p_choice in
  let! coeffs := get_chebyshev_series n 0 lambda_max cut_off_frequency steep in
  let! H_rows := get_ideal_frequency sc h_ideal in
  let m := sh0 P in
  let H_ideal : 'M[R]_m := \matrix_(i, j) (nth [::] H_rows i)`_j in
  if Z.ltb L 0 then Raise ValueError
  else
    let! Hs := chebyshev_frequency_approx (toM R m m P) coeffs alpha (Z.to_nat L) in
    let! steps := mapM (cheb_step U U_l H_ideal f f_true h_ideal) Hs in
    Ok (mkChebRun [seq rows H | H <- Hs] [seq x.1.1.1 | x <- steps] [seq x.1.1.2 | x <- steps]
          [seq x.1.2 | x <- steps] [seq x.2 | x <- steps]).

(** Value at x of the series with coefficients [c] on [a, b]: x is moved to [-1, 1], and T_k follows from
    T_{k-1} and T_{k-2}; no restriction to [a, b].  Stands for the call of a chebfun object.
    (chebyshev_filter_design.py 313.) *)
Definition series_value (c : seq R) (a b x : R) : R :=
  let y := (2%:R * x - a - b) / (b - a) in
  (foldl (fun '(s, t, t') ck => (s + ck * t, t', 2%:R * y * t' - t)) (0, 1, y) c).1.1.

(** chebyshev_filter_design.py 272-318: plot_chebyshev_series_approx, returning the arrays given to the two
    calls of plt.scatter (the abscissae are the same); [n = None] and [n = 0] both mean len(P). *)
Definition plot_chebyshev_series_approx (sc : SC) (p_choice : string) (n : option Z)
    (cut_off_frequency steep : R) : res (seq R * seq R * seq R) :=
  let! P := get_p_matrix sc p_choice in
  let! P := to_arr P in
  let! U := get_eigendecomposition eigsh (Dense P) (eps64 R) in
  let eigenvalues := [seq q.1 | q <- U] in
  let len := Z.of_nat (sh0 P) in
  let n := match n with None => len | Some m => if Z.eqb m 0 then len else m end in
  let! (_, lambda_max) := get_alpha sc p_choice in
  let! g_chebyshev := get_chebyshev_series n 0 lambda_max cut_off_frequency steep in
  Ok (eigenvalues, [seq logistic_function cut_off_frequency steep x | x <- eigenvalues],
      [seq series_value g_chebyshev 0 lambda_max x | x <- eigenvalues]).

End Filter.
