(** * Model of pytspl/decomposition/eigendecomposition.py and of the spectral methods of
      SimplicialComplex

    Definitions only.  As in Signal.v the numbers form an ordered field. *)

From Coq Require Import ZArith String List.
From mathcomp Require Import all_ssreflect all_algebra ssrZ zify.
From Verif Require Import Py Complex Signal.

Set Implicit Arguments.
Unset Strict Implicit.
Unset Printing Implicit Defensive.

Import GRing.Theory Num.Theory Order.Theory.
Local Open Scope ring_scope.

Section Eigen.
Variable R : realFieldType.

(** [eigsh] stands for scipy.sparse.linalg.eigsh(A, k=n) on a dense symmetric n x n array with
    n >= 1 (scipy then delegates to scipy.linalg.eigh): the list of (eigenvalue, eigenvector
    column).  Contract: [eigsh_contract] (EigenSpec.v). *)
Variable eigsh : forall n, 'M[R]_n -> seq (R * 'cV[R]_n).

(** np.finfo(float).eps.  (eigendecomposition.py 128.) *)
Definition eps64 : R := (2%:R ^+ 52)^-1.
(** 1e-3.  (simplicial_complex.py 425-427 and 440.) *)
Definition milli : R := 1000%:R^-1.

(** The pair (eigenvectors, eigenvalues): column j of the array of eigenvectors together with
    entry j of the array of eigenvalues.  (eigendecomposition.py 155-159.) *)
Definition eigpairs := seq (R * seq R).

(** eigendecomposition.py 127-159: get_eigendecomposition (default tolerance [eps64]).  eigsh raises
    ValueError for a non-square array, a 1-d array, and for k = 0. *)
Definition get_eigendecomposition (lap_mat : pymat) (tolerance : R) : res eigpairs :=
  match lap_mat with
  | Csr _ => Raise AssertionError
  | Vec _ => Raise ValueError
  | Dense A =>
      if (sh0 A == sh1 A) && (0 < sh0 A)%N then
        Ok [seq (if `|p.1| < tolerance then 0 else p.1, unvec p.2)
           | p <- eigsh (toM R (sh0 A) (sh0 A) A)]
      else Raise ValueError
  end.

(** eigendecomposition.py 57-77: get_gradient_eigenpair. *)
Definition get_gradient_eigenpair (lower_lap_mat : pymat) (tolerance : R) : res eigpairs :=
  let! ps := get_eigendecomposition lower_lap_mat eps64 in
  Ok [seq p <- ps | tolerance < p.1].

(** eigendecomposition.py 80-100: get_curl_eigenpair. *)
Definition get_curl_eigenpair (upper_lap_mat : pymat) (tolerance : R) : res eigpairs :=
  let! ps := get_eigendecomposition upper_lap_mat eps64 in
  Ok [seq p <- ps | tolerance <= p.1].

(** eigendecomposition.py 103-124: get_harmonic_eigenpair. *)
Definition get_harmonic_eigenpair (hodge_lap_mat : pymat) (tolerance : R) : res eigpairs :=
  let! ps := get_eigendecomposition hodge_lap_mat eps64 in
  Ok [seq p <- ps | p.1 <= tolerance].

(** simplicial_complex.py 437-474: get_component_eigenpair (defaults "harmonic", 1e-3). *)
Definition get_component_eigenpair (sc : SC) (component : string) (tolerance : R) : res eigpairs :=
  if String.eqb component "harmonic" then
    let! L1 := hodge_laplacian_matrix sc 1 in
    let! L1 := toarray L1 in
    get_harmonic_eigenpair L1 tolerance
  else if String.eqb component "curl" then
    let! L1U := upper_laplacian_matrix sc 1 in
    let! L1U := toarray L1U in
    get_curl_eigenpair L1U tolerance
  else if String.eqb component "gradient" then
    let! L1L := lower_laplacian_matrix sc 1 in
    let! L1L := toarray L1L in
    get_gradient_eigenpair L1L tolerance
  else Raise ValueError.

(** [u.T @ flow] for the array u whose columns are the second members of [ps], each of length [n];
    ValueError if the flow has another length.  (simplicial_complex.py 431-433.) *)
Definition coeffs (n : nat) (ps : eigpairs) (flow : seq R) : res (seq R) :=
  if size flow == n then Ok [seq \sum_(i < n) p.2`_i * flow`_i | p <- ps] else Raise ValueError.

(** simplicial_complex.py 408-435: get_simplicial_embeddings. *)
Definition get_simplicial_embeddings (sc : SC) (flow : seq R) : res (seq R * seq R * seq R) :=
  let! L1 := hodge_laplacian_matrix sc 1 in
  let! L1 := toarray L1 in
  let! L1U := upper_laplacian_matrix sc 1 in
  let! L1U := toarray L1U in
  let! L1L := lower_laplacian_matrix sc 1 in
  let! L1L := toarray L1L in
  let! u_h := get_harmonic_eigenpair L1 milli in
  let! u_c := get_curl_eigenpair L1U milli in
  let! u_g := get_gradient_eigenpair L1L milli in
  let n := sh1 (sc_B1 sc) in
  let! f_tilda_h := coeffs n u_h flow in
  let! f_tilda_c := coeffs n u_c flow in
  let! f_tilda_g := coeffs n u_g flow in
  Ok (f_tilda_h, f_tilda_c, f_tilda_g).

(** eigendecomposition.py 15-26: get_total_variance: diagonal of U.T @ L @ U. *)
Definition total_variance (laplacian_matrix : pymat) : res (seq R) :=
  let! ps := get_eigendecomposition laplacian_matrix eps64 in
  mapM (fun p => let! y := mdot laplacian_matrix p.2 in
                 Ok (\sum_(i < size y) p.2`_i * y`_i)) ps.

(** simplicial_complex.py 476-484: get_total_variance. *)
Definition get_total_variance (sc : SC) : res (seq R) := total_variance (laplacian_matrix sc).

End Eigen.
