(** * Model of the signal operations of SimplicialComplex and of
      pytspl/decomposition/hodge_decomposition.py

    Definitions only.  The numbers are elements of an arbitrary ordered field [R] instead of
    floats: rounding errors of the arithmetic itself are not modelled.  Signals are 1-d arrays
    ([seq R]); 2-d "flows" are not modelled. *)

From Coq Require Import ZArith String List.
From mathcomp Require Import all_ssreflect all_algebra ssrZ zify.
From Verif Require Import Py Complex.

Set Implicit Arguments.
Unset Strict Implicit.
Unset Printing Implicit Defensive.

Import GRing.Theory Num.Theory Order.Theory.
Local Open Scope ring_scope.

Section Signal.
Variable R : realFieldType.

(** An integer matrix entry used in float arithmetic.  (For example simplicial_complex.py 360.) *)
Definition ZR (z : Z) : R := (int_of_Z z)%:~R.

(** Array of integers as a matrix with the given dimensions.  (For example hodge_decomposition.py 36.) *)
Definition toM n m (A : arr2) : 'M[R]_(n, m) := \matrix_(i, j) ZR (at2 A i j).

(** 1-d array <-> column vector.  (For example hodge_decomposition.py 36.) *)
Definition vec n (x : seq R) : 'cV[R]_n := \col_i x`_i.
(** A column vector as a 1-d array; for example hodge_decomposition.py 36. *)
Definition unvec n (v : 'cV[R]_n) : seq R := [seq v i 0 | i <- enum 'I_n].

(** [A @ x] for a (sparse or dense) matrix and a 1-d array; numpy and scipy raise ValueError on a
    dimension mismatch.  (For example hodge_decomposition.py 37.) *)
Definition arr_dot (A : arr2) (x : seq R) : res (seq R) :=
  if size x == sh1 A then Ok (mkseq (fun i => \sum_(j < sh1 A) ZR (at2 A i j) * x`_j) (sh0 A))
  else Raise ValueError.
(** The same for a matrix object; for example simplicial_complex.py 360. *)
Definition mdot (M : pymat) (x : seq R) : res (seq R) :=
  match M with Csr A | Dense A => arr_dot A x | Vec _ => Raise ValueError end.

(** Elementwise operation on 1-d arrays with numpy broadcasting.  (simplicial_complex.py 406;
    hodge_decomposition.py 98; base_filter.py 57.) *)
Definition np_zip (op : R -> R -> R) (x y : seq R) : res (seq R) :=
  if size x == size y then Ok [seq op p.1 p.2 | p <- zip x y]
  else if size x == 1%N then Ok [seq op (head 0 x) b | b <- y]
  else if size y == 1%N then Ok [seq op a (head 0 y) | a <- x]
  else Raise ValueError.
(** [x + y]; simplicial_complex.py 406. *)
Definition np_add := np_zip +%R.
(** [x - y]; hodge_decomposition.py 98; base_filter.py 57. *)
Definition np_sub := np_zip (fun a b => a - b).

(** [M.T].  (eigendecomposition.py 54.) *)
Definition mtr (M : pymat) : pymat :=
  match M with Csr A => Csr (atr A) | Dense A => Dense (atr A) | Vec v => Vec v end.

(** simplicial_complex.py 342-365: apply_lower_shifting. *)
Definition apply_lower_shifting (sc : SC) (flow : seq R) (steps : Z) : res (seq R) :=
  let! L1L := lower_laplacian_matrix sc 1 in
  if Z.eqb steps 1 then mdot L1L flow
  else let! y := mdot L1L flow in mdot L1L y.

(** simplicial_complex.py 367-390: apply_upper_shifting. *)
Definition apply_upper_shifting (sc : SC) (flow : seq R) (steps : Z) : res (seq R) :=
  let! L1U := upper_laplacian_matrix sc 1 in
  if Z.eqb steps 1 then mdot L1U flow
  else let! y := mdot L1U flow in mdot L1U y.

(** simplicial_complex.py 392-406: apply_k_step_shifting (default steps = 2). *)
Definition apply_k_step_shifting (sc : SC) (flow : seq R) (steps : Z) : res (seq R) :=
  let! two_step_lower_shifting := apply_lower_shifting sc flow steps in
  let! two_step_upper_shifting := apply_upper_shifting sc flow steps in
  np_add two_step_lower_shifting two_step_upper_shifting.

(** simplicial_complex.py 486-497 and eigendecomposition.py 29-40: get_divergence. *)
Definition get_divergence (sc : SC) (flow : seq R) : res (seq R) :=
  let! B1 := incidence_matrix sc 1 in mdot B1 flow.

(** simplicial_complex.py 499-510 and eigendecomposition.py 43-54: get_curl. *)
Definition get_curl (sc : SC) (flow : seq R) : res (seq R) :=
  let! B2 := incidence_matrix sc 2 in mdot (mtr B2) flow.

(** ** Hodge decomposition.  [lstsq] stands for [np.linalg.lstsq(A, b, rcond=None)[0]]; its
    contract is [lstsq_contract] (SignalSpec.v).  [rint] stands for numpy's rounding to the nearest
    integer; its contract is [rint_contract]. *)
Variable lstsq : forall m n, 'M[R]_(m, n) -> 'cV[R]_m -> 'cV[R]_n.
Variable rint : R -> int.

(** np.linalg.lstsq raises LinAlgError when the number of rows differs from the length of b.
    (hodge_decomposition.py 36 and 64.) *)
Definition np_lstsq (A : arr2) (b : seq R) : res (seq R) :=
  if size b == sh0 A then Ok (unvec (lstsq (toM (sh0 A) (sh1 A) A) (vec (sh0 A) b)))
  else Raise LinAlgError.

(** np.round(x, d): multiply by 10^d, round to an integer, divide by 10^d.  (hodge_decomposition.py 40,
    68 and 101.) *)
Definition np_round1 (d : int) (x : R) : R := (rint (x * 10%:R ^ d))%:~R / 10%:R ^ d.
(** The same for an array; hodge_decomposition.py 40, 68 and 101. *)
Definition np_round (x : seq R) (d : int) : seq R := [seq np_round1 d t | t <- x].

(** hodge_decomposition.py 17-42: get_gradient_flow. *)
Definition get_gradient_flow (B1 : arr2) (flow : seq R) (round_fig : bool) (round_sig_fig : int)
  : res (seq R) :=
  let! p := np_lstsq (atr B1) flow in
  let! gradient_flow := arr_dot (atr B1) p in
  Ok (if round_fig then np_round gradient_flow round_sig_fig else gradient_flow).

(** hodge_decomposition.py 45-70: get_curl_flow. *)
Definition get_curl_flow (B2 : arr2) (flow : seq R) (round_fig : bool) (round_sig_fig : int)
  : res (seq R) :=
  let! w := np_lstsq B2 flow in
  let! curl_flow := arr_dot B2 w in
  Ok (if round_fig then np_round curl_flow round_sig_fig else curl_flow).

(** hodge_decomposition.py 73-103: get_harmonic_flow. *)
Definition get_harmonic_flow (B1 B2 : arr2) (flow : seq R) (round_fig : bool) (round_sig_fig : int)
  : res (seq R) :=
  let! gradient_flow := get_gradient_flow B1 flow false 2 in
  let! curl_flow := get_curl_flow B2 flow false 2 in
  let! d := np_sub flow gradient_flow in
  let! harmonic_flow := np_sub d curl_flow in
  Ok (if round_fig then np_round harmonic_flow round_sig_fig else harmonic_flow).

(** simplicial_complex.py 512-567: get_component_flow (defaults: "gradient", True, 2).
    frequency_component.py 16-18 gives the three names. *)
Definition get_component_flow (sc : SC) (flow : seq R) (component : string) (round_fig : bool)
    (round_sig_fig : int) : res (seq R) :=
  let B1 := sc_B1 sc in
  let B2 := sc_B2 sc in
  if String.eqb component "harmonic" then get_harmonic_flow B1 B2 flow round_fig round_sig_fig
  else if String.eqb component "curl" then get_curl_flow B2 flow round_fig round_sig_fig
  else if String.eqb component "gradient" then get_gradient_flow B1 flow round_fig round_sig_fig
  else Raise ValueError.

End Signal.
