(** * When the grid-based filters complete, and examples for C35 and C43 *)

From Coq Require Import ZArith String List.
From mathcomp Require Import all_ssreflect all_algebra all_real_closed ssrZ zify.
From Verif Require Import Py PyFacts ExampleData Complex ComplexSpec ComplexFacts LinAlg Spectral Signal
  SignalSpec Bridge SignalFacts Compute Props_Signal Props_Hodge Eigen EigenSpec EigenFacts
  Props_Eigen Filter FilterSpec FilterFacts FilterFacts2 PolyFacts Props_Masks Props_LowPass Props_Poly
  Props_Power Props_Cheb.

Set Implicit Arguments.
Unset Strict Implicit.
Unset Printing Implicit Defensive.

Import GRing.Theory Num.Theory Order.Theory.
Local Open Scope ring_scope.

(** Once the largest eigenvalue has been estimated (as a nonnegative number), every grid run with at
    least one coefficient completes. *)
Theorem C35_grid_runs_complete :
  forall (R : rcfType) eigsh lstsq rint expf, eigsh_contract eigsh -> lstsq_contract lstsq ->
  forall nodes E T nf ef sc, make_sc nodes E T nf ef = Ok sc -> (0 < length E)%N ->
  forall p A, get_p_matrix sc p = Ok (Csr A) ->
  forall (f : seq R) mu xs num L, size f = length E -> 0 <= mu -> Z.lt Z0 L ->
  sample_grid_points (toM R (length E) (length E) A) num = Ok xs -> 0 <= last 0 xs ->
  (forall f_true, size f_true = length E -> num = Z.of_nat (length E) ->
     exists r, grid_denoise eigsh lstsq sc f f_true p L mu = Ok r) /\
  (forall s cut steep, component_name s ->
     exists r, grid_extraction eigsh lstsq rint expf sc f s p L num mu cut steep = Ok r).
Proof.
move=> R eigsh lstsq rint expf EC LC nodes E T nf ef sc H M0 p A /p_of[pv ->] f mu xs num L sf mu0 L0 sg l0.
have [g [eg [szg _]]] := C40_low_pass_response sg l0 mu0.
have := p_side H EC M0 p; cbv zeta; move=> [sB [sq [sy [F D]]]].
have eg' : sampled_freq_response (toM R (sh0 (p_array sc p)) (sh0 (p_array sc p)) (p_array sc p)) num mu = Ok (g, xs).
  by rewrite sB.
split.
  move=> t st en.
  have unf : grid_denoise eigsh lstsq sc f t p L mu =
    let! U := get_eigendecomposition eigsh (Dense (p_array sc p)) (eps64 R) in
    let! (g, eigenvals_sampled) := sampled_freq_response
      (toM R (sh0 (p_array sc p)) (sh0 (p_array sc p)) (p_array sc p)) (Z.of_nat (size t)) mu in
    apply_filter lstsq (p_array sc p) U f t eigenvals_sampled g L.
    by rewrite /grid_denoise get_p_matrixE pv.
  rewrite st -en eg' D !bindOk in unf; cbv beta iota in unf.
  move: sB sq sy F unf {D eg' sg}; set B := p_array sc p => sB sq sy F unf.
  have [r [hs [er _]]] := poly_run lstsq sq sy F (etrans sf (esym sB)) (etrans st (esym sB)) szg L0.
  by exists r; rewrite unf.
move=> s cut steep cn.
have unf : grid_extraction eigsh lstsq rint expf sc f s p L num mu cut steep =
  let! U := get_eigendecomposition eigsh (Dense (p_array sc p)) (eps64 R) in
  let! (_, eigenvals_sampled) := sampled_freq_response
    (toM R (sh0 (p_array sc p)) (sh0 (p_array sc p)) (p_array sc p)) num mu in
  let alpha := [seq logistic_function expf cut steep x | x <- eigenvals_sampled] in
  let! f_true := get_true_signal lstsq rint sc f s in
  apply_filter lstsq (p_array sc p) U f f_true eigenvals_sampled alpha L.
  by rewrite /grid_extraction get_p_matrixE pv.
rewrite eg' D !bindOk in unf; cbv beta iota zeta in unf.
rewrite /get_true_signal (component_Ok H LC) // bindOk in unf.
move: sB sq sy F unf {D eg' sg}; set B := p_array sc p => sB sq sy F unf.
have st : size (unvec (comp_mx R nodes E T sc s *m vec (length E) f)) = sh0 B by rewrite size_unvec sB.
have sa : size [seq logistic_function expf cut steep x | x <- xs] = size xs by rewrite size_map.
have [r [hs [er _]]] := poly_run lstsq sq sy F (etrans sf (esym sB)) st sa L0.
by exists r; rewrite unf.
Qed.
Print Assumptions C35_grid_runs_complete.

Lemma path_oriented : oriented (length path_nodes) path_edges nil.
Proof.
split; first by intros u v HI; simpl in HI; unfold path_nodes; simpl length; inlist HI.
by split=> // a b c [].
Qed.

Lemma path_alpha (R : rcfType) : get_alpha R path_sc "L1" = Ok (1 / 2%:R, 1 : R) /\
  sample_grid_points (toM R 2 2 pLS) 2 = Ok (even_grid (1 : R) 2).
Proof.
have e1 : mv pLS (nseq 2 1) = nseq 2 (1 : R) by rewrite pLS_mv !mulr1 mulr2n addrK addKr.
have [h1 h2] := C41_equal_row_sums path_ok (isT : (0 < length path_edges)%N)
  (erefl : get_p_matrix path_sc "L1" = Ok (Csr pLS)) (@ltr01 R) e1.
by split; [exact: h1|exact: (h2 2%zz)].
Qed.

(** The hypotheses of the C35 theorems hold on the path with three nodes. *)
Example C35_example : let R := realalg_rcfType in
  eigsh_contract (@eigsh_std R) /\ lstsq_min_contract (@ls_min R) /\ argsort_contract (@argsort_ref R) /\
  make_sc path_nodes path_edges nil nil nil = Ok path_sc /\ (0 < length path_edges)%N /\
  oriented (length path_nodes) path_edges nil /\ get_p_matrix path_sc "L1" = Ok (Csr pLS) /\
  (forall rint expf, exists r, grid_extraction (@eigsh_std R) (@ls_min R) rint expf path_sc [:: 1; 2%:R]
     "gradient" "L1" 3 2 1 0 1 = Ok r) /\
  (exists r, grid_denoise (@eigsh_std R) (@ls_min R) path_sc [:: 1; 2%:R] [:: 1; 1] "L1" 3 1 = Ok r).
Proof.
move=> R.
split; first exact: eigsh_std_ok. split; first exact: ls_min_ok. split; first exact: argsort_ref_ok.
split; first exact: path_ok. split; first by []. split; first exact: path_oriented. split; first by [].
have [_ sg] := path_alpha R.
have l0 : 0 <= last 0 (even_grid (1 : R) 2).
  by rewrite -nth_last size_mkseq nth_mkseq // mul1r divr1 ler01.
have L0 : Z.lt Z0 3 by [].
have sf : size [:: 1; (2%:R : R)] = length path_edges by [].
have C rint expf := C35_grid_runs_complete rint expf (@eigsh_std_ok R) (proj1 (@ls_min_ok R)) path_ok
  (isT : (0 < length path_edges)%N) (erefl : get_p_matrix path_sc "L1" = Ok (Csr pLS)) sf ler01 L0 sg l0.
split.
  by move=> rint expf; have [_ h] := C rint expf; apply: h; left.
have [h _] := C (fun _ => 0) id; exact: h.
Qed.

(** The hypotheses of [C43_apply] hold there as well. *)
Example C43_example : let R := realalg_rcfType in
  let cf : (R -> R) -> R -> R -> Z -> res (seq R) := fun _ _ _ _ => Ok [:: 1; 1; 1] in
  eigsh_contract (@eigsh_std R) /\ lstsq_contract (@ls_min R) /\ argsort_contract (@argsort_ref R) /\
  make_sc path_nodes path_edges nil nil nil = Ok path_sc /\ (1 < length path_edges)%N /\
  oriented (length path_nodes) path_edges nil /\ get_p_matrix path_sc "L1" = Ok (Csr pLS) /\
  component_name "gradient" /\ get_alpha R path_sc "L1" = Ok (1 / 2%:R, 1) /\ 1 / 2%:R != 0 :> R /\
  cf (logistic_function id 0 1) 0 1 3%zz = Ok [:: 1; 1; 1] /\ leq (Z.to_nat 3) (size [:: 1 : R; 1; 1]).
Proof.
move=> R cf.
split; first exact: eigsh_std_ok. split; first exact: (proj1 (@ls_min_ok R)). split; first exact: argsort_ref_ok.
split; first exact: path_ok. split; first by []. split; first exact: path_oriented. split; first by [].
split; first by left. split; first exact: (proj1 (path_alpha R)).
by split=> //; rewrite mul1r invr_eq0 pnatr_eq0.
Qed.
