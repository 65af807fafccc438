(** * Least-squares and grid filters: C35 *)

From Coq Require Import ZArith String List.
From mathcomp Require Import all_ssreflect all_algebra all_real_closed ssrZ zify.
From Verif Require Import Py PyFacts ExampleData Complex ComplexSpec ComplexFacts LinAlg Spectral Signal
  SignalSpec Bridge SignalFacts Compute Props_Signal Props_Hodge Eigen EigenSpec IntEigen EigenFacts
  Props_Eigen Filter FilterSpec FilterFacts FilterFacts2 PolyFacts Props_Masks Props_LowPass.

Set Implicit Arguments.
Unset Strict Implicit.
Unset Printing Implicit Defensive.

Import GRing.Theory Num.Theory Order.Theory.
Local Open Scope ring_scope.

(** A run whose k-th filter is the polynomial with coefficients [hs_k] in the array [A]: the stored filter
    and estimate belong to the last one, errors and responses to all of them. *)
Definition polynomial_run (R : rcfType) (A : arr2) (f f_true : seq R) (hs : seq (seq R)) (r : run R) : Prop :=
  let h := last [::] hs in
  shaped (run_filter r) (sh0 A) (sh0 A) /\ symmetric (run_filter r) /\
  (forall x, size x = sh0 A -> rmv (run_filter r) x = poly_mv A h x) /\
  run_estimated r = rmv (run_filter r) f /\
  size (run_errors r) = size hs /\ size (run_responses r) = size hs /\
  (forall k, (k < size hs)%N ->
     relative_error (poly_mv A (nth [::] hs k) f) f_true (nth (NaN R) (run_errors r) k)) /\
  exists lams us, spectral_basis A lams us /\
    forall k, (k < size hs)%N ->
      nth [::] (run_responses r) k = [seq poly_at (nth [::] hs k) lam | lam <- lams].

Section Run.
Variable R : rcfType.
Variable lstsq : forall m n, 'M[R]_(m, n) -> 'cV[R]_m -> 'cV[R]_n.

Lemma spectral_basis_of A (l : seq (R * 'cV[R]_(sh0 A))) : sh0 A = sh1 A ->
  eigfam (toM R (sh0 A) (sh0 A) A) l -> spectral_basis A [seq q.1 | q <- l] [seq unvec q.2 | q <- l].
Proof.
move=> sA F; have s := eigfam_size F.
rewrite /spectral_basis !size_map s; do 2 split=> //; split; first exact: eigfam_orthonormal F.
move=> i im; rewrite !(nth_map (0, 0)) ?s // size_unvec; split=> //.
rewrite /is_eigen (mvE _ erefl sA) unvecK (eigfam_eq F) ?scalef_unvec //.
by rewrite mem_nth ?s.
Qed.

Lemma poly_run A (l : seq (R * 'cV[R]_(sh0 A))) (f t ev alpha : seq R) (L : Z) :
  sh0 A = sh1 A -> (toM R (sh0 A) (sh0 A) A)^T = toM R (sh0 A) (sh0 A) A ->
  eigfam (toM R (sh0 A) (sh0 A) A) l ->
  size f = sh0 A -> size t = sh0 A -> size alpha = size ev -> Z.lt Z0 L ->
  exists r hs, apply_filter lstsq A (up (zeroed l)) f t ev alpha L = Ok r /\
    size hs = Z.to_nat L /\ (forall h, h \in hs -> size h = Z.to_nat L) /\ polynomial_run A f t hs r /\
    (lstsq_min_contract lstsq ->
     forall k, (k < size hs)%N -> best_fit (size hs) k ev alpha (nth [::] hs k)).
Proof.
move=> sA sy F sf st sa L0.
have [m eL] : exists m, L = Z.of_nat m.+1 by exists (Z.to_nat L).-1; lia.
rewrite eL Nat2Z.id (apply_filterE lstsq l sA sf st sa).
have eI : iota 0 m.+1 = rcons (iota 0 m) m by rewrite -cats1 -addn1 iotaD.
have szI : size (rcons (iota 0 m) m) = m.+1 by rewrite -eI size_iota.
have nI k : (k < m.+1)%N -> nth 0%N (rcons (iota 0 m) m) k = k by move=> km; rewrite -eI nth_iota.
rewrite eI; set D := pstep _ _ _ _ _ _ _.
have [r [-> [ee [ef [er ex]]]]] := collect_rcons D (iota 0 m) m.
pose hs := [seq unvec (coefs lstsq ev alpha m.+1 k) | k <- rcons (iota 0 m) m].
have sh : size hs = m.+1 by rewrite size_map szI.
have hk k : (k < m.+1)%N -> nth [::] hs k = unvec (coefs lstsq ev alpha m.+1 k).
  by move=> km; rewrite (nth_map 0%N) ?szI // nI.
have lh : last [::] hs = unvec (coefs lstsq ev alpha m.+1 m) by rewrite /hs map_rcons last_rcons.
exists r, hs; split=> //; split=> //; split; first by move=> h /mapP[k _ ->]; rewrite size_unvec.
split; last by move=> C k; rewrite sh => km; rewrite hk //; exact: coefs_fit.
rewrite /polynomial_run lh sh ef ex er ee !size_map szI /D /=.
split; first exact: rows_shaped.
split; first by apply: rows_sym; exact: poly_filter_sym.
split; first by move=> x sx; rewrite rmv_rows // (poly_mvE erefl sA).
split; first by rewrite rmv_rows // (poly_mvE erefl sA).
do 2 split=> //; split.
  move=> k km; rewrite (nth_map 0%N) ?szI // nI // hk //; exact: nrmse_relative.
exists [seq q.1 | q <- l], [seq unvec q.2 | q <- l]; split; first exact: spectral_basis_of.
move=> k km; rewrite (nth_map 0%N) ?szI // nI // hk // diag_responseE -map_comp.
apply/eq_in_map => q ql /=.
exact: poly_filter_response (eigfam_eq F ql) (eigfam_unit F ql).
Qed.
End Run.

Section Side.
Variable R : rcfType.
Variable eigsh : forall n, 'M[R]_n -> seq (R * 'cV[R]_n).
Variables (nodes : list Z) (E : list (Z * Z)) (T : list (list Z)) (nf : dict Z fdict)
          (ef : dict (Z * Z) fdict) (sc : SC).
Hypothesis H : make_sc nodes E T nf ef = Ok sc.
Hypothesis EC : eigsh_contract eigsh.
Hypothesis M0 : (0 < length E)%N.

Lemma p_side p : let A := p_array sc p in
  sh0 A = length E /\ sh0 A = sh1 A /\ (toM R (sh0 A) (sh0 A) A)^T = toM R (sh0 A) (sh0 A) A /\
  eigfam (toM R (sh0 A) (sh0 A) A) (eigsh (toM R (sh0 A) (sh0 A) A)) /\
  get_eigendecomposition eigsh (Dense A) (eps64 R) = Ok (up (zeroed (eigsh (toM R (sh0 A) (sh0 A) A)))).
Proof.
move=> A; have [h0 h1] := p_dims H p; rewrite -/A in h0 h1.
have gen m : m = length E -> (toM R m m A)^T = toM R m m A /\ eigfam (toM R m m A) (eigsh (toM R m m A)) /\
   get_eigendecomposition eigsh (Dense A) (eps64 R) = Ok (up (zeroed (eigsh (toM R m m A)))).
  move=> ->; rewrite (toM_p R H); split; first exact: p_sym.
  by split; [exact: contract_eigfam (p_sym R nodes E T sc p)|exact: (p_decomp eigsh H p M0)].
by split=> //; split; [rewrite -h0 -h1|exact: gen (esym h0)].
Qed.

Lemma pAS : hodge_laplacian_matrix sc 1 = Ok (Csr (p_array sc "L1")). Proof. by []. Qed.
Lemma pAL : lower_laplacian_matrix sc 1 = Ok (Csr (p_array sc "L1L")). Proof. by []. Qed.
Lemma pAU : upper_laplacian_matrix sc 1 = Ok (Csr (p_array sc "L1U")). Proof. by []. Qed.
End Side.

Lemma c_validP s : c_valid s <-> component_name s.
Proof.
rewrite /c_valid /component_name; case: String.eqb_spec => [->|a] /=; first by split=> // _; right; right.
case: String.eqb_spec => [->|b] /=; first by split=> // _; right; left.
by case: String.eqb_spec => [->|c] /=; split=> //; [left|case=> [|[|]]].
Qed.

(** ** C35 *)

Theorem C35_ls_type_one :
  forall (R : rcfType) eigsh lstsq rint argsort, eigsh_contract eigsh -> lstsq_min_contract lstsq ->
    argsort_contract argsort ->
  forall nodes E T nf ef sc, make_sc nodes E T nf ef = Ok sc -> (0 < length E)%N ->
  oriented (length nodes) E T ->
  forall A, hodge_laplacian_matrix sc 1 = Ok (Csr A) ->
  forall s (f : seq R), component_name s -> size f = length E ->
  forall L, Z.lt Z0 L ->
  exists r hs t U alpha, ls_type_one eigsh lstsq rint argsort sc f s L = Ok r /\
    get_component_flow lstsq rint sc f s false 2 = Ok t /\
    size hs = Z.to_nat L /\ polynomial_run A f t hs r /\
    get_eigendecomposition eigsh (Dense A) (2%:R ^+ 52)^-1 = Ok U /\
    get_component_coefficients eigsh argsort sc s = Ok alpha /\
    forall k, (k < size hs)%N -> best_fit (size hs) k (values U) alpha (nth [::] hs k).
Proof.
move=> R eigsh lstsq rint argsort EC LC AC nodes E T nf ef sc H M0 O A; rewrite pAS => -[<-].
move=> s f cn sf L L0.
have := p_side H EC M0 "L1"; cbv zeta; have HA := pAS sc; move: HA; set B := p_array sc "L1" => HA.
move=> [sB [sq [sy [F D]]]].
rewrite /ls_type_one HA bindOk to_arrC bindOk D bindOk.
rewrite /get_true_signal (component_Ok H (proj1 LC)) // bindOk.
rewrite (coefficientsE H EC AC M0 O) (proj2 (c_validP s) cn) bindOk.
set t := unvec _; set alpha := [seq _ | _ <- argsort _].
have st : size t = sh0 B by rewrite size_unvec sB.
have sa : size alpha = size [seq p.1 | p <- up (zeroed (eigsh (sh0 B) (toM R (sh0 B) (sh0 B) B)))].
  by rewrite /alpha !size_map (size_argsort AC) (size_evals H EC M0 O) (eigfam_size F) sB.
have [r [hs [e [sh [_ [pr bf]]]]]] := poly_run lstsq sq sy F (etrans sf (esym sB)) st sa L0.
exists r, hs, t, (up (zeroed (eigsh (sh0 B) (toM R (sh0 B) (sh0 B) B)))), alpha.
by rewrite e; do 6 split=> //; exact: bf.
Qed.
Print Assumptions C35_ls_type_one.

Definition type_two_laplacian (s p : string) : Prop :=
  (s = "gradient" /\ p = "L1L")%string \/ (s = "curl" /\ p = "L1U")%string.

(** Distinct eigenvalues, ascending, with those below the tolerance taken as zero. *)
Definition distinct_values (R : rcfType) (vals : seq R) (tol : R) (ev : seq R) : Prop :=
  sorted <%R ev /\ forall x, x \in ev <-> exists2 lam, lam \in vals & x = if `|lam| < tol then 0 else lam.

Lemma np_unique_distinct (R : rcfType) (U : eigpairs R) tol :
  distinct_values (values U) tol (np_unique [seq if `|p.1| < tol then 0 else p.1 | p <- U]).
Proof.
rewrite /np_unique; split; first by rewrite lt_sorted_uniq_le sort_uniq undup_uniq sort_le_sorted.
move=> x; rewrite mem_sort mem_undup; split.
  by move=> /mapP[p pU ->]; exists p.1 => //; exact: map_f.
by case=> lam /mapP[p pU ->] ->; apply/mapP; exists p.
Qed.

Theorem C35_ls_type_two :
  forall (R : rcfType) eigsh lstsq rint, eigsh_contract eigsh -> lstsq_min_contract lstsq ->
  forall nodes E T nf ef sc, make_sc nodes E T nf ef = Ok sc -> (0 < length E)%N ->
  forall s p A, type_two_laplacian s p -> get_p_matrix sc p = Ok (Csr A) ->
  forall (f : seq R), size f = length E ->
  forall L tol, Z.lt Z0 L ->
  exists r hs t U ev, ls_type_two eigsh lstsq rint sc f s L tol = Ok r /\
    get_component_flow lstsq rint sc f s false 2 = Ok t /\
    size hs = Z.to_nat L /\ polynomial_run A f t hs r /\
    get_eigendecomposition eigsh (Dense A) (2%:R ^+ 52)^-1 = Ok U /\ distinct_values (values U) tol ev /\
    forall k, (k < size hs)%N -> best_fit (size hs) k ev (0 :: nseq (size ev).-1 1) (nth [::] hs k).
Proof.
move=> R eigsh lstsq rint EC LC nodes E T nf ef sc H M0 s p A sp /p_of[pv ->] f sf L tol L0.
have := p_side H EC M0 p; cbv zeta; move=> [sB [sq [sy [F D]]]].
have cn : component_name s by case: sp => [[-> _]|[-> _]]; [left|right; left].
have -> : ls_type_two eigsh lstsq rint sc f s L tol =
  let! U := get_eigendecomposition eigsh (Dense (p_array sc p)) (eps64 R) in
  let eigenvals := np_unique [seq if `|p.1| < tol then 0 else p.1 | p <- U] in
  let! f_true := get_true_signal lstsq rint sc f s in
  let alpha := 0 :: nseq (size eigenvals - 1) 1 in
  apply_filter lstsq (p_array sc p) U f f_true eigenvals alpha L.
  by case: sp => [[-> ->]|[-> ->]].
rewrite D bindOk /get_true_signal (component_Ok H (proj1 LC)) // bindOk subn1.
move: sB sq sy F D; set B := p_array sc p => sB sq sy F D.
set t := unvec _; set U := up _; set ev := np_unique _; cbv zeta.
have st : size t = sh0 B by rewrite size_unvec sB.
have U0 : (0 < size U)%N by rewrite !size_map (eigfam_size F) sB.
have ev0 : (0 < size ev)%N.
  have [_ h] := np_unique_distinct U tol.
  have uU : nth (0, [::]) U 0 \in U by rewrite mem_nth.
  set u := nth _ _ _ in uU.
  have : (if `|u.1| < tol then 0 else u.1) \in ev by apply/h; exists u.1 => //; exact: map_f.
  by case: (ev).
have sa : size (0 :: nseq (size ev).-1 (1 : R)) = size ev by rewrite /= size_nseq prednK.
have [r [hs [e [sh [_ [pr bf]]]]]] := poly_run lstsq sq sy F (etrans sf (esym sB)) st sa L0.
exists r, hs, t, U, ev; rewrite e; do 5 split=> //; split; first exact: np_unique_distinct.
exact: bf.
Qed.
Print Assumptions C35_ls_type_two.

Lemma apply_filter0 (R : rcfType) lstsq A (U : eigpairs R) f t ev alpha :
  apply_filter lstsq A U f t ev alpha Z0 = Raise UnboundLocalError.
Proof. by []. Qed.
Lemma apply_filter_neg (R : rcfType) lstsq A (U : eigpairs R) f t ev alpha L : Z.lt L Z0 ->
  apply_filter lstsq A U f t ev alpha L = Raise ValueError.
Proof. by rewrite /apply_filter; case: Z.ltb_spec => //; lia. Qed.

Lemma sampledE (R : rcfType) n (P : 'M[R]_n) num mu g xs :
  sampled_freq_response P num mu = Ok (g, xs) ->
  exists b, xs = even_grid b (Z.to_nat num) /\ g = [seq 1 / (1 + mu * x) | x <- xs] /\
    forall x, x \in xs -> 1 + mu * x != 0.
Proof.
rewrite /sampled_freq_response /sample_grid_points.
case: power_iteration => [v|] //=; case: mean_quotient => [b|] //=.
case e : linspace => [ys|] //=; case e' : mapM => [gs|] //= [<- <-].
by exists b; split; [exact: linspace_grid|exact: response_hpE].
Qed.

(** What a completed grid design tells about all filter sizes. *)
Theorem C35_grid_denoise :
  forall (R : rcfType) eigsh lstsq, eigsh_contract eigsh -> lstsq_min_contract lstsq ->
  forall nodes E T nf ef sc, make_sc nodes E T nf ef = Ok sc -> (0 < length E)%N ->
  forall p A, get_p_matrix sc p = Ok (Csr A) ->
  forall (f f_true : seq R) mu, size f = length E -> size f_true = length E ->
  (exists L r, grid_denoise eigsh lstsq sc f f_true p L mu = Ok r) ->
  exists b : R,
    let xs := even_grid b (length E) in
    (forall x, x \in xs -> 1 + mu * x != 0) /\
    grid_denoise eigsh lstsq sc f f_true p Z0 mu = Raise UnboundLocalError /\
    (forall L, Z.lt L Z0 -> grid_denoise eigsh lstsq sc f f_true p L mu = Raise ValueError) /\
    forall L, Z.lt Z0 L -> exists r hs, grid_denoise eigsh lstsq sc f f_true p L mu = Ok r /\
      size hs = Z.to_nat L /\ polynomial_run A f f_true hs r /\
      forall k, (k < size hs)%N ->
        best_fit (size hs) k xs [seq 1 / (1 + mu * x) | x <- xs] (nth [::] hs k).
Proof.
move=> R eigsh lstsq EC LC nodes E T nf ef sc H M0 p A /p_of[pv ->] f t mu sf st.
have := p_side H EC M0 p; cbv zeta; move=> [sB [sq [sy [F D]]]].
have unf L : grid_denoise eigsh lstsq sc f t p L mu =
  let! U := get_eigendecomposition eigsh (Dense (p_array sc p)) (eps64 R) in
  let! (g, eigenvals_sampled) := sampled_freq_response
    (toM R (sh0 (p_array sc p)) (sh0 (p_array sc p)) (p_array sc p)) (Z.of_nat (size t)) mu in
  apply_filter lstsq (p_array sc p) U f t eigenvals_sampled g L.
  by rewrite /grid_denoise get_p_matrixE pv.
move: unf; rewrite D; move: sB sq sy F {D}; set B := p_array sc p => sB sq sy F unf.
case=> L1 [r1]; rewrite unf bindOk; case e : sampled_freq_response => [[g xs]|] // _.
have [b [ex [eg nz]]] := sampledE e; exists b; cbv zeta.
rewrite Nat2Z.id st in ex; rewrite -ex; split=> //.
have unf' L : grid_denoise eigsh lstsq sc f t p L mu = apply_filter lstsq B
    (up (zeroed (eigsh (sh0 B) (toM R (sh0 B) (sh0 B) B)))) f t xs g L by rewrite unf bindOk e.
split; first by rewrite unf' apply_filter0.
split=> [L Ln|L L0]; first by rewrite unf' apply_filter_neg.
have sa : size g = size xs by rewrite eg size_map.
have [r [hs [er [sh [_ [pr bf]]]]]] := poly_run lstsq sq sy F (etrans sf (esym sB)) (etrans st (esym sB)) sa L0.
by exists r, hs; rewrite unf' er -eg; do 3 split=> //; exact: bf.
Qed.
Print Assumptions C35_grid_denoise.

Theorem C35_grid_extraction :
  forall (R : rcfType) eigsh lstsq rint expf, eigsh_contract eigsh -> lstsq_min_contract lstsq ->
  forall nodes E T nf ef sc, make_sc nodes E T nf ef = Ok sc -> (0 < length E)%N ->
  forall p A, get_p_matrix sc p = Ok (Csr A) ->
  forall s (f : seq R) num mu cut steep, component_name s -> size f = length E ->
  (exists L r, grid_extraction eigsh lstsq rint expf sc f s p L num mu cut steep = Ok r) ->
  exists b t, get_component_flow lstsq rint sc f s false 2 = Ok t /\
    let xs := even_grid b (Z.to_nat num) in
    let run L := grid_extraction eigsh lstsq rint expf sc f s p L num mu cut steep in
    run Z0 = Raise UnboundLocalError /\
    (forall L, Z.lt L Z0 -> run L = Raise ValueError) /\
    forall L, Z.lt Z0 L -> exists r hs, run L = Ok r /\
      size hs = Z.to_nat L /\ polynomial_run A f t hs r /\
      forall k, (k < size hs)%N ->
        best_fit (size hs) k xs [seq 1 / (1 + expf (- steep * (x - cut))) | x <- xs] (nth [::] hs k).
Proof.
move=> R eigsh lstsq rint expf EC LC nodes E T nf ef sc H M0 p A /p_of[pv ->] s f num mu cut steep cn sf.
have := p_side H EC M0 p; cbv zeta; move=> [sB [sq [sy [F D]]]].
have unf L : grid_extraction eigsh lstsq rint expf sc f s p L num mu cut steep =
  let! U := get_eigendecomposition eigsh (Dense (p_array sc p)) (eps64 R) in
  let! (_, eigenvals_sampled) := sampled_freq_response
    (toM R (sh0 (p_array sc p)) (sh0 (p_array sc p)) (p_array sc p)) num mu in
  let alpha := [seq logistic_function expf cut steep x | x <- eigenvals_sampled] in
  let! f_true := get_true_signal lstsq rint sc f s in
  apply_filter lstsq (p_array sc p) U f f_true eigenvals_sampled alpha L.
  by rewrite /grid_extraction get_p_matrixE pv.
move: unf; rewrite D; move: sB sq sy F {D}; set B := p_array sc p => sB sq sy F unf.
rewrite /get_true_signal (component_Ok H (proj1 LC)) //; set t := unvec _.
have st : size t = sh0 B by rewrite size_unvec sB.
case=> L1 [r1]; rewrite unf bindOk; case e : sampled_freq_response => [[g xs]|] // _.
have [b [ex [_ nz]]] := sampledE e; exists b, t; split=> //; cbv zeta; rewrite -ex.
set alpha := [seq _ | x <- xs].
have unf' L : grid_extraction eigsh lstsq rint expf sc f s p L num mu cut steep = apply_filter lstsq B
    (up (zeroed (eigsh (sh0 B) (toM R (sh0 B) (sh0 B) B)))) f t xs alpha L.
  by rewrite unf bindOk e bindOk /get_true_signal (component_Ok H (proj1 LC)) //.
split; first by rewrite unf' apply_filter0.
split=> [L Ln|L L0]; first by rewrite unf' apply_filter_neg.
have sa : size alpha = size xs by rewrite size_map.
have [r [hs [er [sh [_ [pr bf]]]]]] := poly_run lstsq sq sy F (etrans sf (esym sB)) st sa L0.
by exists r, hs; rewrite unf' er; do 3 split=> //; exact: bf.
Qed.
Print Assumptions C35_grid_extraction.

(** Polynomials in a Laplacian commute with it, act as a multiple of the identity on its kernel, and
    map gradient flows to gradient flows and curl flows to curl flows. *)
Theorem C35_polynomial_filters_keep_components :
  forall (R : rcfType) nodes E T nf ef sc, make_sc nodes E T nf ef = Ok sc ->
  forall p A, get_p_matrix sc p = Ok (Csr A) ->
  forall (F : seq (seq R)) h, (forall x, size x = length E -> rmv F x = poly_mv A h x) ->
  (forall x, size x = length E -> rmv F (mv A x) = mv A (rmv F x)) /\
  (forall x, size x = length E -> mv A x = zerof R (length E) -> rmv F x = scalef h`_0 x) /\
  (p = "L1L"%string \/ (p = "L1"%string /\ oriented (length nodes) E T) ->
     forall y, size y = length nodes -> exists z, size z = length nodes /\
       rmv F (mv (atr (sc_B1 sc)) y) = mv (atr (sc_B1 sc)) z) /\
  (p = "L1U"%string \/ (p = "L1"%string /\ oriented (length nodes) E T) ->
     forall y, size y = length T -> exists z, size z = length T /\
       rmv F (mv (sc_B2 sc) y) = mv (sc_B2 sc) z).
Proof.
move=> R nodes E T nf ef sc H p A /p_of[pv ->] F h hF.
have [d0 d1] := p_dims H p; have [b0 b1] := B1_dims H; have [c0 c1] := B2_dims H.
have ->: h = unvec (vec (size h) h) by rewrite vecK.
have {}hF x : size x = length E -> rmv F x =
   unvec (poly_filter (p_mat R nodes E T sc p) (vec (size h) h) *m vec (length E) x).
  by move=> sx; rewrite hF // -(toM_p R H) -(poly_mvE d0 d1 _ sx) vecK.
set P := p_mat R nodes E T sc p in hF *; set g := vec (size h) h in hF *.
have com : P *m poly_filter P g = poly_filter P g *m P by rewrite (poly_filter_intertwine g (erefl (P *m P))).
split=> [x sx|].
  by rewrite !hF ?(mv_p H) ?unvecK ?size_unvec // !mulmxA com.
split=> [x sx /(mv_p0 H) z|].
  have e : P *m vec (length E) x = 0 *: vec (length E) x by rewrite z scale0r.
  rewrite hF // (poly_filter_eigen g e) -scalef_unvec vecK //; congr scalef.
  rewrite /g vecK // /poly_at; case: (h) => [|a h'] /=; first by rewrite big_ord0.
  by rewrite big_ord_recl expr0 mulr1 big1 ?addr0 // => i _; rewrite expr0n mulr0.
have go k (B : 'M[R]_(length E, k)) (Q : 'M[R]_k) : P *m B = B *m Q -> forall y : seq R, size y = k ->
    exists2 z, size z = k & rmv F (unvec (B *m vec k y)) = unvec (B *m vec k z).
  move=> e y sy; exists (unvec (poly_filter Q g *m vec k y)); first by rewrite size_unvec.
  by rewrite hF ?size_unvec // !unvecK mulmxA (poly_filter_intertwine g e) -mulmxA.
split=> hp y sy.
  have mvT w : mv (atr (sc_B1 sc)) w = unvec ((B1m R nodes E sc)^T *m vec (length nodes) w) :> seq R.
    by rewrite (@mvE _ _ (length E) (length nodes)) ?toM_atr.
  have e : P *m (B1m R nodes E sc)^T = (B1m R nodes E sc)^T *m (B1m R nodes E sc *m (B1m R nodes E sc)^T).
    rewrite /P; case: hp => [->|[-> O]]; rewrite /p_mat /=; first by rewrite /L1Lm mulmxA.
    have B12 := oriented_B1B2 R H O.
    rewrite mulmxDl /L1Lm /L1Um -!mulmxA (_ : (B2m R E T sc)^T *m (B1m R nodes E sc)^T = 0) ?mulmx0 ?addr0 //.
    by rewrite -trmx_mul B12 trmx0.
  by have [z sz ez] := go _ _ _ e y sy; exists z; split=> //; rewrite !mvT.
have mvT w : mv (sc_B2 sc) w = unvec (B2m R E T sc *m vec (length T) w) :> seq R.
  by rewrite (@mvE _ _ (length E) (length T)).
have e : P *m B2m R E T sc = B2m R E T sc *m ((B2m R E T sc)^T *m B2m R E T sc).
  rewrite /P; case: hp => [->|[-> O]]; rewrite /p_mat /=; first by rewrite /L1Um mulmxA.
  have B12 := oriented_B1B2 R H O.
  by rewrite mulmxDl /L1Lm /L1Um -!mulmxA B12 mulmx0 add0r.
by have [z sz ez] := go _ _ _ e y sy; exists z; split=> //; rewrite !mvT.
Qed.
Print Assumptions C35_polynomial_filters_keep_components.

Theorem C35_rejections :
  forall (R : rcfType) eigsh lstsq rint argsort, eigsh_contract eigsh -> lstsq_min_contract lstsq ->
    argsort_contract argsort ->
  forall nodes E T nf ef sc, make_sc nodes E T nf ef = Ok sc -> (0 < length E)%N ->
  forall s (f : seq R) L tol,
  let one L := ls_type_one eigsh lstsq rint argsort sc f s L in
  let two L := ls_type_two eigsh lstsq rint sc f s L tol in
  (~ component_name s -> one L = Raise ValueError) /\
  (component_name s -> size f <> length E -> one L = Raise LinAlgError) /\
  (component_name s -> size f = length E -> oriented (length nodes) E T ->
     one Z0 = Raise UnboundLocalError /\ (Z.lt L Z0 -> one L = Raise ValueError)) /\
  ((s <> "gradient")%string -> (s <> "curl")%string -> two L = Raise ValueError) /\
  ((s = "gradient" \/ s = "curl")%string ->
     (size f <> length E -> two L = Raise LinAlgError) /\
     (size f = length E -> two Z0 = Raise UnboundLocalError /\ (Z.lt L Z0 -> two L = Raise ValueError))).
Proof.
move=> R eigsh lstsq rint argsort EC LC AC nodes E T nf ef sc H M0 s f L tol; cbv zeta.
have [nn [_ ns]] := C24_flow_component_names rint (proj1 LC) H f s false 2.
have := p_side H EC M0 "L1"; cbv zeta; have HA := pAS sc; move: HA; set B := p_array sc "L1" => HA.
move=> [sB [sq [sy [F D]]]].
have unf L' : ls_type_one eigsh lstsq rint argsort sc f s L' =
  let! f_true := get_component_flow lstsq rint sc f s false 2 in
  let! alpha := get_component_coefficients eigsh argsort sc s in
  apply_filter lstsq B (up (zeroed (eigsh (sh0 B) (toM R (sh0 B) (sh0 B) B)))) f f_true
    [seq p.1 | p <- up (zeroed (eigsh (sh0 B) (toM R (sh0 B) (sh0 B) B)))] alpha L'.
  by rewrite /ls_type_one HA bindOk to_arrC bindOk D bindOk.
split; first by move=> N; rewrite unf nn.
split; first by move=> N sf; rewrite unf ns.
split.
  move=> cn sf O; have cv := proj2 (c_validP s) cn.
  have unf' L' : exists t alpha, ls_type_one eigsh lstsq rint argsort sc f s L' =
    apply_filter lstsq B (up (zeroed (eigsh (sh0 B) (toM R (sh0 B) (sh0 B) B)))) f t
      [seq p.1 | p <- up (zeroed (eigsh (sh0 B) (toM R (sh0 B) (sh0 B) B)))] alpha L'.
    rewrite unf (component_Ok H (proj1 LC)) // bindOk (coefficientsE H EC AC M0 O) cv bindOk.
    by eexists; eexists.
  split; first by have [t [al ->]] := unf' Z0; rewrite apply_filter0.
  by move=> Ln; have [t [al ->]] := unf' L; rewrite apply_filter_neg.
split.
  by move=> a b; rewrite /ls_type_two; case: String.eqb_spec => // _; case: String.eqb_spec.
move=> hs.
have cn : component_name s by case: hs; [left|right; left].
have unf2 L' : exists p ev alpha, ls_type_two eigsh lstsq rint sc f s L' tol =
  let! f_true := get_component_flow lstsq rint sc f s false 2 in
  apply_filter lstsq (p_array sc p) (up (zeroed (eigsh (sh0 (p_array sc p))
    (toM R (sh0 (p_array sc p)) (sh0 (p_array sc p)) (p_array sc p))))) f f_true ev alpha L'.
  have [p hp] : exists p, type_two_laplacian s p.
    by case: hs => ->; [exists "L1L"%string; left|exists "L1U"%string; right].
  exists p; have := p_side H EC M0 p; cbv zeta => -[_ [_ [_ [_ D']]]].
  have -> : ls_type_two eigsh lstsq rint sc f s L' tol =
    let! U := get_eigendecomposition eigsh (Dense (p_array sc p)) (eps64 R) in
    let eigenvals := np_unique [seq if `|p.1| < tol then 0 else p.1 | p <- U] in
    let! f_true := get_true_signal lstsq rint sc f s in
    let alpha := 0 :: nseq (size eigenvals - 1) 1 in
    apply_filter lstsq (p_array sc p) U f f_true eigenvals alpha L'.
    by case: hp => [[-> ->]|[-> ->]].
  by rewrite D' bindOk; cbv zeta; eexists; eexists.
split=> sf; first by have [p [ev [al ->]]] := unf2 L; rewrite ns.
split; first by have [p [ev [al ->]]] := unf2 Z0; rewrite (component_Ok H (proj1 LC)).
by move=> Ln; have [p [ev [al ->]]] := unf2 L; rewrite (component_Ok H (proj1 LC)) // bindOk apply_filter_neg.
Qed.
Print Assumptions C35_rejections.
