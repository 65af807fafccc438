(** * C92: which eigenvectors the solver returns is irrelevant, except for the ideal filter *)

From Coq Require Import ZArith String List.
From mathcomp Require Import all_ssreflect all_algebra all_real_closed ssrZ zify.
From Verif Require Import Py PyFacts ExampleData Complex ComplexSpec ComplexFacts ComplexFacts2 LinAlg Spectral
  Signal SignalSpec Bridge SignalFacts Compute Props_Complex Props_Signal Props_Hodge Eigen EigenSpec IntEigen
  EigenFacts Props_Eigen Filter FilterSpec FilterFacts FilterFacts2 PolyFacts Props_Masks Props_LowPass
  Props_Poly Props_Power Props_Grid Props_Linear Props_Topology Gp GpSpec GpFacts GpPredict Props_Gp.

Set Implicit Arguments.
Unset Strict Implicit.
Unset Printing Implicit Defensive.

Import GRing.Theory Num.Theory Order.Theory.
Local Open Scope ring_scope.
Delimit Scope Z_scope with zz.

(** ** Two families of eigenvectors of one matrix *)
Section Families.
Variable R : rcfType.
Variables (n : nat) (A : 'M[R]_n) (l l' : seq (R * 'cV[R]_n)).
Hypotheses (sA : A^T = A) (fl : eigfam A l) (fl' : eigfam A l').

(** The function [g] of the matrix, from eigenvectors. *)
Definition calc (g : R -> R) (m : seq (R * 'cV[R]_n)) : 'M[R]_n := \sum_(p <- m) g p.1 *: (p.2 *m p.2^T).

Lemma calc_eigen m g (u : 'cV[R]_n) a : eigfam A m -> A *m u = a *: u -> calc g m *m u = g a *: u.
Proof.
move=> fm e; rewrite /calc mulmx_suml.
transitivity (g a *: (outer [seq p.2 | p <- m] *m u)); last by rewrite (eigfam_outer fm) mul1mx.
rewrite outer_mulE big_map scaler_sumr big_seq [RHS]big_seq; apply: eq_bigr => p pm.
rewrite -scalemxAl outerE; have [->//|na] := eqVneq p.1 a.
have -> : dot p.2 u = 0.
  have e1 := eigfam_eq fm pm.
  have : p.1 * dot p.2 u = a * dot p.2 u.
    by rewrite -dotZl -e1 -dotZr -e dot_mulmx sA.
  by move/eqP; rewrite -subr_eq0 -mulrBl mulf_eq0 subr_eq0 (negbTE na) => /eqP.
by rewrite !scale0r !scaler0.
Qed.

Lemma calc_same g : calc g l = calc g l'.
Proof.
rewrite -[LHS]mulmx1 -(eigfam_outer fl') /outer big_map mulmx_sumr big_seq [RHS]big_seq.
apply: eq_bigr => q ql; rewrite mulmxA (calc_eigen g fl (eigfam_eq fl' ql)).
by rewrite scalemxAl.
Qed.

Lemma values_same : sorted <=%R [seq p.1 | p <- l] -> sorted <=%R [seq p.1 | p <- l'] ->
  [seq p.1 | p <- l] = [seq p.1 | p <- l'].
Proof.
move=> s1 s2; apply: (sorted_eq le_trans le_anti) => //.
apply: prod_XsubC_perm; rewrite !big_map -(eigfam_char_poly fl); exact: eigfam_char_poly.
Qed.

(** The responses of a function of the matrix. *)
Lemma response_same (B : 'M[R]_n) (phi : R -> R) : [seq p.1 | p <- l] = [seq p.1 | p <- l'] ->
  (forall (u : 'cV[R]_n) lam, A *m u = lam *: u -> B *m u = phi lam *: u) ->
  diag_response B (up (zeroed l)) = diag_response B (up (zeroed l')).
Proof.
move=> vl h; rewrite !diag_responseE.
have one m : eigfam A m -> [seq (p.2^T *m B *m p.2) 0 0 | p <- m] = [seq phi x | x <- [seq p.1 | p <- m]].
  move=> fm; rewrite -map_comp; apply/eq_in_map => p pm /=.
  by rewrite -mulmxA (h _ _ (eigfam_eq fm pm)) -scalemxAr mxE -dotE (eigfam_unit fm pm) mulr1.
by rewrite !one // vl.
Qed.
End Families.

(** ** Two lists of eigenpairs *)
Section Alike.
Variable R : rcfType.

(** The same values, and the same sums of weighted products of entries, for every weight function. *)
Definition alike (ps ps' : eigpairs R) : Prop :=
  [seq p.1 | p <- ps] = [seq p.1 | p <- ps'] /\ forall g i j, mixture g ps i j = mixture g ps' i j.

Lemma families_alike n (A : 'M[R]_n) l l' (P : pred R) : A^T = A -> eigfam A l -> eigfam A l' ->
  [seq p.1 | p <- l] = [seq p.1 | p <- l'] ->
  alike [seq p <- up (zeroed l) | P p.1] [seq p <- up (zeroed l') | P p.1].
Proof.
move=> sA f1 f2 vl; split=> [|g i j].
  have vals (m : seq (R * 'cV[R]_n)) : [seq p.1 | p <- [seq p <- up (zeroed m) | P p.1]] =
      [seq x <- [seq zs x | x <- [seq p.1 | p <- m]] | P x].
    by rewrite -(filter_map fst) /up /zeroed -!map_comp.
  by rewrite !vals vl.
have out (m : seq (R * 'cV[R]_n)) : mixture g [seq p <- up (zeroed m) | P p.1] i j =
   \sum_(p <- m) (if P (zs p.1) then g (zs p.1) else 0) * (unvec p.2)`_i * (unvec p.2)`_j.
  rewrite /mixture big_filter /up /zeroed -map_comp big_map big_mkcond; apply: eq_bigr => p _ /=.
  by case: ifP => // _; rewrite !mul0r.
rewrite !out; have [ni|ni] := leqP n i.
  by rewrite !big1 // => p _; rewrite [(unvec p.2)`_i]nth_default ?size_unvec // mulr0 mul0r.
have [nj|nj] := leqP n j.
  by rewrite !big1 // => p _; rewrite [(unvec p.2)`_j]nth_default ?size_unvec // mulr0.
pose h x := if P (zs x) then g (zs x) else 0.
have ent (m : seq (R * 'cV[R]_n)) :
   \sum_(p <- m) (if P (zs p.1) then g (zs p.1) else 0) * (unvec p.2)`_i * (unvec p.2)`_j
   = calc h m (Ordinal ni) (Ordinal nj).
  rewrite /calc summxE; apply: eq_bigr => p _; rewrite !mxE big_ord1 !mxE -/(h _) -mulrA.
  by rewrite -(nth_unvec p.2 (Ordinal ni)) -(nth_unvec p.2 (Ordinal nj)).
by rewrite !ent (calc_same sA f1 f2).
Qed.

Lemma wp_alike ps ps' g i j : alike ps ps' ->
  weighted_product ps [seq g x | x <- [seq p.1 | p <- ps]] i j =
  weighted_product ps' [seq g x | x <- [seq p.1 | p <- ps']] i j.
Proof.
case=> _ h; rewrite !wp_big.
have m (qs : eigpairs R) : \sum_(p <- qs) p.2`_i * g p.1 * p.2`_j = mixture g qs i j.
  by apply: eq_bigr => p _; rewrite [p.2`_i * _]mulrC.
by rewrite !m h.
Qed.
End Alike.

(** ** Two solvers on one complex *)
Section Solvers.
Variable R : rcfType.
Variables (eigsh eigsh' : forall n, 'M[R]_n -> seq (R * 'cV[R]_n)).
Hypotheses (EC : eigsh_contract eigsh) (EC' : eigsh_contract eigsh').
Variables (nodes : list Z) (E : list (Z * Z)) (T : list (list Z)) (nf : dict Z fdict)
          (ef : dict (Z * Z) fdict) (sc : SC).
Hypothesis H : make_sc nodes E T nf ef = Ok sc.

Lemma decomp_two s : let A := p_array sc s in let P := toM R (sh0 A) (sh0 A) A in
  P^T = P /\
  ((get_eigendecomposition eigsh (Dense A) (eps64 R) = Raise ValueError /\
    get_eigendecomposition eigsh' (Dense A) (eps64 R) = Raise ValueError) \/
   exists l l', [/\ get_eigendecomposition eigsh (Dense A) (eps64 R) = Ok (up (zeroed l)),
     get_eigendecomposition eigsh' (Dense A) (eps64 R) = Ok (up (zeroed l')),
     eigfam P l, eigfam P l' & [seq p.1 | p <- l] = [seq p.1 | p <- l']]).
Proof.
move=> A P; have [h0 h1] := p_dims H s; rewrite -/A in h0 h1.
have [E0|M0] := posnP (length E).
  split; last by left; rewrite /get_eigendecomposition -h0 E0 andbF.
  by apply/matrixP => i j; have := ltn_ord i; rewrite -[X in (_ < X)%N]h0 E0.
have [_ [_ [sA [fA dA]]]] := p_side H EC M0 s; have [_ [_ [_ [fA' dA']]]] := p_side H EC' M0 s.
split; first exact: sA.
right; exists (eigsh P), (eigsh' P); split=> //.
have n0 : (0 < sh0 A)%N by rewrite -h0.
have [_ [s1 _]] := EC n0 sA; have [_ [s2 _]] := EC' n0 sA.
exact: (values_same fA fA').
Qed.

Lemma component_two c t :
  (exists e, get_component_eigenpair eigsh sc c t = Raise e /\ get_component_eigenpair eigsh' sc c t = Raise e) \/
  exists ps ps', get_component_eigenpair eigsh sc c t = Ok ps /\ get_component_eigenpair eigsh' sc c t = Ok ps' /\
    alike ps ps'.
Proof.
have gen s (P : pred R) :
  (exists e, (let! ps := get_eigendecomposition eigsh (Dense (p_array sc s)) (eps64 R) in Ok [seq p <- ps | P p.1]) = Raise e /\
     (let! ps := get_eigendecomposition eigsh' (Dense (p_array sc s)) (eps64 R) in Ok [seq p <- ps | P p.1]) = Raise e) \/
  exists ps ps', (let! ps := get_eigendecomposition eigsh (Dense (p_array sc s)) (eps64 R) in Ok [seq p <- ps | P p.1]) = Ok ps /\
    (let! ps := get_eigendecomposition eigsh' (Dense (p_array sc s)) (eps64 R) in Ok [seq p <- ps | P p.1]) = Ok ps' /\ alike ps ps'.
  have [sA [[-> ->]|[l [l' [-> -> f1 f2 vl]]]]] := decomp_two s; first by left; exists ValueError.
  by right; do 2 eexists; rewrite !bindOk; split; first by []; split; first by []; exact: (families_alike P sA f1 f2 vl).
rewrite /get_component_eigenpair; case: ifP => _; first exact: (gen "L1"%string (fun x => x <= t)).
case: ifP => _; first exact: (gen "L1U"%string (fun x => t <= x)).
case: ifP => _; first exact: (gen "L1L"%string (fun x => t < x)).
by left; exists ValueError.
Qed.

(** The filters: eigenvectors matter only for the responses. *)
Variables (lstsq : forall m n, 'M[R]_(m, n) -> 'cV[R]_m -> 'cV[R]_n) (rint : R -> int) (argsort : seq R -> seq nat).

Lemma apply_two s l l' (f t ev al : seq R) L : let A := p_array sc s in let P := toM R (sh0 A) (sh0 A) A in
  eigfam P l -> eigfam P l' -> [seq p.1 | p <- l] = [seq p.1 | p <- l'] ->
  apply_filter lstsq A (up (zeroed l)) f t ev al L = apply_filter lstsq A (up (zeroed l')) f t ev al L.
Proof.
move=> A P f1 f2 vl; rewrite /apply_filter; case: ifP => // _; congr (let! _ := _ in _).
apply: mapM_ext => k _; rewrite /filter_step; case: ifP => // _; rewrite !bindOk.
case: (mat_dot _ _) => [fe|] //; rewrite !bindOk; case: calculate_error_NRMSE => [er|] //; rewrite !bindOk.
set h := lstsq _ _; congr (Ok (_, _, _, _)).
apply: (response_same f1 f2 vl (phi := poly_at (unvec h))) => u lam e; exact: poly_filter_eigen.
Qed.

Lemma denoise_two s l l' (f t mus : seq R) : let A := p_array sc s in let P := toM R (sh0 A) (sh0 A) A in
  eigfam P l -> eigfam P l' -> [seq p.1 | p <- l] = [seq p.1 | p <- l'] ->
  mapM (denoise_step P (up (zeroed l)) f t) mus = mapM (denoise_step P (up (zeroed l')) f t) mus.
Proof.
move=> A P f1 f2 vl; apply: mapM_ext => mu _; rewrite /denoise_step /np_inv; case: ifP => // un; rewrite !bindOk.
case: (mat_dot _ _) => [fe|] //; rewrite !bindOk; case: calculate_error_NRMSE => [er|] //; rewrite !bindOk.
congr (Ok (_, _, _, _)); apply: (response_same f1 f2 vl (phi := fun x => (1 + mu * x)^-1)) => u lam e.
have e3 : (1%:M + mu *: P) *m u = (1 + mu * lam) *: u by rewrite mulmxDl mul1mx -scalemxAl e scalerA scalerDl scale1r.
have e4 : u = (1 + mu * lam) *: (invmx (1%:M + mu *: P) *m u) by rewrite scalemxAr -e3 mulmxA mulVmx // mul1mx.
case: (eqVneq (1 + mu * lam) 0) => [z|nz]; last by rewrite {2}e4 scalerA mulVf // scale1r.
by rewrite e4 z scale0r mulmx0 scaler0.
Qed.

Lemma coefficients_two c : get_component_coefficients eigsh argsort sc c = get_component_coefficients eigsh' argsort sc c.
Proof.
rewrite /get_component_coefficients.
have sz (ps ps' : eigpairs R) : alike ps ps' -> size ps = size ps' by case=> /(congr1 size); rewrite !size_map.
have [[e [-> ->]]|[hp [hp' [-> [-> h1]]]]] := component_two "harmonic" (milli R); first by [].
have [[e [-> ->]]|[cp [cp' [-> [-> h2]]]]] := component_two "curl" (milli R); first by [].
have [[e [-> ->]]|[gp [gp' [-> [-> h3]]]]] := component_two "gradient" (milli R); first by [].
rewrite /= (sz _ _ h1) (sz _ _ h2).
by case: h1 => -> _; case: h2 => -> _; case: h3 => -> _.
Qed.
End Solvers.

(** Filters: the whole result of a call, the same exception in case of failure. *)
Theorem C92_filters :
  forall (R : rcfType) eigsh eigsh', eigsh_contract eigsh -> eigsh_contract eigsh' ->
  forall nodes E T nf ef sc, make_sc nodes E T nf ef = Ok sc ->
  forall (lstsq : forall m n, 'M[R]_(m, n) -> 'cV[R]_m -> 'cV[R]_n) rint argsort expf (f t : seq R),
  (forall c mus, edge_flow_denoise eigsh sc f t c mus = edge_flow_denoise eigsh' sc f t c mus) /\
  (forall s L, ls_type_one eigsh lstsq rint argsort sc f s L = ls_type_one eigsh' lstsq rint argsort sc f s L) /\
  (forall s L tol, ls_type_two eigsh lstsq rint sc f s L tol = ls_type_two eigsh' lstsq rint sc f s L tol) /\
  (forall c L mu, grid_denoise eigsh lstsq sc f t c L mu = grid_denoise eigsh' lstsq sc f t c L mu) /\
  (forall s c L num mu cut steep, grid_extraction eigsh lstsq rint expf sc f s c L num mu cut steep =
     grid_extraction eigsh' lstsq rint expf sc f s c L num mu cut steep).
Proof.
move=> R eigsh eigsh' EC EC' nodes E T nf ef sc H lstsq rint argsort expf f t.
have two := decomp_two EC EC' H.
have ap := @apply_two R sc lstsq.
have vals2 n (l : seq (R * 'cV[R]_n)) : [seq x.1 | x <- up (zeroed l)] = [seq zs x | x <- [seq x.1 | x <- l]].
  by rewrite /up /zeroed -!map_comp.
split=> [c mus|].
  rewrite /edge_flow_denoise !get_p_matrixE; case: ifP => // cv; rewrite !bindOk.
  have [_ [[-> ->]|[l [l' [-> -> f1 f2 vl]]]]] := two c; first by [].
  by rewrite !bindOk (denoise_two f t mus f1 f2 vl).
split=> [s L|].
  have unf eig : ls_type_one eig lstsq rint argsort sc f s L =
    let! U := get_eigendecomposition eig (Dense (p_array sc "L1")) (eps64 R) in
    let! t := get_true_signal lstsq rint sc f s in
    let! al := get_component_coefficients eig argsort sc s in
    apply_filter lstsq (p_array sc "L1") U f t [seq x.1 | x <- U] al L by [].
  rewrite !unf (coefficients_two EC EC' H).
  have [_ [[-> ->]|[l [l' [-> -> f1 f2 vl]]]]] := two "L1"%string; first by [].
  rewrite !bindOk; case: get_true_signal => // t0; rewrite !bindOk.
  by case: get_component_coefficients => // al; rewrite !bindOk !vals2 vl (ap _ _ _ _ _ _ _ _ f1 f2 vl).
split=> [s L tol|].
  have unf eig : ls_type_two eig lstsq rint sc f s L tol =
    let! c := (if String.eqb s "gradient" then Ok "L1L"%string else if String.eqb s "curl" then Ok "L1U"%string else Raise ValueError) in
    let! U := get_eigendecomposition eig (Dense (p_array sc c)) (eps64 R) in
    let! f_true := get_true_signal lstsq rint sc f s in
    apply_filter lstsq (p_array sc c) U f f_true (np_unique [seq if `|q.1| < tol then 0 else q.1 | q <- U])
      (0 :: nseq (size (np_unique [seq if `|q.1| < tol then 0 else q.1 | q <- U]) - 1) 1) L.
    by rewrite /ls_type_two; case: ifP => // _; case: ifP.
  rewrite !unf; case: (if _ then _ else _) => // c; rewrite !bindOk.
  have [_ [[-> ->]|[l [l' [-> -> f1 f2 vl]]]]] := two c; first by [].
  have uni (U : eigpairs R) : [seq if `|q.1| < tol then 0 else q.1 | q <- U] = [seq if `|x| < tol then 0 else x | x <- [seq x.1 | x <- U]].
    by rewrite -map_comp.
  rewrite !bindOk; case: get_true_signal => // t0; rewrite !bindOk.
  by rewrite !uni !vals2 vl (ap _ _ _ _ _ _ _ _ f1 f2 vl).
split=> [c L mu|s c L num mu cut steep].
  rewrite /grid_denoise !get_p_matrixE; case: ifP => // cv; rewrite !bindOk.
  have [_ [[-> ->]|[l [l' [-> -> f1 f2 vl]]]]] := two c; first by [].
  rewrite !bindOk; case: sampled_freq_response => // -[g ev]; rewrite !bindOk.
  by rewrite (ap _ _ _ _ _ _ _ _ f1 f2 vl).
rewrite /grid_extraction !get_p_matrixE; case: ifP => // cv; rewrite !bindOk.
have [_ [[-> ->]|[l [l' [-> -> f1 f2 vl]]]]] := two c; first by [].
rewrite !bindOk; case: sampled_freq_response => // -[g ev]; rewrite !bindOk.
case: get_true_signal => // t0; rewrite !bindOk.
by rewrite (ap _ _ _ _ _ _ _ _ f1 f2 vl).
Qed.
Print Assumptions C92_filters.

(** The end of the Chebyshev method, after the eigenvectors are known. *)
Section Tail.
Variable R : rcfType.
Variables (norm_2 : forall n, 'M[R]_n -> R) (sc : SC) (f : seq R) (c : string) (L : Z).
Definition cheb_tail (U U_l : eigpairs R) (t hi : seq R) (al : R * R) (cf : seq R) (H_rows : seq (seq R)) : res (cheb_run R) :=
  if Z.ltb L 0 then Raise ValueError
  else
    let! Hs := chebyshev_frequency_approx (toM R (sh0 (p_array sc c)) (sh0 (p_array sc c)) (p_array sc c))
                 cf al.1 (Z.to_nat L) in
    let! steps := mapM (cheb_step norm_2 U U_l (\matrix_(i, j) (nth [::] H_rows i)`_j) f t hi) Hs in
    Ok (mkChebRun [seq rows H | H <- Hs] [seq x.1.1.1 | x <- steps] [seq x.1.1.2 | x <- steps]
          [seq x.1.2 | x <- steps] [seq x.2 | x <- steps]).

Lemma step_two n (U U' Ul Ul' : eigpairs R) (Hi Hi' : 'M[R]_n) t hi B y : size U' = size U -> size Ul' = size Ul ->
  cheb_step norm_2 U Ul Hi f t hi B = Ok y ->
  exists y', cheb_step norm_2 U' Ul' Hi' f t hi B = Ok y' /\ y'.1.1.1 = y.1.1.1 /\ y'.1.2 = y.1.2.
Proof.
move=> s1 s2; rewrite /cheb_step; case: ifP => // _.
case e0 : calculate_error_NRMSE => [x0|] //=.
have [x0' ->] := nrmse_sizes e0 (etrans (size_map _ _) (etrans s2 (esym (size_map _ _))) : size (diag_response B Ul') = _) (erefl (size hi)).
case: (mat_dot B f) => // fc /=; case: calculate_error_NRMSE => // e /=.
case e2 : calculate_error_NRMSE => [x2|] //= [<-] /=.
have sz (x : seq R) : size [seq ((vec n p.2)^T *m vec n x) 0 0 | p <- U'] = size [seq ((vec n p.2)^T *m vec n x) 0 0 | p <- U].
  by rewrite !size_map.
have [x2' ->] := nrmse_sizes e2 (sz fc) (sz t); by eexists.
Qed.

Lemma loop_two n (U U' Ul Ul' : eigpairs R) (Hi Hi' : 'M[R]_n) t hi Hs ys : size U' = size U -> size Ul' = size Ul ->
  mapM (cheb_step norm_2 U Ul Hi f t hi) Hs = Ok ys -> exists ys', mapM (cheb_step norm_2 U' Ul' Hi' f t hi) Hs = Ok ys' /\
    [seq x.1.1.1 | x <- ys'] = [seq x.1.1.1 | x <- ys] /\ [seq x.1.2 | x <- ys'] = [seq x.1.2 | x <- ys].
Proof.
move=> s1 s2; elim: Hs ys => [|B Bs IH] ys /=; first by case=> <-; exists [::].
case e : cheb_step => [y|] //=; case e' : mapM => [zs|] //= [<-] /=.
by have [y' [-> [h1 h2]]] := step_two Hi' s1 s2 e; have [zs' [-> [h3 h4]]] := IH _ e'; exists (y' :: zs'); rewrite /= h1 h2 h3 h4.
Qed.

Lemma tail_two (U U' Ul Ul' : eigpairs R) t hi al cf Hr Hr' r : size U' = size U -> size Ul' = size Ul ->
  cheb_tail U Ul t hi al cf Hr = Ok r -> exists r', cheb_tail U' Ul' t hi al cf Hr' = Ok r' /\
    cheb_filter r' = cheb_filter r /\ cheb_estimated r' = cheb_estimated r /\ cheb_errors r' = cheb_errors r.
Proof.
move=> s1 s2; rewrite /cheb_tail; case: ifP => // _; case: chebyshev_frequency_approx => // Hs /=.
set Hi := \matrix_(i, j) _; set Hi' := \matrix_(i, j) _.
case e : mapM => [ys|] //= [<-]; have [ys' [-> [h1 h2]]] := loop_two Hi' s1 s2 e.
by eexists; split; first by []; rewrite /= h1 h2.
Qed.
End Tail.

Lemma bind_Ok (A B : Type) (x : res A) (g : A -> res B) r : (let! y := x in g y) = Ok r -> exists2 y, x = Ok y & g y = Ok r.
Proof. by case: x => // y; exists y. Qed.
Lemma bind_at (A B : Type) (x : res A) y (g : A -> res B) : x = Ok y -> (let! y := x in g y) = g y.
Proof. by move=> ->. Qed.

Lemma bind_ext (A B : Type) (x : res A) (g g' : A -> res B) : (forall y, g y = g' y) -> (let! y := x in g y) = let! y := x in g' y.
Proof. by move=> e; case: x => //= y. Qed.

(** The Chebyshev filter: its matrices, estimates and errors. *)
Theorem C92_chebyshev :
  forall (R : rcfType) eigsh eigsh', eigsh_contract eigsh -> eigsh_contract eigsh' ->
  forall nodes E T nf ef sc, make_sc nodes E T nf ef = Ok sc ->
  forall (lstsq : forall m n, 'M[R]_(m, n) -> 'cV[R]_m -> 'cV[R]_n) rint argsort expf chebfun norm_2
    (f : seq R) c s L n cut steep r,
  cheb_apply eigsh lstsq rint argsort expf chebfun norm_2 sc f c s L n cut steep = Ok r ->
  exists r', cheb_apply eigsh' lstsq rint argsort expf chebfun norm_2 sc f c s L n cut steep = Ok r' /\
    cheb_filter r' = cheb_filter r /\ cheb_estimated r' = cheb_estimated r /\ cheb_errors r' = cheb_errors r.
Proof.
move=> R eigsh eigsh' EC EC' nodes E T nf ef sc H lstsq rint argsort expf chebfun norm_2 f c s L n cut steep r h.
have v := cheb_p_valid h; pose N := match n with None => L | Some m => if Z.eqb m 0 then L else m end.
have unf eig : cheb_apply eig lstsq rint argsort expf chebfun norm_2 sc f c s L n cut steep =
  let! U := get_eigendecomposition eig (Dense (p_array sc "L1")) (eps64 R) in
  let! U_l := get_eigendecomposition eig (Dense (p_array sc c)) (eps64 R) in
  let! f_true := get_true_signal lstsq rint sc f s in
  let! h_ideal := get_component_coefficients eig argsort sc s in
  let! al := get_alpha R sc c in
  let! coeffs := get_chebyshev_series expf chebfun N 0 al.2 cut steep in
  let! H_rows := get_ideal_frequency eig sc h_ideal in
  cheb_tail norm_2 sc f c L U U_l f_true h_ideal al coeffs H_rows by exact: cheb_unfold.
have ideal eig U hi : get_eigendecomposition eig (Dense (p_array sc "L1")) (eps64 R) = Ok U ->
  get_ideal_frequency eig sc hi = if size hi == size U then
    Ok (rows (\sum_(i < size U) hi`_i *: (vec (sh0 (p_array sc "L1")) (nth (0, [::]) U i).2 *m
        (vec (sh0 (p_array sc "L1")) (nth (0, [::]) U i).2)^T)))
  else Raise ValueError.
  move=> e; have -> : get_ideal_frequency eig sc hi =
    let! U := get_eigendecomposition eig (Dense (p_array sc "L1")) (eps64 R) in
    if size hi == size U then
      Ok (rows (\sum_(i < size U) hi`_i *: (vec (sh0 (p_array sc "L1")) (nth (0, [::]) U i).2 *m
        (vec (sh0 (p_array sc "L1")) (nth (0, [::]) U i).2)^T)))
    else Raise ValueError by [].
  by rewrite e.
have sizes d : forall U, get_eigendecomposition eigsh (Dense (p_array sc d)) (eps64 R) = Ok U ->
  exists2 U', get_eigendecomposition eigsh' (Dense (p_array sc d)) (eps64 R) = Ok U' & size U' = size U.
  have [_ [[-> _] //|[l [l' [-> -> _ _ v1]]]]] := decomp_two EC EC' H d => U [<-]; eexists; first by [].
  by have := congr1 size v1; rewrite !size_map.
rewrite (unf eigsh) in h.
have [U dU {}h] := bind_Ok h; have [Ul dl {}h] := bind_Ok h; have [t et {}h] := bind_Ok h.
have [hi eh {}h] := bind_Ok h; have [al ea {}h] := bind_Ok h; have [cf ec {}h] := bind_Ok h.
have [Hr ei et'] := bind_Ok h.
have [U' dU' s1] := sizes _ _ dU; have [Ul' dl' s2] := sizes _ _ dl.
have [Hr' ei'] : exists Hr', get_ideal_frequency eigsh' sc hi = Ok Hr'.
  by move: ei; rewrite (ideal _ _ _ dU) (ideal _ _ _ dU') s1; case: ifP => // _ _; eexists.
rewrite (coefficients_two EC EC' H) in eh.
have [r' [e' h']] := tail_two Hr' s1 s2 et'; exists r'; split=> //.
rewrite (unf eigsh') (bind_at _ dU') (bind_at _ dl') (bind_at _ et) (bind_at _ eh) (bind_at _ ea) (bind_at _ ec).
by rewrite (bind_at _ ei').
Qed.
Print Assumptions C92_chebyshev.

(** ** Kernels *)

(** A kernel with other eigenpairs; a model with another kernel. *)
Definition with_pairs (R : rcfType) (k : kernel R) (p : eigpairs R * eigpairs R * eigpairs R) : kernel R :=
  mkKernel (k_type k) (k_rows k) p.1.1 p.1.2 p.2 (k_raw k).
Definition with_kernel (R : rcfType) (m : gpmodel R) (k : kernel R) : gpmodel R :=
  mkModel k (m_constant m) (m_raw_scale m) (m_noise m) (m_training m).

Section Kernels.
Variable R : rcfType.
Variables (exp : R -> R) (pow : R -> R -> R) (softplus : R -> R).
Variables (k : kernel R) (hp gp cp hp' gp' cp' : eigpairs R).
Notation k1 := (with_pairs k (hp, gp, cp)).
Notation k2 := (with_pairs k (hp', gp', cp')).

Lemma covar_alike : [seq p.1 | p <- hp] = [seq p.1 | p <- hp'] -> [seq p.1 | p <- gp] = [seq p.1 | p <- gp'] ->
  [seq p.1 | p <- cp] = [seq p.1 | p <- cp'] ->
  (exists e, eval_covar_matrix exp pow softplus k1 = Raise e /\ eval_covar_matrix exp pow softplus k2 = Raise e) \/
  exists g0 g1 g2, eval_covar_matrix exp pow softplus k1 =
      Ok ([seq g0 x | x <- [seq p.1 | p <- hp]], [seq g1 x | x <- [seq p.1 | p <- gp]], [seq g2 x | x <- [seq p.1 | p <- cp]]) /\
    eval_covar_matrix exp pow softplus k2 =
      Ok ([seq g0 x | x <- [seq p.1 | p <- hp']], [seq g1 x | x <- [seq p.1 | p <- gp']], [seq g2 x | x <- [seq p.1 | p <- cp']]).
Proof.
move=> vh vg vc; have G s : get_param softplus k2 s = get_param softplus k1 s by [].
rewrite /eval_covar_matrix !G /= vh vg vc; case: (k_type k).
- case: get_param => [kd|e] /=; last by left; exists e.
  case: get_param => [ku|e] /=; last by left; exists e.
  by right; exists (fun x => exp (- x)), (fun x => exp (- kd * x)), (fun x => exp (- ku * x)).
- case: get_param => [kd|e] /=; last by left; exists e.
  by right; exists (fun x => exp (- x)), (fun x => exp (- kd * x)), (fun x => exp (- kd * x)).
- case: get_param => [mu|e] /=; last by left; exists e.
  case: get_param => [md|e] /=; last by left; exists e.
  case: get_param => [kd|e] /=; last by left; exists e.
  case: get_param => [m'|e] /=; last by left; exists e.
  case: get_param => [ku|e] /=; last by left; exists e.
  case: ifP => _; first by left; exists NonFinite.
  by right; exists (fun _ => mu), (matern_weight pow md kd), (matern_weight pow m' ku).
- case: get_param => [md|e] /=; last by left; exists e.
  case: get_param => [kd|e] /=; last by left; exists e.
  case: ifP => _; first by left; exists NonFinite.
  by right; exists (matern_weight pow md kd), (matern_weight pow md kd), (matern_weight pow md kd).
case: ifP => _; first by left; exists NonFinite.
by right; exists (fun x => 1 / (milli R + x)), (fun x => 1 / x), (fun x => 1 / x).
Qed.

Hypotheses (ah : alike hp hp') (ag : alike gp gp') (ac : alike cp cp').
Lemma forward_alike x1 x2 diag : forward exp pow softplus k1 x1 x2 diag = forward exp pow softplus k2 x1 x2 diag.
Proof.
rewrite /forward; case: x2 => // x2.
have [[e [-> ->]]|[g0 [g1 [g2 [-> ->]]]]] := covar_alike (proj1 ah) (proj1 ag) (proj1 ac); first by [].
rewrite !bindOk /=; case: mapM => // r1; rewrite !bindOk; case: mapM => // r2; rewrite !bindOk.
have -> : factors softplus k2 = factors softplus k1 by [].
case: factors => // -[[f0 f1] f2]; rewrite !bindOk.
case: diag; congr (Ok _).
  by congr Diag; apply: eq_map => a; congr (_ * _ + _ * _ + _ * _); exact: wp_alike.
congr Mat; apply: eq_map => i; apply: eq_map => j; congr (_ * _ + _ * _ + _ * _); exact: wp_alike.
Qed.
End Kernels.

Lemma tab_ext (R X : Type) (K K' : nat -> nat -> R) n (F : seq (seq R) -> seq R -> X) : (forall i j, K i j = K' i j) ->
  F (mkseq (fun i => mkseq (K i) n) n) (mkseq (fun i => K i i) n) =
  F (mkseq (fun i => mkseq (K' i) n) n) (mkseq (fun i => K' i i) n).
Proof. by move=> h; congr F; apply: eq_map => i //; apply: eq_map => j. Qed.

(** Kernels built from the eigenpairs of either solver have the same covariance, models the same predictions, and the
    trainer builds the same Matern matrix. *)
Theorem C92_kernels :
  forall (R : rcfType) exp pow softplus eigsh eigsh', eigsh_contract eigsh -> eigsh_contract eigsh' ->
  forall nodes E T nf ef sc, make_sc nodes E T nf ef = Ok sc ->
  (forall t ps, get_eigenpairs eigsh sc t = Ok ps -> exists ps', get_eigenpairs eigsh' sc t = Ok ps' /\
     (forall (k : kernel R) x1 x2 diag, forward exp pow softplus (with_pairs k ps) x1 x2 diag =
        forward exp pow softplus (with_pairs k ps') x1 x2 diag) /\
     forall m x_train y_train x_test y_test,
       let m1 := with_kernel m (with_pairs (m_kernel m) ps) in
       let m2 := with_kernel m (with_pairs (m_kernel m) ps') in
       posterior exp pow softplus m1 x_train y_train x_test = posterior exp pow softplus m2 x_train y_train x_test /\
       predict exp pow softplus m1 x_train y_train x_test y_test = predict exp pow softplus m2 x_train y_train x_test y_test) /\
  forall m : gpmodel R, matern_matrix pow softplus eigsh sc m = matern_matrix pow softplus eigsh' sc m.
Proof.
move=> R exp pow softplus eigsh eigsh' EC EC' nodes E T nf ef sc H; have two := component_two EC EC' H; split=> [t ps|m].
  rewrite /get_eigenpairs.
  have [[e [-> _]] //|[hp [hp' [-> [-> h1]]]]] := two "harmonic"%string t.
  have [[e [-> _]] //|[gp [gp' [-> [-> h2]]]]] := two "gradient"%string t.
  have [[e [-> _]] //|[cp [cp' [-> [-> h3]]]]] := two "curl"%string t.
  rewrite !bindOk => -[<-]; eexists; split; first by [].
  have fw (k : kernel R) := forward_alike exp pow softplus k h1 h2 h3.
  split=> [k x1 x2 diag|m xs ys ts zs]; first exact: fw.
  have mf : model_forward exp pow softplus (with_kernel m (with_pairs (m_kernel m) (hp, gp, cp))) (xs ++ ts) =
    model_forward exp pow softplus (with_kernel m (with_pairs (m_kernel m) (hp', gp', cp'))) (xs ++ ts).
    by rewrite /model_forward fw.
  have po : posterior exp pow softplus (with_kernel m (with_pairs (m_kernel m) (hp, gp, cp))) xs ys ts =
    posterior exp pow softplus (with_kernel m (with_pairs (m_kernel m) (hp', gp', cp'))) xs ys ts.
    by rewrite /posterior mf.
  by split=> //=; rewrite /predict po.
rewrite /matern_matrix; apply: bind_ext => ps.
apply: bind_ext => a1; apply: bind_ext => a2; apply: bind_ext => a3; apply: bind_ext => a4; apply: bind_ext => a5.
apply: bind_ext => a6; apply: bind_ext => a7; apply: bind_ext => a8; apply: bind_ext => a9; apply: bind_ext => a10.
have [[e [-> ->]] //|[hp [hp' [-> [-> h1]]]]] := two "harmonic"%string (milli R).
have [[e [-> ->]] //|[gp [gp' [-> [-> h2]]]]] := two "gradient"%string (milli R).
have [[e [-> ->]] //|[cp [cp' [-> [-> h3]]]]] := two "curl"%string (milli R).
rewrite !bindOk; case: ifP => // _.
have wp (qs qs' : eigpairs R) g i j : alike qs qs' ->
    weighted_product qs [seq g q.1 | q <- qs] i j = weighted_product qs' [seq g q.1 | q <- qs'] i j.
  by move=> a; rewrite !(map_comp g fst); exact: wp_alike.
apply: (@tab_ext _ _ _ _ _ (fun X v => let! a := arr_min v in let! b := arr_max v in
  Ok (X, if isclose a b then VScalar 0 else VArray v))) => i j.
congr (_ * (_ * _ + _ * _ + _ * _)); [exact: (wp _ _ (fun _ => _))|exact: wp|exact: wp].
Qed.
Print Assumptions C92_kernels.

(** ** Embeddings *)

(** The coordinates of a flow in the three components depend on the eigenvectors; their number and their energy do not. *)
Theorem C92_embeddings :
  forall (R : rcfType) eigsh eigsh', eigsh_contract eigsh -> eigsh_contract eigsh' ->
  forall nodes E T nf ef sc, make_sc nodes E T nf ef = Ok sc ->
  forall (f h c g : seq R), get_simplicial_embeddings eigsh sc f = Ok (h, c, g) ->
  exists h' c' g', get_simplicial_embeddings eigsh' sc f = Ok (h', c', g') /\
    (size h' = size h /\ size c' = size c /\ size g' = size g) /\
    (energy h' = energy h /\ energy c' = energy c /\ energy g' = energy g).
Proof.
move=> R eigsh eigsh' EC EC' nodes E T nf ef sc H f h c g; have two := component_two EC EC' H.
have unf eig : get_simplicial_embeddings eig sc f =
  let! u_h := get_component_eigenpair eig sc "harmonic" (milli R) in
  let! u_c := get_component_eigenpair eig sc "curl" (milli R) in
  let! u_g := get_component_eigenpair eig sc "gradient" (milli R) in
  let! f_tilda_h := coeffs (sh1 (sc_B1 sc)) u_h f in
  let! f_tilda_c := coeffs (sh1 (sc_B1 sc)) u_c f in
  let! f_tilda_g := coeffs (sh1 (sc_B1 sc)) u_g f in
  Ok (f_tilda_h, f_tilda_c, f_tilda_g) by [].
rewrite !unf.
have [[e [-> _]] //|[hp [hp' [-> [-> [v1 h1]]]]]] := two "harmonic"%string (milli R).
have [[e [-> _]] //|[cp [cp' [-> [-> [v2 h2]]]]]] := two "curl"%string (milli R).
have [[e [-> _]] //|[gp [gp' [-> [-> [v3 h3]]]]]] := two "gradient"%string (milli R).
rewrite !bindOk /coeffs; set n := sh1 _; case: ifP => // sf; rewrite !bindOk => -[<- <- <-].
do 3 eexists; split; first by reflexivity.
have sz (ps ps' : eigpairs R) : [seq p.1 | p <- ps] = [seq p.1 | p <- ps'] -> size ps' = size ps.
  by move/(congr1 size); rewrite !size_map.
rewrite !size_map (sz _ _ v1) (sz _ _ v2) (sz _ _ v3); split=> //.
have en (ps : eigpairs R) : energy [seq \sum_(i < n) p.2`_i * f`_i | p <- ps] =
    \sum_(i < n) \sum_(j < n) f`_i * f`_j * mixture (fun _ => 1) ps i j.
  rewrite /energy /dotp size_map.
  transitivity (\sum_(p <- ps) (\sum_(i < n) p.2`_i * f`_i) * \sum_(i < n) p.2`_i * f`_i).
    by rewrite (big_nth (0, [::])) big_mkord; apply: eq_bigr => q _; rewrite (nth_map (0, [::])).
  transitivity (\sum_(p <- ps) \sum_(i < n) \sum_(j < n) f`_i * f`_j * (1 * p.2`_i * p.2`_j)).
    apply: eq_bigr => p _; rewrite big_distrl; apply: eq_bigr => i _; rewrite big_distrr; apply: eq_bigr => j _ /=.
    by rewrite mul1r mulrACA [p.2`_i * p.2`_j * _]mulrC.
  rewrite exchange_big; apply: eq_bigr => i _; rewrite exchange_big; apply: eq_bigr => j _ /=.
  by rewrite /mixture big_distrr.
have eq (ps ps' : eigpairs R) : (forall g i j, mixture g ps i j = mixture g ps' i j) ->
   energy [seq \sum_(i < n) p.2`_i * f`_i | p <- ps'] = energy [seq \sum_(i < n) p.2`_i * f`_i | p <- ps].
  by move=> h0; rewrite !en; apply: eq_bigr => i _; apply: eq_bigr => j _; rewrite h0.
by rewrite (eq _ _ h1) (eq _ _ h2) (eq _ _ h3).
Qed.
Print Assumptions C92_embeddings.

(** ** The ideal filter *)

Section Turned.
Variable R : rcfType.
Let w n : 'cV[R]_n := const_mx 1.

Lemma w_w n : dot (w n) (w n) = n%:R.
Proof. by rewrite /dot (eq_bigr (fun _ => 1)) => [|i _]; rewrite ?sumr_const ?card_ord // mxE mulr1. Qed.
Lemma w_delta n (k : 'I_n) : dot (w n) (delta_mx k 0) = 1.
Proof.
rewrite /dot (bigD1 k) //= big1 => [|i ik]; rewrite !mxE ?eqxx ?mulr1 ?addr0 //.
by rewrite (negbTE ik) mulr0.
Qed.
Lemma w_neq0 n : (0 < n)%N -> w n != 0.
Proof. by move=> n0; rewrite -(dot_eq0 (w n)) w_w pnatr_eq0 -lt0n. Qed.

Lemma sum_cols n (Q : 'M[R]_n) (L : seq (R * 'cV[R]_n)) (m : seq R) :
  (forall j : 'I_n, (nth (0, 0) L j).2 = Q *m delta_mx j 0) ->
  \sum_(j < n) m`_j *: ((nth (0, 0) L j).2 *m ((nth (0, 0) L j).2)^T) = Q *m diag_mx (\row_j m`_j) *m Q^T.
Proof.
move=> h; have -> : diag_mx (\row_j m`_j) = \sum_(j < n) m`_j *: (delta_mx j 0 *m (delta_mx j 0 : 'cV[R]_n)^T).
  apply/matrixP => a b; rewrite summxE (bigD1 a) //= big1 => [|j ja]; rewrite !mxE !big_ord1 !mxE ?eqxx ?mul1r ?addr0.
    by rewrite andbT [b == a]eq_sym; case: eqP => _; rewrite ?mulr1n ?mulr0n ?mulr1 ?mulr0.
  by rewrite [a == j]eq_sym (negbTE ja) mul0r mulr0.
rewrite mulmx_sumr mulmx_suml; apply: eq_bigr => j _; rewrite h trmx_mul -scalemxAr -scalemxAl; congr (_ *: _).
by rewrite !mulmxA.
Qed.

(** Another admissible solver: for a multiple of the identity it returns a mirror image of the standard basis. *)
Definition eigsh_turned n (A : 'M[R]_n) : seq (R * 'cV[R]_n) :=
  if is_scalar_mx A then [seq (p.1, reflection (w n) *m p.2) | p <- eigsh_std A] else eigsh_std A.

Lemma eigsh_turned_ok : eigsh_contract eigsh_turned.
Proof.
move=> n A n0 sA; rewrite /eigsh_turned; have ok := eigsh_std_ok n0 sA; case: ifP => // sc.
have [s1 [s2 [s3 s4]]] := ok; split; first by rewrite size_map.
split; first by rewrite -map_comp.
split=> [_ /mapP[p pl ->]|i j li lj] /=.
  have := s3 _ pl; case/is_scalar_mxP: sc => a ->; rewrite !mul_scalar_mx => e.
  by rewrite !scalemxAr e.
rewrite !(nth_map (0, 0)) ?s1 //= dot_mulmx reflection_sym mulmxA reflection_invol ?w_neq0 // mul1mx.
exact: s4.
Qed.
End Turned.

(** The ideal filter is not determined: on the filled triangle (three times the identity), two admissible solvers make
    different ideal gradient filters. *)
Theorem C92_ideal_filter_refuted :
  exists (R : rcfType) (eigsh eigsh' : forall n, 'M[R]_n -> seq (R * 'cV[R]_n)) nodes E T sc,
    eigsh_contract eigsh /\ eigsh_contract eigsh' /\ make_sc nodes E T nil nil = Ok sc /\ (0 < length E)%N /\
    oriented (length nodes) E T /\ (exists argsort : seq R -> seq nat, argsort_contract argsort) /\
    forall argsort, argsort_contract argsort ->
    exists m F F', get_component_coefficients eigsh argsort sc "gradient" = Ok m /\
      get_component_coefficients eigsh' argsort sc "gradient" = Ok m /\
      get_ideal_frequency eigsh sc m = Ok F /\ get_ideal_frequency eigsh' sc m = Ok F' /\ F <> F'.
Proof.
pose R := realalg_rcfType.
exists R, (@eigsh_std R), (@eigsh_turned R), tri_nodes, tri_edges, tri_triangles, tri_sc.
have EC := @eigsh_std_ok R; have EC' := @eigsh_turned_ok R.
split; first exact: EC. split; first exact: EC'. split; first exact: tri_ok. split; first by [].
split; first exact: tri_oriented.
split; first by exists (@argsort_ref R); exact: argsort_ref_ok.
move=> argsort AC; have M0 : (0 < length tri_edges)%N by [].
have [hs [cs [gs [mh [mc [mg [_ [_ [eg [_ [_ [emg [_ [_ [[sg [bg og]] _]]]]]]]]]]]]]]] :=
  C31_masks_partition EC AC tri_ok M0 tri_oriented.
have [_ [_ g2]] := tri_counts EC (eps64_milli R) (milli3 R).
move: eg; rewrite (eigG _ tri_ok M0 (eps64_milli R)) => - [egs].
have og2 : ones mg = 2%N by rewrite og -egs size_map g2.
have /(nthP 0)[i il i1] : 1 \in mg by rewrite -has_pred1 has_count -/(ones mg) og2.
have /(nthP 0)[k kl k0] : 0 \in mg.
  apply/negPn/negP => n0; have : all (pred1 1) mg.
    apply/allP => x xm /=; have [e|->//] := bg _ xm; by move: xm; rewrite e (negbTE n0).
  by rewrite all_count -/(ones mg) og2 sg.
rewrite sg in il kl.
set LH := L1Lm R tri_nodes tri_edges tri_sc + L1Um R tri_edges tri_triangles tri_sc.
have szU : size (eigsh_std LH) = length tri_edges by rewrite /LH tri_LH /eigsh_std scalar_mx_is_scalar size_map size_enum_ord.
have szU' : size (eigsh_turned LH) = length tri_edges.
  by rewrite /eigsh_turned {1}/LH tri_LH scalar_mx_is_scalar size_map.
pose Q := reflection (const_mx 1 : 'cV[R]_(length tri_edges)).
pose D : 'M[R]_(length tri_edges) := diag_mx (\row_j mg`_j).
have c1 (j : 'I_(length tri_edges)) : (nth (0, 0) (eigsh_std LH) j).2 = 1%:M *m delta_mx j 0.
  by rewrite /LH tri_LH /eigsh_std scalar_mx_is_scalar nth_enumI mul1mx.
have c2 (j : 'I_(length tri_edges)) : (nth (0, 0) (eigsh_turned LH) j).2 = Q *m delta_mx j 0.
  rewrite /eigsh_turned {1}/LH tri_LH scalar_mx_is_scalar (nth_map (0, 0)) ?szU //.
  by rewrite [(_, _).2]/= c1 mul1mx.
exists mg; rewrite -(coefficients_two EC EC' tri_ok) emg.
rewrite !(ideal_frequency_sum tri_ok M0) -/LH ?sg ?szU ?szU' //.
do 2 eexists; do 4 (split; first by reflexivity); move=> /rows_inj.
rewrite (sum_cols mg c1) (sum_cols mg c2) -/D trmx1 mul1mx mulmx1 => eS.
have QQ : Q *m Q = 1%:M by apply: reflection_invol; exact: w_neq0.
pose e : 'cV[R]_(length tri_edges) := delta_mx (Ordinal kl) 0.
have De : D *m e = 0.
  by apply/colP => a; rewrite mul_diag_mx !mxE; case: eqP => [->|_]; rewrite ?mulr0 //= k0 mul0r.
have : D *m (Q *m e) = 0.
  have := congr1 (fun X => Q *m (X *m e)) eS.
  by rewrite /= De mulmx0 !mulmxA QQ mul1mx reflection_sym => <-.
rewrite reflectionE w_delta w_w => /matrixP /(_ (Ordinal il) 0); rewrite mul_diag_mx !mxE /= i1 mul1r.
have -> : (Ordinal il == Ordinal kl) = false.
  by apply/eqP => -[e']; move: i1; rewrite e' k0 => /eqP; rewrite eq_sym oner_eq0.
by rewrite sub0r !mulr1 => /eqP; rewrite oppr_eq0 mulf_eq0 invr_eq0 !pnatr_eq0.
Qed.
Print Assumptions C92_ideal_filter_refuted.

(** Two separate edges: the Laplacian is twice the identity, and the two solvers return different eigenvectors; kernel and
    low-pass filter are the same. *)
Lemma two_L1L (R : rcfType) : L1Lm R two_nodes two_edges two_sc = 2%:R%:M.
Proof.
rewrite -(toM_L1L R two_ok); apply/matrixP => i j.
have e : forall i j, (i < 2)%N -> (j < 2)%N -> at2 (amul (atr (sc_B1 two_sc)) (sc_B1 two_sc)) i j = if i == j then Zpos 2 else Z0.
  by case=> [|[|//]] [|[|//]] _ _; vm_compute.
by rewrite /toM !mxE e ?ltn_ord // -val_eqE /=; case: eqP.
Qed.

Example C92_example :
  let R := realalg_rcfType in
  eigsh_contract (@eigsh_std R) /\ eigsh_contract (@eigsh_turned R) /\
  make_sc two_nodes two_edges nil nil nil = Ok two_sc /\
  exists ps ps', get_eigenpairs (@eigsh_std R) two_sc (milli R) = Ok ps /\
    get_eigenpairs (@eigsh_turned R) two_sc (milli R) = Ok ps' /\ ps <> ps' /\
    (exists K, let k := new_kernel Diffusion 2 [::] [::] [::] in
       forward (@grow R) (@pow_ex R) (@grow R) (with_pairs k ps) [:: 0; 1]%zz (Some [:: 0; 1]%zz) false = Ok (Mat K) /\
       forward (@grow R) (@pow_ex R) (@grow R) (with_pairs k ps') [:: 0; 1]%zz (Some [:: 0; 1]%zz) false = Ok (Mat K)) /\
    exists r, edge_flow_denoise (@eigsh_std R) two_sc [:: 1; 2%:R] [:: 1; 2%:R] "L1" [:: 1] = Ok r /\
      edge_flow_denoise (@eigsh_turned R) two_sc [:: 1; 2%:R] [:: 1; 2%:R] "L1" [:: 1] = Ok r.
Proof.
move=> R; have EC := @eigsh_std_ok R; have EC' := @eigsh_turned_ok R.
split; first exact: EC. split; first exact: EC'. split; first exact: two_ok.
have et := eps64_milli R.
have ep eig : get_eigenpairs eig two_sc (milli R) = Ok (up (zeroed (harml eig two_nodes two_edges nil two_sc (milli R))),
   up (gradl eig two_nodes two_edges two_sc (milli R)), up (curll eig two_edges nil two_sc (milli R))).
  by rewrite /get_eigenpairs !(component_eigE eig two_ok) // !bindOk.
have [K _] := C92_kernels (@grow R) (@pow_ex R) (@grow R) EC EC' two_ok.
have [ps' [e' [hk _]]] := K _ _ (ep (@eigsh_std R)).
eexists; exists ps'; split; first exact: ep. split; first exact: e'.
have m2 : milli R < 2%:R by apply: lt_trans (_ : 1 < _); rewrite ?ltr1n // invf_lt1 ?ltr1n ?ltr0n.
split.
  move=> e0; move: e'; rewrite ep => -[e']; move: e0; rewrite -e' => -[_ + _].
  rewrite /gradl two_L1L /eigsh_turned /eigsh_std scalar_mx_is_scalar.
  rewrite (eq_in_filter (a2 := predT)); last by move=> p /mapP[i _ ->] /=; rewrite mxE eqxx mulr1n m2.
  rewrite [X in _ = up X](eq_in_filter (a2 := predT)); last by move=> p /mapP[q /mapP[i _ ->] ->] /=; rewrite mxE eqxx mulr1n m2.
  rewrite !filter_predT => /(congr1 (fun x => (nth (0, [::]) x 0).2`_0)).
  have se : (0 < size (enum 'I_(length two_edges)))%N by rewrite size_enum_ord.
  rewrite /up !(nth_map (0, 0)) ?size_map -?enumT ?se //.
  rewrite !(nth_enumI _ _ (ord0 : 'I_(length two_edges))) [(_, _).2]/= [(_, _).2]/=.
  rewrite reflectionE w_delta w_w !mxE /= mulr1 mulr1.
  by rewrite divff ?pnatr_eq0 // subrr => /eqP; rewrite oner_eq0.
split.
  eexists; split; last rewrite -hk; reflexivity.
have [|r [er _]] := denoise_run (@eigsh_std R) two_ok (isT : (0 < length two_edges)%N) (p := "L1") (mus := [::]) (mu := 1)
  (erefl : get_p_matrix two_sc "L1" = Ok (Csr _)) (erefl (size [:: 1; 2%:R : R])) (erefl (size [:: 1; 2%:R : R])) _.
  by move=> m; rewrite inE => /eqP ->; exact: ler01.
exists r; split; first exact: er.
have [h _] := C92_filters EC EC' two_ok (@ls_min R) (fun _ => 0) (@argsort_ref R) id [:: 1; 2%:R] [:: 1; 2%:R].
by rewrite -h.
Qed.
