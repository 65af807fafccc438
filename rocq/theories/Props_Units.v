(** * C96: the unit in which a flow is measured *)

From Coq Require Import ZArith String List Ring Field.
From mathcomp Require Import all_ssreflect all_algebra ssrZ zify.
From Verif Require Import RingTac Py PyFacts ExampleData Complex ComplexSpec ComplexFacts LinAlg Spectral Signal
  SignalSpec Bridge SignalFacts Compute Props_Signal Props_Hodge Eigen EigenSpec EigenFacts
  Props_Eigen Filter FilterSpec FilterFacts FilterFacts2 PolyFacts Props_Masks Props_LowPass Trend TrendFacts
  Props_Logistic Props_Trend Props_Trend2 Props_Trend3 Props_TrendEx Props_Poly Props_Linear Gp GpSpec Props_GpData.

Set Implicit Arguments.
Unset Strict Implicit.
Unset Printing Implicit Defensive.

Import GRing.Theory Num.Theory Order.Theory.
Local Open Scope ring_scope.
Delimit Scope Z_scope with zz.

(** The same result in the new unit: flows are multiplied by [c], matrices, frequency responses, relative errors
    and correlations stay. *)
Definition after (A B : Type) (g : A -> B) (m : res A) : res B :=
  match m with Ok a => Ok (g a) | Raise e => Raise e end.
Definition run_in (R : rcfType) (c : R) (r : run R) : run R :=
  mkRun (run_filter r) (scalef c (run_estimated r)) (run_responses r) (run_errors r).
Definition cheb_in (R : rcfType) (c : R) (r : cheb_run R) : cheb_run R :=
  mkChebRun (cheb_filter r) [seq scalef c x | x <- cheb_estimated r] [seq scalef c x | x <- cheb_responses r]
    (cheb_errors r) (cheb_filter_error r).
Definition fl_in (R : rcfType) (c : R) (x : fl R) : fl R := if x is Fin v then Fin (c * v) else x.
Definition trend_in (R : rcfType) (c : R) (r : trend_run R) : trend_run R :=
  mkTrend (trend_filter r) [seq [seq scalef c x | x <- l] | l <- trend_responses r]
    [seq fl_in c x | x <- trend_component r] (trend_errors r) (trend_correlations r).

Section Basic.
Variable R : rcfType.
Add Field R_fieldU : (mc_field R).
Variable c : R.
Implicit Types x y f t : seq R.

Lemma afterB (A B C : Type) (m : res A) (k : A -> res B) (g : B -> C) :
  after g (bind m k) = bind m (fun a => after g (k a)).
Proof. by case: m. Qed.
Lemma bindA (A B C : Type) (m : res A) (g : A -> B) (k : B -> res C) :
  bind (after g m) k = bind m (fun a => k (g a)).
Proof. by case: m. Qed.
Lemma bind_ext (A B : Type) (m : res A) (k k' : A -> res B) : (forall a, k a = k' a) -> bind m k = bind m k'.
Proof. by case: m => //= a ->. Qed.

Lemma nth_scalef a x i : (scalef a x)`_i = a * x`_i.
Proof.
case: (ltnP i (size x)) => h; first by rewrite (nth_map 0).
by rewrite !nth_default ?size_scalef // mulr0.
Qed.
Lemma vec_scale n x : vec n (scalef c x) = c *: vec n x.
Proof. by apply/matrixP => i j; rewrite !mxE nth_scalef. Qed.

Lemma np_zip_scale op x y : (forall a b, op (c * a) (c * b) = c * op a b) ->
  np_zip op (scalef c x) (scalef c y) = after (scalef c) (np_zip op x y).
Proof.
move=> h; rewrite /np_zip !size_scalef; case: ifP => _.
  rewrite /= /scalef -map_comp; congr Ok; elim: x y => [|a x IH] [|b y] //=; by rewrite h IH.
case: ifP => [s1|_].
  rewrite /= /scalef -!map_comp; congr Ok; apply: eq_map => b /=.
  by case: x s1 => [|a []] //= _; rewrite h.
case: ifP => // s1; rewrite /= /scalef -!map_comp; congr Ok; apply: eq_map => a /=.
by case: y s1 => [|b []] //= _; rewrite h.
Qed.
Lemma np_sub_scale x y : np_sub (scalef c x) (scalef c y) = after (scalef c) (np_sub x y).
Proof. by apply: np_zip_scale => a b; rewrite mulrBr. Qed.
Lemma np_add_scale x y : np_add (scalef c x) (scalef c y) = after (scalef c) (np_add x y).
Proof. by apply: np_zip_scale => a b; rewrite mulrDr. Qed.

Lemma norm_scale x : norm (scalef c x) = `|c| * norm x.
Proof.
rewrite /norm size_scalef -sqrtr_sqr -sqrtrM ?sqr_ge0 // big_distrr /=; congr Num.sqrt.
by apply: eq_bigr => i _; rewrite nth_scalef exprMn.
Qed.

Lemma arr_dot_scale A x : arr_dot A (scalef c x) = after (scalef c) (arr_dot A x).
Proof.
rewrite /arr_dot size_scalef; case: ifP => // _; congr Ok; rewrite /scalef /mkseq -map_comp.
apply: eq_map => i /=; rewrite big_distrr; apply: eq_bigr => j _ /=.
by rewrite -[X in X`_j]/(scalef c x) nth_scalef mulrCA.
Qed.
Lemma mdot_scale M x : mdot M (scalef c x) = after (scalef c) (mdot M x).
Proof. by case: M => *; rewrite /mdot ?arr_dot_scale. Qed.

Lemma mat_dot_scale n (H : 'M[R]_n) x : mat_dot H (scalef c x) = after (scalef c) (mat_dot H x).
Proof.
rewrite /mat_dot size_scalef; case: ifP => //= _.
by rewrite vec_scale -scalemxAr scalef_unvec.
Qed.

Lemma divergence_scale sc x : get_divergence sc (scalef c x) = after (scalef c) (get_divergence sc x).
Proof. by rewrite /get_divergence; case: incidence_matrix => //= M; rewrite mdot_scale. Qed.
Lemma curl_scale sc x : get_curl sc (scalef c x) = after (scalef c) (get_curl sc x).
Proof. by rewrite /get_curl; case: incidence_matrix => //= M; rewrite mdot_scale. Qed.
Lemma lower_scale sc x k : apply_lower_shifting sc (scalef c x) k = after (scalef c) (apply_lower_shifting sc x k).
Proof.
rewrite /apply_lower_shifting; case: lower_laplacian_matrix => //= M; case: Z.eqb; rewrite mdot_scale //.
by rewrite bindA afterB; apply: bind_ext => y; rewrite mdot_scale.
Qed.
Lemma upper_scale sc x k : apply_upper_shifting sc (scalef c x) k = after (scalef c) (apply_upper_shifting sc x k).
Proof.
rewrite /apply_upper_shifting; case: upper_laplacian_matrix => //= M; case: Z.eqb; rewrite mdot_scale //.
by rewrite bindA afterB; apply: bind_ext => y; rewrite mdot_scale.
Qed.
Lemma shift_scale sc x k : apply_k_step_shifting sc (scalef c x) k = after (scalef c) (apply_k_step_shifting sc x k).
Proof.
rewrite /apply_k_step_shifting lower_scale bindA afterB; apply: bind_ext => y.
by rewrite upper_scale bindA afterB; apply: bind_ext => z; rewrite np_add_scale.
Qed.
Lemma coeffs_scale n ps x : coeffs n ps (scalef c x) = after (scalef c) (coeffs n ps x).
Proof.
rewrite /coeffs size_scalef; case: ifP => //= _; rewrite /scalef -map_comp; congr Ok; apply: eq_map => p /=.
rewrite big_distrr; apply: eq_bigr => i _ /=.
by rewrite -[[seq c * t | t <- x]]/(scalef c x) nth_scalef mulrCA.
Qed.

Section Nonzero.
Hypothesis c0 : c != 0.

Lemma nrmse_scale x t : calculate_error_NRMSE (scalef c x) (scalef c t) = calculate_error_NRMSE x t.
Proof.
rewrite /calculate_error_NRMSE np_sub_scale bindA; apply: bind_ext => d; rewrite !norm_scale.
rewrite !mulf_eq0 normr_eq0 (negbTE c0) /=; case: ifP => // _; congr (Ok (Fin _)).
by rewrite -mulf_div divff ?mul1r // normr_eq0.
Qed.
End Nonzero.
End Basic.

Section Calls.
Variable R : rcfType.
Variable eigsh : forall n, 'M[R]_n -> seq (R * 'cV[R]_n).
Variable lstsq : forall m n, 'M[R]_(m, n) -> 'cV[R]_m -> 'cV[R]_n.
Variable rint : R -> int.
Variable argsort : seq R -> seq nat.
Variable expf : R -> R.
Variable chebfun : (R -> R) -> R -> R -> Z -> res (seq R).
Variable norm_2 : forall n, 'M[R]_n -> R.
Variables (nodes : list Z) (E : list (Z * Z)) (T : list (list Z)) (nf : dict Z fdict)
          (ef : dict (Z * Z) fdict) (sc : SC).
Hypothesis H : make_sc nodes E T nf ef = Ok sc.
Hypothesis LC : lstsq_contract lstsq.
Variable c : R.

Lemma component_scale f s d : get_component_flow lstsq rint sc (scalef c f) s false d =
  after (scalef c) (get_component_flow lstsq rint sc f s false d).
Proof.
have [a1 [_ a3]] := C24_flow_component_names rint LC H (scalef c f) s false d.
have [b1 [_ b3]] := C24_flow_component_names rint LC H f s false d.
case cn : (c_valid s); last by rewrite a1 ?b1 // => /c_validP; rewrite cn.
have {}cn : component_name s by exact/c_validP.
have [sf|sf] := eqVneq (size f) (length E); last first.
  by rewrite a3 ?b3 ?size_scalef //; exact/eqP.
by rewrite !(component_Ok H LC) ?size_scalef //= scalef_unvec vec_scale scalemxAr.
Qed.

Hypothesis c0 : c != 0.

Definition step_in n (y : 'M[R]_n * seq R * seq R * fl R) : 'M[R]_n * seq R * seq R * fl R :=
  (y.1.1.1, scalef c y.1.1.2, y.1.2, y.2).

Lemma mapM_after (A B : Type) (f g : A -> res B) (h : B -> B) l : (forall a, g a = after h (f a)) ->
  mapM g l = after (map h) (mapM f l).
Proof.
move=> e; elim: l => //= a l IH; rewrite e bindA afterB; apply: bind_ext => b.
by rewrite IH bindA afterB.
Qed.

Lemma collect_in n (ys : seq ('M[R]_n * seq R * seq R * fl R)) :
  collect [seq step_in y | y <- ys] = after (run_in c) (collect ys).
Proof.
case: ys => [|y ys] //=; rewrite last_map; case: (last y ys) => [[[Q fe] g] e] /=.
by rewrite /run_in /= -!map_comp.
Qed.

Lemma denoise_step_in n (P : 'M[R]_n) U f t mu :
  denoise_step P U (scalef c f) (scalef c t) mu = after (@step_in n) (denoise_step P U f t mu).
Proof.
rewrite /denoise_step afterB; apply: bind_ext => Q; rewrite mat_dot_scale bindA afterB; apply: bind_ext => y.
by rewrite nrmse_scale // afterB.
Qed.

Lemma edge_in f t p mus : edge_flow_denoise eigsh sc (scalef c f) (scalef c t) p mus =
  after (run_in c) (edge_flow_denoise eigsh sc f t p mus).
Proof.
rewrite /edge_flow_denoise !afterB; apply: bind_ext => P; rewrite afterB; apply: bind_ext => A.
rewrite afterB; apply: bind_ext => U.
rewrite (mapM_after _ (fun m => denoise_step_in _ U f t m)) bindA afterB; apply: bind_ext => ys.
exact: collect_in.
Qed.

Lemma apply_in P U f t ev alpha L : apply_filter lstsq P U (scalef c f) (scalef c t) ev alpha L =
  after (run_in c) (apply_filter lstsq P U f t ev alpha L).
Proof.
rewrite /apply_filter; case: Z.ltb => //.
rewrite (@mapM_after _ _ (filter_step lstsq P U f t ev alpha (Z.to_nat L)) _ (@step_in _)); last first.
  move=> l; rewrite /filter_step afterB; apply: bind_ext => h; rewrite mat_dot_scale bindA afterB.
  by apply: bind_ext => y; rewrite nrmse_scale // afterB.
by rewrite bindA afterB; apply: bind_ext => ys; exact: collect_in.
Qed.

Lemma one_in f s L : ls_type_one eigsh lstsq rint argsort sc (scalef c f) s L =
  after (run_in c) (ls_type_one eigsh lstsq rint argsort sc f s L).
Proof.
rewrite /ls_type_one afterB; apply: bind_ext => M; rewrite afterB; apply: bind_ext => A.
rewrite afterB; apply: bind_ext => U; rewrite /get_true_signal component_scale bindA afterB; apply: bind_ext => t.
by rewrite afterB; apply: bind_ext => a; exact: apply_in.
Qed.
Lemma two_in f s L tol : ls_type_two eigsh lstsq rint sc (scalef c f) s L tol =
  after (run_in c) (ls_type_two eigsh lstsq rint sc f s L tol).
Proof.
rewrite /ls_type_two afterB; apply: bind_ext => M; rewrite afterB; apply: bind_ext => A.
rewrite afterB; apply: bind_ext => U; rewrite /get_true_signal component_scale bindA afterB; apply: bind_ext => t.
exact: apply_in.
Qed.
Lemma grid_in f t p L mu : grid_denoise eigsh lstsq sc (scalef c f) (scalef c t) p L mu =
  after (run_in c) (grid_denoise eigsh lstsq sc f t p L mu).
Proof.
rewrite /grid_denoise afterB; apply: bind_ext => M; rewrite afterB; apply: bind_ext => A.
rewrite afterB; apply: bind_ext => U; rewrite size_scalef afterB; apply: bind_ext => -[g ev]; exact: apply_in.
Qed.
Lemma extract_in f s p L num mu cut steep :
  grid_extraction eigsh lstsq rint expf sc (scalef c f) s p L num mu cut steep =
  after (run_in c) (grid_extraction eigsh lstsq rint expf sc f s p L num mu cut steep).
Proof.
rewrite /grid_extraction afterB; apply: bind_ext => M; rewrite afterB; apply: bind_ext => A.
rewrite afterB; apply: bind_ext => U; rewrite afterB; apply: bind_ext => -[g ev].
by rewrite /get_true_signal component_scale bindA afterB; apply: bind_ext => t; exact: apply_in.
Qed.

Lemma cheb_step_in n (U U_l : eigpairs R) (HI : 'M[R]_n) f t h Q :
  cheb_step norm_2 U U_l HI (scalef c f) (scalef c t) h Q =
  after (fun x => (scalef c x.1.1.1, scalef c x.1.1.2, x.1.2, x.2)) (cheb_step norm_2 U U_l HI f t h Q).
Proof.
have til x : [seq ((vec n p.2)^T *m vec n (scalef c x)) 0 0 | p <- U] =
    scalef c [seq ((vec n p.2)^T *m vec n x) 0 0 | p <- U].
  by rewrite /scalef -map_comp; apply: eq_map => p /=; rewrite -/(scalef c x) vec_scale -scalemxAr mxE.
rewrite /cheb_step; case: ifP => // _; rewrite afterB; apply: bind_ext => e0.
rewrite mat_dot_scale bindA afterB; apply: bind_ext => y.
by rewrite nrmse_scale // afterB; apply: bind_ext => e; rewrite !til nrmse_scale // afterB.
Qed.
Lemma cheb_in_ok f p s L n cut steep :
  cheb_apply eigsh lstsq rint argsort expf chebfun norm_2 sc (scalef c f) p s L n cut steep =
  after (cheb_in c) (cheb_apply eigsh lstsq rint argsort expf chebfun norm_2 sc f p s L n cut steep).
Proof.
rewrite /cheb_apply afterB; apply: bind_ext => M; rewrite afterB; apply: bind_ext => A.
rewrite afterB; apply: bind_ext => U; rewrite afterB; apply: bind_ext => P; rewrite afterB; apply: bind_ext => B.
rewrite afterB; apply: bind_ext => U_l; rewrite /get_true_signal component_scale bindA afterB; apply: bind_ext => t.
rewrite afterB; apply: bind_ext => h; rewrite afterB; apply: bind_ext => -[al lam].
rewrite afterB; apply: bind_ext => co; rewrite afterB; apply: bind_ext => rs; case: Z.ltb => //.
rewrite afterB; apply: bind_ext => Hs.
rewrite (mapM_after _ (fun Q => cheb_step_in U U_l _ f t h Q)) bindA afterB; apply: bind_ext => ys /=.
by rewrite /cheb_in /= -!map_comp.
Qed.
End Calls.

(** ** Trend filters *)
Section TrendUnits.
Variable R : rcfType.
Add Field R_fieldT : (mc_field R).
Variables (pow10 : R -> R) (randn : nat -> nat -> nat -> seq R).
Variable sc : SC.
Variable c : R.
Hypothesis c0 : 0 < c.
Let cn : c != 0. Proof. by rewrite gt_eqF. Qed.

Lemma mean_scale (x : seq R) : mean (scalef c x) = c * mean x.
Proof.
rewrite /mean size_scalef mulrA; congr (_ / _); rewrite big_distrr /=; apply: eq_bigr => i _; exact: nth_scalef.
Qed.
Lemma centre_scale (x : seq R) : [seq a - mean (scalef c x) | a <- scalef c x] = scalef c [seq a - mean x | a <- x].
Proof. by rewrite mean_scale /scalef -!map_comp; apply: eq_map => a /=; rewrite mulrBr. Qed.
Lemma corr_scale (x y : seq R) : calculate_correlation (scalef c x) (scalef c y) = calculate_correlation x y.
Proof.
rewrite /calculate_correlation !size_scalef !centre_scale; case: ifP => // _.
rewrite !norm_scale !mulf_eq0 normr_eq0 (negbTE cn) /=; case: ifP => // _; congr (Ok (Fin _)).
rewrite (eq_bigr (fun i : 'I_(size x) => c ^+ 2 * ([seq a - mean x | a <- x]`_i * [seq b - mean y | b <- y]`_i))).
  rewrite -big_distrr /= (gtr0_norm c0) mulrACA -expr2 -mulf_div divff ?mul1r //; exact: expf_neq0.
by move=> i _; rewrite !nth_scalef mulrACA expr2.
Qed.

Definition cell_in (x : seq R * fl R * fl R * fl R) : seq R * fl R * fl R * fl R :=
  (scalef c x.1.1.1, x.1.1.2, fl_in c x.1.2, x.2).
Lemma cell_scale comp (f x : seq R) : (forall y, comp (scalef c y) = after (scalef c) (comp y)) ->
  cell comp (scalef c f) (scalef c x) = after cell_in (cell comp f x).
Proof.
move=> h; rewrite /cell nrmse_scale // afterB; apply: bind_ext => e; rewrite h bindA afterB; apply: bind_ext => y.
rewrite corr_scale afterB; apply: bind_ext => r /=; by rewrite norm_scale gtr0_norm.
Qed.

Lemma fl_mean_in (xs : seq (fl R)) : fl_mean [seq fl_in c x | x <- xs] = fl_in c (fl_mean xs).
Proof.
rewrite /fl_mean size_map !has_map; have -> : has (preim (fl_in c) (@fl_is_nan R)) xs = has (@fl_is_nan R) xs.
  by apply: eq_has => -[].
have -> : has (preim (fl_in c) (@fl_is_inf R)) xs = has (@fl_is_inf R) xs by apply: eq_has => -[].
case: ifP => // _; case: ifP => // _ /=; congr Fin; rewrite big_map mulrA; congr (_ / _).
by rewrite big_distrr; apply: eq_bigr => -[v| |] _ /=; rewrite ?mulr0.
Qed.

Lemma result_in F (t : seq (seq (seq R * fl R * fl R * fl R))) :
  trend_result F [seq [seq cell_in x | x <- l] | l <- t] = trend_in c (trend_result F t).
Proof.
rewrite /trend_in /trend_result /= -!map_comp; congr mkTrend; apply: eq_map => l /=; rewrite -?map_comp //.
by rewrite -fl_mean_in -map_comp.
Qed.

Lemma table_in n m b b' : (forall i j, b' i j = after cell_in (b i j)) ->
  @table R n m b' = after (map (map cell_in)) (table n m b).
Proof. by move=> h; apply: mapM_after => i; apply: mapM_after => j. Qed.

Lemma component_of_scale comp s : components R sc s = Some comp -> forall y, comp (scalef c y) = after (scalef c) (comp y).
Proof.
rewrite /components; case: ifP => _; first by case=> <- y; exact: divergence_scale.
by case: ifP => // _ [<-] y; exact: curl_scale.
Qed.

Lemma power_scale f snr : get_power_noise pow10 sc (scalef c f) snr =
  after (fun x => (scalef c x.1, x.2)) (get_power_noise pow10 sc f snr).
Proof.
rewrite /get_power_noise; case: ifP => //= _; rewrite norm_scale (gtr0_norm c0); congr (Ok (_, _)).
by rewrite /scalef -[RHS]map_comp; apply: eq_map => s /=; rewrite !mulrA.
Qed.
Lemma noisy_scale f (p : seq R) n i j :
  noisy randn (scalef c f) (scalef c p) n i j = after (scalef c) (noisy randn f p n i j).
Proof.
rewrite /noisy nth_scalef -np_add_scale; congr np_add.
by rewrite /scalef -map_comp; apply: eq_map => z /=; rewrite mulrA.
Qed.

Lemma l2_in f s num snr mu : denoise_l2 pow10 randn sc (scalef c f) s num snr mu =
  after (trend_in c) (denoise_l2 pow10 randn sc f s num snr mu).
Proof.
rewrite /denoise_l2; case ec : components => [comp|] //; have hc := component_of_scale ec.
rewrite power_scale bindA afterB; apply: bind_ext => -[p q]; cbv beta iota delta [fst snd]; rewrite afterB; apply: bind_ext => M.
rewrite afterB; apply: bind_ext => A; cbv zeta; case: Z.ltb => //.
rewrite (@table_in _ _ (fun i j =>
          let! f_noisy := noisy randn f p (size (sc_edges sc)) i j in
          let! _ := calculate_error_NRMSE f_noisy f in
          let! H := np_inv (1%:M + mu *: toM R (size (sc_edges sc)) (size (sc_edges sc)) A) in
          let! f0 := mat_dot H f_noisy in
          cell comp f f0)); last first.
  move=> i j; rewrite noisy_scale bindA afterB; apply: bind_ext => y; rewrite nrmse_scale // afterB.
  apply: bind_ext => e; rewrite afterB; apply: bind_ext => Q; rewrite mat_dot_scale bindA afterB.
  by apply: bind_ext => z; exact: cell_scale.
rewrite bindA afterB; apply: bind_ext => t; case: ifP => // _; rewrite afterB; apply: bind_ext => Q /=.
by rewrite result_in.
Qed.

(** The cost of a candidate in the new unit. *)
Lemma cost_scale A mu (y x : seq R) :
  trend_cost A mu (scalef c y) (scalef c x) = c * trend_cost A mu y x.
Proof.
rewrite /trend_cost mulrDr; congr (_ + _).
  rewrite /dist -!normE; have -> : subf (scalef c y) (scalef c x) = scalef c (subf y x).
    apply: (@eq_from_nth _ 0); first by rewrite /subf size_scalef !size_addf size_scalef.
    rewrite /subf size_addf size_scalef => i li; rewrite nth_scalef !nth_mkseq ?size_scalef // !nth_scalef.
    by rewrite mulrDr mulrCA.
  by rewrite norm_scale gtr0_norm.
rewrite mulrCA; congr (_ * _); rewrite /l1 !size_mv big_distrr /=; apply: eq_bigr => i _.
rewrite -[X in X * _](gtr0_norm c0) -normrM; congr `|_|; rewrite !nth_mkseq // big_distrr /=.
by apply: eq_bigr => j _; rewrite nth_scalef !zmulE mulrCA.
Qed.
Lemma noisy_flow_scale f n snr z : noisy_flow pow10 (scalef c f) n snr z = scalef c (noisy_flow pow10 f n snr z).
Proof.
apply: (@eq_from_nth _ 0); first by rewrite size_scalef !size_addf size_scalef.
move=> i; rewrite size_addf size_scalef => li; rewrite nth_scalef !nth_mkseq ?size_scalef // !nth_scalef.
by rewrite -!normE norm_scale gtr0_norm // mulrDr !mulrA.
Qed.
Lemma scale_back (x : seq R) : scalef c (scalef c^-1 x) = x.
Proof. by rewrite /scalef -map_comp map_id_in // => a _ /=; rewrite mulrA mulfV // mul1r. Qed.
(** Two minimisers, one for each unit. *)
Lemma minimisers A mu n (y x x' : seq R) (ok ok' : seq R -> Prop) : size x = n -> size x' = n -> ok x -> ok' x' ->
  (forall z, ok z -> ok' (scalef c z)) -> (forall z, ok' z -> ok (scalef c^-1 z)) ->
  (forall z, size z = n -> ok z -> trend_cost A mu y x <= trend_cost A mu y z) ->
  (forall z, size z = n -> ok' z -> trend_cost A mu (scalef c y) x' <= trend_cost A mu (scalef c y) z) ->
  trend_cost A mu y (scalef c^-1 x') = trend_cost A mu y x /\
  trend_cost A mu (scalef c y) x' = c * trend_cost A mu y x.
Proof.
move=> sx sx' o o' h h' m m'.
have l1 : trend_cost A mu y x <= trend_cost A mu y (scalef c^-1 x') by apply: m; rewrite ?size_scalef //; exact: h'.
have l2 : trend_cost A mu y (scalef c^-1 x') <= trend_cost A mu y x.
  rewrite -(ler_pmul2l c0) -cost_scale -[X in _ <= X]cost_scale scale_back.
  by apply: m'; rewrite ?size_scalef //; exact: h.
have e : trend_cost A mu y (scalef c^-1 x') = trend_cost A mu y x by apply: le_anti; rewrite l2 l1.
by split=> //; rewrite -{1}(scale_back x') cost_scale e.
Qed.
End TrendUnits.

(** ** Targets of the Gaussian processes *)
Section Affine.
Variable R : rcfType.
Add Field R_fieldA : (mc_field R).
Variables (a b : R).
Hypothesis a0 : 0 < a.
Definition aff (x : R) : R := a * x + b.
Let an : a != 0. Proof. by rewrite gt_eqF. Qed.

Lemma tmean_aff (y : seq R) : (0 < size y)%N -> tmean [seq aff x | x <- y] = aff (tmean y).
Proof.
move=> s; have n0 : (size y)%:R != 0 :> R by rewrite pnatr_eq0 -lt0n.
rewrite /tmean size_map (eq_bigr (fun i : 'I_(size y) => a * y`_i + b)); last by move=> i _; rewrite (nth_map 0).
rewrite big_split /= -big_distrr sumr_const card_ord /aff -[b *+ _]mulr_natr /=.
by rewrite mulrDl mulfK // mulrA.
Qed.
Lemma tstd_aff (y : seq R) : (0 < size y)%N -> tstd [seq aff x | x <- y] = a * tstd y.
Proof.
move=> s; have se x : a * Num.sqrt x = Num.sqrt (a ^+ 2 * x) by rewrite sqrtrM ?sqr_ge0 // sqrtr_sqr gtr0_norm.
rewrite /tstd size_map se; congr Num.sqrt.
rewrite mulrA; congr (_ / _); rewrite big_distrr; apply: eq_bigr => i _ /=.
rewrite (nth_map 0) // tmean_aff // /aff.
have -> : a * y`_i + b - (a * tmean y + b) = a * (y`_i - tmean y) by to_r R; ring.
by rewrite exprMn.
Qed.
Lemma normalize_aff (ytr yte y : seq R) :
  normalize_data [seq aff x | x <- ytr] [seq aff x | x <- yte] [seq aff x | x <- y] = normalize_data ytr yte y.
Proof.
rewrite /normalize_data size_map; case: (leqP (size ytr) 1) => //= s2.
have s1 : (0 < size ytr)%N by exact: ltnW.
rewrite tstd_aff // mulf_eq0 (negbTE an) /=; case: eqP => // /eqP t0.
have e l : [seq (x - tmean [seq aff x | x <- ytr]) / (a * tstd ytr) | x <- [seq aff x | x <- l]] =
    [seq (x - tmean ytr) / tstd ytr | x <- l].
  rewrite -map_comp; apply: eq_map => x /=; rewrite tmean_aff // /aff.
  have -> : a * x + b - (a * tmean ytr + b) = a * (x - tmean ytr) by to_r R; ring.
  by rewrite -mulf_div divff // mul1r.
by rewrite !e.
Qed.
End Affine.

(** ** The theorems *)

Theorem C96_signals :
  forall (R : rcfType) lstsq rint, lstsq_contract lstsq ->
  forall nodes E T nf ef sc, make_sc nodes E T nf ef = Ok sc ->
  forall (c : R) (f : seq R),
  get_divergence sc (scalef c f) = after (scalef c) (get_divergence sc f) /\
  get_curl sc (scalef c f) = after (scalef c) (get_curl sc f) /\
  (forall k, apply_lower_shifting sc (scalef c f) k = after (scalef c) (apply_lower_shifting sc f k) /\
     apply_upper_shifting sc (scalef c f) k = after (scalef c) (apply_upper_shifting sc f k) /\
     apply_k_step_shifting sc (scalef c f) k = after (scalef c) (apply_k_step_shifting sc f k)) /\
  (forall s d, get_component_flow lstsq rint sc (scalef c f) s false d =
     after (scalef c) (get_component_flow lstsq rint sc f s false d)) /\
  (forall eigsh, get_simplicial_embeddings eigsh sc (scalef c f) =
     after (fun x => (scalef c x.1.1, scalef c x.1.2, scalef c x.2)) (get_simplicial_embeddings eigsh sc f)) /\
  (c != 0 -> forall t, calculate_error_NRMSE (scalef c f) (scalef c t) = calculate_error_NRMSE f t) /\
  (0 < c -> forall t, calculate_correlation (scalef c f) (scalef c t) = calculate_correlation f t).
Proof.
move=> R lstsq rint LC nodes E T nf ef sc H c f; split; first exact: divergence_scale.
split; first exact: curl_scale.
split; first by move=> k; split; [exact: lower_scale|split; [exact: upper_scale|exact: shift_scale]].
split; first by move=> s d; exact: (component_scale _ H LC).
split; last by split=> [c0 t|c0 t]; [exact: nrmse_scale|exact: corr_scale].
move=> eigsh; rewrite /get_simplicial_embeddings.
do 9 (rewrite afterB; apply: bind_ext => ?).
by do 3 (rewrite coeffs_scale bindA afterB; apply: bind_ext => ?).
Qed.
Print Assumptions C96_signals.

Theorem C96_filters :
  forall (R : rcfType) eigsh lstsq rint argsort expf chebfun norm_2, lstsq_contract lstsq ->
  forall nodes E T nf ef sc, make_sc nodes E T nf ef = Ok sc ->
  forall (c : R) (f t : seq R), c != 0 ->
  (forall p mus, edge_flow_denoise eigsh sc (scalef c f) (scalef c t) p mus =
     after (run_in c) (edge_flow_denoise eigsh sc f t p mus)) /\
  (forall p L mu, grid_denoise eigsh lstsq sc (scalef c f) (scalef c t) p L mu =
     after (run_in c) (grid_denoise eigsh lstsq sc f t p L mu)) /\
  (forall s L, ls_type_one eigsh lstsq rint argsort sc (scalef c f) s L =
     after (run_in c) (ls_type_one eigsh lstsq rint argsort sc f s L)) /\
  (forall s L tol, ls_type_two eigsh lstsq rint sc (scalef c f) s L tol =
     after (run_in c) (ls_type_two eigsh lstsq rint sc f s L tol)) /\
  (forall s p L num mu cut steep, grid_extraction eigsh lstsq rint expf sc (scalef c f) s p L num mu cut steep =
     after (run_in c) (grid_extraction eigsh lstsq rint expf sc f s p L num mu cut steep)) /\
  (forall p s L n cut steep,
     cheb_apply eigsh lstsq rint argsort expf chebfun norm_2 sc (scalef c f) p s L n cut steep =
     after (cheb_in c) (cheb_apply eigsh lstsq rint argsort expf chebfun norm_2 sc f p s L n cut steep)).
Proof.
move=> R eigsh lstsq rint argsort expf chebfun norm_2 LC nodes E T nf ef sc H c f t c0.
split; first by move=> p mus; exact: edge_in.
split; first by move=> p L mu; exact: grid_in.
split; first by move=> s L; exact: (one_in _ _ _ H LC).
split; first by move=> s L tol; exact: (two_in _ _ H LC).
split; first by move=> *; exact: (extract_in _ _ _ H LC).
by move=> *; exact: (cheb_in_ok _ _ _ _ _ _ H LC).
Qed.
Print Assumptions C96_filters.

Theorem C96_l2_trend :
  forall (R : rcfType) (pow10 : R -> R) randn sc (c : R), 0 < c ->
  forall f s num snr mu, denoise_l2 pow10 randn sc (scalef c f) s num snr mu =
    after (trend_in c) (denoise_l2 pow10 randn sc f s num snr mu).
Proof. by move=> *; exact: l2_in. Qed.
Print Assumptions C96_l2_trend.

(** The l1 problems: a solution in one unit is a solution in the other; a solver that returns minimisers therefore
    finds equally good flows. *)
Theorem C96_l1_trend :
  forall (R : rcfType) (pow10 : R -> R) randn solver, (forall i j n, size (randn i j n) = n) ->
    solver_contract solver ->
  forall nodes E T nf ef sc, make_sc nodes E T nf ef = Ok sc ->
  forall (c mu : R), 0 < c -> 0 <= mu ->
  forall f s num snr order r r',
    denoise_l1 pow10 randn solver sc f s num snr order mu = Ok r ->
    denoise_l1 pow10 randn solver sc (scalef c f) s num snr order mu = Ok r' ->
  exists A, get_shift_operator sc s order = Ok (Csr A) /\
  forall i j, (i < size snr)%N -> (j < Z.to_nat num)%N ->
    let y := noisy_flow pow10 f (length E) snr`_i (randn i j (length E)) in
    let x := nth [::] (nth [::] (trend_responses r) i) j in
    let x' := nth [::] (nth [::] (trend_responses r') i) j in
    trend_cost A mu y (scalef c^-1 x') = trend_cost A mu y x /\
    trend_cost A mu (scalef c y) x' = c * trend_cost A mu y x.
Proof.
move=> R pow10 randn solver sr SC0 nodes E T nf ef sc H c mu c0 mu0 f s num snr order r r' e e'.
have [A [eA [_ h]]] := C49_l1_estimates sr SC0 H mu0 e.
have [A' [eA' [_ h']]] := C49_l1_estimates sr SC0 H mu0 e'.
have AE : A' = A by move: eA'; rewrite eA => -[->].
rewrite AE in h'; exists A; split=> // i j li lj y x x'.
have [sx [mx _]] := h i j li lj; have [sx' [mx' _]] := h' i j li lj; rewrite -/x -/x' -/y in sx mx sx' mx'.
rewrite (noisy_flow_scale _ c0) -/y in mx'; apply: (minimisers (ok := fun=> True) (ok' := fun=> True) c0 sx sx') => // z sz _; [exact: mx|exact: mx'].
Qed.
Print Assumptions C96_l1_trend.

Theorem C96_l1_interpolation :
  forall (R : rcfType) solver_eq (floor : R -> Z) choice, solver_eq_contract solver_eq ->
    floor_contract floor -> choice_contract choice ->
  forall nodes E T nf ef sc, make_sc nodes E T nf ef = Ok sc ->
  forall (c mu : R), 0 < c -> 0 <= mu ->
  forall f s num ratio order r r',
    interpolate_l1 solver_eq floor choice sc f s ratio num order mu = Ok r ->
    interpolate_l1 solver_eq floor choice sc (scalef c f) s ratio num order mu = Ok r' ->
  exists A, get_shift_operator sc s order = Ok (Csr A) /\
  forall i j, (i < size ratio)%N -> (j < Z.to_nat num)%N ->
    let x := nth [::] (nth [::] (trend_responses r) i) j in
    let x' := nth [::] (nth [::] (trend_responses r') i) j in
    exists (observed : seq nat) (y : seq R),
      (forall k, (k < length E)%N -> y`_k = if k \in observed then f`_k else 0) /\
      (forall k, (k < length E)%N -> k \in observed -> x`_k = f`_k /\ x'`_k = c * f`_k) /\
      trend_cost A mu y (scalef c^-1 x') = trend_cost A mu y x.
Proof.
move=> R solver_eq floor choice [FC MC] FL CC nodes E T nf ef sc H c mu c0 mu0 f s num ratio order r r' e e'.
have [A [eA [dA [_ h]]]] := interp_cells H e; have [A' [eA' [_ [_ h']]]] := interp_cells H e'.
have AE : A' = A by move: eA'; rewrite eA => -[->].
rewrite AE in h'; exists A; split=> // i j li lj x x'.
have [m0 [m1 [sf [sx ex]]]] := h i j li lj; have [_ [_ [_ [sx' ex']]]] := h' i j li lj.
move: ex ex'; set S := choice _ _ _ _; set rws := sampling_matrix _; set y := mkseq _ _; set y' := mkseq _ _ => ex ex'.
have yE : y' = scalef c y.
  apply: (@eq_from_nth _ 0); first by rewrite size_scalef !size_mkseq.
  move=> k; rewrite size_mkseq => lk; rewrite nth_scalef !nth_mkseq //; case: ifP => _; rewrite ?mulr0 //.
  exact: nth_scalef.
have sy : size y = sh1 A by rewrite size_mkseq dA.
have sy' : size y' = sh1 A by rewrite size_mkseq dA.
have [sxy ag] := FC _ _ _ _ _ sy mu0 ex; have mn := MC _ _ _ _ _ sy mu0 ex.
have [sxy' ag'] := FC _ _ _ _ _ sy' mu0 ex'; have mn' := MC _ _ _ _ _ sy' mu0 ex'.
exists S, y; split; first by move=> k lk; rewrite nth_mkseq.
split.
  move=> k lk ks; have := proj1 (agreesP _ _ _ _) ag k lk ks; have := proj1 (agreesP _ _ _ _) ag' k lk ks.
  by rewrite !nth_mkseq // ks nth_scalef => -> ->.
have sE : size y = length E by rewrite size_mkseq.
have dots q a (z : seq R) : dotp q (scalef a z) = a * dotp q z.
  by rewrite /dotp big_distrr /=; apply: eq_bigr => k _; rewrite nth_scalef mulrCA.
rewrite yE in ag' mn'.
have mm := @minimisers R c c0 A mu (length E) y x x' (fun z => agrees rws z y) (fun z => agrees rws z (scalef c y)).
apply: (proj1 (mm sx sx' ag ag' _ _ _ _)).
- by move=> z az q iq; rewrite !dots az.
- by move=> z az q iq; rewrite dots az // dots mulrA mulVf ?gt_eqF // mul1r.
- by move=> z sz; apply: mn; rewrite sz sE.
by move=> z sz; apply: mn'; rewrite size_scalef sz sE.
Qed.
Print Assumptions C96_l1_interpolation.

(** Targets in another unit, with another zero point: after normalisation the same numbers. *)
Theorem C96_gp_targets :
  forall (R : rcfType) nodes E T nf ef sc, make_sc nodes E T nf ef = Ok sc ->
  forall (perm : nat -> seq nat) (y : seq R) ratio, perm_eq (perm (length E)) (iota 0 (length E)) ->
  forall a b : R, 0 < a ->
  (forall ytr yte y, normalize_data [seq a * x + b | x <- ytr] [seq a * x + b | x <- yte] [seq a * x + b | x <- y] =
     normalize_data ytr yte y) /\
  train_test_split sc [seq a * x + b | x <- y] perm ratio true = train_test_split sc y perm ratio true.
Proof.
move=> R nodes E T nf ef sc H perm y ratio P a b a0; split; first by move=> *; exact: (normalize_aff b a0).
have [_ eM] := B1_dims H.
rewrite /train_test_split /= -eM /sk_split size_iota size_map.
case: ifP => //= _; case: eqP => //= sy; case: ifP => //= _.
have e (l : seq nat) : (forall i, i \in l -> (i < size y)%N) ->
    [seq [seq a * x + b | x <- y]`_i | i <- l] = [seq aff a b x | x <- [seq y`_i | i <- l]].
  by move=> h; rewrite -map_comp; apply/eq_in_map => i /h li /=; rewrite (nth_map 0).
have lt i : i \in perm (length E) -> (i < size y)%N by rewrite (perm_mem P) mem_iota -sy.
by rewrite !e ?(normalize_aff b a0) // => i /mem_take; [exact: lt|move/mem_drop; exact: lt].
Qed.
Print Assumptions C96_gp_targets.

Lemma small_rint (R : realFieldType) (rint : R -> int) x : rint_contract rint -> `|x| < 2%:R^-1 -> rint x = 0.
Proof.
move=> RC hx; have [h _] := RC x.
have h1 : `|(rint x)%:~R| < 1 :> R.
  rewrite -[X in `|X|](subKr x); apply: le_lt_trans (ler_norm_sub _ _) _.
  rewrite [X in _ < X](splitr 1) !mul1r; exact: ltr_le_add hx h.
move: h1; rewrite -intr_norm -[1]/(1%:~R) ltr_int.
by case: (rint x) => [[|n]|n].
Qed.

(** Rounding to two decimals (the default) spoils this: a flow in thousandths loses its gradient. *)
Theorem C96_rounding_refuted :
  exists nodes E T sc (f : seq rat) (c : rat), make_sc nodes E T nil nil = Ok sc /\ size f = length E /\ 0 < c /\
    forall lstsq rint, lstsq_contract lstsq -> rint_contract rint ->
    get_component_flow lstsq rint sc f "gradient" true 2 = Ok f /\
    get_component_flow lstsq rint sc (scalef c f) "gradient" true 2 = Ok (zerof _ (length E)) /\
    scalef c f <> zerof _ (length E).
Proof.
pose c : rat := 1000%:R^-1; have c0 : 0 < c by rewrite invr_gt0 ltr0n.
have c1 : c * 100%:R < 2%:R^-1.
  by rewrite mulrC ltr_pdivr_mulr ?ltr0n // mulrC ltr_pdivl_mulr ?ltr0n // -natrM ltr_nat.
move: c c0 c1 => c c0 c1.
exists tri_nodes, tri_edges, tri_triangles, tri_sc, [:: 1; 0; - 1], c.
split; first exact: tri_ok. split; first by []. split; first exact: c0.
move=> lstsq rint LS RC; set f := [:: 1; 0; - 1].
have s3 : size f = length tri_edges by [].
have K1 : mvC (sc_B1 tri_sc) (mvC (atr (sc_B1 tri_sc)) [:: 0; 1; 0]) =
          mvC (sc_B1 tri_sc) f by apply/eqP; vm_compute.
have RU : np_round rint =2 np_round rint_rat.
  by move=> x d; apply: eq_map => t; rewrite /np_round1 (rint_unique RC rint_rat_ok).
have g0 : unvec (Gm [realFieldType of rat] tri_nodes tri_edges tri_sc *m vec (length tri_edges) f) = f.
  have := compG tri_ok LS rint false 2 s3.
  rewrite component_G (grad_cert tri_ok LS rint false 2 s3 K1 erefl) /maybe_round /= => -[<-].
  by apply/eqP; vm_compute.
split.
  rewrite component_G (grad_cert tri_ok LS rint true 2 s3 K1 erefl) /maybe_round RU; apply: Ok_eq; vm_compute.
  by [].
split; last by move/(congr1 (nth 0 ^~ 0%N)); rewrite /= mulr1 => e; rewrite e ltxx in c0.
rewrite (compG tri_ok LS) ?size_scalef // (vec_scalef _ s3) -scalemxAr -scalef_unvec g0 /maybe_round /np_round /scalef.
rewrite [f]lock /= -lock /f /zerof /=.
have r0 x : `|x| <= 1 -> np_round1 rint 2 (c * x) = 0.
  move=> x1; rewrite /np_round1 (small_rint RC) ?mul0r //.
  have -> : 10%:R ^ (2 : int) = 100%:R :> rat by rewrite -exprnP -natrX.
  rewrite mulrAC normrM; apply: le_lt_trans _ c1.
  by rewrite (gtr0_norm (mulr_gt0 c0 _)) ?ltr0n //; apply: ler_pimulr => //; rewrite mulr_ge0 // ltW.
by rewrite !r0 ?normr0 ?normrN ?normr1 ?ler01.
Qed.
Print Assumptions C96_rounding_refuted.

From mathcomp Require Import realalg.
(** A flow in kilograms per second and the same one in grams per second on the filled triangle, with the reference
    oracles: all three kinds of calls complete, the denoised flows are 1000 times each other. *)
Example C96_example : let R := realalg_rcfType in let c := 1000%:R : R in
  let f := [:: 1; 0; 0] : seq R in
  lstsq_contract (@ls_sol R) /\ make_sc tri_nodes tri_edges tri_triangles nil nil = Ok tri_sc /\ 0 < c /\
  scalef c f = [:: c; 0; 0] /\
  (exists r, edge_flow_denoise (@eigsh_ref R) tri_sc f f "L1" (rcons [:: 0] 1) = Ok r /\
     edge_flow_denoise (@eigsh_ref R) tri_sc [:: c; 0; 0] [:: c; 0; 0] "L1" (rcons [:: 0] 1) = Ok (run_in c r)) /\
  (exists r r', denoise_l1 (@exp_ref R) (@no_noise R) (@solver_ref R) tri_sc f "divergence" 2 [:: 0; 10%:R] 0
       10%:R^-1 = Ok r /\
     denoise_l1 (@exp_ref R) (@no_noise R) (@solver_ref R) tri_sc [:: c; 0; 0] "divergence" 2 [:: 0; 10%:R] 0
       10%:R^-1 = Ok r') /\
  (exists r r', interpolate_l1 (@solver_eq_ref R) floor_ref choice_ref tri_sc f "divergence" [:: 0; 1] 2 0
       10%:R^-1 = Ok r /\
     interpolate_l1 (@solver_eq_ref R) floor_ref choice_ref tri_sc [:: c; 0; 0] "divergence" [:: 0; 1] 2 0
       10%:R^-1 = Ok r') /\
  perm_eq (iota 0 (length tri_edges)) (iota 0 (length tri_edges)).
Proof.
cbv zeta; set R := realalg_rcfType; set f := [:: 1; 0; 0]; set f' := [:: _; 0; 0].
have fE : scalef 1000%:R f = f' by rewrite /scalef /= mulr1 !mulr0.
have c0 : 0 < 1000%:R :> R by rewrite ltr0n.
split; first exact: ls_sol_ok. split; first exact: tri_ok. split; first exact: c0. split; first exact: fE.
have M0 : (0 < length tri_edges)%N by [].
have nn : forall m, m \in rcons [:: 0] 1 -> 0 <= m :> R.
  by move=> m; rewrite !inE => /orP[]/eqP->; rewrite ?ler01.
have sf : size f = length tri_edges by [].
have k1 := ltW (tri_rows R).
split.
  have pe : get_p_matrix tri_sc "L1" = Ok (Csr (aadd tLL tLU)) by [].
  have [r [e _]] := denoise_run (@eigsh_ref R) tri_ok M0 pe sf sf nn.
  have [h _] := C96_filters (@eigsh_ref R) (fun _ => 0) (fun _ => [::]) id (fun _ _ _ _ => Ok [::]) (fun _ _ => 0)
     (@ls_sol_ok R) tri_ok f f (lt0r_neq0 c0).
  by exists r; split=> //; rewrite -fE h e.
split.
  have cp g : size g = 3%N -> exists r, denoise_l1 (@exp_ref R) (@no_noise R) (@solver_ref R) tri_sc g "divergence" 2
      [:: 0; 10%:R] 0 10%:R^-1 = Ok r.
    by move=> sg; apply: tri_l1_completes => //; exact: size_no_noise.
  by have [r e] := cp f erefl; have [r' e'] := cp f' erefl; exists r, r'.
split=> //.
have f_nat n : floor_ref n%:R = Z.of_nat n.
  have := floor_ref_ok (n%:R : R); move: (floor_ref _) => z /andP[a b].
  have a' : (int_of_Z z)%:~R <= (Posz n)%:~R :> R := a.
  have b' : (Posz n)%:~R < (int_of_Z z + 1)%:~R :> R by rewrite intrD.
  by move: a' b'; rewrite ler_int ltr_int; lia.
have cp g : size g = 3%N -> exists r, interpolate_l1 (@solver_eq_ref R) floor_ref choice_ref tri_sc g "divergence"
    [:: 0; 1] 2 0 10%:R^-1 = Ok r.
  move=> sg; apply: tri_interp_completes => //.
  by case=> [|[|//]] _ /=; rewrite ?mulr0 ?mulr1 -?[0]/(0%:R) f_nat.
by have [r e] := cp f erefl; have [r' e'] := cp f' erefl; exists r, r'.
Qed.
