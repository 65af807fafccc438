(** * C47, C50, C76: l2 trend filtering, noise power, correlations and history *)

From Coq Require Import ZArith String List.
From mathcomp Require Import all_ssreflect all_algebra ssrZ zify.
From Verif Require Import Py PyFacts ExampleData Complex ComplexSpec ComplexFacts LinAlg Spectral Signal
  SignalSpec Bridge SignalFacts Compute Props_Signal Props_Hodge Eigen EigenSpec EigenFacts
  Props_Eigen Filter FilterSpec FilterFacts FilterFacts2 PolyFacts Props_Masks Props_LowPass Trend TrendFacts.

Set Implicit Arguments.
Unset Strict Implicit.
Unset Printing Implicit Defensive.

Import GRing.Theory Num.Theory Order.Theory.
Local Open Scope ring_scope.

(** The flow handed to the filter: the true flow plus noise of the power requested. *)
Definition noisy_flow (R : rcfType) (pow10 : R -> R) (flow : seq R) (n : nat) (snr : R) (z : seq R) : seq R :=
  addf flow (scalef (Num.sqrt (energy flow) / pow10 (snr / 10%:R) / n%:R) z).


(** ** C47 *)
Section L2.
Variable R : rcfType.
Variables (pow10 : R -> R) (randn : nat -> nat -> nat -> seq R).
Hypothesis sr : forall i j n, size (randn i j n) = n.
Variables (nodes : list Z) (E : list (Z * Z)) (T : list (list Z)) (nf : dict Z fdict)
          (ef : dict (Z * Z) fdict) (sc : SC).
Hypothesis H : make_sc nodes E T nf ef = Ok sc.
Hypothesis M0 : (0 < length E)%N.
Let M := length E.
Variables (flow snr : seq R) (mu : R).
Hypothesis sf : size flow = M.
Hypothesis mu0 : 0 <= mu.
Notation P := (p_mat R nodes E T sc "L1L").
Notation A := (1%:M + mu *: P).
Notation Y := (fun i j => noisy_flow pow10 flow M snr`_i (randn i j M)).

Lemma noisyE i j : (i < size snr)%N ->
  noisy randn flow [seq norm flow / s / M%:R | s <- calculate_snr pow10 snr] M i j = Ok (Y i j).
Proof.
move=> li; rewrite /noisy np_add_addf ?size_map ?sr //.
by rewrite (nth_map 0) ?size_map // (nth_map 0) // normE.
Qed.
Lemma size_Y i j : size (Y i j) = M. Proof. by rewrite size_addf. Qed.

Lemma power_noiseE : get_power_noise pow10 sc flow snr =
  Ok ([seq norm flow / s / M%:R | s <- calculate_snr pow10 snr], calculate_snr pow10 snr).
Proof. by rewrite /get_power_noise (scE H) -/M; case: eqP => // e; move: M0; rewrite -[length E]/(size E) e. Qed.

Definition l2x i j : seq R := unvec (invmx A *m vec M (Y i j)).
Definition l2cell c i j : seq R * fl R * fl R * fl R :=
  (l2x i j, nrmse (l2x i j) flow, Fin (norm (mv (comp_arr sc c) (l2x i j))), corr flow (l2x i j)).

Lemma l2_run c comp num : components R sc c = Some comp -> Z.lt Z0 num -> snr <> [::] ->
  denoise_l2 pow10 randn sc flow c num snr mu =
  Ok (trend_result (Some (rows (invmx A)))
        [seq [seq l2cell c i j | j <- iota 0 (Z.to_nat num)] | i <- iota 0 (size snr)]).
Proof.
move=> ec n0 s0; rewrite /denoise_l2 ec power_noiseE !bindOk (scE H) /=.
have toP : toM R M M (amul (atr (sc_B1 sc)) (sc_B1 sc)) = P := toM_p R H "L1L".
have uA := shift_unit (p_psd nodes T sc "L1L") mu0.
case: Z.ltb_spec => [|_]; first by lia.
rewrite size_map -/M toP /np_inv uA /=.
rewrite (@table_pure R _ _ _ (l2cell c)) => [|i j li lj].
  case: eqP => [/size0nil|_] //; case: eqP => [|_]; first by lia.
  by [].
rewrite noisyE // !bindOk nrmseE ?size_Y ?sf // !bindOk /mat_dot size_Y eqxx !bindOk.
by rewrite (cellE H ec) // size_unvec.
Qed.

Lemma l2_entry c i j num : (i < size snr)%N -> (j < num)%N ->
  nth [::] (nth [::] (trend_responses (trend_result (Some (rows (invmx A)))
        [seq [seq l2cell c i j | j <- iota 0 num] | i <- iota 0 (size snr)])) i) j = l2x i j.
Proof.
move=> li lj; rewrite /= (nth_map [::]) ?size_map ?size_iota // (nth_map 0%N) ?size_iota // nth_iota //.
by rewrite (nth_map (cell0 R)) ?size_map ?size_iota // (nth_map 0%N) ?size_iota // nth_iota.
Qed.

(** The divergence after the filter. *)
Lemma l2_div (y : 'cV[R]_M) : let d := B1m R nodes E sc *m (invmx A *m y) in
  nrm2 d <= nrm2 (B1m R nodes E sc *m y) /\
  (0 < mu -> B1m R nodes E sc *m y <> 0 -> nrm2 d < nrm2 (B1m R nodes E sc *m y)).
Proof.
move=> d; set B := B1m _ _ _ _ in d *; have PE : P = B^T *m B by [].
have e : B *m y = d + mu *: (B *m (B^T *m d)).
  rewrite -{1}(shift_sol (p_psd nodes T sc "L1L") mu0 y) PE mulmxDr -scalemxAr /d !mulmxA //.
rewrite e nrm2D dotZr; have -> : dot d (B *m (B^T *m d)) = nrm2 (B^T *m d) by rewrite dot_mulmxr.
set q := nrm2 (B^T *m d); have q0 : 0 <= q := nrm2_ge0 _.
split; first by rewrite -addrA ler_addl addr_ge0 ?nrm2_ge0 ?mulr_ge0 ?ler0n.
move=> mup n0; rewrite -addrA ltr_addl ltr_paddr ?nrm2_ge0 // mulr_gt0 ?ltr0n // mulr_gt0 //.
rewrite lt_neqAle q0 andbT eq_sym; apply/eqP => /eqP; rewrite nrm2_eq0 => /eqP z.
apply: n0; rewrite z mulmx0 scaler0 addr0; exact: (gram_ker z).
Qed.
End L2.

Theorem C47_l2_estimates :
  forall (R : rcfType) (pow10 : R -> R) randn, (forall i j n, size (randn i j n) = n) ->
  forall nodes E T nf ef sc, make_sc nodes E T nf ef = Ok sc -> (0 < length E)%N ->
  forall L1l, lower_laplacian_matrix sc 1 = Ok (Csr L1l) ->
  forall (flow snr : seq R) c num mu, size flow = length E -> (c = "divergence" \/ c = "curl")%string ->
    Z.lt Z0 num -> snr <> [::] -> 0 <= mu ->
  exists r F, denoise_l2 pow10 randn sc flow c num snr mu = Ok r /\
    trend_filter r = Some F /\ shaped F (length E) (length E) /\ symmetric F /\
    forall i j, (i < size snr)%N -> (j < Z.to_nat num)%N ->
      let y := noisy_flow pow10 flow (length E) snr`_i (randn i j (length E)) in
      let x := nth [::] (nth [::] (trend_responses r) i) j in
      rmv F y = x /\ addf x (scalef mu (mv L1l x)) = y /\
      (forall dx dy, get_divergence sc x = Ok dx -> get_divergence sc y = Ok dy ->
         energy dx <= energy dy /\ (0 < mu -> dy <> zerof R (length nodes) -> energy dx < energy dy) /\
         (dy = zerof R (length nodes) -> x = y)) /\
      (oriented (length nodes) E T -> get_curl sc x = get_curl sc y).
Proof.
move=> R pow10 randn sr nodes E T nf ef sc H M0 L1l eL flow snr c num mu sf hc n0 s0 mu0.
have [comp ec] := proj2 (components_some R sc c) hc.
exists (trend_result (Some (rows (invmx (1%:M + mu *: p_mat R nodes E T sc "L1L"))))
   [seq [seq l2cell pow10 randn nodes E T sc flow snr mu c i j | j <- iota 0 (Z.to_nat num)] | i <- iota 0 (size snr)]).
eexists; split; first exact: (l2_run pow10 sr H M0 sf mu0 ec n0 s0).
split; first by [].
have sA := p_sym R nodes E T sc "L1L"; have pA : forall x : 'cV[R]_(length E), 0 <= dot x (p_mat R nodes E T sc "L1L" *m x) := p_psd nodes T sc "L1L".
split; first exact: rows_shaped.
split; first by apply: rows_sym; rewrite trmx_inv linearD /= linearZ /= trmx1 sA.
have -> : L1l = p_array sc "L1L" by move: eL => /= [<-].
move=> i j li lj y; have sy : size y = length E by rewrite size_addf.
rewrite l2_entry // /l2x -/y /=.
have [b0 b1] := B1_dims H; have [c0 c1] := B2_dims H.
split; first by rewrite rmv_rows.
split; first by rewrite (mv_p H) unvecK scalef_unvec addf_unvec shift_sol // vecK.
split.
  move=> dx dy; rewrite !(divergence_Ok H) ?size_unvec // => -[<-] [<-]; rewrite !energy_unvec unvecK zerof_unvec.
  have [h1 h2] := @l2_div R nodes E T sc mu mu0 (vec (length E) y).
  split=> //; split=> [mup n|/unvec_inj z].
    by apply: h2 => // z; apply: n; rewrite z.
  by rewrite (shift_fix pA mu0) ?vecK // -mulmxA z mulmx0.
move=> O; rewrite !(curl_Ok H) ?size_unvec // unvecK; congr (Ok (unvec _)).
rewrite -{2}(shift_sol pA mu0 (vec (length E) y)) mulmxDr -scalemxAr.
have -> : (B2m R E T sc)^T *m (p_mat R nodes E T sc "L1L" *m (invmx (1%:M + mu *: p_mat R nodes E T sc "L1L") *m vec (length E) y)) = 0.
  have z := oriented_B1B2 R H O.
  rewrite [p_mat _ _ _ _ _ _]/((B1m R nodes E sc)^T *m B1m R nodes E sc) !mulmxA -trmx_mul z trmx0 !mul0mx //.
by rewrite scaler0 addr0.
Qed.
Print Assumptions C47_l2_estimates.

Theorem C47_component_ignored :
  forall (R : rcfType) (pow10 : R -> R) randn, (forall i j n, size (randn i j n) = n) ->
  forall nodes E T nf ef sc, make_sc nodes E T nf ef = Ok sc -> (0 < length E)%N ->
  forall (flow snr : seq R) num mu, size flow = length E -> Z.lt Z0 num -> snr <> [::] -> 0 <= mu ->
  exists rd rc, denoise_l2 pow10 randn sc flow "divergence" num snr mu = Ok rd /\
    denoise_l2 pow10 randn sc flow "curl" num snr mu = Ok rc /\
    trend_filter rd = trend_filter rc /\ trend_responses rd = trend_responses rc /\
    trend_errors rd = trend_errors rc /\ trend_correlations rd = trend_correlations rc.
Proof.
move=> R pow10 randn sr nodes E T nf ef sc H M0 flow snr num mu sf n0 s0 mu0.
do 2 eexists; split; first exact: (@l2_run _ pow10 randn sr _ _ _ _ _ _ H M0 _ _ _ sf mu0 "divergence" _ _ erefl n0 s0).
split; first exact: (@l2_run _ pow10 randn sr _ _ _ _ _ _ H M0 _ _ _ sf mu0 "curl" _ _ erefl n0 s0).
rewrite /= -!map_comp; split=> //.
split; first by apply: eq_map => i /=; rewrite -!map_comp.
by split; apply: eq_map => i /=; rewrite -!map_comp.
Qed.
Print Assumptions C47_component_ignored.

Theorem C47_rejections :
  forall (R : rcfType) (pow10 : R -> R) randn, (forall i j n, size (randn i j n) = n) ->
  forall nodes E T nf ef sc, make_sc nodes E T nf ef = Ok sc -> (0 < length E)%N ->
  forall (flow snr : seq R) c num mu,
  (~ (c = "divergence" \/ c = "curl")%string -> denoise_l2 pow10 randn sc flow c num snr mu = Raise ValueError) /\
  ((c = "divergence" \/ c = "curl")%string ->
     (Z.lt num Z0 -> denoise_l2 pow10 randn sc flow c num snr mu = Raise ValueError) /\
     (num = Z0 \/ snr = [::] /\ Z.le Z0 num ->
        denoise_l2 pow10 randn sc flow c num snr mu = Raise UnboundLocalError) /\
     (Z.lt Z0 num -> snr <> [::] -> 0 <= mu -> size flow <> length E ->
        denoise_l2 pow10 randn sc flow c num snr mu = Raise ValueError)).
Proof.
move=> R pow10 randn sr nodes E T nf ef sc H M0 flow snr c num mu.
split=> [nc|hc].
  rewrite /denoise_l2; case e : (components R sc c) => [comp|] //.
  by case: nc; apply/(components_some R sc); exists comp.
have [comp ec] := proj2 (components_some R sc c) hc.
rewrite /denoise_l2 ec (power_noiseE pow10 H M0) !bindOk (scE H) /= size_map.
split; first by move/Z.ltb_lt => ->.
split.
  move=> h; case: Z.ltb_spec => [|nn]; first by case: h; lia.
  case: h => [->|[-> _]] /=; last by [].
  have -> : forall b, @table R (size snr) 0 b = Ok [seq [::] | i <- iota 0 (size snr)].
    by move=> b; rewrite /table /= mapM_pure.
  by rewrite /= orbT.
move=> n0 s0 mu0 sf; case: Z.ltb_spec => [|_]; first by lia.
rewrite (_ : toM R (length E) (length E) _ = p_mat R nodes E T sc "L1L"); last exact: (toM_p R H "L1L").
have pA : forall x : 'cV[R]_(length E), 0 <= dot x (p_mat R nodes E T sc "L1L" *m x) := p_psd nodes T sc "L1L".
rewrite /np_inv (shift_unit pA mu0).
rewrite (@table_raise _ _ _ _ ValueError) //.
- by case: (snr) s0.
- by lia.
rewrite /noisy; set z := [seq _ | _ <- randn _ _ _].
have sz : size z = size E by rewrite size_map sr.
move: z sz => z sz.
rewrite /np_add /np_zip sz; case: eqP => // _; case: eqP => [s1|n1].
  rewrite !bindOk /calculate_error_NRMSE /np_sub /np_zip !size_map s1 sz.
  have e1 : (size E == 1%N) = false by apply/eqP => e; apply: sf; rewrite s1 -e.
  rewrite e1 /= /mat_dot !size_map sz eqxx !bindOk /cell /calculate_error_NRMSE /np_sub /np_zip.
  rewrite size_unvec s1 e1 /= (comp_Ok H ec) ?size_unvec // !bindOk /calculate_correlation.
  by rewrite s1 size_unvec eq_sym e1.
case: eqP => // s1; rewrite !bindOk /calculate_error_NRMSE /np_sub /np_zip !size_map eqxx !bindOk.
by rewrite /mat_dot size_map; case: eqP.
Qed.
Print Assumptions C47_rejections.


(** ** C50 *)

(** What is used of [10 ** x]: positive, strictly increasing, 1 at 0. *)
Definition pow_contract (R : rcfType) (pow10 : R -> R) : Prop :=
  (forall x, 0 < pow10 x) /\ (forall x y, x < y -> pow10 x < pow10 y) /\ pow10 0 = 1.

Theorem C50_power_noise :
  forall (R : rcfType) (pow10 : R -> R), pow_contract pow10 ->
  forall nodes E T nf ef sc, make_sc nodes E T nf ef = Ok sc ->
  forall flow snr : seq R,
  (length E = 0%N -> get_power_noise pow10 sc flow snr = Raise NonFinite) /\
  ((0 < length E)%N ->
   exists p s, get_power_noise pow10 sc flow snr = Ok (p, s) /\ size p = size snr /\ size s = size snr /\
    (forall i, (i < size snr)%N -> s`_i = pow10 (snr`_i / 10%:R) /\
       p`_i * (length E)%:R * s`_i = Num.sqrt (energy flow) /\ 0 <= p`_i /\
       (snr`_i = 0 -> s`_i = 1)) /\
    (forall i j, (i < size snr)%N -> (j < size snr)%N -> 0 < energy flow -> snr`_i < snr`_j -> p`_j < p`_i) /\
    (forall a, get_power_noise pow10 sc (scalef a flow) snr = Ok (scalef `|a| p, s))).
Proof.
move=> R pow10 [pos [mono p0]] nodes E T nf ef sc H flow snr.
split=> [M0|M0]; first by rewrite /get_power_noise (scE H) -[size E]/(length E) M0.
have n0 : 0 < (length E)%:R :> R by rewrite ltr0n.
do 2 eexists; split; first exact: (power_noiseE pow10 H M0).
split; first by rewrite !size_map. split; first by rewrite !size_map.
have pE i : (i < size snr)%N -> [seq norm flow / s / (length E)%:R | s <- calculate_snr pow10 snr]`_i =
    Num.sqrt (energy flow) / pow10 (snr`_i / 10%:R) / (length E)%:R.
  by move=> li; rewrite (nth_map 0) ?size_map // (nth_map 0) // normE.
split=> [i li|].
  have sE : (calculate_snr pow10 snr)`_i = pow10 (snr`_i / 10%:R) by rewrite (nth_map 0).
  rewrite pE // sE; split=> //; split; first by rewrite divfK ?gt_eqF // divfK ?gt_eqF.
  split; first by rewrite !mulr_ge0 ?sqrtr_ge0 ?invr_ge0 ?ler0n ?(ltW (pos _)).
  by move=> ->; rewrite mul0r.
split=> [i j li lj e0 lij|a].
  rewrite !pE // ltr_pmul2r ?invr_gt0 // ltr_pmul2l ?sqrtr_gt0 // ltf_pinv ?posrE //.
  by apply: mono; rewrite ltr_pmul2r // invr_gt0 ltr0n.
rewrite (power_noiseE pow10 H M0); congr (Ok (_, _)).
rewrite /scalef -[RHS]map_comp; apply: eq_map => s /=.
rewrite !normE -/(scalef a flow); have -> : energy (scalef a flow) = a ^+ 2 * energy flow.
  rewrite -(@vecK R (size flow) flow) // scalef_unvec !energy_unvec /nrm2 dotZl dotZr mulrA -expr2 //.
by rewrite sqrtrM ?sqr_ge0 // sqrtr_sqr !mulrA.
Qed.
Print Assumptions C50_power_noise.

(** The factor is used as an amplitude: what is added to the flow has the energy of the flow divided by
    the square of the requested ratio (and of the number of edges), times the energy of the sample. *)
Theorem C50_energy_of_the_noise :
  forall (R : rcfType) (pow10 : R -> R), pow_contract pow10 ->
  forall (flow z : seq R) (snr : R), (0 < size flow)%N -> size z = size flow ->
  let noise := subf (noisy_flow pow10 flow (size flow) snr z) flow in
  let s := pow10 (snr / 10%:R) in
  energy noise * (s * (size flow)%:R) ^+ 2 = energy flow * energy z /\
  (* a sample of unit variance *)
  (energy z = (size flow)%:R -> energy noise * (s ^+ 2 * (size flow)%:R) = energy flow).
Proof.
move=> R pow10 [pos _] flow z snr n0 sz; set n := size flow in n0 sz *; move=> noise s.
have sf : size flow = n by [].
have nR : n%:R != 0 :> R by rewrite pnatr_eq0 -lt0n.
have s0 : s != 0 by rewrite gt_eqF //; exact: pos.
have nE : noise = scalef (Num.sqrt (energy flow) / s / n%:R) z.
  rewrite /noise /noisy_flow -(vecK sf) -(vecK sz) scalef_unvec addf_unvec subf_unvec.
  by rewrite addrAC subrr add0r.
have eE : energy noise = energy flow / (s * n%:R) ^+ 2 * energy z.
  rewrite nE -(vecK sz) scalef_unvec !energy_unvec /nrm2 dotZl dotZr mulrA -expr2; congr (_ * _).
  by rewrite -mulrA -invfM expr_div_n sqr_sqrtr ?energy_ge0.
have d0 : (s * n%:R) ^+ 2 != 0 by rewrite expf_neq0 // mulf_neq0.
split; first by rewrite eE mulrAC divfK.
move=> ez; rewrite eE ez -mulrA.
have -> : n%:R * (s ^+ 2 * n%:R) = (s * n%:R) ^+ 2 by rewrite exprMn expr2 [in RHS]expr2 mulrCA mulrA.
by rewrite divfK.
Qed.
Print Assumptions C50_energy_of_the_noise.

(** ** C76 *)

(** Pearson's correlation coefficient: [average] and [centred] are in TrendFacts.v. *)
Definition is_correlation (R : rcfType) (x y : seq R) (c : fl R) : Prop :=
  let dx := centred x in let dy := centred y in
  match c with
  | Fin r => 0 < energy dx /\ 0 < energy dy /\ dotp dx dy = r * Num.sqrt (energy dx) * Num.sqrt (energy dy)
  | NaN => energy dx = 0 \/ energy dy = 0
  | PInf => False
  end.

(** The mean of floats that may be nan or inf (all of them nonnegative or nan). *)
Definition is_mean (R : rcfType) (xs : seq (fl R)) (m : fl R) : Prop :=
  (forall vs, vs <> [::] -> xs = [seq Fin v | v <- vs] -> m = Fin (average vs)) /\
  (List.In (NaN R) xs -> m = NaN R) /\
  (~ List.In (NaN R) xs -> List.In (PInf R) xs -> m = PInf R).

Section Corr.
Variable R : rcfType.
Implicit Types x y f : seq R.

Lemma corr_is x y : is_correlation x y (corr x y).
Proof.
rewrite /is_correlation /corr; case: eqP => [->|/eqP nx] /=; first by left.
case: eqP => [->|/eqP ny] /=; first by right.
have px : 0 < energy (centred x) by rewrite lt_neqAle eq_sym nx energy_ge0.
have py : 0 < energy (centred y) by rewrite lt_neqAle eq_sym ny energy_ge0.
split=> //; split=> //.
by rewrite -mulrA divfK // mulf_neq0 // gt_eqF ?sqrtr_gt0.
Qed.

Lemma fl_mean_is (xs : seq (fl R)) : is_mean xs (fl_mean xs).
Proof.
split=> [vs vn ->|]; first by apply: fl_mean_fin; apply/eqP.
have hn : has (@fl_is_nan R) xs <-> List.In (NaN R) xs.
  elim: xs => [|a xs IH] //=; split=> [/orP[|/IH h]|[->|/IH ->]]; rewrite ?orbT //; last by right.
  by case: a => // _; left.
have hi : has (@fl_is_inf R) xs <-> List.In (PInf R) xs.
  elim: xs {hn} => [|a xs IH] //=; split=> [/orP[|/IH h]|[->|/IH ->]]; rewrite ?orbT //; last by right.
  by case: a => // _; left.
rewrite /fl_mean; split=> [/hn -> //|nn /hi h].
have -> : has (@fl_is_nan R) xs = false by apply/negP => /hn.
have -> : (size xs == 0%N) = false by move: h; case: (xs).
by rewrite h.
Qed.

Lemma size_centred x : size (centred x) = size x. Proof. exact: size_map. Qed.
Lemma sum_scale n a (F : nat -> R) : \sum_(i < n) a * F i = a * \sum_(i < n) F i.
Proof. by rewrite mulr_sumr. Qed.

Lemma dotp_cs x y : size x = size y -> dotp x y ^+ 2 <= energy x * energy y.
Proof.
move: {-2}(size y) (erefl (size y)) => n /esym sy sx.
by rewrite -(vecK sx) -(vecK sy) dotp_unvec !energy_unvec cauchy_schwarz.
Qed.

(** Equality in Cauchy-Schwarz. *)
Lemma cs_eq n (u v : 'cV[R]_n) : dot u v ^+ 2 = nrm2 u * nrm2 v -> nrm2 u != 0 -> v = (dot u v / nrm2 u) *: u.
Proof.
move=> e u0; apply/eqP; rewrite -subr_eq0 -nrm2_eq0; set t := dot u v / nrm2 u.
rewrite nrm2D dotNr dotZr {2}/nrm2 dotNl dotNr opprK dotZl dotZr -/(nrm2 u) (dotC v u).
have -> : t * (t * nrm2 u) = t * dot u v by rewrite /t divfK.
rewrite mulrN mulr_natl mulr2n opprD addrA subrK subr_eq0; apply/eqP/(mulIf u0).
by rewrite mulrC -e /t mulrAC divfK // expr2.
Qed.

(** A correlation of 1 or -1 means that one signal is an affine image of the other. *)
Lemma corr_affine x y r : size x = size y -> is_correlation x y (Fin r) ->
  r ^+ 2 <= 1 /\ (r ^+ 2 = 1 -> exists a b, y = [seq a * t + b | t <- x] /\ 0 < a * r).
Proof.
move: {-2}(size y) (erefl (size y)) => n /esym sy sx [px [py e]].
have sdx : size (centred x) = n by rewrite size_centred.
have sdy : size (centred y) = n by rewrite size_centred.
have e2 : dotp (centred x) (centred y) ^+ 2 = r ^+ 2 * (energy (centred x) * energy (centred y)).
  by rewrite e !exprMn !sqr_sqrtr ?energy_ge0 // mulrA.
split.
  rewrite -(ler_pmul2r (mulr_gt0 px py)) -e2 mul1r; apply: dotp_cs; by rewrite sdx sdy.
move=> r1; move: e2; rewrite r1 mul1r => e2.
set q := dotp (centred x) (centred y) / energy (centred x).
have dE : centred y = scalef q (centred x).
  rewrite /q; move: e2; rewrite -(vecK sdx) -(vecK sdy) dotp_unvec !energy_unvec scalef_unvec => e2.
  by congr unvec; apply: cs_eq => //; rewrite -energy_unvec (vecK sdx) gt_eqF.
exists q, (average y - q * average x); split.
  apply: (@vecP R n); rewrite ?size_map // => i li.
  have := congr1 (fun s => s`_i) dE.
  rewrite /scalef /centred -map_comp !(nth_map 0) ?sx ?sy //= => h.
  by rewrite mulrBr in h; rewrite addrCA addrC -h subrK.
rewrite /q e; set a := Num.sqrt _; set b := Num.sqrt _.
have ap : 0 < a by rewrite sqrtr_gt0. have bp : 0 < b by rewrite sqrtr_gt0.
have -> : r * a * b / energy (centred x) * r = r ^+ 2 * (a * b / energy (centred x)).
  by rewrite expr2 -!mulrA; congr (_ * _); rewrite !mulrA mulrC !mulrA.
by rewrite r1 mul1r divr_gt0 // mulr_gt0.
Qed.

Lemma average_affine x a b : x <> [::] -> average [seq a * t + b | t <- x] = a * average x + b.
Proof.
move=> x0; have n0 : (size x)%:R != 0 :> R by rewrite pnatr_eq0 size_eq0; apply/eqP.
rewrite /average size_map; apply: (mulIf n0); rewrite divfK // mulrDl -mulrA divfK //.
rewrite mulr_sumr mulr_natr -[X in _ *+ X](card_ord (size x)) -sumr_const -big_split /=.
by apply: eq_bigr => i _; rewrite (nth_map 0).
Qed.
Lemma centred_affine x a b : centred [seq a * t + b | t <- x] = scalef a (centred x).
Proof.
case: (x =P [::]) => [-> //|x0]; rewrite {1}/centred average_affine // /scalef /centred -!map_comp.
by apply: eq_map => t /=; rewrite mulrBr opprD addrACA subrr addr0.
Qed.
Lemma affine_corr x a b : a != 0 -> energy (centred x) != 0 ->
  is_correlation x [seq a * t + b | t <- x] (Fin (Num.sg a)).
Proof.
move=> a0 e0; have px : 0 < energy (centred x) by rewrite lt_neqAle eq_sym e0 energy_ge0.
rewrite /is_correlation centred_affine.
have -> : energy (scalef a (centred x)) = a ^+ 2 * energy (centred x).
  rewrite -(@vecK R (size (centred x)) (centred x)) // scalef_unvec !energy_unvec /nrm2 dotZl dotZr mulrA -expr2 //.
have -> : dotp (centred x) (scalef a (centred x)) = a * energy (centred x).
  by rewrite -(@vecK R (size (centred x)) (centred x)) // scalef_unvec dotp_unvec energy_unvec dotZr.
split=> //; split; first by rewrite mulr_gt0 // exprn_even_gt0.
rewrite sqrtrM ?sqr_ge0 // sqrtr_sqr {1}[a]numEsg -!mulrA; congr (_ * _).
by rewrite [RHS]mulrCA -expr2 sqr_sqrtr // ltW.
Qed.
End Corr.

Lemma sqr_norm_le1 (R : rcfType) (r : R) : (r ^+ 2 <= 1) = (`|r| <= 1).
Proof. by rewrite -real_normK ?num_real // expr_le1. Qed.

Theorem C76_correlation :
  forall (R : rcfType) (x y : seq R),
  (size x <> size y -> calculate_correlation x y = Raise ValueError) /\
  (size x = size y -> exists c, calculate_correlation x y = Ok c /\ is_correlation x y c /\
    forall r, c = Fin r -> -1 <= r <= 1 /\
      (r = 1 <-> exists a b, 0 < a /\ y = [seq a * t + b | t <- x]) /\
      (r = -1 <-> exists a b, a < 0 /\ y = [seq a * t + b | t <- x])).
Proof.
move=> R x y; split=> [n|s]; first by rewrite /calculate_correlation; case: eqP.
exists (corr x y); split; first exact: corr_Ok.
split; first exact: corr_is.
move=> r er; have := corr_is x y; rewrite er => h.
have [r1 ra] := corr_affine s h.
have uniq r' : is_correlation x y (Fin r') -> r' = r.
  case: h => [px [py e]] [_ [_]]; rewrite e -!mulrA => /esym; apply: mulIf.
  by rewrite mulf_neq0 // gt_eqF ?sqrtr_gt0.
have nx : energy (centred x) != 0 by case: h => px _; rewrite gt_eqF.
split; first by rewrite -ler_norml -sqr_norm_le1.
split; split.
- move=> e; have [|a [b [ey ar]]] := ra; first by rewrite e expr1n.
  by exists a, b; rewrite e mulr1 in ar.
- move=> [a [b [a0 ey]]]; apply/esym/uniq; rewrite ey -(gtr0_sg a0); apply: affine_corr => //.
  by rewrite gt_eqF.
- move=> e; have [|a [b [ey ar]]] := ra; first by rewrite e sqrrN expr1n.
  by exists a, b; rewrite e mulrN1 oppr_gt0 in ar.
move=> [a [b [a0 ey]]]; apply/esym/uniq; rewrite ey -(ltr0_sg a0); apply: affine_corr => //.
by rewrite lt_eqF.
Qed.
Print Assumptions C76_correlation.

(** What a call is about: flow, component, number of realisations, and the SNR or ratio list. *)
Definition call_flow (R : rcfType) (c : tcall R) : seq R :=
  match c with TL2 f _ _ _ _ | TL1 f _ _ _ _ _ | TInterp f _ _ _ _ _ => f end.
Definition call_component (R : rcfType) (c : tcall R) : string :=
  match c with TL2 _ k _ _ _ | TL1 _ k _ _ _ _ | TInterp _ k _ _ _ _ => k end.
Definition call_num (R : rcfType) (c : tcall R) : Z :=
  match c with TL2 _ _ n _ _ | TL1 _ _ n _ _ _ | TInterp _ _ _ n _ _ => n end.
Definition call_list (R : rcfType) (c : tcall R) : seq R :=
  match c with TL2 _ _ _ s _ | TL1 _ _ _ s _ _ | TInterp _ _ s _ _ _ => s end.

Section Runs.
Variable R : rcfType.
Variables (pow10 : R -> R) (randn : nat -> nat -> nat -> seq R)
  (solver : arr2 -> seq R -> R -> res (seq R)) (solver_eq : arr2 -> seq R -> seq (seq R) -> R -> res (seq R))
  (floor : R -> Z) (choice : nat -> nat -> nat -> nat -> seq nat).
Notation run := (trend_call pow10 randn solver solver_eq floor choice).

Lemma call_table sc c r : run sc c = Ok r ->
  exists F comp t, components R sc (call_component c) = Some comp /\ Z.le Z0 (call_num c) /\
    r = trend_result F t /\ size t = size (call_list c) /\
    forall i, (i < size t)%N -> size (nth [::] t i) = Z.to_nat (call_num c) /\
      forall j, (j < Z.to_nat (call_num c))%N ->
        exists x, cell comp (call_flow c) x = Ok (nth (cell0 R) (nth [::] t i) j).
Proof.
case: c => [f k num s mu|f k num s o mu|f k s num o mu] /=.
- rewrite /denoise_l2; case ec : components => [comp|] // /bind_Ok[[p q] [ep /bind_Ok[L [_ /bind_Ok[A [_]]]]]].
  case: Z.ltb_spec => // n0 /bind_Ok[t [et]]; case: ifP => // _ /bind_Ok[F [_ [<-]]].
  have sq : size q = size s.
    by move: ep; rewrite /get_power_noise; case: ifP => // _ [_ <-]; rewrite size_map.
  have [st ht] := tableE et; rewrite sq in st ht.
  exists (Some (rows F)), comp, t; do 4 split=> //; rewrite st => i li.
  have [si hi] := ht i li; split=> // j lj; have := hi j lj.
  by move=> /bind_Ok[y [_ /bind_Ok[e [_ /bind_Ok[F' [_ /bind_Ok[x [_ h]]]]]]]]; exists x.
- rewrite /denoise_l1; case ec : components => [comp|] // /bind_Ok[L [_ /bind_Ok[A [_ /bind_Ok[[p q] [ep]]]]]].
  case: Z.ltb_spec => // n0 /bind_Ok[t [et [<-]]].
  have sq : size q = size s.
    by move: ep; rewrite /get_power_noise; case: ifP => // _ [_ <-]; rewrite size_map.
  have [st ht] := tableE et; rewrite sq in st ht.
  exists None, comp, t; do 4 split=> //; rewrite st => i li.
  have [si hi] := ht i li; split=> // j lj; have := hi j lj.
  by move=> /bind_Ok[y [_]]; case: ifP => // _ /bind_Ok[x [_ h]]; exists x.
rewrite /interpolate_l1; case ec : components => [comp|] // /bind_Ok[L [_ /bind_Ok[A [_]]]].
case: Z.ltb_spec => // n0 /bind_Ok[t [et [<-]]].
have [st ht] := tableE et.
exists None, comp, t; do 4 split=> //; rewrite st => i li.
have [si hi] := ht i li; split=> // j lj; have := hi j lj.
by case: ifP => // _ /bind_Ok[y [_]]; case: ifP => // _ /bind_Ok[x [_ h]]; exists x.
Qed.
End Runs.

Theorem C76_history_entries :
  forall (R : rcfType) (pow10 : R -> R) randn solver solver_eq floor choice,
  forall nodes E T nf ef sc, make_sc nodes E T nf ef = Ok sc ->
  forall c r, trend_call pow10 randn solver solver_eq floor choice sc c = Ok r ->
  let n := size (call_list c) in let m := Z.to_nat (call_num c) in
  let x i j := nth [::] (nth [::] (trend_responses r) i) j in
  Z.le Z0 (call_num c) /\
  size (trend_responses r) = n /\ size (trend_component r) = n /\ size (trend_errors r) = n /\
  size (trend_correlations r) = n /\
  forall i, (i < n)%N -> size (nth [::] (trend_responses r) i) = m /\
    (forall j, (j < m)%N -> size (x i j) = length E /\ size (call_flow c) = length E) /\
    (exists cs, size cs = m /\
       is_mean [seq Fin (Num.sqrt (energy y)) | y <- cs] (nth (NaN R) (trend_component r) i) /\
       forall j, (j < m)%N ->
         (call_component c = "divergence"%string /\ get_divergence sc (x i j) = Ok (nth [::] cs j)) \/
         (call_component c = "curl"%string /\ get_curl sc (x i j) = Ok (nth [::] cs j))) /\
    (exists es, size es = m /\ is_mean es (nth (NaN R) (trend_errors r) i) /\
       forall j, (j < m)%N -> relative_error (x i j) (call_flow c) (nth (NaN R) es j)) /\
    (exists rs, size rs = m /\ is_mean rs (nth (NaN R) (trend_correlations r) i) /\
       forall j, (j < m)%N -> is_correlation (call_flow c) (x i j) (nth (NaN R) rs j)).
Proof.
move=> R pow10 randn solver solver_eq floor choice nodes E T nf ef sc H c r er n m x.
have [F [comp [t [ec [n0 [rE [st ht]]]]]]] := call_table er.
rewrite rE in x *; split=> //=; rewrite !size_map st; do 4 split=> //.
move=> i li; have lt : (i < size t)%N by rewrite st.
have [si hi] := ht i lt; rewrite !(nth_map [::]) // size_map; split=> //.
have xE j : (j < m)%N -> x i j = (nth (cell0 R) (nth [::] t i) j).1.1.1.
  by move=> lj; rewrite /x /= (nth_map [::]) // (nth_map (cell0 R)) // si.
have cE j : (j < m)%N -> size (call_flow c) = length E /\ size (x i j) = length E /\
   nth (cell0 R) (nth [::] t i) j = (x i j, nrmse (x i j) (call_flow c),
      Fin (norm (mv (comp_arr sc (call_component c)) (x i j))), corr (call_flow c) (x i j)).
  move=> lj; have [y hy] := hi j lj; have [sf [sy e]] := cell_inv H ec hy.
  by rewrite xE // e /=.
split=> [j lj|]; first by have [a [b _]] := cE j lj.
have mapE (A : Type) (g : seq R * fl R * fl R * fl R -> A) (h : nat -> A) :
    (forall j, (j < m)%N -> g (nth (cell0 R) (nth [::] t i) j) = h j) -> map g (nth [::] t i) = mkseq h m.
  move=> gh; apply: (@eq_from_nth _ (g (cell0 R))); rewrite size_map ?size_mkseq // si => j lj.
  by rewrite (nth_map (cell0 R)) ?si // nth_mkseq // gh.
split.
  exists (mkseq (fun j => mv (comp_arr sc (call_component c)) (x i j)) m); split; first exact: size_mkseq.
  split.
    rewrite (_ : [seq _ | y <- _] = [seq y.1.2 | y <- nth [::] t i]); first exact: fl_mean_is.
    rewrite (mapE _ _ (fun j => Fin (Num.sqrt (energy (mv (comp_arr sc (call_component c)) (x i j)))))).
      by rewrite /mkseq -map_comp.
    by move=> j lj; have [_ [_ ->]] := cE j lj; rewrite /= normE.
  move=> j lj; have [_ [sx _]] := cE j lj; rewrite nth_mkseq //.
  have [e|e] := proj1 (components_some R sc (call_component c)) (ex_intro _ comp ec); rewrite /comp_arr e.
    by left; rewrite (div_mv H).
  by right; rewrite (curl_mv H).
split.
  exists (mkseq (fun j => nrmse (x i j) (call_flow c)) m); split; first exact: size_mkseq.
  split; last by move=> j lj; rewrite nth_mkseq //; exact: nrmse_relative.
  rewrite -(mapE _ (fun y => y.1.1.2)); first exact: fl_mean_is.
  by move=> j lj; have [_ [_ ->]] := cE j lj.
exists (mkseq (fun j => corr (call_flow c) (x i j)) m); split; first exact: size_mkseq.
split; last by move=> j lj; rewrite nth_mkseq //; exact: corr_is.
rewrite -(mapE _ (fun y => y.2)); first exact: fl_mean_is.
by move=> j lj; have [_ [_ ->]] := cE j lj.
Qed.
Print Assumptions C76_history_entries.

(** A sequence of calls on one object, each with its own random numbers. *)
Theorem C76_history_is_last_completed_call :
  forall (R : rcfType) (pow10 : R -> R) solver solver_eq floor sc,
  let run (c : (nat -> nat -> nat -> seq R) * (nat -> nat -> nat -> nat -> seq nat) * tcall R) :=
    trend_call pow10 c.1.1 solver solver_eq floor c.1.2 sc c.2 in
  let exec s (c : (nat -> nat -> nat -> seq R) * (nat -> nat -> nat -> nat -> seq nat) * tcall R) :=
    trend_exec pow10 c.1.1 solver solver_eq floor c.1.2 sc s c.2 in
  forall calls,
  (foldl exec None calls = None <-> forall c, List.In c calls -> exists e, run c = Raise e) /\
  (forall r, foldl exec None calls = Some r <->
     exists before c after, calls = before ++ c :: after /\ run c = Ok r /\
       forall c', List.In c' after -> exists e, run c' = Raise e).
Proof.
move=> R pow10 solver solver_eq floor sc run exec calls.
have eOk s c r : run c = Ok r -> exec s c = Some r by rewrite /run /exec /trend_exec => ->.
have eRaise s c e : run c = Raise e -> exec s c = s by rewrite /run /exec /trend_exec => ->.
have K l s : (foldl exec s l = s /\ forall c, List.In c l -> exists e, run c = Raise e) \/
    (exists r before c after, foldl exec s l = Some r /\ l = before ++ c :: after /\ run c = Ok r /\
       forall c', List.In c' after -> exists e, run c' = Raise e).
  elim/last_ind: l => [|l c IH]; first by left.
  rewrite -cats1 foldl_cat /=.
  case e : (run c) => [r|ex].
    right; exists r, l, c, [::]; split; first exact: (eOk _ _ _ e).
    by do 2 split=> //.
  rewrite (eRaise _ _ _ e); case: IH => [[h1 h2]|[r [b [c' [a [h1 [h2 [h3 h4]]]]]]]].
    left; split=> // c'; rewrite List.in_app_iff => -[/h2 //|[<-|[]]]; by exists ex.
  right; exists r, b, c', (a ++ [:: c]); split=> //; split; first by rewrite h2 -catA.
  split=> // c''; rewrite List.in_app_iff => -[/h4 //|[<-|[]]]; by exists ex.
have U r before c after : calls = before ++ c :: after -> run c = Ok r ->
    (forall c', List.In c' after -> exists e, run c' = Raise e) -> foldl exec None calls = Some r.
  move=> -> er ha; rewrite foldl_cat /= (eOk _ _ _ er).
  elim: after ha => [|a l IH] ha //=.
  have [e ee] := ha a (or_introl erefl).
  by rewrite (eRaise _ _ _ ee); apply: IH => c' h; apply: ha; right.
split.
  split=> [h|h].
    by case: (K calls None) => [[]//|[r [b [c [a [h1 _]]]]]]; rewrite h1 in h.
  case: (K calls None) => [[]//|[r [b [c [a [h1 [h2 [h3 _]]]]]]]].
  have hin : List.In c calls by rewrite h2 List.in_app_iff; right; left.
  have [e ee] := h c hin.
  by rewrite h3 in ee.
move=> r; split=> [h|[b [c [a [e1 [e2 e3]]]]]]; last exact: U e1 e2 e3.
case: (K calls None) => [[e _]|[r' [b [c [a [h1 [h2 [h3 h4]]]]]]]]; first by rewrite e in h.
by exists b, c, a; rewrite h1 in h; case: h => <-.
Qed.
Print Assumptions C76_history_is_last_completed_call.
