(** * C99, continued: far away flows have little influence on the low-pass estimate *)

From Coq Require Import ZArith String List Ring Field.
From mathcomp Require Import all_ssreflect all_algebra all_real_closed ssrZ zify.
From Verif Require Import Py PyFacts ExampleData Complex ComplexSpec ComplexFacts ComplexFacts2 LinAlg Spectral
  Signal SignalSpec Bridge SignalFacts Compute Props_Complex Props_Signal Props_Hodge Eigen EigenSpec
  EigenFacts Props_Eigen Filter FilterSpec FilterFacts FilterFacts2 PolyFacts Props_Masks Props_LowPass
  Props_Poly Props_Cheb Props_Linear Props_Topology ChebSeries Props_Logistic Props_Series RingTac Props_Hops.

Set Implicit Arguments.
Unset Strict Implicit.
Unset Printing Implicit Defensive.

Import GRing.Theory Num.Theory Order.Theory.
Local Open Scope ring_scope.
Delimit Scope Z_scope with zz.

Section Decay.
Variable R : rcfType.
Add Field R_fieldHops : (mc_field R).
Variables (n : nat) (P : 'M[R]_n) (mu lam : R).
Hypothesis gram : exists k (B : 'M[R]_(k, n)), P = B^T *m B.
Hypothesis top : forall x : 'cV[R]_n, dot x (P *m x) <= lam * nrm2 x.
Hypotheses (mu0 : 0 <= mu) (lam0 : 0 <= lam).
Notation N := (lam%:M - P).
Notation s := (1 + mu * lam).

Lemma psd (x : 'cV[R]_n) : 0 <= dot x (P *m x).
Proof. by have [k [B ->]] := gram; rewrite -mulmxA -dot_mulmx; exact: dot_ge0. Qed.

Lemma square_le (v : 'cV[R]_n) : nrm2 (P *m v) <= lam * dot v (P *m v).
Proof.
have [k [B e]] := gram; set w := P *m v; pose u := B *m v.
have wE : w = B^T *m u by rewrite /w /u e mulmxA.
have uE : dot v w = nrm2 u by rewrite /w e -mulmxA -dot_mulmx.
have cross : dot u (B *m w) = nrm2 w by rewrite dot_mulmxr -wE.
have Bw : nrm2 (B *m w) <= lam * nrm2 w by have := top w; rewrite {1}e -mulmxA -dot_mulmx.
rewrite uE; move: lam0; rewrite le_eqVlt => /orP[/eqP l0|l0].
  have : nrm2 u <= 0 by rewrite -uE /w; have := top v; rewrite -l0 mul0r.
  rewrite -l0 mul0r => u0; have /eqP : nrm2 u = 0 by apply/le_anti; rewrite u0 nrm2_ge0.
  by rewrite nrm2_eq0 => /eqP uz; rewrite wE uz mulmx0 nrm2_0.
have := nrm2_ge0 (lam *: u - B *m w); rewrite nrm2D dotNr dotZl cross /nrm2 dotZl dotZr dotNl dotNr opprK -!/(nrm2 _) => h.
have : 0 <= lam * (lam * nrm2 u - nrm2 w).
  apply: le_trans h _; rewrite -subr_ge0.
  have -> : lam * (lam * nrm2 u - nrm2 w) - (lam * (lam * nrm2 u) + 2%:R * - (lam * nrm2 w) + nrm2 (B *m w)) =
      lam * nrm2 w - nrm2 (B *m w) by to_r R; ring.
  by rewrite subr_ge0.
by rewrite pmulr_rge0 // subr_ge0.
Qed.

Lemma step_le (v : 'cV[R]_n) : nrm2 (N *m v) <= lam ^+ 2 * nrm2 v.
Proof.
rewrite mulmxBl mul_scalar_mx nrm2D dotNr dotZl /nrm2 dotZl dotZr dotNl dotNr opprK -!/(nrm2 _).
have h := square_le v; have p := psd v.
rewrite -subr_ge0.
have -> : lam ^+ 2 * nrm2 v - (lam * (lam * nrm2 v) + 2%:R * - (lam * dot v (P *m v)) + nrm2 (P *m v)) =
   lam * dot v (P *m v) + (lam * dot v (P *m v) - nrm2 (P *m v)) by rewrite expr2; to_r R; ring.
by rewrite addr_ge0 ?mulr_ge0 // subr_ge0.
Qed.

Lemma steps_le m (v : 'cV[R]_n) : nrm2 (mpow N m *m v) <= (lam ^+ m) ^+ 2 * nrm2 v.
Proof.
elim: m v => [|m IH] v; first by rewrite mul1mx expr0 expr1n mul1r.
have -> : (lam ^+ m.+1) ^+ 2 * nrm2 v = lam ^+ 2 * ((lam ^+ m) ^+ 2 * nrm2 v) by rewrite [lam ^+ m.+1]exprS exprMn mulrA.
rewrite mpowS -mulmxA; apply: le_trans (step_le _) _.
by apply: (ler_wpmul2l (sqr_ge0 lam)); exact: IH.
Qed.

Lemma s_gt0 : 0 < s. Proof. by rewrite ltr_spaddl ?ltr01 // mulr_ge0. Qed.

(** The solution is a filter of m + 1 coefficients applied to g, and a remainder. *)
Lemma truncated nr (g y : 'cV[R]_n) m : reaches nr 1 P -> y + mu *: (P *m y) = g ->
  exists Q, reaches nr m Q /\ y = Q *m g + ((mu / s) ^+ m.+1) *: (mpow N m.+1 *m y).
Proof.
move=> hP e; have s0 : s != 0 by rewrite gt_eqF // s_gt0.
have hN : reaches nr 1 N.
  by apply: reachesD; [rewrite -scalemx1; apply: reachesZ; exact: reaches1|exact: reachesN].
have one : y = s^-1 *: g + (mu / s) *: (N *m y).
  apply: (scalerI s0); rewrite scalerDr !scalerA mulfV // scale1r mulrCA mulfV // mulr1 -e mulmxBl mul_scalar_mx.
  rewrite scalerBr scalerA scalerDl scale1r -addrA; congr (_ + _).
  by rewrite addrC subrK.
elim: m => [|m [Q [hQ IH]]].
  exists (s^-1 *: 1%:M); split; first by apply: reachesZ; exact: reaches1.
  by rewrite expr1 mpowS mulmx1 -scalemxAl mul1mx.
exists (Q + ((mu / s) ^+ m.+1 * s^-1) *: mpow N m.+1); split.
  apply: reachesD; first exact: reaches_mono hQ.
  by apply: reachesZ; rewrite -[X in reaches nr X _]muln1; exact: reaches_pow.
rewrite {1}IH {1}one [(Q + _) *m g]mulmxDl -addrA; congr (_ + _).
rewrite mulmxDr scalerDr -!scalemxAr -scalemxAl !scalerA; congr (_ + _).
by rewrite -exprSr mulmxA -mpowSr.
Qed.
End Decay.

(** The estimate of the low-pass filter on an edge depends on all flows, but less and less on those further away: if lam
    is at least the largest eigenvalue of P (its quadratic form is at most lam times the energy), two flows that agree at
    most d steps from an edge have estimates there that differ by at most (mu lam / (1 + mu lam)) ^ (d + 1) times the norm
    of the difference of the flows. *)
Theorem C99_lowpass_decay :
  forall (R : rcfType) (eigsh : forall n, 'M[R]_n -> seq (R * 'cV[R]_n)) nodes E T nf ef sc,
  make_sc nodes E T nf ef = Ok sc ->
  proper_edges (length nodes) E -> simple_edges E -> proper_triangles T -> (0 < length E)%N ->
  forall p A (lam : R), get_p_matrix sc p = Ok (Csr A) -> 0 <= lam ->
  (forall x, size x = length E -> qform A x <= lam * energy x) ->
  forall f f' f_true mus mu, size f = length E -> size f' = length E -> size f_true = length E ->
  (forall m, m \in rcons mus mu -> 0 <= m) ->
  exists r r', edge_flow_denoise eigsh sc f f_true p (rcons mus mu) = Ok r /\
    edge_flow_denoise eigsh sc f' f_true p (rcons mus mu) = Ok r' /\
    forall d k, (k < length E)%N -> agree_near (near p E T) (length E) d k f f' ->
      ((run_estimated r)`_k - (run_estimated r')`_k) ^+ 2 <=
        ((mu * lam / (1 + mu * lam)) ^+ d.+1) ^+ 2 * energy (subf f f').
Proof.
move=> R eigsh nodes E T nf ef sc H PE SE PT M0 p A lam gp lam0 top f f' t mus mu sf sf' st nn.
have [pv eA] := p_of gp; have mu0 : 0 <= mu by apply: nn; rewrite mem_rcons inE eqxx.
have [r [er e]] := denoise_run eigsh H M0 gp sf st nn.
have [r' [er' e']] := denoise_run eigsh H M0 gp sf' st nn.
exists r, r'; do 2 split=> //; move=> d k kM ag.
rewrite e e' -[k]/(nat_of_ord (Ordinal kM)) !nth_unvec; set ko := Ordinal kM.
set P := p_mat R nodes E T sc p; have pP : forall x : 'cV[R]_(length E), 0 <= dot x (P *m x) by exact: p_psd.
have hP : reaches (near p E T) 1 P := p_reaches H PE SE PT pv.
have topP (x : 'cV[R]_(length E)) : dot x (P *m x) <= lam * nrm2 x.
  by have := top (unvec x) (size_unvec x); rewrite eA (qform_p H) unvecK energy_unvec.
pose g := vec (length E) f - vec (length E) f'; pose y := invmx (1%:M + mu *: P) *m g.
have -> : (invmx (1%:M + mu *: P) *m vec (length E) f) ko 0 - (invmx (1%:M + mu *: P) *m vec (length E) f') ko 0 = y ko 0.
  by rewrite /y /g mulmxBr [in RHS]mxE [X in _ = _ + X]mxE.
have [Q [hQ yE]] := truncated mu0 lam0 d hP (shift_sol pP mu0 g).
rewrite -/y in yE.
have Qg : (Q *m g) ko 0 = 0.
  by rewrite /g mulmxBr mxE [X in _ + X]mxE (reaches_agree (k := ko) hQ ag) subrr.
have eg : energy (subf f f') = nrm2 g.
  by rewrite -{1}(vecK sf) -{1}(vecK sf') subf_unvec energy_unvec.
have ny : nrm2 y <= nrm2 g.
  rewrite (shift_balance pP g mu0) -/y -addrA ler_addl addr_ge0 // ?mulr_ge0 ?ler0n ?sqr_ge0 ?nrm2_ge0 //.
rewrite yE mxE Qg add0r mxE exprMn eg.
have entry (v : 'cV[R]_(length E)) : (v ko 0) ^+ 2 <= nrm2 v.
  rewrite /nrm2 /dot (bigD1 ko) //= expr2 ler_addl; apply: sumr_ge0 => i _; rewrite -expr2; exact: sqr_ge0.
have -> : mu * lam / (1 + mu * lam) = mu / (1 + mu * lam) * lam by rewrite mulrAC.
set b := mu / _; have -> : ((b * lam) ^+ d.+1) ^+ 2 * nrm2 g = (b ^+ d.+1) ^+ 2 * ((lam ^+ d.+1) ^+ 2 * nrm2 g).
  rewrite [(b * lam) ^+ _]exprMn [(_ * _) ^+ 2]exprMn; exact: esym (mulrA _ _ _).
apply: (ler_wpmul2l (sqr_ge0 _)); apply: le_trans (entry _) _.
apply: le_trans (steps_le (p_gram R nodes E T sc p) topP lam0 d.+1 y) _.
exact: (ler_wpmul2l (sqr_ge0 _)).
Qed.
Print Assumptions C99_lowpass_decay.

Section Pairs.
Variable R : rcfType.
Add Field R_fieldPairs : (mc_field R).
Lemma pair_le (c a b : R) : 2%:R * (a * c * b) <= `|c| * a ^+ 2 + `|c| * b ^+ 2.
Proof.
have h1 := ler_norm c; have h2 := ler_norm (- c); rewrite normrN in h2.
move: (`|c|) h1 h2 => q h1 h2; rewrite -subr_ge0.
have two0 : 0 < 2%:R :> R by rewrite ltr0n.
rewrite -(pmulr_rge0 _ two0).
have -> : 2%:R * (q * a ^+ 2 + q * b ^+ 2 - 2%:R * (a * c * b)) = (q - c) * (a + b) ^+ 2 + (q + c) * (a - b) ^+ 2.
  by rewrite !expr2; to_r R; ring.
by rewrite addr_ge0 // mulr_ge0 ?sqr_ge0 // ?subr_ge0 // -ler_subl_addr sub0r.
Qed.
End Pairs.

(** A value for lam: the largest sum of the absolute values in a row of the matrix. *)
Theorem C99_row_sums :
  forall (R : rcfType) nodes E T nf ef sc, make_sc nodes E T nf ef = Ok sc ->
  forall p A (lam : R), get_p_matrix sc p = Ok (Csr A) ->
  (forall i, (i < length E)%N -> \sum_(0 <= j < length E) `|zmul (at2 A i j) 1| <= lam) ->
  forall x, size x = length E -> qform A x <= lam * energy x.
Proof.
move=> R nodes E T nf ef sc H p A lam gp rows x sx; have [pv eA] := p_of gp.
rewrite eA (qform_p H) -[in X in _ <= X](vecK sx) energy_unvec.
move: (vec _ x) => v; set P := p_mat R nodes E T sc p.
have PE (i j : 'I_(length E)) : zmul (at2 A i j) 1 = P i j :> R by rewrite /P -(toM_p R H) -eA mxE.
have sP i j : P i j = P j i by rewrite /P -{1}(p_sym R nodes E T sc p) mxE.
have rP i : \sum_j `|P i j| <= lam.
  apply: le_trans (rows _ (ltn_ord i)); rewrite big_mkord le_eqVlt; apply/orP; left; apply/eqP.
  by apply: eq_bigr => j _; rewrite PE.
clear PE rows; clearbody P; have two0 : 0 < 2%:R :> R by rewrite ltr0n.
rewrite -(ler_pmul2l two0).
have -> : dot v (P *m v) = \sum_i \sum_j v i 0 * P i j * v j 0.
  by apply: eq_bigr => i _; rewrite mxE mulr_sumr; apply: eq_bigr => j _; rewrite mulrA.
have le : 2%:R * (\sum_i \sum_j v i 0 * P i j * v j 0) <= \sum_i \sum_j (`|P i j| * v i 0 ^+ 2 + `|P i j| * v j 0 ^+ 2).
  rewrite mulr_sumr; apply: ler_sum => i _; rewrite mulr_sumr; apply: ler_sum => j _. exact: pair_le.
apply: le_trans le _; under eq_bigr do rewrite big_split /=; rewrite big_split /= [X in _ + X]exchange_big /=.
have half : \sum_i \sum_j `|P i j| * v i 0 ^+ 2 <= lam * nrm2 v.
  rewrite /nrm2 /dot mulr_sumr; apply: ler_sum => i _; rewrite -mulr_suml -expr2.
  by apply: ler_wpmul2r; [exact: sqr_ge0|exact: rP].
have -> : \sum_j \sum_i `|P i j| * v j 0 ^+ 2 = \sum_i \sum_j `|P i j| * v i 0 ^+ 2.
  by apply: eq_bigr => i _; apply: eq_bigr => j _; rewrite sP.
by rewrite mulr2n mulrDl !mul1r ler_add.
Qed.
Print Assumptions C99_row_sums.

Lemma row_nat (R : rcfType) A i M : \sum_(0 <= j < M) `|zmul (at2 A i j) 1| =
  (sumn [seq absz (int_of_Z (at2 A i j)) | j <- iota 0 M])%:R :> R.
Proof.
rewrite sumnE big_map natr_sum /index_iota subn0; apply: eq_bigr => j _.
by rewrite zmulE mulr1 /ZR -intr_norm -abszE -pmulrn.
Qed.

(** The cycle 0-2-1-3 with L1L: every row has absolute values 2, 1, 1, 0, so lam = 4 will do.  The flows (3, 1, 1, -1) and
    (3, 1, 1, 7) differ two steps from the first edge, and with mu = 1/4 their estimates there differ by at most
    (1/2) ^ 2 times 8. *)
Example C99_decay_example : let R := realalg_rcfType in
  let f := [:: 3%:R; 1; 1; -1] : seq R in
  let f' := [:: 3%:R; 1; 1; 7%:R] : seq R in
  (forall x : seq R, size x = 4%N -> qform k22_L x <= 4%:R * energy x) /\
  agree_near (near "L1L" k22_edges nil) (length k22_edges) 1 0 f f' /\
  exists r r', edge_flow_denoise (@eigsh_std R) k22_sc f f "L1L" [:: 4%:R^-1] = Ok r /\
    edge_flow_denoise (@eigsh_std R) k22_sc f' f "L1L" [:: 4%:R^-1] = Ok r' /\
    ((run_estimated r)`_0 - (run_estimated r')`_0) ^+ 2 <= (2%:R^-1 ^+ 2) ^+ 2 * 64%:R.
Proof.
move=> R f f'.
have top (x : seq R) : size x = 4%N -> qform k22_L x <= 4%:R * energy x.
  apply: (C99_row_sums k22_ok k22_p) => i lt.
  rewrite row_nat ler_nat; case: i lt => [|[|[|[|i]]]] // _; by vm_compute.
have PE : proper_edges (length k22_nodes) k22_edges.
  by move=> u v /= h; repeat (case: h => [[<- <-]|h]; first by lia).
have SE : simple_edges k22_edges.
  split; last by move=> u v /= h; repeat (case: h => [[<- <-]|h]; first by move=> h'; repeat (case: h' => // h')).
  by repeat (constructor; first by move=> /= h; repeat (case: h => // h)); constructor.
have PT : proper_triangles nil by [].
have ag : agree_near (near "L1L" k22_edges nil) (length k22_edges) 1 0 f f'.
  move=> l lM /hops1[<- //|]; case: l lM => [|[|[|[|l]]]] // _ [[_ h0]|[[h0|h0] _]] //.
  by move: h0; rewrite /share_node /=; lia.
split=> //; split=> //.
have l0 : 0 <= 4%:R :> R by exact: ler0n.
have nn (m : R) : m \in rcons [::] 4%:R^-1 -> 0 <= m by rewrite inE => /eqP ->; rewrite invr_ge0.
have [r [r' [er [er' h]]]] := C99_lowpass_decay (@eigsh_std R) k22_ok PE SE PT
  (isT : (0 < length k22_edges)%N) k22_p l0 top (erefl : size f = length k22_edges)
  (erefl : size f' = length k22_edges) (erefl : size f = length k22_edges) nn.
exists r, r'; do 2 split=> //; have := h 1%N 0%N isT ag.
have n4 : 4%:R != 0 :> R by rewrite pnatr_eq0.
rewrite mulVf // -(natrD _ 1 1) mul1r.
have -> : energy (subf f f') = 64%:R.
  rewrite /energy dotpCE /dotpC /= /subf /addf /scalef /= !mulN1r !subrr !mul0r !add0r addr0.
  by rewrite -opprD mulrNN -(natrD _ 1 7) -natrM.

by [].
Qed.
