(** * Sampling grids of matrices whose power iteration converges in one step *)

From Coq Require Import ZArith String List.
From mathcomp Require Import all_ssreflect all_algebra ssrZ zify.
From Verif Require Import Py PyFacts ExampleData Complex ComplexSpec ComplexFacts LinAlg Spectral Signal
  SignalSpec Bridge SignalFacts Compute Props_Signal Props_Hodge Eigen EigenSpec EigenFacts
  Props_Eigen Filter FilterSpec FilterFacts FilterFacts2 PolyFacts Props_Masks Props_LowPass Props_Poly
  Props_Power.

Set Implicit Arguments.
Unset Strict Implicit.
Unset Printing Implicit Defensive.

Import GRing.Theory Num.Theory Order.Theory.
Local Open Scope ring_scope.

(** ** Products with integer vectors, by computation *)
Section IntVec.
Variable R : rcfType.
Definition isum n (A : arr2) (x : list Z) i : Z :=
  foldr Z.add Z0 [seq (at2 A i j * List.nth j x Z0)%zz | j <- iota 0 n].
Definition icol n (x : list Z) : 'cV[R]_n := \col_i ZR R (List.nth i x Z0).
Lemma imv n A x y : all (fun i => Z.eqb (isum n A x i) (List.nth i y Z0)) (iota 0 n) ->
  toM R n n A *m icol n x = icol n y.
Proof.
move=> /allP h; apply/colP => i; rewrite !mxE.
have /Z.eqb_eq <- : Z.eqb (isum n A x i) (List.nth i y Z0) by apply: h; rewrite mem_iota ltn_ord.
rewrite /isum.
have -> : \sum_j (toM R n n A) i j * (icol n x) j 0 = \sum_(j <- iota 0 n) ZR R (at2 A i j * List.nth j x Z0)%zz.
  have -> : iota 0 n = index_iota 0 n by rewrite /index_iota subn0.
  rewrite big_mkord; apply: eq_bigr => j _; rewrite !mxE.
  by rewrite ZRM.
by elim: (iota 0 n) => [|j l IH] /=; [rewrite big_nil|rewrite big_cons IH ZRD].
Qed.

(** One step of the power iteration reaches an eigenvector. *)
Lemma sample_eigen n (P : 'M[R]_n) (w : 'cV[R]_n) (a b : R) num : (0 < n)%N ->
  P *m onesv R n = a *: w -> P *m w = b *: w -> 0 < a -> 0 < b ->
  (forall i, 0 < w i 0 \/ w i 0 <= -1) -> dot w w <= 16%:R -> Z.le Z0 num ->
  exists xs, sample_grid_points P num = Ok xs /\ 0 <= last 0 xs.
Proof.
move=> n0 e1 ew a0 b0 hw dw nn.
have kr k : krylov P k.+1 = (a * b ^+ k) *: w.
  elim: k => [|k IH]; first by rewrite expr0 mulr1.
  have -> : krylov P k.+2 = P *m krylov P k.+1 by [].
  by rewrite IH -scalemxAr ew scalerA exprSr mulrA.
have i0 := Ordinal n0; have e0 := eps64_gt0 R.
have w0 : w i0 0 != 0.
  by case: (hw i0) => [/lt0r_neq0 //|h]; rewrite lt_eqF // (le_lt_trans h) // oppr_lt0 ltr01.
have dw0 : 0 < dot w w.
  rewrite lt_neqAle eq_sym dot_eq0 dot_ge0 andbT; apply/eqP => z; by move: w0; rewrite z mxE eqxx.
have c0 : 0 < a * b ^+ 49 by rewrite mulr_gt0 // exprn_gt0.
have [x0 _] := C41_power_iteration_value P 49; rewrite kr in x0.
have wn : w != 0 by rewrite -dot_eq0 gt_eqF.
have := x0; rewrite scaler_eq0 gt_eqF //= => /(_ wn); set q := Num.sqrt _ => pi.
have q0 : 0 < q by rewrite sqrtr_gt0 dotZl dotZr mulrA mulr_gt0 // mulr_gt0.
have q2 : q ^+ 2 = (a * b ^+ 49) ^+ 2 * dot w w.
  have nn2 : 0 <= dot ((a * b ^+ 49) *: w) ((a * b ^+ 49) *: w) by exact: dot_ge0.
  by rewrite sqr_sqrtr // dotZl dotZr mulrA -expr2.
set t := q^-1 * (a * b ^+ 49).
have t0 : 0 < t by rewrite mulr_gt0 // invr_gt0.
have t2 : t ^+ 2 * dot w w = 1.
  by rewrite /t exprMn exprVn -mulrA -q2 mulVf // expf_neq0 // gt_eqF.
have te : eps64 R < t.
  rewrite ltNge; apply/negP => le; have : t ^+ 2 * dot w w < 1; last by rewrite t2 ltxx.
  have e16 : eps64 R ^+ 2 * 16%:R < 1.
    rewrite /eps64 exprVn -exprM mulrC ltr_pdivr_mulr ?exprn_gt0 ?ltr0n // mul1r.
    have -> : 16%:R = 2%:R ^+ 4 :> R by rewrite -natrX.
    by rewrite ltr_eexpn2l // ltr1n.
  apply: le_lt_trans e16; apply: ler_pmul => //; first exact: sqr_ge0.
    exact: ltW.
  by rewrite ler_pexpn2r // nnegrE ltW.
set v := q^-1 *: _ + _ in pi.
have vE i : v i 0 = t * w i 0 + eps64 R by rewrite /v scalerA !mxE.
have Pv : P *m v = (t * b + eps64 R * a) *: w.
  have -> : v = t *: w + eps64 R *: onesv R n by apply/colP => i; rewrite vE !mxE mulr1.
  by rewrite mulmxDr -!scalemxAr ew e1 !scalerA -scalerDl.
have vs i : 0 < w i 0 / v i 0.
  rewrite vE; case: (hw i) => h.
    by rewrite divr_gt0 // addr_gt0 // mulr_gt0.
  rewrite -mulrNN -invrN mulr_gt0 ?invr_gt0 ?oppr_gt0 //.
    by rewrite (le_lt_trans h) // oppr_lt0 ltr01.
  rewrite -ltr_subr_addr sub0r; apply: le_lt_trans (_ : - t < _); last by rewrite ltr_opp2.
  by rewrite -(mulrN1 t) ler_pmul2l.
have vn i : v i 0 != 0 by apply/eqP => z; have := vs i; rewrite z invr0 mulr0 ltxx.
rewrite /sample_grid_points pi /= /mean_quotient.
case: existsP => [[i]|_]; first by rewrite (negbTE (vn i)).
rewrite /= /linspace; case: Z.ltb_spec => [|_]; first by lia.
eexists; split; first by [].
set lam := (\sum_i _) / _; have l0 : 0 <= lam.
  rewrite divr_ge0 ?ler0n // sumr_ge0 // => i _; rewrite Pv mxE -mulrA mulr_ge0 ?(ltW (vs i)) //.
  by rewrite addr_ge0 // mulr_ge0 // ltW.
rewrite -nth_last size_mkseq; case: (Z.to_nat num) => [|m]; first by rewrite nth_default.
rewrite nth_mkseq //= subr0 add0r; case: eqP => // _.
by rewrite mulr_ge0 ?ler0n // divr_ge0 ?ler0n.
Qed.
End IntVec.
