(** * The rational eigenvalues of an integer matrix are integers *)

From Coq Require Import ZArith List.
From mathcomp Require Import all_ssreflect all_algebra ssrZ zify.
From Verif Require Import Py Complex LinAlg Signal Bridge EigenSpec.

Set Implicit Arguments.
Unset Strict Implicit.
Unset Printing Implicit Defensive.

Import GRing.Theory Num.Theory Order.Theory.
Local Open Scope ring_scope.

Lemma int_eigen_prime (R : realFieldType) n (A : 'M[int]_n) (a b : int) (p : nat) (u : 'cV[R]_n) :
  prime p -> (p %| `|b|)%N -> ~~ (p %| `|a|)%N ->
  b%:~R *: (map_mx intr A *m u) = a%:~R *: u -> u = 0.
Proof.
move=> pp pb pa e.
pose W : 'M[int]_n := b *: A - a%:M.
have dW : (\det W)%:~R != 0 :> R.
  rewrite intr_eq0; apply/negP => /eqP d0.
  have : \det (map_mx intr W) = 0 :> 'F_p by rewrite det_map_mx d0.
  have cz (z : int) : (z%:~R == 0 :> 'F_p) = (p %| `|z|)%N.
    have nz m : ((m%:R : 'F_p) == 0) = (p %| m)%N.
      by rewrite -(dvdn_charf (char_Fp pp)).
    by case: (intP z) => [|m|m]; rewrite ?mulrNz ?oppr_eq0 ?abszN -?pmulrn nz.
  have -> : map_mx intr W = (- a)%:~R%:M :> 'M['F_p]_n.
    apply/matrixP => i j; rewrite !mxE rmorphB /= rmorphM /=.
    have /eqP -> : (b%:~R == 0 :> 'F_p) by rewrite cz.
    by rewrite mul0r sub0r -mulrNz; case: (i == j); rewrite ?mulr1n // mulr0n mulr0z oppr0.
  rewrite det_scalar => /eqP; rewrite expf_eq0 => /andP[_].
  by rewrite cz abszN (negbTE pa).
have Wu : map_mx intr W *m u = 0.
  have -> : map_mx intr W = b%:~R *: map_mx intr A - a%:~R%:M :> 'M[R]_n.
    apply/matrixP => i j; rewrite !mxE rmorphB /= rmorphM /=.
    by case: (i == j); rewrite ?mulr1n // mulr0n mulr0z.
  by rewrite mulmxBl -scalemxAl e mul_scalar_mx subrr.
have := congr1 (fun v => \adj (map_mx intr W) *m v) Wu.
rewrite mulmxA mul_adj_mx mulmx0 mul_scalar_mx det_map_mx => /eqP.
by rewrite scaler_eq0 (negbTE dW) => /eqP.
Qed.

Lemma int_eigen_fraction (R : realFieldType) n (A : 'M[int]_n) (t : R) (u : 'cV[R]_n) :
  proper_fraction t -> map_mx intr A *m u = t *: u -> u = 0.
Proof.
case=> a [b [nd [b0 te]]] e.
pose g := gcdn a b; pose a' := (a %/ g)%N; pose b' := (b %/ g)%N.
have g0 : (0 < g)%N by rewrite gcdn_gt0 b0 orbT.
have ea : a = (a' * g)%N by rewrite divnK // dvdn_gcdl.
have eb : b = (b' * g)%N by rewrite divnK // dvdn_gcdr.
have co : coprime a' b'.
  rewrite /coprime -(eqn_pmul2r g0) mul1n muln_gcdl -ea -eb //.
have b1 : (1 < b')%N.
  rewrite ltnNge leq_eqVlt negb_or; apply/andP; split.
    by apply: contra nd => /eqP b1; rewrite eb b1 mul1n dvdn_gcdl.
  by rewrite -leqNgt; move: b0; rewrite eb; case: (b').
apply: (@int_eigen_prime R n A a' b' (pdiv b')).
- exact: pdiv_prime.
- by rewrite absz_nat pdiv_dvd.
- rewrite absz_nat; apply/negP => d.
  have /eqP : gcdn a' b' == 1%N := co.
  have : (pdiv b' %| gcdn a' b')%N by rewrite dvdn_gcd d pdiv_dvd.
  by move=> D e1; move: D; rewrite e1 dvdn1 => /eqP q; have := pdiv_prime b1; rewrite q.
rewrite e scalerA te ea eb !natrM -!pmulrn; congr (_ *: _).
have gR : g%:R != 0 :> R by rewrite pnatr_eq0 -lt0n.
have bR : b'%:R != 0 :> R by rewrite pnatr_eq0 -lt0n ltnW.
by rewrite -mulf_div divff // mulr1 mulrCA divff // mulr1.
Qed.

Lemma milli_fraction (R : realFieldType) : proper_fraction (1000%:R^-1 : R).
Proof. by exists 1%N, 1000%N; rewrite mul1r. Qed.

Lemma toM_int (R : realFieldType) n m (A : arr2) :
  toM R n m A = map_mx intr (\matrix_(i < n, j < m) int_of_Z (at2 A i j)).
Proof. by apply/matrixP => i j; rewrite !mxE. Qed.
