(** * Proofs about conditioning *)

From Coq Require Import ZArith String List.
From mathcomp Require Import all_ssreflect all_algebra ssrZ zify.
From Coq Require Import Ring Field.
From Verif Require Import RingTac Py Complex Signal SignalSpec LinAlg Bridge Gp GpSpec GpPredict.

Set Implicit Arguments.
Unset Strict Implicit.
Unset Printing Implicit Defensive.

Import GRing.Theory Num.Theory Order.Theory.
Local Open Scope ring_scope.
Delimit Scope Z_scope with zz.

Section Conditioning.
Variable R : rcfType.
Variable k : Z -> Z -> R.
Hypothesis kC : forall a b, k a b = k b a.
Hypothesis kP : forall (r : seq Z) (w : seq R),
  0 <= \sum_(a < size w) \sum_(b < size w) w`_a * w`_b * k (nth 0%zz r a) (nth 0%zz r b).
Add Field R_field9 : (mc_field R).

Definition gram (xs ts : seq Z) : 'M[R]_(size xs, size ts) :=
  \matrix_(i, j) k (nth 0%zz xs i) (nth 0%zz ts j).

Lemma gramT xs ts : (gram xs ts)^T = gram ts xs.
Proof. by apply/matrixP=> i j; rewrite !mxE kC. Qed.

Lemma dot_gram xs ts u v :
  dot u (gram xs ts *m v) = \sum_a \sum_b u a 0 * v b 0 * k (nth 0%zz xs a) (nth 0%zz ts b).
Proof.
rewrite /dot; apply: eq_bigr => a _; rewrite mxE big_distrr /=; apply: eq_bigr => b _.
by rewrite mxE mulrCA !mulrA mulrC !mulrA mulrC mulrA.
Qed.

Lemma gram_psd xs u : 0 <= dot u (gram xs xs *m u).
Proof.
have := kP xs (unvec u); rewrite size_unvec => h; apply: le_trans h _; rewrite dot_gram le_eqVlt.
by apply/orP; left; apply/eqP/eq_bigr => a _; apply: eq_bigr => b _; rewrite !nth_unvec.
Qed.

Lemma block_psd xs ts u v :
  0 <= dot u (gram xs xs *m u) + 2%:R * dot u (gram xs ts *m v) + dot v (gram ts ts *m v).
Proof.
have := kP (xs ++ ts) (unvec u ++ unvec v); rewrite size_cat !size_unvec big_split_ord /=.
have nl (i : 'I_(size xs)) : (unvec u ++ unvec v)`_i = u i 0 /\ nth 0%zz (xs ++ ts) i = nth 0%zz xs i.
  by rewrite !nth_cat size_unvec ltn_ord nth_unvec.
have nr (i : 'I_(size ts)) : (unvec u ++ unvec v)`_(size xs + i) = v i 0 /\ nth 0%zz (xs ++ ts) (size xs + i) = nth 0%zz ts i.
  by rewrite !nth_cat size_unvec ltnNge leq_addr /= addKn nth_unvec.
set p := \sum_i _; set q := \sum_i _.
have -> : p = dot u (gram xs xs *m u) + dot u (gram xs ts *m v).
  rewrite !dot_gram -big_split; apply: eq_bigr => a _; rewrite big_split_ord /=; case: (nl a) => -> ->.
  congr (_ + _); apply: eq_bigr => b _; first by case: (nl b) => -> ->.
  by case: (nr b) => -> ->.
have -> : q = dot u (gram xs ts *m v) + dot v (gram ts ts *m v).
  rewrite !dot_gram [X in X + _]exchange_big -big_split; apply: eq_bigr => a _; rewrite big_split_ord /=; case: (nr a) => -> ->.
  congr (_ + _); apply: eq_bigr => b _; first by case: (nl b) => -> ->; rewrite kC mulrC [X in _ * X]mulrC mulrC.
  by case: (nr b) => -> ->.
by congr (0 <= _); to_r R; ring.
Qed.

Variable s : R.
Hypothesis s0 : 0 < s.
Variables xs ts : seq Z.

Definition noisy := gram xs xs + s%:M.

Lemma noisyT : noisy^T = noisy.
Proof. by rewrite /noisy linearD /= gramT tr_scalar_mx. Qed.

Lemma dot_noisy u : dot u (noisy *m u) = dot u (gram xs xs *m u) + s * nrm2 u.
Proof. by rewrite /noisy mulmxDl dotDr mul_scalar_mx dotZr. Qed.

Lemma noisy_psd u : 0 <= dot u (noisy *m u).
Proof. by rewrite dot_noisy addr_ge0 ?gram_psd // mulr_ge0 ?nrm2_ge0 // ltW. Qed.

Lemma noisy_inj (u : 'cV[R]_(size xs)) : noisy *m u = 0 -> u = 0.
Proof.
move=> e; have := dot_noisy u; rewrite e dot0r => /eqP; rewrite eq_sym paddr_eq0 ?gram_psd //.
  by case/andP=> _; rewrite mulf_eq0 gt_eqF //= nrm2_eq0 => /eqP.
by rewrite mulr_ge0 ?nrm2_ge0 // ltW.
Qed.

Lemma noisy_unit : noisy \in unitmx.
Proof.
rewrite -row_free_unit -kermx_eq0; apply/eqP/row_matrixP=> i; rewrite row0.
have h : noisy *m (row i (kermx noisy))^T = 0.
  by rewrite -{1}noisyT -trmx_mul -row_mul mulmx_ker row0 trmx0.
by rewrite -[row i _]trmxK (noisy_inj h) trmx0.
Qed.

Definition gain := gram ts xs *m invmx noisy.
Definition cov := gram ts ts - gain *m gram xs ts.

Lemma invT : (invmx noisy)^T = invmx noisy.
Proof. by rewrite trmx_inv noisyT. Qed.

Lemma gainT : gain^T = invmx noisy *m gram xs ts.
Proof. by rewrite /gain trmx_mul invT gramT. Qed.

Lemma covT : cov^T = cov.
Proof. by rewrite /cov linearB /= trmx_mul gainT !gramT /gain mulmxA. Qed.

(** The solution for a combination [u] of the test edges. *)
Let w (u : 'cV[R]_(size ts)) : 'cV[R]_(size xs) := gain^T *m u.

Lemma wE u : noisy *m w u = gram xs ts *m u.
Proof. by rewrite /w gainT -mulmxA mulKVmx // noisy_unit. Qed.

Lemma dot_cov u : dot u (cov *m u) = dot u (gram ts ts *m u) - dot (w u) (noisy *m w u).
Proof.
rewrite /cov mulmxBl dotBr; congr (_ - _).
by rewrite wE /w -mulmxA dot_mulmxr.
Qed.

Lemma cov_le u : dot u (cov *m u) <= dot u (gram ts ts *m u).
Proof. by rewrite dot_cov ler_subl_addr ler_addl noisy_psd. Qed.

(** Completing the square. *)
Lemma cov_square u z : dot u (gram ts ts *m u) - 2%:R * dot z (gram xs ts *m u) + dot z (noisy *m z)
  = dot u (cov *m u) + dot (z - w u) (noisy *m (z - w u)).
Proof.
rewrite dot_cov -wE mulmxBr !(dotBl, dotBr).
have -> : dot (w u) (noisy *m z) = dot z (noisy *m w u) by rewrite dot_mulmxr noisyT dotC.
by to_r R; ring.
Qed.

Lemma cov_min u z : dot u (cov *m u) <= dot u (gram ts ts *m u) - 2%:R * dot z (gram xs ts *m u) + dot z (noisy *m z).
Proof. by rewrite cov_square ler_addl noisy_psd. Qed.

Lemma cov_ge0 u : 0 <= dot u (cov *m u).
Proof.
have := block_psd (- w u) u.
rewrite mulmxN dotNl !dotNr opprK dotNl => h.
apply: le_trans h _; rewrite dot_cov dot_noisy -wE dot_noisy -subr_ge0.
set a := dot (w u) _; set b := nrm2 _; set c := dot u _.
have -> : c - (a + s * b) - (a + 2%:R * - (a + s * b) + c) = s * b by to_r R; ring.
by rewrite mulr_ge0 ?nrm2_ge0 // ltW.
Qed.

(** Ridge regression. *)
Lemma ridge (y a b : 'cV[R]_(size xs)) : noisy *m a = y ->
  nrm2 (y - gram xs xs *m a) + s * dot a (gram xs xs *m a)
  <= nrm2 (y - gram xs xs *m b) + s * dot b (gram xs xs *m b).
Proof.
move=> e; set K := gram xs xs.
have ra : y - K *m a = s *: a by rewrite -e /noisy mulmxDl mul_scalar_mx addrC addKr.
move ed: (b - a) => d.
have bE : b = a + d by rewrite -ed addrC subrK.
have rb : y - K *m b = s *: a + - (K *m d) by rewrite bE mulmxDr opprD addrA ra.
have KT : K^T = K by exact: gramT.
have eb : dot b (K *m b) = dot a (K *m a) + 2%:R * dot a (K *m d) + dot d (K *m d).
  rewrite bE mulmxDr !(dotDl, dotDr).
  have -> : dot d (K *m a) = dot a (K *m d) by rewrite dot_mulmxr KT dotC.
  by to_r R; ring.
rewrite ra rb eb nrm2D.
have -> : nrm2 (- (K *m d)) = nrm2 (K *m d) by rewrite /nrm2 dotNl dotNr opprK.
have -> : dot (s *: a) (- (K *m d)) = - (s * dot a (K *m d)) by rewrite dotZl dotNr mulrN.
have h1 : 0 <= nrm2 (K *m d) by exact: nrm2_ge0.
have h2 : 0 <= s * dot d (K *m d) by rewrite mulr_ge0 ?gram_psd // ltW.
rewrite -subr_ge0.
set n1 := nrm2 (s *: a); set p := dot a (K *m a); set q := dot a (K *m d).
have -> : n1 + 2%:R * - (s * q) + nrm2 (K *m d) + s * (p + 2%:R * q + dot d (K *m d)) - (n1 + s * p)
   = nrm2 (K *m d) + s * dot d (K *m d) by to_r R; ring.
exact: addr_ge0.
Qed.

End Conditioning.
