(** * Power iteration, grid samples and relative errors: C40, C41, C44 *)

From Coq Require Import ZArith String List Ring Field.
From mathcomp Require Import all_ssreflect all_algebra ssrZ zify.
From Verif Require Import Py PyFacts ExampleData Complex ComplexSpec ComplexFacts LinAlg RingTac Spectral Signal
  SignalSpec Bridge SignalFacts Compute Props_Signal Eigen EigenSpec EigenFacts
  Filter FilterSpec FilterFacts FilterFacts2 PolyFacts Props_LowPass.

Set Implicit Arguments.
Unset Strict Implicit.
Unset Printing Implicit Defensive.

Import GRing.Theory Num.Theory Order.Theory.
Local Open Scope ring_scope.

(** ** Vocabulary *)

(** The vector of ones, and the matrix applied to it [k] times. *)
Definition onesv (R : realFieldType) n : 'cV[R]_n := const_mx 1.
Definition krylov (R : realFieldType) n (P : 'M[R]_n) (k : nat) : 'cV[R]_n := iter k (mulmx P) (onesv R n).

(** Rayleigh quotient. *)
Definition rayleigh (R : realFieldType) n (P : 'M[R]_n) (v : 'cV[R]_n) : R := dot v (P *m v) / dot v v.

Definition psd (R : realFieldType) n (P : 'M[R]_n) : Prop := forall x : 'cV[R]_n, 0 <= dot x (P *m x).

(** [b] bounds every eigenvalue of [P]. *)
Definition spectral_bound (R : realFieldType) n (P : 'M[R]_n) (b : R) : Prop :=
  forall lam (u : 'cV[R]_n), u != 0 -> P *m u = lam *: u -> lam <= b.

(** ** The loop *)
Section Loop.
Variable R : rcfType.
Variables (n : nat) (P : 'M[R]_n).

Lemma norm2E (w : 'cV[R]_n) : \sum_i w i 0 ^+ 2 = dot w w.
Proof. by apply: eq_bigr => i _; rewrite expr2. Qed.
Lemma norm_eq0v (w : 'cV[R]_n) : (Num.sqrt (dot w w) == 0) = (w == 0).
Proof. by rewrite sqrtr_eq0 le_eqVlt ltNge dot_ge0 orbF dot_eq0. Qed.
Lemma normZ a (w : 'cV[R]_n) : 0 <= a -> Num.sqrt (dot (a *: w) (a *: w)) = a * Num.sqrt (dot w w).
Proof. by move=> a0; rewrite dotZl dotZr mulrA -expr2 sqrtrM ?sqr_ge0 // sqrtr_sqr ger0_norm. Qed.

Lemma iter_mulmxZ k a (x : 'cV[R]_n) : iter k (mulmx P) (a *: x) = a *: iter k (mulmx P) x.
Proof. by elim: k => //= k ->; rewrite -scalemxAr. Qed.
Lemma iter_mulmx0 k j (x : 'cV[R]_n) : iter j (mulmx P) x = 0 -> iter (k + j) (mulmx P) x = 0.
Proof. by move=> z; rewrite iterD z; elim: k => //= k ->; rewrite mulmx0. Qed.

Lemma power_loopE k (x : 'cV[R]_n) : power_loop P k.+1 x =
  let y := iter k.+1 (mulmx P) x in
  if y == 0 then Raise NonFinite else Ok ((Num.sqrt (dot y y))^-1 *: y).
Proof.
elim: k x => [|k IH] x.
  by rewrite /= norm2E norm_eq0v.
rewrite [LHS]/= -/(power_loop P k.+1 _) norm2E norm_eq0v; cbv zeta.
have [z|w0] := eqVneq (P *m x) 0.
  by have := @iter_mulmx0 k.+1 1 x z; rewrite addn1 => ->; rewrite eqxx.
rewrite IH iter_mulmxZ -iterSr; set y := iter _ _ _; set s := Num.sqrt _.
have s0 : 0 < s by rewrite lt_def norm_eq0v w0 sqrtr_ge0.
have si : s^-1 != 0 by rewrite invr_eq0 gt_eqF.
cbv zeta; rewrite scaler_eq0 (negbTE si) /=; case: ifP => // _.
by rewrite normZ ?invr_ge0 ?ltW // scalerA invfM invrK mulrAC divff ?gt_eqF // mul1r.
Qed.
End Loop.

(** ** C41 *)

(** The result after k+1 rounds, exactly. *)
Theorem C41_power_iteration_value : forall (R : rcfType) n (P : 'M[R]_n) k,
  let x := krylov P k.+1 in
  (x != 0 -> power_iteration P k.+1 = Ok ((Num.sqrt (dot x x))^-1 *: x + const_mx (2%:R ^+ 52)^-1)) /\
  (x = 0 -> power_iteration P k.+1 = Raise NonFinite) /\
  power_iteration P 0 = Ok (onesv R n + const_mx (2%:R ^+ 52)^-1).
Proof.
move=> R n P k x; rewrite /power_iteration power_loopE; cbv zeta; rewrite -[iter _ _ _]/x.
split; first by move=> /negbTE ->.
by split=> // ->; rewrite eqxx.
Qed.
Print Assumptions C41_power_iteration_value.

Section Moments.
Variable R : realFieldType.
Add Field R_field : (mc_field R).
Variables (n : nat) (P : 'M[R]_n).
Hypothesis sP : P^T = P.
Local Notation x := (krylov P).
Definition mom j := dot (onesv R n) (x j).

Lemma dotP (u v : 'cV[R]_n) : dot (P *m u) v = dot u (P *m v).
Proof. by rewrite dot_mulmx sP. Qed.
Lemma dot_krylov i j : dot (x i) (x j) = mom (i + j).
Proof.
elim: i j => [|i IH] j //; rewrite [x i.+1]/(P *m x i) dotP.
by rewrite -[P *m x j]/(x j.+1) IH addSnnS.
Qed.
Lemma krylov_zero k : (x k.+1 == 0) = (P *m onesv R n == 0).
Proof.
elim: k => // k <-; apply/idP/idP => [/eqP z|/eqP z]; last by rewrite /krylov iterS -/(krylov P k.+1) z mulmx0.
by rewrite -dot_eq0 dot_krylov addSnnS -dot_krylov z dot0r.
Qed.

Hypothesis pP : psd P.
Lemma mom_ge0 j : 0 <= mom j.
Proof.
have -> : j = (j./2 + (odd j + j./2))%N by rewrite addnCA addnn odd_double_half.
rewrite -dot_krylov; case: odd; last exact: dot_ge0.
exact: pP.
Qed.
Lemma psd_cs (u v : 'cV[R]_n) : dot u (P *m v) ^+ 2 <= dot u (P *m u) * dot v (P *m v).
Proof.
set a := dot u (P *m u); set b := dot v (P *m v); set c := dot u (P *m v).
have q t : 0 <= a + 2%:R * t * c + t ^+ 2 * b.
  have := pP (u + t *: v); rewrite mulmxDr -scalemxAr dotDl !dotDr !dotZl !dotZr -/a -/b -/c.
  have -> : dot v (P *m u) = c by rewrite /c -dotP dotC.
  by congr (_ <= _); to_r R; ring.
have [b0|b0] := eqVneq b 0.
  have [->|c0] := eqVneq c 0; first by rewrite expr0n mulr_ge0 // ?pP.
  have := q (- (a + 1) / (2%:R * c)).
  have n2 : 2%:R != 0 :> R by rewrite pnatr_eq0.
  have -> : 2%:R * (- (a + 1) / (2%:R * c)) * c = - (a + 1).
    by rewrite mulrAC mulrC mulfVK // mulf_neq0.
  by rewrite b0 mulr0 addr0 opprD addNKr oppr_ge0 ler10.
have bp : 0 < b by rewrite lt_def b0 pP.
have := q (- c / b); rewrite -(pmulr_rge0 _ bp).
have -> : b * (a + 2%:R * (- c / b) * c + (- c / b) ^+ 2 * b) = a * b - c ^+ 2.
  by move/eqP: b0 => b0; to_r R; field.
by rewrite subr_ge0.
Qed.

Lemma mom_convex j : mom j.+1 ^+ 2 <= mom j * mom j.+2.
Proof.
have -> : j = (odd j + (j./2 + j./2))%N by rewrite addnn odd_double_half.
set h := j./2; case: (odd j) => /=.
- have -> : mom (1 + (h + h)) = dot (x h) (P *m x h) by rewrite -[P *m x h]/(x h.+1) dot_krylov addnS.
  have -> : mom (1 + (h + h)).+2 = dot (x h.+1) (P *m x h.+1) by rewrite -[P *m x h.+1]/(x h.+2) dot_krylov; congr mom; lia.
  have -> : mom (1 + (h + h)).+1 = dot (x h) (P *m x h.+1) by rewrite -[P *m x h.+1]/(x h.+2) dot_krylov; congr mom; lia.
  exact: psd_cs.
- have -> : mom (0 + (h + h)) = nrm2 (x h) by rewrite /nrm2 dot_krylov.
  have -> : mom (0 + (h + h)).+2 = nrm2 (x h.+1) by rewrite /nrm2 dot_krylov; congr mom; lia.
  have -> : mom (0 + (h + h)).+1 = dot (x h) (x h.+1) by rewrite dot_krylov; congr mom; lia.
  exact: cauchy_schwarz.
Qed.

Hypothesis P1 : P *m onesv R n != 0.
Lemma mom_even k : 0 < mom (k + k).
Proof.
rewrite -dot_krylov lt_def dot_ge0 andbT dot_eq0; case: k => [|k]; last by rewrite krylov_zero.
by apply: contraNneq P1 => z; rewrite -[onesv R n]/(x 0) z mulmx0.
Qed.
Lemma mom_gt0 j : 0 < mom j.
Proof.
have [[h ->]|[h ->]] : (exists h, j = h + h)%N \/ (exists h, j = (h + h).+1)%N.
  by case: (boolP (odd j)) => o; [right|left]; exists j./2; rewrite addnn; have := odd_double_half j; lia.
- exact: mom_even.
rewrite lt_def mom_ge0 andbT; apply/eqP => z.
have := mom_convex (h + h).+1; rewrite z mul0r => le.
have : mom (h + h).+2 ^+ 2 == 0 by rewrite eq_le le sqr_ge0.
rewrite expf_eq0 /= => /eqP z2; have := mom_even h.+1; rewrite addSn addnS z2 ltxx //.
Qed.
Definition ratio j := mom j.+1 / mom j.
Lemma ratioS j : ratio j <= ratio j.+1.
Proof.
rewrite /ratio ler_pdivr_mulr ?mom_gt0 // mulrAC ler_pdivl_mulr ?mom_gt0 // -expr2.
by rewrite [_ * mom j]mulrC; exact: mom_convex.
Qed.
Lemma ratio_le i j : (i <= j)%N -> ratio i <= ratio j.
Proof. by move/subnK <-; elim: (j - i)%N => // d IH; apply: le_trans IH (ratioS _). Qed.
Lemma ratio_ge0 j : 0 <= ratio j. Proof. by rewrite divr_ge0 ?ltW ?mom_gt0. Qed.
Lemma mom_le j k : (j <= k)%N -> mom j <= n%:R * ratio k ^+ j.
Proof.
elim: j => [_|j IH jk].
  rewrite expr0 mulr1 /mom /krylov /= /dot (eq_bigr (fun=> 1)) => [|i _]; last by rewrite !mxE mulr1.
  by rewrite sumr_const card_ord.
have -> : mom j.+1 = mom j * ratio j by rewrite mulrC /ratio mulfVK // gt_eqF ?mom_gt0.
rewrite exprSr mulrA; apply: ler_pmul; first by rewrite ltW ?mom_gt0.
- exact: ratio_ge0.
- exact: IH (ltnW jk).
- exact: ratio_le (ltnW jk).
Qed.
Lemma rayleigh_krylov k a : a != 0 -> rayleigh P (a *: x k) = ratio (k + k).
Proof.
move=> a0; rewrite /rayleigh -scalemxAr !dotZl !dotZr -[P *m x k]/(x k.+1) !dot_krylov addnS.
by rewrite !mulrA -mulf_div divff ?mul1r // mulf_neq0.
Qed.
End Moments.

Lemma rayleigh_bound (R : rcfType) n (P : 'M[R]_n) b (x : 'cV[R]_n) : P^T = P -> spectral_bound P b ->
  dot x (P *m x) <= b * dot x x.
Proof.
move=> sP B; have [U [d [U1 PU]]] := spectral_mx sP.
have U1' : U *m U^T = 1%:M by apply: mulmx1C.
pose y := U^T *m x; have -> : x = U *m y by rewrite mulmxA U1' mul1mx.
rewrite mulmxA PU -mulmxA !(dot_mulmx U) !mulmxA U1 !mul1mx -mulmxA -/y /dot mulr_sumr.
apply: ler_sum => i _; rewrite mul_diag_mx !mxE mulrCA -expr2 ler_wpmul2r ?sqr_ge0 //.
apply: (B _ (col i U)).
  apply: contraTneq (oner_neq0 R) => z; rewrite negbK.
  have := congr1 (fun M : 'M[R]_n => M i i) U1; rewrite !mxE eqxx mulr1n => <-; apply/eqP.
  by rewrite big1 // => j _; move/matrixP/(_ j 0): z; rewrite !mxE => ->; rewrite mulr0.
rewrite {1}colE mulmxA PU -colE mul_mx_diag; apply/matrixP=> j k.
by rewrite [LHS]mxE [LHS]mxE [RHS]mxE [col i U j k]mxE mulrC.
Qed.

Theorem C41_rayleigh_quotients : forall (R : rcfType) n (P : 'M[R]_n),
  P^T = P -> psd P ->
  (forall k, krylov P k.+1 = 0 <-> P *m onesv R n = 0) /\
  forall k v, power_iteration P k = Ok (v + const_mx (2%:R ^+ 52)^-1) ->
    (forall w, power_iteration P k.+1 = Ok (w + const_mx (2%:R ^+ 52)^-1) -> rayleigh P v <= rayleigh P w) /\
    (forall b, spectral_bound P b -> (0 < n)%N -> rayleigh P v <= b) /\
    forall (u : 'cV[R]_n) lam, dot u u = 1 -> P *m u = lam *: u ->
      dot u (onesv R n) ^+ 2 * lam ^+ (k + k) <= n%:R * rayleigh P v ^+ (k + k).
Proof.
move=> R n P sP pP; split.
  by move=> k; split=> [/eqP|/eqP] z; apply/eqP; move: z; rewrite krylov_zero.
have val k v : power_iteration P k = Ok (v + const_mx (eps64 R)) ->
    exists2 a, a != 0 & v = a *: krylov P k /\ (k = 0%N \/ P *m onesv R n != 0).
  case: k => [|k].
    have [_ [_ h3]] := C41_power_iteration_value P 0; rewrite h3 => -[/addIr <-].
    by exists 1; rewrite ?oner_eq0 // scale1r; split=> //; left.
  have [h1 [h2 _]] := C41_power_iteration_value P k.
  have [z|nz] := eqVneq (krylov P k.+1) 0; first by rewrite h2.
  rewrite h1 // => -[/addIr <-]; eexists; last by split; [by []|right; rewrite -(krylov_zero sP k)].
  by rewrite invr_eq0 norm_eq0v.
have n1 : dot (onesv R n) (onesv R n) = n%:R.
  by rewrite /dot (eq_bigr (fun=> 1)) => [|i _]; rewrite ?sumr_const ?card_ord // !mxE mulr1.
move=> k v /val [a a0 [-> c]]; split.
  move=> w /val [b b0 [-> [//|P1]]]; rewrite !rayleigh_krylov // addSn addnS.
  exact: le_trans (ratioS sP pP P1 _) (ratioS sP pP P1 _).
split.
  move=> b B n0; have d0 : 0 < dot (a *: krylov P k) (a *: krylov P k).
    rewrite lt_def dot_ge0 dot_eq0 scaler_eq0 (negbTE a0) /= andbT; case: c => [->|P1].
      by rewrite -dot_eq0 n1 pnatr_eq0 -lt0n.
    by rewrite -dot_eq0 (dot_krylov sP) gt_eqF // (mom_even sP).
  by rewrite /rayleigh ler_pdivr_mulr //; exact: rayleigh_bound.
move=> u lam u1 Pu; case: c => [->|P1].
  rewrite !expr0 !mulr1; apply: le_trans (cauchy_schwarz _ _) _.
  by rewrite /nrm2 u1 n1 mul1r.
rewrite rayleigh_krylov //; apply: le_trans (mom_le sP pP P1 (leqnn _)).
rewrite -dot_krylov //; apply: le_trans (_ : nrm2 u * nrm2 (krylov P k) <= _); last by rewrite /nrm2 u1 mul1r.
apply: le_trans (cauchy_schwarz _ _).
have -> : dot u (krylov P k) = lam ^+ k * dot u (onesv R n).
  elim: k => [|k IH]; first by rewrite expr0 mul1r.
  by rewrite [krylov P k.+1]/(P *m krylov P k) -dotP // Pu dotZl IH mulrA -exprS.
by rewrite exprMn -exprM muln2 -addnn mulrC.
Qed.
Print Assumptions C41_rayleigh_quotients.

(** A matrix whose rows all have the same positive sum [s]: the estimate of the largest eigenvalue
    is [s], whatever larger eigenvalues there are. *)
Lemma krylov_const (R : realFieldType) n (P : 'M[R]_n) s k : P *m onesv R n = s *: onesv R n ->
  krylov P k = s ^+ k *: onesv R n.
Proof.
move=> e; elim: k => [|k IH]; first by rewrite expr0 scale1r.
have -> : krylov P k.+1 = P *m krylov P k by [].
by rewrite IH -scalemxAr e scalerA exprSr.
Qed.

Lemma power_const (R : rcfType) n (P : 'M[R]_n) s k : (0 < n)%N -> 0 < s -> P *m onesv R n = s *: onesv R n ->
  exists2 c, 0 < c & power_iteration P k = Ok (c *: onesv R n).
Proof.
move=> n0 s0 e.
have e1 : const_mx (eps64 R) = eps64 R *: onesv R n by apply/matrixP=> i j; rewrite !mxE mulr1.
case: k => [|k].
  have [_ [_ h3]] := C41_power_iteration_value P 0; exists (1 + eps64 R); first by rewrite addr_gt0 ?ltr01 // eps64_gt0.
  by rewrite h3 e1 scalerDl scale1r.
have [h1 _] := C41_power_iteration_value P k.
have x0 : krylov P k.+1 != 0.
  rewrite (krylov_const _ e) scaler_eq0 expf_eq0 /= gt_eqF //=.
  apply/eqP => /matrixP /(_ (Ordinal n0) 0); rewrite !mxE => /eqP; by rewrite oner_eq0.
have a0 : 0 < (Num.sqrt (dot (krylov P k.+1) (krylov P k.+1)))^-1.
  by rewrite invr_gt0 lt_def sqrtr_ge0 andbT norm_eq0v.
rewrite h1 // e1; move: (_^-1) a0 => a a0.
rewrite (krylov_const _ e) scalerA -scalerDl; eexists; last by [].
by rewrite addr_gt0 ?eps64_gt0 // mulr_gt0 ?exprn_gt0.
Qed.

Lemma mean_const (R : rcfType) n (P : 'M[R]_n) s c : (0 < n)%N -> 0 < c -> P *m onesv R n = s *: onesv R n ->
  mean_quotient P (c *: onesv R n) = Ok s.
Proof.
move=> n0 c0 e; rewrite /mean_quotient; case: existsP => [[i]|_].
  by rewrite !mxE mulr1 gt_eqF.
congr Ok; rewrite (eq_bigr (fun=> s)) => [|i _].
  by rewrite sumr_const card_ord -[s *+ n]mulr_natr mulfK // pnatr_eq0 -lt0n.
by rewrite -scalemxAr e !mxE !mulr1 mulrAC divff ?mul1r // gt_eqF.
Qed.

(** A complex whose Laplacian has equal positive row sums [s]: the estimate used by the Chebyshev and
    the grid filters is exactly [s]. *)
Theorem C41_equal_row_sums : forall (R : rcfType) nodes E T nf ef sc,
  make_sc nodes E T nf ef = Ok sc -> (0 < length E)%N ->
  forall p A, get_p_matrix sc p = Ok (Csr A) ->
  forall s : R, 0 < s -> mv A (nseq (length E) 1) = nseq (length E) s ->
  get_alpha R sc p = Ok (s / 2%:R, s) /\
  forall num, Z.le 0 num ->
    sample_grid_points (toM R (length E) (length E) A) num = Ok (even_grid s (Z.to_nat num)).
Proof.
move=> R nodes E T nf ef sc H M0 p A /p_of[pv ->] s s0; rewrite (mv_p H).
set M := length E; set P := p_mat _ _ _ _ _ _.
have o1 : vec M (nseq M (1 : R)) = onesv R M.
  by apply/matrixP=> i j; rewrite !mxE nth_nseq ltn_ord.
have os : nseq M s = unvec (s *: onesv R M).
  apply: (@eq_from_nth _ 0); rewrite ?size_unvec size_nseq // => i iM.
  by rewrite nth_nseq iM (nth_unvec _ (Ordinal iM)) !mxE mulr1.
rewrite o1 os => /unvec_inj e.
have [c c0 pc] := power_const 50 M0 s0 e; have mc := mean_const M0 c0 e.
have [h0 h1] := p_dims H p; have tp := toM_p R H p.
split; last first.
  move=> num n0; rewrite tp /sample_grid_points pc /= mc /=.
  case l : linspace => [xs|] /=; first by rewrite (linspace_grid l).
  by move: l; rewrite /linspace; case: Z.ltb_spec => //; lia.
rewrite /get_alpha get_p_matrixE pv; move: h0 h1 tp; set B := p_array sc p => h0 h1 tp.
transitivity (let! v := power_iteration (toM R (sh0 B) (sh0 B) B) 50 in
  let! l := mean_quotient (toM R (sh0 B) (sh0 B) B) v in Ok (l / 2%:R, l)); first by [].
by rewrite -h0 -/M tp pc /= mc.
Qed.
Print Assumptions C41_equal_row_sums.

(** Path with three nodes: the estimate is 1, but 3 is an eigenvalue. *)
Definition path_nodes : list Z := (0 :: 1 :: 2 :: nil)%zz.
Definition path_edges : list (Z * Z) := ((0, 1) :: (1, 2) :: nil)%zz.
Definition path_sc := get_sc (make_sc path_nodes path_edges nil nil nil).
Lemma path_ok : make_sc path_nodes path_edges nil nil nil = Ok path_sc. Proof. by vm_compute. Qed.
Definition pLS := aadd (amul (atr (sc_B1 path_sc)) (sc_B1 path_sc)) (amul (sc_B2 path_sc) (atr (sc_B2 path_sc))).

Lemma pLS_sh : 2%N = sh0 pLS /\ 2%N = sh1 pLS. Proof. by vm_compute. Qed.
Lemma pLS_mv (R : realFieldType) (a b : R) : mv pLS [:: a; b] = [:: 2%:R * a - b; - a + 2%:R * b].
Proof.
have a00 : at2 pLS 0 0 = 2%zz by vm_compute.
have a01 : at2 pLS 0 1 = (-1)%zz by vm_compute.
have a10 : at2 pLS 1 0 = (-1)%zz by vm_compute.
have a11 : at2 pLS 1 1 = 2%zz by vm_compute.
rewrite mvCE /mvC -(proj1 pLS_sh) -(proj2 pLS_sh).
move: a00 a01 a10 a11; move: pLS => A a00 a01 a10 a11.
by rewrite /mkseq /= a00 a01 a10 a11 !addr0 !mulr_natl.
Qed.

Theorem C41_estimates_largest_eigenvalue_refuted : exists nodes E T sc A,
  make_sc nodes E T nil nil = Ok sc /\ get_p_matrix sc "L1" = Ok (Csr A) /\
  forall R : rcfType,
    get_alpha R sc "L1" = Ok (1 / 2%:R, 1 : R) /\
    (exists u, size u = length E /\ u <> zerof R (length E) /\ is_eigen A (3%:R : R) u) /\
    forall num xs, sample_grid_points (toM R (length E) (length E) A) num = Ok xs ->
      forall x, x \in xs -> x < 3%:R.
Proof.
exists path_nodes, path_edges, nil, path_sc, pLS; split; first exact: path_ok.
have GP : get_p_matrix path_sc "L1" = Ok (Csr pLS) by [].
split=> // R.
have e1 : mv pLS (nseq 2 1) = nseq 2 (1 : R).
  by rewrite pLS_mv !mulr1 mulr2n addrK addKr.
have [h1 h2] := C41_equal_row_sums path_ok (isT : (0 < length path_edges)%N) GP ltr01 e1.
split=> //; split.
  exists [:: 1; -1]; split=> //; split.
    by case=> /eqP; rewrite oner_eq0.
  rewrite /is_eigen pLS_mv /scalef /=; congr [:: _; _]; rewrite ?mulrN ?mulr1 ?opprK.
    by rewrite -(natrD _ 2 1).
  by rewrite -opprD -(natrD _ 1 2).
move=> num xs; case: (Z.le_gt_cases 0 num) => n0; last first.
  rewrite /sample_grid_points; case: power_iteration => //= v; case: mean_quotient => //= b.
  by rewrite /linspace; case: Z.ltb_spec => //; lia.
rewrite h2 // => -[<-] x /mapP [i]; rewrite mem_iota add0n => /andP[_ il] ->.
rewrite mul1r; apply: (@le_lt_trans _ _ 1); last by rewrite ltr1n.
case: (posnP (Z.to_nat num).-1) => [->|p0]; first by rewrite invr0 mulr0 ler01.
by rewrite ler_pdivr_mulr ?ltr0n // mul1r ler_nat; lia.
Qed.
Print Assumptions C41_estimates_largest_eigenvalue_refuted.

(** Without triangles the upper Laplacian is zero and nothing can be estimated. *)
Theorem C41_no_triangles : forall (R : rcfType) nodes E nf ef sc,
  make_sc nodes E nil nf ef = Ok sc -> get_alpha R sc "L1U" = Raise NonFinite.
Proof.
move=> R nodes E nf ef sc H; have [h0 h1] := p_dims H "L1U"; have tp := toM_p R H "L1U".
rewrite /get_alpha get_p_matrixE; move: h0 h1 tp; set B := p_array sc "L1U" => h0 h1 tp.
transitivity (let! v := power_iteration (toM R (sh0 B) (sh0 B) B) 50 in
  let! l := mean_quotient (toM R (sh0 B) (sh0 B) B) v in Ok (l / 2%:R, l)); first by [].
rewrite -h0 tp; have [_ [-> //]] := C41_power_iteration_value (p_mat R nodes E nil sc "L1U") 49.
have -> : p_mat R nodes E nil sc "L1U" = 0.
  by rewrite /p_mat /= /L1Um; apply/matrixP=> i j; rewrite !mxE big_ord0.
by rewrite /krylov iterS mul0mx.
Qed.
Print Assumptions C41_no_triangles.

(** The hypotheses of [C41_rayleigh_quotients] hold, with a strict increase, for diag(1, 2). *)
Example C41_example : forall R : rcfType, exists P : 'M[R]_2,
  P^T = P /\ psd P /\ P *m onesv R 2 <> 0 /\
  exists v w, power_iteration P 1 = Ok (v + const_mx (eps64 R)) /\
    power_iteration P 2 = Ok (w + const_mx (eps64 R)) /\ rayleigh P v < rayleigh P w.
Proof.
move=> R; pose d : 'rV[R]_2 := \row_i (i.+1)%:R; exists (diag_mx d).
have sP : (diag_mx d)^T = diag_mx d by rewrite tr_diag_mx.
have pP : psd (diag_mx d).
  move=> x; apply: sumr_ge0 => i _; rewrite mul_diag_mx !mxE mulrCA -expr2.
  by rewrite mulr_ge0 ?ler0n // sqr_ge0.
have P1 : diag_mx d *m onesv R 2 != 0.
  apply/eqP => /matrixP /(_ 0 0); rewrite mul_diag_mx !mxE mulr1 => /eqP.
  by rewrite oner_eq0.
have kr k : krylov (diag_mx d) k = \col_i (i.+1)%:R ^+ k.
  elim: k => [|k IH]; first by apply/matrixP=> i j; rewrite !mxE expr0.
  have -> : krylov (diag_mx d) k.+1 = diag_mx d *m krylov (diag_mx d) k by [].
  by rewrite IH mul_diag_mx; apply/matrixP=> i j; rewrite !mxE exprS.
have mo j : mom (diag_mx d) j = 1 + 2%:R ^+ j.
  rewrite /mom kr /dot big_ord_recl big_ord1 !mxE !mul1r expr1n //.
do 3 split=> //; first by apply/eqP.
have x0 k : krylov (diag_mx d) k.+1 != 0 by rewrite (krylov_zero sP).
have val k : exists2 a, a != 0 & power_iteration (diag_mx d) k.+1 = Ok (a *: krylov (diag_mx d) k.+1 + const_mx (eps64 R)).
  have [h _] := C41_power_iteration_value (diag_mx d) k; rewrite h //; eexists; last by [].
  by rewrite invr_eq0 norm_eq0v.
have [a a0 ea] := val 0%N; have [b b0 eb] := val 1%N.
exists (a *: krylov (diag_mx d) 1), (b *: krylov (diag_mx d) 2); do 2 split=> //.
rewrite !rayleigh_krylov // /ratio !mo /= -!natrX -!(natrD _ 1) ltr_pdivr_mulr ?ltr0n // mulrAC ltr_pdivl_mulr ?ltr0n //.
by rewrite -!natrM ltr_nat.
Qed.

(** ** C40 *)

Theorem C40_grid_samples : forall (R : rcfType) n (P : 'M[R]_n) num,
  (forall xs, sample_grid_points P num = Ok xs ->
    exists v b, power_iteration P 50 = Ok v /\ (forall i, v i 0 != 0) /\
      b * n%:R = \sum_i (P *m v) i 0 / v i 0 /\
      Z.le 0 num /\ size xs = Z.to_nat num /\ ((0 < size xs)%N -> xs`_0 = 0) /\
      ((1 < size xs)%N -> last 0 xs = b) /\
      forall i, (i.+1 < size xs)%N -> xs`_i.+1 - xs`_i = b / (size xs).-1%:R) /\
  (Z.lt num 0 -> exists e, sample_grid_points P num = Raise e).
Proof.
move=> R n P num; split; last first.
  move=> n0; rewrite /sample_grid_points; case: power_iteration => [v|e] /=; last by exists e.
  case: mean_quotient => [b|e] /=; last by exists e.
  by exists ValueError; rewrite /linspace; case: Z.ltb_spec => //; lia.
move=> xs; rewrite /sample_grid_points; case e : power_iteration => [v|] //=.
rewrite /mean_quotient; case: existsP => //= nz l.
exists v, ((\sum_i (P *m v) i 0 / v i 0) / n%:R); split=> //; split.
  by move=> i; apply/eqP => z; apply: nz; exists i; rewrite z.
have n0 : Z.le 0 num by move: l; rewrite /linspace; case: Z.ltb_spec.
have := linspace_grid l; set b := (_ / _) => ex.
have sx : size xs = Z.to_nat num by rewrite ex size_mkseq.
have nx i : (i < size xs)%N -> xs`_i = b * i%:R / (size xs).-1%:R.
  by rewrite sx => im; rewrite {1}ex nth_mkseq.
split.
  case: n P v e nz {l ex nx} @b => [|n] P v e nz b; last by rewrite mulfVK // pnatr_eq0.
  by rewrite mulr0 big_ord0.
split=> //; split=> //; split; first by move=> x0; rewrite nx // mulr0 mul0r.
split.
  move=> x1; rewrite -nth_last nx; last by case: (size xs) x1.
  rewrite mulfK // pnatr_eq0; case: (size xs) x1 => // [[|m]] //.
move=> i im; by rewrite !nx // ?(ltnW im) // -mulrBl -mulrBr -natrB ?leqnSn // subSnn mulr1.
Qed.
Print Assumptions C40_grid_samples.

Theorem C40_low_pass_response : forall (R : rcfType) n (P : 'M[R]_n) num mu xs,
  sample_grid_points P num = Ok xs -> 0 <= last 0 xs -> 0 <= mu ->
  exists g, sampled_freq_response P num mu = Ok (g, xs) /\ size g = size xs /\
    (forall i, (i < size xs)%N -> 0 < g`_i <= 1 /\ g`_i * (1 + mu * xs`_i) = 1) /\
    (forall i j, (i <= j)%N -> (j < size xs)%N -> g`_j <= g`_i) /\
    ((0 < size xs)%N -> g`_0 = 1).
Proof.
move=> R n P num mu xs e l0 mu0; rewrite /sampled_freq_response e /=.
have [h _] := C40_grid_samples P num; have [v [b [_ [_ [_ [_ [_ [x0 [xl xd]]]]]]]]] := h _ e.
have xb : (1 < size xs)%N -> 0 <= b by move=> /xl <-.
have up i : (i.+1 < size xs)%N -> xs`_i <= xs`_i.+1.
  move=> im; rewrite -subr_ge0 xd // divr_ge0 ?ler0n //.
  by apply: xb; apply: leq_ltn_trans im.
have mono i j : (i <= j)%N -> (j < size xs)%N -> xs`_i <= xs`_j.
  move/subnK <-; elim: (j - i)%N => // d IH dm; rewrite addSn in dm.
  exact: le_trans (IH (ltnW dm)) (up _ dm).
have ge0 i : (i < size xs)%N -> 0 <= xs`_i.
  by move=> im; have := mono 0%N i (leq0n _) im; rewrite x0 //; exact: leq_ltn_trans im.
have pos i : (i < size xs)%N -> 0 < 1 + mu * xs`_i.
  by move=> im; rewrite ltr_spaddl ?ltr01 // mulr_ge0 ?ge0.
have -> : mapM (frequency_response_hp mu) xs = Ok [seq 1 / (1 + mu * x) | x <- xs].
  have : forall x, x \in xs -> 1 + mu * x != 0.
    by move=> x /(nthP 0)[i im <-]; rewrite gt_eqF ?pos.
  elim: (xs) => //= x s IH nz; rewrite {1}/frequency_response_hp ifF /=; last first.
    by apply: negbTE; apply: nz; rewrite mem_head.
  by rewrite IH // => y ys; apply: nz; rewrite inE ys orbT.
eexists; split=> //; rewrite size_map; split=> //; split.
  move=> i im; rewrite (nth_map 0) // divr_gt0 ?ltr01 ?pos // mulfVK ?gt_eqF ?pos //; split=> //=.
  by rewrite ler_pdivr_mulr ?pos // mul1r ler_addl mulr_ge0 ?ge0.
split; last by move=> x1; rewrite (nth_map 0) // x0 // mulr0 addr0 divr1.
move=> i j ij jm; have im := leq_ltn_trans ij jm; rewrite !(nth_map 0) //.
by rewrite !mul1r lef_pinv ?posrE ?pos // ler_add2l ler_wpmul2l ?mono.
Qed.
Print Assumptions C40_low_pass_response.

(** The hypotheses of C40 hold on the path: five samples from 0 to 1. *)
Example C40_example : forall R : rcfType,
  sample_grid_points (toM R 2 2 pLS) 5 = Ok (even_grid (1 : R) 5) /\ last 0 (even_grid (1 : R) 5) = 1 /\
  (even_grid (1 : R) 5)`_2 = 2%:R^-1.
Proof.
move=> R; have GP : get_p_matrix path_sc "L1" = Ok (Csr pLS) by [].
have e1 : mv pLS (nseq 2 1) = nseq 2 (1 : R).
  by rewrite pLS_mv !mulr1 mulr2n addrK addKr.
have [_ h2] := C41_equal_row_sums path_ok (isT : (0 < length path_edges)%N) GP ltr01 e1.
have n2 : 2%:R != 0 :> R by rewrite pnatr_eq0.
have n4 : 4%:R != 0 :> R by rewrite pnatr_eq0.
split; first by rewrite (h2 5%zz).
split; first by rewrite -nth_last size_mkseq nth_mkseq // mul1r divff.
by rewrite nth_mkseq // mul1r /= (natrM _ 2 2) invfM mulrA divff // mul1r.
Qed.

(** ** C44 *)

Lemma seq_vec (R : rcfType) n (t : seq R) : size t = n -> exists u : 'cV[R]_n, t = unvec u.
Proof. by move=> s; exists (vec n t); rewrite vecK. Qed.

Theorem C44_nrmse : forall (R : rcfType) n (x t : seq R), size x = n -> size t = n ->
  (t <> zerof R n ->
    exists e, calculate_error_NRMSE x t = Ok (Fin e) /\ 0 <= e /\ (e = 0 <-> x = t) /\
      e ^+ 2 * energy t = energy (subf x t) /\
      (forall c, c != 0 -> calculate_error_NRMSE (scalef c x) (scalef c t) = Ok (Fin e)) /\
      calculate_error_NRMSE (zerof R n) t = Ok (Fin 1)) /\
  (t = zerof R n ->
    calculate_error_NRMSE x t = Ok (if x == t then NaN R else PInf R)).
Proof.
move=> R n x t /seq_vec[v ->] /seq_vec[u ->]; rewrite zerof_unvec.
have inj (a b : 'cV[R]_n) : (unvec a == unvec b) = (a == b) by apply/eqP/eqP => [/unvec_inj|->].
have cE (a b : 'cV[R]_n) : calculate_error_NRMSE (unvec a) (unvec b) =
    Ok (if b == 0 then if a == b then NaN R else PInf R else Fin (Num.sqrt (nrm2 (a - b)) / Num.sqrt (nrm2 b))).
  rewrite nrmseE ?size_unvec // /nrmse !normE subf_unvec !energy_unvec !nrm2_eq0 subr_eq0.
  by case: ifP => // _; case: ifP.
split=> [u0|/unvec_inj ->]; last by rewrite cE eqxx inj.
have n0 : u != 0 by apply/eqP => z; apply: u0; rewrite z.
have s0 (w : 'cV[R]_n) : (Num.sqrt (nrm2 w) == 0) = (w == 0).
  by rewrite sqrtr_eq0 le_eqVlt ltNge nrm2_ge0 orbF nrm2_eq0.
rewrite cE (negbTE n0); eexists; split=> //; split; first by rewrite divr_ge0 ?sqrtr_ge0.
split.
  split=> [/eqP|/unvec_inj ->]; last by rewrite subrr nrm2_0 sqrtr0 mul0r.
  by rewrite mulf_eq0 invr_eq0 !s0 (negbTE n0) orbF subr_eq0 => /eqP ->.
split.
  by rewrite subf_unvec !energy_unvec expr_div_n !sqr_sqrtr ?nrm2_ge0 // mulfVK // nrm2_eq0.
split; last by rewrite cE (negbTE n0) sub0r /nrm2 dotNl dotNr opprK divff // s0.
move=> c c0; rewrite !scalef_unvec cE scaler_eq0 (negbTE c0) (negbTE n0) /= -scalerBr.
have zE (w : 'cV[R]_n) : Num.sqrt (nrm2 (c *: w)) = `|c| * Num.sqrt (nrm2 w).
  by rewrite /nrm2 dotZl dotZr mulrA -expr2 sqrtrM ?sqr_ge0 // sqrtr_sqr.
by rewrite !zE -mulf_div divff ?mul1r // normr_eq0.
Qed.
Print Assumptions C44_nrmse.

Example C44_example : forall R : rcfType,
  [:: 3%:R; 4%:R] <> zerof R 2 /\ calculate_error_NRMSE [:: 3%:R; 4%:R] [:: 3%:R; (4%:R : R)] = Ok (Fin 0) /\
  calculate_error_NRMSE [:: 6%:R; 8%:R] [:: 3%:R; (4%:R : R)] = Ok (Fin 1).
Proof.
move=> R; have nz : [:: 3%:R; 4%:R] <> zerof R 2 by case=> /eqP; rewrite pnatr_eq0.
split=> //; split.
  have [h _] := @C44_nrmse R 2 [:: 3%:R; 4%:R] [:: 3%:R; 4%:R] erefl erefl.
  by have [e [-> [_ [h2 _]]]] := h nz; rewrite (proj2 h2 erefl).
have [h _] := @C44_nrmse R 2 [:: 6%:R; 8%:R] [:: 3%:R; 4%:R] erefl erefl.
have [e [-> [e0 [_ [h2 _]]]]] := h nz; congr (Ok (Fin _)).
have en : energy [:: 3%:R; (4%:R : R)] = 25%:R.
  by rewrite /energy dotpCE /dotpC /= addr0 -!natrM -natrD.
move: h2; rewrite en (_ : subf _ _ = [:: 3%:R; 4%:R]); last first.
  rewrite /subf /addf /scalef /=; congr [:: _; _]; rewrite mulN1r.
    by rewrite -(natrB _ (isT : (3 <= 6)%N)).
  by rewrite [LHS]/= mulN1r -(natrB _ (isT : (4 <= 8)%N)).
rewrite en -{2}[25%:R]mul1r => /mulIf; rewrite pnatr_eq0 => /(_ isT) /eqP.
rewrite sqrf_eq1 => /orP[/eqP //|/eqP z]; move: e0; rewrite z oppr_ge0 ler10 //.
Qed.
