(** * Chebyshev filters: C42, C43 *)

From Coq Require Import ZArith String List Ring Field.
From mathcomp Require Import all_ssreflect all_algebra complex ssrZ zify.
From Verif Require Import Py PyFacts ExampleData Complex ComplexSpec ComplexFacts LinAlg RingTac Spectral Signal
  SignalSpec Bridge SignalFacts Compute Props_Signal Props_Hodge Eigen EigenSpec EigenFacts
  Filter FilterSpec FilterFacts FilterFacts2 PolyFacts Props_LowPass Props_Poly Props_Power.

Set Implicit Arguments.
Unset Strict Implicit.
Unset Printing Implicit Defensive.

Import GRing.Theory Num.Theory Order.Theory.
Local Open Scope ring_scope.

(** ** Vocabulary *)

(** Chebyshev polynomials of the first kind, by T_{k+2} = 2 X T_{k+1} - T_k. *)
Fixpoint chebT (R : ringType) (k : nat) : {poly R} :=
  match k with
  | O => 1
  | S k' => match k' with O => 'X | S k'' => 2%:R *: 'X * chebT R k' - chebT R k'' end
  end.

(** A polynomial in a square matrix. *)
Definition poly_mx (R : realFieldType) n (p : {poly R}) (Q : 'M[R]_n) : 'M[R]_n :=
  \sum_(i < size p) p`_i *: iter i (mulmx Q) 1%:M.

(** The truncated Chebyshev series with coefficients [c], as a polynomial. *)
Definition cheb_series (R : ringType) (c : seq R) : {poly R} := \sum_(k < size c) c`_k *: chebT R k.

(** ** Chebyshev polynomials *)
Section Cheb.
Variable R : rcfType.
Add Field R_field : (mc_field R).
Local Open Scope complex_scope.

Lemma chebTSS k : chebT R k.+2 = 2%:R *: 'X * chebT R k.+1 - chebT R k. Proof. by []. Qed.
Lemma chebTSSE k (x : R) : (chebT R k.+2).[x] = 2%:R * x * (chebT R k.+1).[x] - (chebT R k).[x].
Proof. by rewrite chebTSS !hornerE. Qed.

Lemma nat_ind2 (Q : nat -> Prop) : Q 0%N -> Q 1%N -> (forall k, Q k -> Q k.+1 -> Q k.+2) -> forall k, Q k.
Proof. by move=> h0 h1 h2 k; suff [] : Q k /\ Q k.+1 by []; elim: k => [|k [a b]]; split=> //; exact: h2. Qed.

Lemma cheb_cos k (z : R[i]) : complex.Re z ^+ 2 + complex.Im z ^+ 2 = 1 ->
  (chebT R k).[complex.Re z] = complex.Re (z ^+ k).
Proof.
move=> z1; elim/nat_ind2: k => [||k h0 h1]; first by rewrite hornerC.
  by rewrite hornerX expr1.
rewrite chebTSSE h0 h1 !exprS.
case: z z1 {h0 h1} => c s /=; case: (_ ^+ k) => a b /=; rewrite !expr2 => z1.
transitivity (2%:R * c * (c * a - s * b) - a * (c * c + s * s)); first by rewrite z1 mulr1.
by to_r R; ring.
Qed.

Lemma one_sub_sqr (x : R) : -1 <= x <= 1 -> 0 <= 1 - x ^+ 2.
Proof.
move=> /andP[x1 x2]; rewrite -{1}[1](expr1n _ 2) subr_sqr mulr_ge0 ?subr_ge0 //.
by rewrite addrC -ler_subl_addr sub0r.
Qed.
Lemma cheb_bound k (x : R) : -1 <= x <= 1 -> `|(chebT R k).[x]| <= 1.
Proof.
move=> xb; have s0 := one_sub_sqr xb.
pose z : R[i] := x +i* Num.sqrt (1 - x ^+ 2).
have z1 : complex.Re z ^+ 2 + complex.Im z ^+ 2 = 1 by rewrite /= sqr_sqrtr // addrC subrK.
rewrite (cheb_cos k z1).
have : complex.Re (z ^+ k) ^+ 2 + complex.Im (z ^+ k) ^+ 2 = 1.
  elim: k => [|k IH]; first by rewrite /= expr1n expr0n addr0.
  rewrite [z ^+ k.+1]exprS; move: z1 IH; case: z => c s /=; case: (_ ^+ k) => a b /= e1 e2.
  transitivity ((c ^+ 2 + s ^+ 2) * (a ^+ 2 + b ^+ 2)); last by rewrite e1 e2 mulr1.
  by rewrite !expr2; to_r R; ring.
move=> e; rewrite -(@ler_pexpn2r _ 2) ?nnegrE ?ler01 ?normr_ge0 // real_normK ?num_real // expr1n -e.
by rewrite ler_addl sqr_ge0.
Qed.

Lemma cheb_at1 k : (chebT R k).[1] = 1.
Proof.
elim/nat_ind2: k => [||k h0 h1]; first by rewrite hornerC.
  by rewrite hornerX.
by rewrite chebTSSE h0 h1 !mulr1 mulr2n addrK.
Qed.
Lemma cheb_atN1 k : (chebT R k).[-1] = (-1) ^+ k.
Proof.
elim/nat_ind2: k => [||k h0 h1]; first by rewrite hornerC.
  by rewrite hornerX expr1.
by rewrite chebTSSE h0 h1 !exprS; move: (_ ^+ k) => y; to_r R; ring.
Qed.
(** Outside [-1, 1] the polynomials grow geometrically. *)
Lemma cheb_grow k (x : R) : 1 <= x -> x * (chebT R k).[x] <= (chebT R k.+1).[x] /\ 0 < (chebT R k).[x].
Proof.
move=> x1; have x0 : 0 <= x by apply: le_trans x1; exact: ler01.
elim: k => [|k [h1 h2]]; first by rewrite hornerX hornerC mulr1 ltr01 lexx.
have p1 : 0 < (chebT R k.+1).[x] by apply: lt_le_trans h1; rewrite mulr_gt0 // (lt_le_trans ltr01).
split=> //; rewrite chebTSSE mulr_natl mulr2n mulrDl -addrA ler_addl subr_ge0.
apply: le_trans (ler_wpmul2l x0 h1); rewrite mulrA -expr2.
by rewrite ler_pemull ?(ltW h2) // exprn_ege1.
Qed.
End Cheb.

(** ** Polynomials in a matrix *)
Section PolyMx.
Variables (R : realFieldType) (n : nat) (Q : 'M[R]_n).
Local Notation pw i := (iter i (mulmx Q) 1%:M).

Lemma poly_mx_widen m (p : {poly R}) : (size p <= m)%N -> poly_mx p Q = \sum_(i < m) p`_i *: pw i.
Proof.
move=> sm; rewrite /poly_mx (big_ord_widen m (fun i => p`_i *: pw i) sm) big_mkcond /=.
by apply: eq_bigr => i _; case: ltnP => // h; rewrite nth_default // scale0r.
Qed.
Lemma poly_mxD p q : poly_mx (p + q) Q = poly_mx p Q + poly_mx q Q.
Proof.
pose m := maxn (size p) (size q).
rewrite !(@poly_mx_widen m) ?leq_maxl ?leq_maxr ?size_add // -big_split /=.
by apply: eq_bigr => i _; rewrite coefD scalerDl.
Qed.
Lemma poly_mxZ a p : poly_mx (a *: p) Q = a *: poly_mx p Q.
Proof.
rewrite (@poly_mx_widen (size p)) ?size_scale_leq // /poly_mx scaler_sumr.
by apply: eq_bigr => i _; rewrite coefZ scalerA.
Qed.
Lemma poly_mxB p q : poly_mx (p - q) Q = poly_mx p Q - poly_mx q Q.
Proof. by rewrite -[- q]scaleN1r poly_mxD poly_mxZ scaleN1r. Qed.
Lemma poly_mx1 : poly_mx 1 Q = 1%:M.
Proof. by rewrite /poly_mx size_poly1 big_ord1 coef1 scale1r. Qed.
Lemma poly_mx0 : poly_mx 0 Q = 0. Proof. by rewrite /poly_mx size_poly0 big_ord0. Qed.
Lemma poly_mxXM p : poly_mx ('X * p) Q = Q *m poly_mx p Q.
Proof.
rewrite (@poly_mx_widen (size p).+1); last first.
  by have [->|p0] := eqVneq p 0; rewrite ?mulr0 ?size_poly0 // -commr_polyX size_mulX.
rewrite big_ord_recl coefXM /= scale0r add0r /poly_mx mulmx_sumr.
by apply: eq_bigr => i _; rewrite coefXM /= -scalemxAr.
Qed.
Lemma poly_mxX : poly_mx 'X Q = Q.
Proof. by rewrite -['X]mulr1 poly_mxXM poly_mx1 mulmx1. Qed.
Lemma poly_mx_sum (I : Type) (r : seq I) (F : I -> {poly R}) :
  poly_mx (\sum_(i <- r) F i) Q = \sum_(i <- r) poly_mx (F i) Q.
Proof. by apply: (big_morph (fun p => poly_mx p Q)) => [p q|]; [exact: poly_mxD|exact: poly_mx0]. Qed.
Lemma poly_mx_eigen p (u : 'cV[R]_n) lam : Q *m u = lam *: u -> poly_mx p Q *m u = p.[lam] *: u.
Proof.
move=> e; rewrite /poly_mx mulmx_suml horner_coef scaler_suml; apply: eq_bigr => i _.
rewrite -scalemxAl -scalerA; congr (_ *: _).
elim: (nat_of_ord i) => [|k IH]; first by rewrite mul1mx expr0 scale1r.
by rewrite iterS -mulmxA IH -scalemxAr e scalerA exprSr.
Qed.
End PolyMx.

Section Stack.
Variables (R : rcfType) (n : nat) (P : 'M[R]_n) (alpha : R).
Hypothesis a0 : alpha != 0.
(** The shifted and scaled matrix (P - alpha I) / alpha. *)
Definition shifted : 'M[R]_n := alpha^-1 *: (P - alpha *: 1%:M).

Lemma cheb_stackE k : cheb_stack P alpha k = poly_mx (chebT R k) shifted.
Proof.
elim/nat_ind2: k => [||k h0 h1]; first by rewrite poly_mx1.
  by rewrite poly_mxX.
rewrite [LHS]/= -/(cheb_stack P alpha k.+1) h0 h1 chebTSS poly_mxB -scalerAl poly_mxZ poly_mxXM.
by rewrite /shifted -!scalemxAl scalerA.
Qed.

Lemma shifted_eigen (u : 'cV[R]_n) lam : P *m u = lam *: u -> shifted *m u = ((lam - alpha) / alpha) *: u.
Proof.
by move=> e; rewrite -scalemxAl mulmxBl e -scalemxAl mul1mx -scalerBl scalerA mulrC.
Qed.

Lemma approxE c m : (m <= size c)%N ->
  chebyshev_filter_approximate P c alpha m = Ok (poly_mx (cheb_series (take m c)) shifted).
Proof.
move=> ms; have sm : size (take m c) = m by rewrite size_takel.
rewrite /chebyshev_filter_approximate (negbTE a0) andbF sm eqxx; congr Ok.
rewrite /cheb_series poly_mx_sum sm; apply: eq_bigr => k _.
by rewrite poly_mxZ cheb_stackE.
Qed.
End Stack.

(** ** C42 *)

Theorem C42_truncated_series : forall (R : rcfType) n (P : 'M[R]_n) (c : seq R) alpha m,
  alpha != 0 -> (m <= size c)%N ->
  let Q := alpha^-1 *: (P - alpha *: 1%:M) in
  exists Hm, chebyshev_filter_approximate P c alpha m = Ok Hm /\
    Hm = poly_mx (cheb_series (take m c)) Q /\
    forall lam (u : 'cV[R]_n), P *m u = lam *: u ->
      Hm *m u = (\sum_(k < m) c`_k * (chebT R k).[(lam - alpha) / alpha]) *: u /\
      (0 <= lam <= 2%:R * alpha ->
        exists z : R[i], complex.Re z ^+ 2 + complex.Im z ^+ 2 = 1 /\ lam = alpha * (1 + complex.Re z) /\
          Hm *m u = (\sum_(k < m) c`_k * complex.Re (z ^+ k)) *: u /\
          `|\sum_(k < m) c`_k * complex.Re (z ^+ k)| <= \sum_(k < m) `|c`_k|).
Proof.
move=> R n P c alpha m a0 ms Q; rewrite approxE //; eexists; split=> //; split=> // lam u e.
have act : poly_mx (cheb_series (take m c)) (shifted P alpha) *m u =
    (\sum_(k < m) c`_k * (chebT R k).[(lam - alpha) / alpha]) *: u.
  rewrite (poly_mx_eigen _ (shifted_eigen alpha e)) /cheb_series horner_sum; congr (_ *: _).
  rewrite size_takel //; apply: eq_bigr => k _.
  by rewrite hornerZ nth_take.
split=> // /andP[l0 l2].
set x := (lam - alpha) / alpha in act.
have ap : 0 < alpha.
  by rewrite lt_def a0 /=; have := le_trans l0 l2; rewrite pmulr_rge0 // ltr0n.
have xb : -1 <= x <= 1.
  rewrite ler_pdivl_mulr // ler_pdivr_mulr // mulN1r mul1r ler_subl_addr -mulr2n -mulr_natl l2 andbT.
  by rewrite -subr_ge0 opprK subrK.
have s0 : 0 <= 1 - x ^+ 2.
  exact: one_sub_sqr.
pose z : R[i] := Complex x (Num.sqrt (1 - x ^+ 2)).
have z1 : complex.Re z ^+ 2 + complex.Im z ^+ 2 = 1 by rewrite /= sqr_sqrtr // addrC subrK.
have ce k : (chebT R k).[x] = complex.Re (z ^+ k) by rewrite -(cheb_cos k z1).
exists z; split=> //; split; first by rewrite /= mulrDr mulr1 mulrC /x mulfVK // addrC subrK.
split; first by rewrite act; congr (_ *: _); apply: eq_bigr => k _; rewrite ce.
apply: le_trans (ler_norm_sum _ _ _) _; apply: ler_sum => k _.
by rewrite normrM -ce ler_pimulr ?normr_ge0 // cheb_bound.
Qed.
Print Assumptions C42_truncated_series.

(** Fewer coefficients than the order: one coefficient is spread over all slices, of which only the
    first is nonzero; any other mismatch is rejected; alpha = 0 divides by zero. *)
Theorem C42_other_shapes : forall (R : rcfType) n (P : 'M[R]_n) (c : seq R) alpha m,
  ((0 < m)%N -> size c = 1%N -> chebyshev_filter_approximate P c alpha m = Ok (c`_0 *: 1%:M)) /\
  (c = [::] -> chebyshev_filter_approximate P c alpha m = if (m <= 1)%N then Ok 0 else Raise ValueError) /\
  ((1 < size c)%N -> (size c < m)%N -> alpha != 0 ->
     chebyshev_filter_approximate P c alpha m = Raise ValueError) /\
  ((1 < size c)%N -> (1 < m)%N -> chebyshev_filter_approximate P c 0 m = Raise NonFinite).
Proof.
move=> R n P c alpha m; rewrite /chebyshev_filter_approximate; split.
  case: c => [|x [|y c]] //; case: m => // m _ _ /=.
  by rewrite orbT big_ord1.
split.
  by move=> -> /=; rewrite big_ord0 orbF; case: m => [|[|m]].
split.
  move=> c1 cm an; rewrite take_oversize ?(ltnW cm) // (negbTE an) andbF.
  by rewrite ltn_eqF // gtn_eqF //= gtn_eqF // (ltn_trans c1).
move=> c1 m1; have -> : (1 < size (take m c))%N && (0 == 0 :> R) = true; last by [].
by rewrite eqxx andbT size_take; case: (ltnP m (size c)).
Qed.
Print Assumptions C42_other_shapes.

Example C42_example : forall R : rcfType,
  let P : 'M[R]_2 := toM R 2 2 pLS in
  exists u : 'cV[R]_2, u != 0 /\ P *m u = 3%:R *: u /\
    (** with alpha = 2 (a good bound) the response is within the sum of the coefficients ... *)
    (0 <= (3%:R : R) <= 2%:R * 2%:R) /\
    (exists H2, chebyshev_filter_approximate P [:: 1; 1; 1] 2%:R 3 = Ok H2 /\ H2 *m u = 1 *: u) /\
    (** ... with alpha = 1/2 (what get_alpha computes here) it is 1 + 5 + 49. *)
    (exists H2, chebyshev_filter_approximate P [:: 1; 1; 1] (1 / 2%:R) 3 = Ok H2 /\ H2 *m u = 55%:R *: u).
Proof.
move=> R P; pose u : 'cV[R]_2 := \col_i (-1) ^+ i; exists u.
have u0 : u != 0 by apply/eqP => /matrixP /(_ 0 0); rewrite !mxE expr0 => /eqP; rewrite oner_eq0.
have n2 : 2%:R != 0 :> R by rewrite pnatr_eq0.
have Pu : P *m u = 3%:R *: u.
  have := @pLS_mv R 1 (-1); rewrite (mvE _ (proj1 pLS_sh) (proj2 pLS_sh)) -/P.
  have -> : vec 2 [:: 1; -1] = u.
    by apply/matrixP=> i j; rewrite !mxE; case: i => [[|[|]]] //= _; rewrite ?expr0 ?expr1.
  have -> : 2%:R * 1 - -1 = 3%:R :> R by rewrite mulr1 opprK -(natrD _ 2 1).
  have -> : -1 + 2%:R * -1 = - 3%:R :> R by rewrite mulrN mulr1 -opprD -(natrD _ 1 2).
  move=> e; rewrite -[LHS](unvecK) e; apply/matrixP=> i j; rewrite !mxE.
  by case: i => [[|[|]]] //= _; rewrite ?expr0 ?expr1 ?mulrN mulr1.
have h2 : 1 / 2%:R != 0 :> R by rewrite mul1r invr_eq0.
split=> //; split=> //; split; first by rewrite ler0n -natrM ler_nat.
have tk : is_true (leq 3 (size [:: (1 : R); 1; 1])) by [].
have sum3 (x : R) : \sum_(k < 3) [:: 1; 1; 1]`_k * (chebT R k).[x] = 2%:R * x * x + x.
  rewrite 2!big_ord_recl big_ord1 !mul1r.
  have -> : (chebT R 0).[x] = 1 by rewrite hornerC.
  have -> : (chebT R (lift ord0 ord0 : 'I_3)).[x] = x by rewrite hornerX.
  have -> : (chebT R (lift ord0 (lift ord0 ord0) : 'I_3)).[x] = 2%:R * x * x - 1.
    by rewrite (chebTSSE 0) hornerX hornerC.
  by rewrite addrCA [1 + _]addrC subrK addrC.
split.
  have [H2 [e [_ h]]] := C42_truncated_series P n2 tk; exists H2; split=> //.
  have [-> _] := h _ _ Pu; rewrite sum3; congr (_ *: _).
  have -> : (3%:R - 2%:R) / 2%:R = 2%:R^-1 :> R by rewrite -(natrB _ (isT : (2 <= 3)%N)) mul1r.
  rewrite divff // mul1r -mulr2n -mulr_natl divff //.
have [H2 [e [_ h]]] := C42_truncated_series P h2 tk; exists H2; split=> //.
have [-> _] := h _ _ Pu; rewrite sum3; congr (_ *: _).
have -> : (3%:R - 1 / 2%:R) / (1 / 2%:R) = 5%:R :> R.
  rewrite mul1r invrK mulrBl mulVf // -natrM; by rewrite -(natrB _ (isT : (1 <= 6)%N)).
by rewrite -!natrM -natrD.
Qed.

(** ** C43 *)

Lemma size_set_from A (a : seq A) i x : size (set_from a i x) = size a.
Proof.
rewrite /set_from; move: (if _ then _ else _) => s.
by rewrite size_cat size_nseq size_take; case: ltnP => h; lia.
Qed.
Lemma nth_set_from A (d : A) (a : seq A) s x i : (i < size a)%N ->
  nth d (set_from a (Z.of_nat s) x) i = if (i < s)%N then nth d a i else x.
Proof.
move=> ia; rewrite /set_from; case: Z.ltb_spec => [|_]; first lia.
rewrite Nat2Z.id nth_cat size_take; case: (ltnP s (size a)) => sa.
  case: ltnP => h; first by rewrite nth_take.
  by rewrite nth_nseq ifT //; lia.
by rewrite ia (leq_trans ia sa) nth_take // (leq_trans ia sa).
Qed.

Lemma stack_loop (R : rcfType) n (P : 'M[R]_n) c alpha (Ap : nat -> 'M[R]_n) m :
  (forall k, (k < m)%N -> chebyshev_filter_approximate P c alpha k.+1 = Ok (Ap k.+1)) ->
  (0 < m)%N ->
  exists Hs, chebyshev_frequency_approx P c alpha m = Ok Hs /\ size Hs = m /\
    forall k, (k < m)%N -> nth 0 Hs k = Ap (minn k.+2 m).
Proof.
move=> h m0; rewrite /chebyshev_frequency_approx; set F := (X in foldM X).
have FE H k : (k < m)%N -> F H k = Ok (set_from H (Z.of_nat k - 1)%zz (Ap k.+1)) by move=> km; rewrite /F h.
have loop j : (1 < j)%N -> forall d H, (j + d = m)%N -> size H = m ->
    (forall k, (k < m)%N -> nth 0 H k = Ap (minn k.+2 j)) ->
    exists Hs, foldM F H (iota j d) = Ok Hs /\ size Hs = m /\ forall k, (k < m)%N -> nth 0 Hs k = Ap (minn k.+2 m).
  move=> j1 d; elim: d j j1 => [|d IH] j j1 H jd sH inv.
    by exists H; split=> //; split=> // k km; rewrite inv //; congr (Ap (minn _ _)); lia.
  rewrite /= FE; last by lia.
  rewrite /=; apply: (IH j.+1) => //; [by lia|by lia|by rewrite size_set_from|].
  move=> k km; have -> : (Z.of_nat j - 1)%zz = Z.of_nat j.-1 by lia.
  rewrite nth_set_from ?sH //; case: ltnP => kj; first by rewrite inv //; congr Ap; lia.
  by congr Ap; lia.
case: m m0 h FE loop => // m _ h FE loop; rewrite [iota 0 m.+1]/= [foldM _ _ _]/= FE // bindOk.
set H1 := set_from _ _ _; have s1 : size H1 = m.+1 by rewrite size_set_from /= size_nseq.
case: m h FE loop @H1 s1 => [|m] h FE loop H1 s1.
  exists H1; split=> //; split=> // k; rewrite ltnS leqn0 => /eqP ->.
  by rewrite /H1 /=.
rewrite [iota 1 m.+1]/= [foldM _ _ _]/= FE // bindOk; apply: loop => //; first by rewrite size_set_from.
move=> k km; have -> : (Z.of_nat 1 - 1)%zz = Z.of_nat 0 by [].
by rewrite nth_set_from ?s1 //=; congr Ap; lia.
Qed.

Theorem C43_stack : forall (R : rcfType) n (P : 'M[R]_n) (c : seq R) alpha m,
  alpha != 0 -> (0 < m <= size c)%N ->
  exists Hs, chebyshev_frequency_approx P c alpha m = Ok Hs /\ size Hs = m /\
    forall k, (k < m)%N ->
      chebyshev_filter_approximate P c alpha (minn k.+2 m) = Ok (nth 0 Hs k).
Proof.
move=> R n P c alpha m a0 /andP[m0 mc].
have h k : (k < m)%N -> chebyshev_filter_approximate P c alpha k.+1 =
    Ok (poly_mx (cheb_series (take k.+1 c)) (shifted P alpha)) by move=> km; rewrite approxE // (leq_trans km).
have [Hs [e [s nh]]] := stack_loop (Ap := fun k => poly_mx (cheb_series (take k c)) (shifted P alpha)) h m0.
exists Hs; split=> //; split=> // k km; rewrite nh // approxE //.
by apply: leq_trans mc; rewrite geq_minr.
Qed.
Print Assumptions C43_stack.

(** Position k promises k+1 coefficients (order k+1), but holds k+2 whenever possible. *)
Theorem C43_position_is_order_refuted : exists (c : seq rat),
  forall (R : rcfType), let c' : seq R := [seq ratr x | x <- c] in let P : 'M[R]_2 := toM R 2 2 pLS in
  exists Hs H1, chebyshev_frequency_approx P c' 1 2 = Ok Hs /\
    chebyshev_filter_approximate P c' 1 1 = Ok H1 /\ nth 0 Hs 0 <> H1.
Proof.
exists [:: 0; 1] => R c' P.
have sc : (0 < 2 <= size c')%N by [].
have [Hs [e [s nh]]] := C43_stack P (oner_neq0 R) sc; exists Hs.
have [H1 [e1 [_ h1]]] := C42_truncated_series P (oner_neq0 R) (isT : (1 <= size c')%N); exists H1.
do 2 split=> //; have [u [u0 [Pu _]]] := C42_example R; rewrite -/P in Pu.
have [H2 [e2 [_ h2]]] := C42_truncated_series P (oner_neq0 R) (isT : (2 <= size c')%N).
have := nh 0%N isT; rewrite [minn _ _]/= e2 => -[<-] z.
have [a _] := h1 _ _ Pu; have [b _] := h2 _ _ Pu.
move: b; rewrite z a big_ord1 big_ord_recl big_ord1 /c' /= !rmorph0 !rmorph1 !mul0r mul1r add0r scale0r hornerX.
move/esym/eqP; rewrite scaler_eq0 (negbTE u0) orbF divr1 -(natrB _ (isT : (1 <= 3)%N)).
by rewrite pnatr_eq0.
Qed.
Print Assumptions C43_position_is_order_refuted.

(** *** Apply *)
Section Step.
Variables (R : rcfType) (norm_2 : forall n, 'M[R]_n -> R).
Variables (n : nat) (U Ul : eigpairs R) (Hid : 'M[R]_n) (f t h : seq R).
Definition tilde (x : seq R) := [seq ((vec n p.2)^T *m vec n x) 0 0 | p <- U].
Definition cheb_out (Hk : 'M[R]_n) : seq R * seq R * fl R * R :=
  (unvec (Hk *m vec n f), tilde (unvec (Hk *m vec n f)), nrmse (unvec (Hk *m vec n f)) t, norm_2 (Hk - Hid)).
Lemma cheb_stepE Hk : n != 1%N -> size f = n -> size t = n -> size Ul = size h ->
  cheb_step norm_2 U Ul Hid f t h Hk = Ok (cheb_out Hk).
Proof.
move=> n1 sf st sh; rewrite /cheb_step (negbTE n1) nrmseE ?size_map // bindOk.
rewrite /mat_dot sf eqxx bindOk nrmseE ?size_unvec // bindOk nrmseE ?size_map //.
Qed.
End Step.

Theorem C43_apply :
  forall (R : rcfType) eigsh lstsq rint argsort expf chebfun norm_2,
    eigsh_contract eigsh -> lstsq_contract lstsq -> argsort_contract argsort ->
  forall nodes E T nf ef sc, make_sc nodes E T nf ef = Ok sc -> (1 < length E)%N ->
    oriented (length nodes) E T ->
  forall p A s (f : seq R) L n cut steep alpha b,
    get_p_matrix sc p = Ok (Csr A) -> component_name s -> size f = length E ->
    get_alpha R sc p = Ok (alpha, b) -> alpha != 0 ->
  forall c,
    chebfun (logistic_function expf cut steep) 0 b
      (match n with Some (Zpos m) => Zpos m | Some (Zneg m) => Zneg m | _ => L end) = Ok c ->
    Z.lt Z0 L -> (Z.to_nat L <= size c)%N ->
  exists r t F m us,
    cheb_apply eigsh lstsq rint argsort expf chebfun norm_2 sc f p s L n cut steep = Ok r /\
    get_component_flow lstsq rint sc f s false 2 = Ok t /\
    get_component_coefficients eigsh argsort sc s = Ok m /\ get_ideal_frequency eigsh sc m = Ok F /\
    size (cheb_filter r) = Z.to_nat L /\ size (cheb_estimated r) = Z.to_nat L /\
    size (cheb_responses r) = Z.to_nat L /\ size (cheb_errors r) = Z.to_nat L /\
    size (cheb_filter_error r) = Z.to_nat L /\ orthonormal us /\ size us = length E /\
    forall k, (k < Z.to_nat L)%N ->
      let Hk := nth [::] (cheb_filter r) k in
      let fk := nth [::] (cheb_estimated r) k in
      shaped Hk (length E) (length E) /\ fk = rmv Hk f /\
      nth [::] (cheb_responses r) k = weights us fk /\
      relative_error fk t (nth (NaN R) (cheb_errors r) k) /\
      (exists X Y : 'M[R]_(length E), rows X = Hk /\ rows Y = F /\
         (cheb_filter_error r)`_k = norm_2 _ (X - Y)) /\
      forall lam u, size u = length E -> is_eigen A lam u ->
        rmv Hk u = scalef (\sum_(j < minn k.+2 (Z.to_nat L)) c`_j * (chebT R j).[(lam - alpha) / alpha]) u.
Proof.
move=> R eigsh lstsq rint argsort expf cf norm_2 EC LC AC nodes E T nf ef sc H M1 O p A s f L n cut steep alpha b.
move=> /p_of[pv ->] cn sf ga a0 c ec L0 Lc.
have M0 : (0 < length E)%N := ltnW M1.
have DS := p_decomp eigsh H "L1" M0.
have D := p_decomp eigsh H p M0; have TP := toM_p R H p; have [d0 d1] := p_dims H p.
have cv := proj2 (c_validP s) cn; have ce := coefficientsE H EC AC M0 O s; rewrite cv in ce.
set m := [seq _ | _ <- _] in ce.
have sm : size m = length E by rewrite size_map (size_argsort AC) (size_evals H EC M0 O).
have FS := contract_eigfam EC M0 (p_sym R nodes E T sc "L1").
have FP := contract_eigfam EC M0 (p_sym R nodes E T sc p).
have ide := ideal_frequency_sum H M0 (etrans sm (esym (eigfam_size FS))).
set Hid := \sum_(i < _) _ in ide.
pose t : seq R := unvec (comp_mx R nodes E T sc s *m vec (length E) f).
have te : get_true_signal lstsq rint sc f s = Ok t by rewrite /get_true_signal (component_Ok H LC).
have unf : cheb_apply eigsh lstsq rint argsort expf cf norm_2 sc f p s L n cut steep =
  let! U := get_eigendecomposition eigsh (Dense (p_array sc "L1")) (eps64 R) in
  let! U_l := get_eigendecomposition eigsh (Dense (p_array sc p)) (eps64 R) in
  let! f_true := get_true_signal lstsq rint sc f s in
  let! h_ideal := get_component_coefficients eigsh argsort sc s in
  let! (alpha, lambda_max) := get_alpha R sc p in
  let! coeffs := cf (logistic_function expf cut steep) 0 lambda_max
    (match n with None => L | Some m => if Z.eqb m 0 then L else m end) in
  let! H_rows := get_ideal_frequency eigsh sc h_ideal in
  let m := sh0 (p_array sc p) in
  let H_ideal : 'M[R]_m := \matrix_(i, j) (nth [::] H_rows i)`_j in
  if Z.ltb L 0 then Raise ValueError
  else
    let! Hs := chebyshev_frequency_approx (toM R m m (p_array sc p)) coeffs alpha (Z.to_nat L) in
    let! steps := mapM (cheb_step norm_2 U U_l H_ideal f f_true h_ideal) Hs in
    Ok (mkChebRun [seq rows H | H <- Hs] [seq x.1.1.1 | x <- steps] [seq x.1.1.2 | x <- steps]
          [seq x.1.2 | x <- steps] [seq x.2 | x <- steps]).
  by rewrite /cheb_apply get_p_matrixE pv.
move: unf; rewrite DS D te ce ga; rewrite !bindOk; cbv beta iota zeta.
have -> : match n with None => L | Some m => if Z.eqb m 0 then L else m end =
   match n with Some (Zpos m) => Zpos m | Some (Zneg m) => Zneg m | _ => L end by case: n {ec} => [[|q|q]|].
rewrite ec bindOk ide bindOk; cbv beta.
set V := up (zeroed (eigsh _ (p_mat R nodes E T sc "L1"))).
set Vl := up (zeroed (eigsh _ (p_mat R nodes E T sc p))).
have sVl : size Vl = size m by rewrite sm !size_map (eigfam_size FP).
move: d0 TP; set B := p_array sc p; move: (sh0 B) => k d0; subst k => ->.
have -> : (\matrix_(i, j) (nth [::] (rows Hid) i)`_j : 'M[R]_(length E)) = Hid.
  by apply/matrixP=> i j; rewrite mxE nth_rows.
case: Z.ltb_spec => [|_]; first lia.
have Lc' : (0 < Z.to_nat L <= size c)%N by rewrite Lc andbT; lia.
set P := p_mat R nodes E T sc p.
have [Hs [eH [sH hH]]] := C43_stack P a0 Lc'; rewrite eH bindOk.
have n1 : length E != 1%N by rewrite gtn_eqF.
have st : size t = length E by rewrite size_unvec.
have -> : mapM (cheb_step norm_2 V Vl Hid f t m) Hs = Ok [seq cheb_out norm_2 V Hid f t X | X <- Hs].
  by elim: (Hs) => //= X Xs IH; rewrite cheb_stepE //= IH.
rewrite bindOk => unf.
eexists; exists t, (rows Hid), m, [seq unvec q.2 | q <- eigsh _ (p_mat R nodes E T sc "L1")].
split; first exact: unf.
split; first by rewrite -te.
split; first by [].
split; first exact: ide.
rewrite /= !size_map sH; do 5 split=> //; split; first exact: eigfam_orthonormal FS.
split; first exact: eigfam_size FS.
move=> k km; set Hk := nth 0 Hs k.
have nF : nth [::] [seq rows X | X <- Hs] k = rows Hk by rewrite (nth_map 0) ?sH.
have no (W : Type) (d : W) (g : seq R * seq R * fl R * R -> W) :
    nth d [seq g x | x <- [seq cheb_out norm_2 V Hid f t X | X <- Hs]] k = g (cheb_out norm_2 V Hid f t Hk).
  by rewrite -map_comp (nth_map 0) ?sH.
rewrite nF !no /=; split; first exact: rows_shaped.
split; first by rewrite rmv_rows.
split.
  rewrite /tilde /weights /V /up /zeroed -!map_comp; apply: eq_map => q /=.
  by rewrite unvecK dotp_unvec dotE unvecK.
split; first exact: nrmse_relative.
split; first by exists Hk, Hid.
move=> lam u su e; rewrite rmv_rows //.
have Pu : P *m vec (length E) u = lam *: vec (length E) u.
  have := e; rewrite /is_eigen (mv_p H) -{2}(vecK su) scalef_unvec => /unvec_inj.
  by [].
have mc : (minn k.+2 (Z.to_nat L) <= size c)%N by apply: leq_trans Lc; rewrite geq_minr.
have [Hm [em [_ hm]]] := C42_truncated_series P a0 mc.
have := hH k km; rewrite em -/Hk => -[<-]; have [-> _] := hm _ _ Pu.
by rewrite -scalef_unvec vecK.
Qed.
Print Assumptions C43_apply.

(** A complex with a single edge is always rejected: the 1 x 1 slice is squeezed to a scalar. *)
Theorem C43_single_edge_rejected :
  forall (R : rcfType) eigsh lstsq rint argsort expf chebfun norm_2,
  forall nodes E T nf ef sc, make_sc nodes E T nf ef = Ok sc -> length E = 1%N ->
  forall p s (f : seq R) L n cut steep r, Z.lt Z0 L ->
    cheb_apply eigsh lstsq rint argsort expf chebfun norm_2 sc f p s L n cut steep <> Ok r.
Proof.
move=> R eigsh lstsq rint argsort expf cf norm_2 nodes E T nf ef sc H E1 p s f L n cut steep r L0.
have [d0 _] := p_dims H p.
rewrite /cheb_apply => /bind_Ok[L1 [_]] /bind_Ok[X [_]] /bind_Ok[U [_]] /bind_Ok[P [eP]] /bind_Ok[B [eB]].
have {eP eB} eB : B = p_array sc p.
  by move: eP; rewrite get_p_matrixE; case: ifP => // _ [eP]; move: eB; rewrite -eP => -[].
rewrite -eB E1 in d0 *; move=> /bind_Ok[Ul [_]] /bind_Ok[t [_]] /bind_Ok[h [_]] /bind_Ok[[a b] [_]] /bind_Ok[cs [_]] /bind_Ok[F [_]].
cbv zeta; case: ifP => // _ /bind_Ok[Hs [e]].
have sH : size Hs = Z.to_nat L.
  move: e; rewrite /chebyshev_frequency_approx; set g := (X in foldM X).
  have : size (nseq (Z.to_nat L) (0 : 'M[R]_(sh0 B))) = Z.to_nat L by rewrite size_nseq.
  move: (nseq _ _) (iota _ _) => W l; elim: l W => [|k l IH] W sX /=; first by case=> <-.
  rewrite {1}/g; case: chebyshev_filter_approximate => //= Y.
  by apply: IH; rewrite size_set_from.
have : (0 < size Hs)%N by rewrite sH; lia.
case: (Hs) => // Y Ys _ /bind_Ok[st [+ _]]; have s1 : sh0 B == 1%N by rewrite -d0.
by rewrite [mapM _ _]/= {1}/cheb_step s1.
Qed.
Print Assumptions C43_single_edge_rejected.
