(** * C87: predictions of the Gaussian process *)

From Coq Require Import ZArith String List.
From mathcomp Require Import all_ssreflect all_algebra ssrZ zify.
From Coq Require Import Ring Field.
From Verif Require Import RingTac Py PyFacts ReaderFacts Complex Signal SignalSpec Eigen EigenSpec FilterSpec LinAlg Bridge
  Gp GpSpec GpFacts GpPredict GpPredictFacts Props_Gp.

Set Implicit Arguments.
Unset Strict Implicit.
Unset Printing Implicit Defensive.

Import GRing.Theory Num.Theory Order.Theory.
Local Open Scope ring_scope.
Delimit Scope Z_scope with zz.

(** ** Specification *)

Section Spec.
Variable R : rcfType.

(** The linear system of Gaussian-process regression on the edges [xs] with covariance [k] and noise [s]. *)
Definition solves (k : Z -> Z -> R) (s : R) (xs : seq Z) (b a : seq R) : Prop :=
  size a = size xs /\
  forall i, (i < size xs)%N ->
    \sum_(j < size xs) k (nth 0%zz xs i) (nth 0%zz xs j) * a`_j + s * a`_i = b`_i.

(** The function with coefficients [a] at edge [z]. *)
Definition combine (k : Z -> Z -> R) (xs : seq Z) (a : seq R) (z : Z) : R :=
  \sum_(j < size xs) k z (nth 0%zz xs j) * a`_j.

(** [w' K w] over the edges [xs]. *)
Definition form (k : Z -> Z -> R) (xs : seq Z) (w : seq R) : R :=
  \sum_(i < size xs) \sum_(j < size xs) w`_i * w`_j * k (nth 0%zz xs i) (nth 0%zz xs j).

(** Coefficient of determination of predictions [p] of the values [y]. *)
Definition determination (y p : seq R) : R :=
  1 - (\sum_(i < size y) (y`_i - p`_i) ^+ 2) / (\sum_(x <- y) (x - average y) ^+ 2).

End Spec.

Section Predict.
Variable R : rcfType.
Variable exp : R -> R.
Variable pow : R -> R -> R.
Variable softplus : R -> R.
Hypothesis EC : exp_contract exp.
Hypothesis PC : pow_contract pow.
Hypothesis SP : forall x, 0 < softplus x.
Add Field R_field87 : (mc_field R).

(** Covariance of two edges under the model, for hyperparameters [v]; and its constant mean. *)
Definition prior (m : gpmodel R) (v : string -> R) (a b : Z) : R :=
  let k := m_kernel m in
  softplus (m_raw_scale m) *
  covariance (multiplier exp pow (k_type k) v) (k_harm k) (k_grad k) (k_curl k) (wrap (k_rows k) a) (wrap (k_rows k) b).
Definition constant (m : gpmodel R) : R := odflt 0 (m_constant m).

(** A model with readable positive hyperparameters, positive noise and eigenvalues its class can deal with. *)
Definition sound (m : gpmodel R) (v : string -> R) : Prop :=
  reads softplus (m_kernel m) v /\ positive (m_kernel m) v /\ fit (m_kernel m) /\ 0 < m_noise m.

Lemma priorC m v a b : prior m v a b = prior m v b a.
Proof. by rewrite /prior covarianceC. Qed.

Lemma priorP m v : sound m v -> forall (r : seq Z) (w : seq R),
  0 <= \sum_(a < size w) \sum_(b < size w) w`_a * w`_b * prior m v (nth 0%zz r a) (nth 0%zz r b).
Proof.
case=> rd [ps [[f0 [f1 f2]] _]] r w; rewrite /prior.
set g := multiplier _ _ _ _; set n := k_rows _.
have h0 p : p \in k_harm (m_kernel m) -> 0 <= g Harmonic p.1.
  by move=> hp; rewrite /g; apply: ltW; apply: (mult_gt0 softplus softplus EC PC ps); [exact: f0|].
have h1 p : p \in k_grad (m_kernel m) -> 0 <= g Gradient p.1.
  move=> hp; have i : p \in k_grad (m_kernel m) ++ k_curl (m_kernel m) by rewrite mem_cat hp.
  by rewrite /g; apply: ltW; apply: (mult_gt0 softplus softplus EC PC ps); [exact: f1|move=> t _; exact: f2].
have h2 p : p \in k_curl (m_kernel m) -> 0 <= g Curl p.1.
  move=> hp; have i : p \in k_grad (m_kernel m) ++ k_curl (m_kernel m) by rewrite mem_cat hp orbT.
  by rewrite /g; apply: ltW; apply: (mult_gt0 softplus softplus EC PC ps); [exact: f1|move=> t _; exact: f2].
have := covariance_psd (mkseq (fun a => wrap n (nth 0%zz r a)) (size w)) w h0 h1 h2.
have -> : \sum_(a < size w) \sum_(b < size w) w`_a * w`_b *
    covariance g (k_harm (m_kernel m)) (k_grad (m_kernel m)) (k_curl (m_kernel m))
      (nth 0%N (mkseq (fun a0 => wrap n (nth 0%zz r a0)) (size w)) a) (nth 0%N (mkseq (fun a0 => wrap n (nth 0%zz r a0)) (size w)) b)
  = \sum_(a < size w) \sum_(b < size w) w`_a * w`_b *
    covariance g (k_harm (m_kernel m)) (k_grad (m_kernel m)) (k_curl (m_kernel m)) (wrap n (nth 0%zz r a)) (wrap n (nth 0%zz r b)).
  by apply: eq_bigr => a _; apply: eq_bigr => b _; rewrite !nth_mkseq.
move=> h.
have -> : \sum_(a < size w) \sum_(b < size w) w`_a * w`_b * (softplus (m_raw_scale m) *
    covariance g (k_harm (m_kernel m)) (k_grad (m_kernel m)) (k_curl (m_kernel m)) (wrap n (nth 0%zz r a)) (wrap n (nth 0%zz r b)))
  = softplus (m_raw_scale m) * \sum_(a < size w) \sum_(b < size w) w`_a * w`_b *
    covariance g (k_harm (m_kernel m)) (k_grad (m_kernel m)) (k_curl (m_kernel m)) (wrap n (nth 0%zz r a)) (wrap n (nth 0%zz r b)).
  by rewrite big_distrr; apply: eq_bigr => a _; rewrite big_distrr; apply: eq_bigr => b _ /=; rewrite mulrCA.
by rewrite mulr_ge0 // ltW.
Qed.

Lemma model_forwardE m v x : sound m v -> List.Forall (in_range (k_rows (m_kernel m))) x ->
  model_forward exp pow softplus m x = Ok (nseq (size x) (constant m), [seq [seq prior m v i j | j <- x] | i <- x]).
Proof.
case=> rd [ps [f _]] h; rewrite /model_forward (forwardE exp pow false rd ps f h h) /=.
have -> : match m_constant m with Some c => c | None => 0 end = constant m by rewrite /constant; case: (m_constant m).
by rewrite -map_comp; congr (Ok (_, _)); apply: eq_map => i /=; rewrite -map_comp.
Qed.

Lemma blockE m v xs ts (x : seq Z) a b : (a + size xs <= size x)%N -> (b + size ts <= size x)%N ->
  (forall i, (i < size xs)%N -> nth 0%zz x (a + i) = nth 0%zz xs i) ->
  (forall j, (j < size ts)%N -> nth 0%zz x (b + j) = nth 0%zz ts j) ->
  block [seq [seq prior m v i j | j <- x] | i <- x] a b (size xs) (size ts) = gram (prior m v) xs ts.
Proof.
move=> ha hb ea eb; apply/matrixP=> i j; rewrite !mxE.
have hi : (a + i < size x)%N by apply: leq_trans ha; rewrite ltn_add2l.
have hj : (b + j < size x)%N by apply: leq_trans hb; rewrite ltn_add2l.
by rewrite (nth_map 0%zz) // (nth_map 0%zz) // ea // eb.
Qed.

Local Notation K m v := (prior m v).

(** The deviation of the labels from the mean. *)
Let dev m ys n : 'cV[R]_n := vec n ys - vec n (nseq n (constant m)).

Lemma posteriorE m v xs ys ts : sound m v -> List.Forall (in_range (k_rows (m_kernel m))) (xs ++ ts) ->
  size ys = size xs ->
  posterior exp pow softplus m xs ys ts = Ok (mkPrediction
    (unvec (vec (size ts) (nseq (size ts) (constant m)) + gain (K m v) (m_noise m) xs ts *m dev m ys (size xs)))
    [seq [seq (cov (K m v) (m_noise m) xs ts) i j | j <- enum 'I_(size ts)] | i <- enum 'I_(size ts)]).
Proof.
move=> S h sy; rewrite /posterior (model_forwardE S h) /= sy eqxx /= size_cat.
have l i : (i < size xs)%N -> nth 0%zz (xs ++ ts) (0 + i) = nth 0%zz xs i by rewrite nth_cat => ->.
have r i : (i < size ts)%N -> nth 0%zz (xs ++ ts) (size xs + i) = nth 0%zz ts i.
  by move=> _; rewrite nth_cat ltnNge leq_addr /= addKn.
have n1 : (0 + size xs <= size (xs ++ ts))%N by rewrite size_cat leq_addr.
have n2 : (size xs + size ts <= size (xs ++ ts))%N by rewrite size_cat.
rewrite !(blockE _ _ n1 n1 l l, blockE _ _ n2 n2 r r, blockE _ _ n1 n2 l r, blockE _ _ n2 n1 r l).
rewrite -/(noisy (K m v) (m_noise m) xs).
have [_ [_ [_ s0]]] := S.
rewrite (noisy_unit (@priorC m v) (priorP S) s0) /= -/(gain (K m v) (m_noise m) xs ts) -/(cov (K m v) (m_noise m) xs ts).
have -> : vec (size ts) (drop (size xs) (nseq (size xs + size ts) (constant m))) = vec (size ts) (nseq (size ts) (constant m)).
  by apply/colP=> i; rewrite !mxE nth_drop !nth_nseq ltn_ord ltn_add2l ltn_ord.
have -> // : vec (size xs) (nseq (size xs + size ts) (constant m)) = vec (size xs) (nseq (size xs) (constant m)).
apply/colP=> i; rewrite !mxE !nth_nseq ltn_ord.
by rewrite (leq_trans (ltn_ord i) (leq_addr _ _)).
Qed.

(** *** Lists and matrices *)

Lemma solves_mx (k : Z -> Z -> R) s xs b a : solves k s xs b a -> noisy k s xs *m vec (size xs) a = vec (size xs) b.
Proof.
case=> _ h; apply/colP=> i; rewrite /noisy mulmxDl mul_scalar_mx !mxE -h //.
by congr (_ + _); apply: eq_bigr => j _; rewrite !mxE.
Qed.

Lemma mx_solves (k : Z -> Z -> R) s xs b (u : 'cV[R]_(size xs)) : noisy k s xs *m u = vec (size xs) b -> solves k s xs b (unvec u).
Proof.
move=> e; split=> [|i hi]; first by rewrite size_unvec.
have := congr1 (fun z : 'cV[R]_(size xs) => z (Ordinal hi) 0) e.
rewrite /noisy mulmxDl mul_scalar_mx !mxE /= => <-.
rewrite -[i]/(nat_of_ord (Ordinal hi)) nth_unvec; congr (_ + _).
by apply: eq_bigr => j _; rewrite !mxE nth_unvec.
Qed.

Lemma combine_mx (k : Z -> Z -> R) xs ts (u : 'cV[R]_(size xs)) (j : 'I_(size ts)) :
  (gram k ts xs *m u) j 0 = combine k xs (unvec u) (nth 0%zz ts j).
Proof. by rewrite mxE /combine; apply: eq_bigr => i _; rewrite mxE nth_unvec. Qed.

Lemma form_mx (k : Z -> Z -> R) xs w :
  form k xs w = dot (vec (size xs) w) (gram k xs xs *m vec (size xs) w).
Proof. by rewrite dot_gram; apply: eq_bigr => i _; apply: eq_bigr => j _; rewrite !mxE. Qed.

Definition rows n (C : 'M[R]_n) : seq (seq R) := [seq [seq C i j | j <- enum 'I_n] | i <- enum 'I_n].

Lemma rowsE n (C : 'M[R]_n) (i j : 'I_n) : (nth [::] (rows C) i)`_j = C i j.
Proof.
by rewrite /rows (nth_map i) ?size_enum_ord // (nth_map j) ?size_enum_ord // !nth_ord_enum.
Qed.

Lemma rows_shaped n (C : 'M[R]_n) : shaped (rows C) n n.
Proof.
split; first by rewrite size_map size_enum_ord.
by move=> r /mapP[i _ ->]; rewrite size_map size_enum_ord.
Qed.

Lemma quad_rows n (C : 'M[R]_n) w : size w = n -> quad (rows C) w = dot (vec n w) (C *m vec n w).
Proof.
move=> sw; rewrite /quad sw /dot; apply: eq_bigr => i _; rewrite [X in _ * X]mxE big_distrr /=.
by apply: eq_bigr => j _; rewrite rowsE !mxE -mulrA [X in _ * X]mulrC.
Qed.

Lemma dot_delta n (C : 'M[R]_n) (i : 'I_n) : dot (delta_mx i 0) (C *m delta_mx i 0) = C i i.
Proof.
rewrite /dot (bigD1 i) //= big1 ?addr0 => [|a ha].
  by rewrite -colE !mxE !eqxx mul1r.
by rewrite [X in X * _]mxE (negPf ha) mul0r.
Qed.

(** ** C87: the predictive distribution *)

(** For a sound model, existing edges and as many labels as training edges, model(x_test) exists; its
    mean is the constant plus the regression function on the training edges, and its covariance is the
    prior covariance reduced by what the training edges explain. *)
Theorem C87_predictive :
  forall m v xs ys ts, sound m v -> List.Forall (in_range (k_rows (m_kernel m))) (xs ++ ts) -> size ys = size xs ->
  let k := prior m v in let c := constant m in
  exists P, posterior exp pow softplus m xs ys ts = Ok P /\
    size (p_mean P) = size ts /\ shaped (p_covar P) (size ts) (size ts) /\
    (exists a, solves k (m_noise m) xs [seq y - c | y <- ys] a /\
       forall j, (j < size ts)%N -> (p_mean P)`_j = c + combine k xs a (nth 0%zz ts j)) /\
    (forall j, (j < size ts)%N ->
       exists w, solves k (m_noise m) xs [seq k x (nth 0%zz ts j) | x <- xs] w /\
       forall i, (i < size ts)%N ->
         (nth [::] (p_covar P) i)`_j = k (nth 0%zz ts i) (nth 0%zz ts j) - combine k xs w (nth 0%zz ts i)).
Proof.
move=> m v xs ys ts S h sy k c.
rewrite (posteriorE S h sy) -/(rows _) -/k -/c; have [_ [_ [_ s0]]] := S.
have U := noisy_unit (@priorC m v) (priorP S) s0 xs : noisy k (m_noise m) xs \in unitmx.
eexists; split; first by reflexivity.
rewrite /= size_unvec; split=> //; split; first exact: rows_shaped.
split.
  exists (unvec (invmx (noisy k (m_noise m) xs) *m dev m ys (size xs))); split.
    apply: mx_solves; rewrite mulKVmx //; apply/colP=> i.
    by rewrite /dev !mxE nth_nseq ltn_ord (nth_map 0) // sy.
  move=> j hj; rewrite -[j in LHS]/(nat_of_ord (Ordinal hj)) nth_unvec mxE [X in X + _]mxE nth_nseq hj /gain.
  by rewrite -mulmxA combine_mx.
move=> j hj; pose jo := Ordinal hj.
exists (unvec (invmx (noisy k (m_noise m) xs) *m col jo (gram k xs ts))); split.
  apply: mx_solves; rewrite mulKVmx //; apply/colP=> i.
  by rewrite !mxE (nth_map 0%zz).
move=> i hi; rewrite -[i in LHS]/(nat_of_ord (Ordinal hi)) -[j in LHS]/(nat_of_ord jo) rowsE.
rewrite -[in RHS](combine_mx k _ (Ordinal hi)) /cov mxE [X in X + _]mxE [X in _ + X]mxE; congr (_ - _).
by rewrite /gain -mulmxA !mxE; apply: eq_bigr => a _; congr (_ * _); rewrite !mxE; apply: eq_bigr => b _; rewrite !mxE.
Qed.

(** The linear system has at most one solution, so the previous theorem determines the distribution. *)
Theorem C87_determined :
  forall m v xs b a a', sound m v -> solves (prior m v) (m_noise m) xs b a -> solves (prior m v) (m_noise m) xs b a' -> a = a'.
Proof.
move=> m v xs b a a' S h h'; have [_ [_ [_ s0]]] := S.
apply: (@vec_inj _ (size xs)); [by case: h|by case: h'|].
have U := noisy_unit (@priorC m v) (priorP S) s0 xs : noisy (prior m v) (m_noise m) xs \in unitmx.
by rewrite -[LHS](mulKmx U) (solves_mx h) -(solves_mx h') mulKmx.
Qed.

(** The covariance is symmetric and positive semidefinite and never exceeds that of the prior; the
    likelihood keeps the mean and adds the noise to the variances. *)
Theorem C87_covariance :
  forall m v xs ys ts P, sound m v -> List.Forall (in_range (k_rows (m_kernel m))) (xs ++ ts) -> size ys = size xs ->
  posterior exp pow softplus m xs ys ts = Ok P ->
  (forall i j, (i < size ts)%N -> (j < size ts)%N -> (nth [::] (p_covar P) i)`_j = (nth [::] (p_covar P) j)`_i) /\
  (forall w, size w = size ts -> 0 <= quad (p_covar P) w <= form (prior m v) ts w) /\
  let Q := observed (m_noise m) P in
  p_mean Q = p_mean P /\ shaped (p_covar Q) (size ts) (size ts) /\
  (forall i j, (i < size ts)%N -> (j < size ts)%N ->
     (nth [::] (p_covar Q) i)`_j = (nth [::] (p_covar P) i)`_j + (if i == j then m_noise m else 0)) /\
  (forall j, (j < size ts)%N ->
     m_noise m <= (nth [::] (p_covar Q) j)`_j <= prior m v (nth 0%zz ts j) (nth 0%zz ts j) + m_noise m).
Proof.
move=> m v xs ys ts P S h sy; rewrite (posteriorE S h sy) -/(rows _) => -[<-] /=.
have [_ [_ [_ s0]]] := S; set C := cov _ _ _ _.
have sym : C^T = C by exact: covT (@priorC m v) _ _ _.
split.
  move=> i j hi hj; rewrite -[i]/(nat_of_ord (Ordinal hi)) -[j]/(nat_of_ord (Ordinal hj)) !rowsE.
  by rewrite -[in LHS]sym mxE.
split.
  move=> w sw; rewrite (quad_rows _ sw) form_mx; apply/andP; split.
    exact: (cov_ge0 (@priorC m v) (priorP S) s0).
  exact: (cov_le (@priorC m v) (priorP S) s0).
have e i j : (i < size ts)%N -> (j < size ts)%N ->
   (nth [::] (p_covar (observed (m_noise m) (mkPrediction (unvec (vec (size ts) (nseq (size ts) (constant m)) +
      gain (K m v) (m_noise m) xs ts *m dev m ys (size xs))) (rows C)))) i)`_j
   = (nth [::] (rows C) i)`_j + (if i == j then m_noise m else 0).
  by move=> hi hj; rewrite /observed /= size_unvec nth_mkseq // nth_mkseq.
split; first by []. split.
  rewrite /= size_unvec; split; first by rewrite size_mkseq.
  by move=> r; rewrite /mkseq => /mapP[i _ ->]; rewrite size_map size_iota.
split=> // j hj; rewrite e // eqxx.
have -> : (nth [::] (rows C) j)`_j = C (Ordinal hj) (Ordinal hj) by exact: rowsE C (Ordinal hj) (Ordinal hj).
have g0 := cov_ge0 (@priorC m v) (priorP S) s0 xs (delta_mx (Ordinal hj) 0).
have g1 := cov_le (@priorC m v) (priorP S) s0 xs (delta_mx (Ordinal hj) 0).
rewrite !dot_delta -/C in g0 g1; rewrite [X in _ <= X]mxE /= in g1.
by rewrite ler_addr g0 ler_add2r g1.
Qed.

(** No linear predictor has a smaller expected squared error than the predictive variance, and the
    regression function is the minimiser of squared residuals plus noise times squared norm. *)
Theorem C87_best :
  forall m v xs ys ts P, sound m v -> List.Forall (in_range (k_rows (m_kernel m))) (xs ++ ts) -> size ys = size xs ->
  posterior exp pow softplus m xs ys ts = Ok P ->
  let k := prior m v in let s := m_noise m in let c := constant m in
  (forall j z, (j < size ts)%N -> size z = size xs ->
     (nth [::] (p_covar P) j)`_j <=
     k (nth 0%zz ts j) (nth 0%zz ts j) - 2%:R * (\sum_(i < size xs) z`_i * k (nth 0%zz xs i) (nth 0%zz ts j))
       + form k xs z + s * energy z) /\
  forall a b, solves k s xs [seq y - c | y <- ys] a -> size b = size xs ->
    \sum_(i < size xs) (ys`_i - (c + combine k xs a (nth 0%zz xs i))) ^+ 2 + s * form k xs a <=
    \sum_(i < size xs) (ys`_i - (c + combine k xs b (nth 0%zz xs i))) ^+ 2 + s * form k xs b.
Proof.
move=> m v xs ys ts P S h sy; rewrite (posteriorE S h sy) -/(rows _) => -[<-] /= ; set k := prior m v.
have [_ [_ [_ s0]]] := S; split.
  move=> j z hj sz; set C := cov _ _ _ _.
  have -> : (nth [::] (rows C) j)`_j = C (Ordinal hj) (Ordinal hj) by exact: rowsE C (Ordinal hj) (Ordinal hj).
  have := cov_min (@priorC m v) (priorP S) s0 (delta_mx (Ordinal hj) 0) (vec (size xs) z).
  rewrite !dot_delta -/C dot_noisy -form_mx [gram _ ts ts _ _]mxE /= addrA -/k.
  have -> : nrm2 (vec (size xs) z) = energy z by rewrite -{2}(vecK sz) energy_unvec.
  have -> // : dot (vec (size xs) z) (gram k xs ts *m delta_mx (Ordinal hj) 0) = \sum_(i < size xs) z`_i * k (nth 0%zz xs i) (nth 0%zz ts j).
  by rewrite -colE /dot; apply: eq_bigr => i _; rewrite !mxE.
move=> a b sa sb; have e := solves_mx sa; have sza := proj1 sa.
have res (q : seq R) : size q = size xs -> \sum_(i < size xs) (ys`_i - (constant m + combine k xs q (nth 0%zz xs i))) ^+ 2
    = nrm2 (vec (size xs) [seq y - constant m | y <- ys] - gram k xs xs *m vec (size xs) q).
  move=> sq; rewrite /nrm2 /dot; apply: eq_bigr => i _; rewrite -{1}(vecK sq) -combine_mx -expr2.
  rewrite [X in _ = X ^+ 2]mxE [X in _ = (X + _) ^+ 2]mxE [X in _ = (_ + X) ^+ 2]mxE (nth_map 0) ?sy //.
  by rewrite opprD addrA.
rewrite !res // !form_mx; exact: (ridge (@priorC m v) (priorP S) s0).
Qed.

(** Predicting all edges: the deviation of the mean from the constant is orthogonal to every flow that is
    orthogonal to all eigenvectors of the kernel. *)
Theorem C87_span :
  forall m v xs ys P f, let k := m_kernel m in let n := k_rows k in
  sound m v -> List.Forall (in_range n) xs -> size ys = size xs ->
  posterior exp pow softplus m xs ys [seq Z.of_nat i | i <- iota 0 n] = Ok P ->
  size f = n -> (forall p, p \in k_harm k ++ k_grad k ++ k_curl k -> \sum_(i < n) f`_i * p.2`_i = 0) ->
  \sum_(i < n) f`_i * ((p_mean P)`_i - constant m) = 0.
Proof.
move=> m v xs ys P f k n S hx sy e sf o.
have hr : List.Forall (in_range n) (xs ++ [seq Z.of_nat i | i <- iota 0 n]).
  apply/List.Forall_app; split=> //.
  have: all (fun i => (i < n)%N) (iota 0 n) by apply/allP=> i; rewrite mem_iota.
  elim: (iota 0 n) => [|i l IH] /=; first by constructor.
  by case/andP=> hi /IH; constructor=> //; rewrite /in_range; lia.
case: (C87_predictive S hr sy) => P' []; rewrite e => -[<-] [_ [_ [[a [_ ea]] _]]].
have sz : size [seq Z.of_nat i | i <- iota 0 n] = n by rewrite size_map size_iota.
transitivity (\sum_(i < n) \sum_(j < size xs) f`_i * (prior m v (Z.of_nat i) (nth 0%zz xs j) * a`_j)).
  apply: eq_bigr => i _; rewrite ea ?sz // addrC addKr /combine big_distrr /=; apply: eq_bigr => j _.
  by rewrite (nth_map 0%N) ?size_iota // nth_iota.
rewrite exchange_big big1 // => j _.
have z (g : R -> R) ps b : (forall p, p \in ps -> \sum_(i < n) f`_i * p.2`_i = 0) ->
    \sum_(i < n) f`_i * mixture g ps i b = 0.
  move=> q; rewrite /mixture; under eq_bigr => i _ do rewrite big_distrr /=.
  rewrite exchange_big big_seq big1 // => p hp.
  transitivity (g p.1 * p.2`_b * \sum_(i < n) f`_i * p.2`_i); last by rewrite q // mulr0.
  by rewrite big_distrr; apply: eq_bigr => i _ /=; to_r R; ring.
set b := wrap n (nth 0%zz xs j); set sc := softplus (m_raw_scale m).
set g := multiplier exp pow (k_type k) v.
transitivity (sc * a`_j * ((\sum_(i < n) f`_i * mixture (g Harmonic) (k_harm k) i b)
   + (\sum_(i < n) f`_i * mixture (g Gradient) (k_grad k) i b) + (\sum_(i < n) f`_i * mixture (g Curl) (k_curl k) i b))).
  rewrite -!big_split big_distrr; apply: eq_bigr => i _ /=; rewrite /prior /covariance -/k -/n -/b -/sc -/g.
  have -> : wrap n (Z.of_nat i) = i.
    by rewrite /wrap Z.mod_small ?Nat2Z.id //; have := ltn_ord i; lia.
  by to_r R; ring.
by rewrite !z ?addr0 ?mulr0 // => p hp; apply: o; rewrite !mem_cat hp ?orbT.
Qed.

(** ** C87: what predict accepts, returns and prints *)

(** predict succeeds exactly for existing edges, as many labels as edges, and at least two test edges. *)
Theorem C87_accepts :
  forall m v xs ys ts yt, sound m v ->
  ((exists r, predict exp pow softplus m xs ys ts yt = Ok r) <->
    List.Forall (in_range (k_rows (m_kernel m))) (xs ++ ts) /\ size ys = size xs /\ size yt = size ts /\ (2 <= size ts)%N) /\
  (~ List.Forall (in_range (k_rows (m_kernel m))) (xs ++ ts) -> predict exp pow softplus m xs ys ts yt = Raise IndexError) /\
  (List.Forall (in_range (k_rows (m_kernel m))) (xs ++ ts) ->
    (size ys <> size xs -> predict exp pow softplus m xs ys ts yt = Raise RuntimeError) /\
    (size ys = size xs -> size yt = size ts -> (size ts <= 1)%N -> predict exp pow softplus m xs ys ts yt = Raise ValueError) /\
    (size ys = size xs -> size yt <> size ts -> predict exp pow softplus m xs ys ts yt =
       Raise (if (size yt == 1%N) || (size ts == 1%N) then ValueError else RuntimeError))).
Proof.
move=> m v xs ys ts yt S; have [rd [ps [f _]]] := S.
set D := List.Forall _ _.
have Dd : D \/ ~ D.
  case: (List.Forall_dec (in_range (k_rows (m_kernel m))) _ (xs ++ ts)) => [z|h|h]; [|by left|by right].
  by rewrite /in_range; case: (Z_le_dec (- Z.of_nat (k_rows (m_kernel m))) z) => h1; [case: (Z_lt_dec z (Z.of_nat (k_rows (m_kernel m)))) => h2|];
      [left|right=> -[]|right=> -[]].
have out : ~ D -> predict exp pow softplus m xs ys ts yt = Raise IndexError.
  move=> nd; rewrite /predict /posterior /model_forward.
  by rewrite (proj2 (C61_entries exp pow (xs ++ ts) (xs ++ ts) rd ps f)) // => /List.Forall_app[].
have lab : D -> size ys <> size xs -> predict exp pow softplus m xs ys ts yt = Raise RuntimeError.
  by move=> d /eqP ne; rewrite /predict /posterior (model_forwardE S d) /= ne.
have few : D -> size ys = size xs -> size yt = size ts -> (size ts <= 1)%N -> predict exp pow softplus m xs ys ts yt = Raise ValueError.
  move=> d sy st le; rewrite /predict (posteriorE S d sy) /= size_unvec st eqxx /= /r2_score size_unvec st eqxx /=.
  by rewrite ltnS le.
have oth : D -> size ys = size xs -> size yt <> size ts -> predict exp pow softplus m xs ys ts yt =
    Raise (if (size yt == 1%N) || (size ts == 1%N) then ValueError else RuntimeError).
  move=> d sy /eqP ne; rewrite /predict (posteriorE S d sy) /= size_unvec ne /r2_score size_unvec ne /=.
  by case: (size yt == 1%N) => //=; case: (size ts == 1%N).
split; last by split=> // d; split; [exact: lab|split; [exact: few|exact: oth]].
split=> [[r e]|[d [sy [st l2]]]].
  case: Dd => [d|nd]; last by rewrite (out nd) in e.
  split=> //; case: (size ys =P size xs) => [sy|ne]; last by rewrite (lab d ne) in e.
  split=> //; move: e; rewrite /predict (posteriorE S d sy) /= size_unvec /r2_score size_unvec.
  case: ifP => // _; case: eqP => //= st; case: ifP => // l2 _; split=> //.
  by rewrite ltnNge -ltnS l2.
rewrite /predict (posteriorE S d sy) /= size_unvec st eqxx /= /r2_score size_unvec st eqxx /= ltnNge l2 /=.
by case: ifP => _ /=; eexists.
Qed.

Lemma averageE (y : seq R) : tmean y = average y.
Proof. by rewrite /tmean /average (big_nth 0) big_mkord. Qed.

(** The distribution returned is the predictive one with the noise; MAE and MSE are the average absolute and
    squared error of its mean, and what is printed as R2 is the coefficient of determination of the labels
    as predictions of the mean (not a number if the mean is constant). *)
Theorem C87_metrics :
  forall m xs ys ts yt Q M, predict exp pow softplus m xs ys ts yt = Ok (Q, M) ->
  exists P, posterior exp pow softplus m xs ys ts = Ok P /\ Q = observed (m_noise m) P /\
  let p := p_mean Q in size p = size yt /\
  r_mae M = average [seq `|d.1 - d.2| | d <- zip p yt] /\
  r_mse M = average [seq (d.1 - d.2) ^+ 2 | d <- zip p yt] /\
  r_mae M ^+ 2 <= r_mse M /\ (r_mse M = 0 <-> p = yt) /\
  ((forall x, x \in p -> x = average p) -> r_r2 M = None) /\
  ((exists2 x, x \in p & x <> average p) -> r_r2 M = Some (determination p yt)).
Proof.
move=> m xs ys ts yt Q M; rewrite /predict; case: (posterior _ _ _ _ _ _ _) => //= P.
case: ifP => // _; rewrite /r2_score; case: eqP => //= st; case: ifP => // l2.
set p := p_mean P in st l2 *; move=> e.
have n0 : (0 < (size yt)%:R :> R) by rewrite ltr0n st; move: l2; case: (size p).
have zE (g : R * R -> R) : average [seq g d | d <- zip p yt] = (\sum_(i < size yt) g (p`_i, yt`_i)) / (size yt)%:R.
  rewrite /average size_map size_zip st minnn (big_nth 0) big_mkord size_map size_zip st minnn; congr (_ / _).
  by apply: eq_bigr => i _; rewrite (nth_map (0, 0)) ?size_zip ?st ?minnn // nth_zip.
have [eQ eM] : Q = observed (m_noise m) P /\ M = mkMetrics (metric_mae (observed (m_noise m) P) yt) (metric_mse (observed (m_noise m) P) yt)
     (if sum_dev p == 0 then None else Some (1 - sum_sq p yt / sum_dev p)) by move: e; case: ifP => _ /= [<- <-].
exists P; split=> //; split=> //; rewrite eQ eM /= -/p; split=> //.
have mae : metric_mae (observed (m_noise m) P) yt = average [seq `|d.1 - d.2| | d <- zip p yt] by rewrite zE.
have mse : metric_mse (observed (m_noise m) P) yt = average [seq (d.1 - d.2) ^+ 2 | d <- zip p yt].
  by rewrite zE /metric_mse /sum_sq /= -/p -st.
split=> //; split=> //; split.
  rewrite mae mse !zE /= expr_div_n ler_pdivr_mulr ?exprn_gt0 // expr2 mulrA divfK ?gt_eqF //.
  pose u : 'cV[R]_(size yt) := \col_i `|p`_i - yt`_i|; pose w : 'cV[R]_(size yt) := \col_i 1.
  have := cauchy_schwarz u w.
  have -> : dot u w = \sum_(i < size yt) `|p`_i - yt`_i| by apply: eq_bigr => i _; rewrite !mxE mulr1.
  have -> : nrm2 u = \sum_(i < size yt) (p`_i - yt`_i) ^+ 2.
    by apply: eq_bigr => i _; rewrite !mxE -normrM ger0_norm ?sqr_ge0 // -expr2 ?sqr_ge0.
  have -> : nrm2 w = (size yt)%:R.
    rewrite /nrm2 /dot; under eq_bigr => i _ do rewrite !mxE mulr1.
    by rewrite sumr_const card_ord.
  by rewrite expr2.
have sq0 : sum_sq p yt = 0 <-> p = yt.
  split=> [z|->]; last by rewrite /sum_sq big1 // => i _; rewrite subrr expr0n.
  apply: (@eq_from_nth _ 0) => // i hi.
  have := psumr_eq0P (fun i _ => sqr_ge0 _) z => /(_ (Ordinal hi) isT) /eqP.
  by rewrite sqrf_eq0 subr_eq0 => /eqP.
split.
  rewrite /metric_mse /= -/p -sq0; split=> [/eqP|->]; last by rewrite mul0r.
  by rewrite mulf_eq0 invr_eq0 (gt_eqF n0) orbF => /eqP.
have dE : sum_dev p = \sum_(x <- p) (x - average p) ^+ 2 by rewrite /sum_dev averageE (big_nth 0) big_mkord.
split=> [c|[x hx nx]].
  by rewrite dE big_seq big1 ?eqxx // => x /c->; rewrite subrr expr0n.
case: eqP => [z|_]; last by rewrite dE /determination.
case: nx; move: z; rewrite dE => /eqP; rewrite psumr_eq0 => [|y _]; last exact: sqr_ge0.
by move/allP/(_ x hx); rewrite sqrf_eq0 subr_eq0 => /eqP.
Qed.

(** So the printed R2 is the coefficient of determination only for perfect predictions or when labels and
    predictions have the same spread. *)
Theorem C87_r2_coincides :
  forall (y p : seq R), size y = size p ->
  (exists2 x, x \in p & x <> average p) -> (exists2 x, x \in y & x <> average y) ->
  (determination p y = determination y p <->
   p = y \/ \sum_(x <- p) (x - average p) ^+ 2 = \sum_(x <- y) (x - average y) ^+ 2).
Proof.
have pos (q : seq R) : (exists2 x, x \in q & x <> average q) -> \sum_(x <- q) (x - average q) ^+ 2 != 0.
  case=> x hx nx; apply/eqP=> /eqP; rewrite psumr_eq0 => [|y _]; last exact: sqr_ge0.
  by move/allP/(_ x hx); rewrite sqrf_eq0 subr_eq0 => /eqP.
move=> y p sz /pos hp /pos hy; rewrite /determination.
set A := \sum_(x <- p) _ in hp *; set B := \sum_(x <- y) _ in hy *.
have -> : \sum_(i < size p) (p`_i - y`_i) ^+ 2 = \sum_(i < size y) (y`_i - p`_i) ^+ 2.
  by rewrite sz; apply: eq_bigr => i _; rewrite -sqrrN opprB.
set E := \sum_(i < _) _.
split=> [e|[e|->//]]; last by rewrite /E e big1 ?mul0r // => i _; rewrite subrr expr0n.
have {}e : E / A = E / B by apply: oppr_inj; apply: (addrI 1).
case: (eqVneq E 0) => [z|nz].
  left; apply: (@eq_from_nth _ 0) => // i hi; rewrite -sz in hi.
  have := psumr_eq0P (fun i _ => sqr_ge0 _) z => /(_ (Ordinal hi) isT) /eqP.
  by rewrite sqrf_eq0 subr_eq0 => /eqP/esym.
by right; apply: invr_inj; apply: (mulfI nz).
Qed.

End Predict.

Print Assumptions C87_predictive.
Print Assumptions C87_determined.
Print Assumptions C87_covariance.
Print Assumptions C87_best.
Print Assumptions C87_span.
Print Assumptions C87_accepts.
Print Assumptions C87_metrics.
Print Assumptions C87_r2_coincides.

(** ** Example: one training edge, two test edges, only the first of which is correlated with it *)

Section Example.
Variable R : rcfType.
Add Field R_field88 : (mc_field R).

Definition model_ex : gpmodel R := new_model (new_kernel DiffusionNonHC 3 [:: (0, [:: 1; 1; 0])] [::] [::]) 1 (Some "zero"%string).

Lemma grow0 : @grow R 0 = 1. Proof. by rewrite /grow lexx addr0. Qed.

Lemma model_ex_sound : sound (@grow R) model_ex (fun _ => 1).
Proof.
split; [|split; [|split]].
- by move=> s h; rewrite -grow0; apply: (proj1 (proj1 (C77_hyperparameters (@grow_contract R)) DiffusionNonHC 3%N _ _ _)).
- by move=> s _; exact: ltr01.
- by split=> [q|]; [rewrite inE => /eqP->|split].
- exact: ltr01.
Qed.

Lemma model_ex_range : List.Forall (in_range (k_rows (m_kernel model_ex))) ([:: 0]%zz ++ [:: 1; 2]%zz).
Proof. by repeat constructor; rewrite /in_range /=; lia. Qed.

Lemma model_ex_prior : let k := prior (@grow R) (@pow_ex R) (@grow R) model_ex (fun _ => 1) in
  k 0%zz 0%zz = 1 /\ k 1%zz 0%zz = 1 /\ k 2%zz 0%zz = 0 /\ constant model_ex = 0.
Proof.
rewrite /prior /=.
have [w0 [w1 w2]] : wrap 3 0 = 0%N /\ wrap 3 1 = 1%N /\ wrap 3 2 = 2%N by [].
rewrite w0 w1 w2 /covariance /mixture !big_nil !big_cons !big_nil /= oppr0 grow0.
by rewrite !(mulr1, mulr0, mul0r, addr0).
Qed.

Lemma model_ex_predict : exists Q M,
  predict (@grow R) (@pow_ex R) (@grow R) model_ex [:: 0]%zz [:: 2%:R] [:: 1; 2]%zz [:: 3%:R; 0] = Ok (Q, M) /\
  p_mean Q = [:: 1; 0] /\ r_r2 M = Some (- 7%:R) /\ determination [:: 3%:R; 0] (p_mean Q) = 9%:R^-1.
Proof.
have [k00 [k10 [k20 c0]]] := model_ex_prior.
have S := model_ex_sound; have D := model_ex_range.
have ok : List.Forall (in_range (k_rows (m_kernel model_ex))) ([:: 0]%zz ++ [:: 1; 2]%zz) /\ size [:: 2%:R : R] = size [:: 0]%zz
  /\ size [:: 3%:R : R; 0] = size [:: 1; 2]%zz /\ (2 <= size [:: 1; 2]%zz)%N by [].
case: (proj2 (proj1 (C87_accepts (@grow_gt0 R) (@pow_ex_contract R) (@grow_gt0 R) _ _ _ _ S)) ok) => -[Q M] e.
exists Q, M; split=> //.
case: (C87_metrics e) => P [eP [eQ [sz [_ [_ [_ [_ [_ r2]]]]]]]].
case: (C87_predictive (@grow_gt0 R) (@pow_ex_contract R) (@grow_gt0 R) S D (erefl : size [:: 2%:R : R] = size [:: 0]%zz)) => P'.
rewrite eP => -[] [<-] [sP [_ [[a [[sa ha] hm]] _]]].
have a0 : a`_0 = 1.
  have := ha 0%N isT; rewrite big_ord_recl big_ord0 /= k00 c0 !mul1r addr0 subr0.
  move=> h; apply: (@mulfI _ 2%:R); first by rewrite pnatr_eq0.
  by rewrite mulr1 -[RHS]h mulr_natl mulr2n.
have pm : p_mean Q = [:: 1; 0].
  rewrite eQ /=; apply: (@eq_from_nth _ 0); first by rewrite sP.
  rewrite sP => -[|[|]] //= _; rewrite hm //= c0 add0r /combine big_ord_recl big_ord0 /= a0 addr0 mulr1.
    exact: k10.
  exact: k20.
split=> //.
have n2 : (2%:R : R) != 0 by rewrite pnatr_eq0.
have n9 : (9%:R : R) != 0 by rewrite pnatr_eq0.
have av (x : R) : average [:: x; 0] = x / 2%:R by rewrite /average !big_cons big_nil !addr0.
have dv (x : R) : \sum_(z <- [:: x; 0]) (z - average [:: x; 0]) ^+ 2 = x ^+ 2 / 2%:R.
  rewrite av !big_cons big_nil; move/eqP: n2; rewrite -[2%:R]/(1 + 1) => n2'; to_r R; field.
  exact: n2'.
have dt (x y : R) : x != 0 -> determination [:: x; 0] [:: y; 0] = 1 - (x - y) ^+ 2 * 2%:R / x ^+ 2.
  by move=> x0; rewrite /determination dv !big_ord_recl big_ord0 /= subrr expr0n /= !addr0 invfM invrK mulrA mulrAC.
rewrite pm !dt ?pnatr_eq0 ?oner_eq0 //.
have e4 : (1 - 3%:R : R) ^+ 2 = 4%:R by rewrite -[3%:R]/(1 + 2%:R) opprD addrA subrr add0r sqrrN -natrX.
have e4' : (3%:R - 1 : R) ^+ 2 = 4%:R by rewrite -[3%:R]/(1 + 2%:R) addrC addKr -natrX.
split.
  rewrite r2 ?pm.
    by rewrite dt ?oner_eq0 // e4 expr1n divr1 -natrM -[(4 * 2)%N]/(1 + 7)%N natrD opprD addrA subrr add0r.
  exists 0; first by rewrite !inE eqxx orbT.
  by rewrite av mul1r => /esym/eqP; rewrite invr_eq0 (negPf n2).
rewrite e4' -natrM -natrX -[(3 ^ 2)%N]/9%N -[(4 * 2)%N]/8%N -[X in X - _](@divff _ 9%:R) // -mulrBl -natrB //.
by rewrite div1r.
Qed.

(** The hypotheses of the theorems above hold of it, also with all three edges as test edges and the flow
    [1; -1; 0]. *)
Example C87_example :
  exp_contract (@grow R) /\ pow_contract (@pow_ex R) /\ (forall x, 0 < @grow R x) /\ sound (@grow R) model_ex (fun _ => 1) /\
  List.Forall (in_range (k_rows (m_kernel model_ex))) ([:: 0]%zz ++ [:: 1; 2]%zz) /\
  (forall p, p \in k_harm (m_kernel model_ex) ++ k_grad (m_kernel model_ex) ++ k_curl (m_kernel model_ex) ->
     \sum_(i < 3) [:: 1; -1; 0]`_i * p.2`_i = 0) /\
  exists Q M, predict (@grow R) (@pow_ex R) (@grow R) model_ex [:: 0]%zz [:: 2%:R] [:: 1; 2]%zz [:: 3%:R; 0] = Ok (Q, M).
Proof.
split; first exact: grow_gt0. split; first exact: pow_ex_contract. split; first exact: grow_gt0.
split; first exact: model_ex_sound. split; first exact: model_ex_range.
split; last by case: model_ex_predict => Q [M [e _]]; exists Q, M.
move=> p; rewrite inE => /eqP->; rewrite !big_ord_recl big_ord0 /=.
by rewrite !mulr1 mulr0 !addr0 subrr.
Qed.

End Example.

From mathcomp Require Import all_real_closed.

(** False: that the R2 printed by predict is the coefficient of determination of its predictions.  Here it is
    1/9, and -7 is printed. *)
Theorem C87_r2_refuted :
  exists (R : rcfType) (exp : R -> R) (pow : R -> R -> R) (softplus : R -> R) (m : gpmodel R) (v : string -> R) xs ys ts yt Q M,
  exp_contract exp /\ pow_contract pow /\ (forall x, 0 < softplus x) /\ sound softplus m v /\
  predict exp pow softplus m xs ys ts yt = Ok (Q, M) /\
  determination yt (p_mean Q) = 9%:R^-1 /\ r_r2 M = Some (- 7%:R).
Proof.
pose R := realalg_rcfType.
exists R, (@grow R), (@pow_ex R), (@grow R), (model_ex R), (fun _ => 1), [:: 0]%zz, [:: 2%:R], [:: 1; 2]%zz, [:: 3%:R; 0].
case: (model_ex_predict R) => Q [M [e [_ [r d]]]]; exists Q, M.
split; first exact: grow_gt0. split; first exact: pow_ex_contract. split; first exact: grow_gt0.
by split; first exact: model_ex_sound.
Qed.

Print Assumptions C87_r2_refuted.
