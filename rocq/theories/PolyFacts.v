(** * Facts about polynomial filters *)

From Coq Require Import ZArith String List.
From mathcomp Require Import all_ssreflect all_algebra ssrZ zify.
From Verif Require Import Py PyFacts Complex ComplexSpec ComplexFacts LinAlg Spectral Signal SignalSpec
  Bridge SignalFacts Eigen EigenSpec IntEigen EigenFacts Filter FilterSpec FilterFacts FilterFacts2.

Set Implicit Arguments.
Unset Strict Implicit.
Unset Printing Implicit Defensive.

Import GRing.Theory Num.Theory Order.Theory.
Local Open Scope ring_scope.

Lemma bindOk A B (x : A) (k : A -> res B) : bind (Ok x) k = k x. Proof. by []. Qed.
Lemma to_arrC A : to_arr (Csr A) = Ok A. Proof. by []. Qed.

Section Poly.
Variable R : rcfType.

Lemma mpowS n (P : 'M[R]_n) k : mpow P k.+1 = P *m mpow P k. Proof. by []. Qed.
Lemma mpowSr n (P : 'M[R]_n) k : mpow P k.+1 = mpow P k *m P.
Proof.
elim: k => [|k IH]; first by rewrite mpowS /= mul1mx mulmx1.
by rewrite mpowS {1}IH mulmxA -mpowS.
Qed.
Lemma mpow_sym n (P : 'M[R]_n) k : P^T = P -> (mpow P k)^T = mpow P k.
Proof.
move=> s; elim: k => [|k IH]; first by rewrite trmx1.
by rewrite mpowSr trmx_mul s IH -mpowS mpowSr.
Qed.
Lemma mpow_eigen n (P : 'M[R]_n) k (u : 'cV[R]_n) lam : P *m u = lam *: u -> mpow P k *m u = lam ^+ k *: u.
Proof.
move=> e; elim: k => [|k IH]; first by rewrite mul1mx scale1r.
by rewrite mpowS -mulmxA IH -scalemxAr e scalerA -exprSr.
Qed.
Lemma mpow_intertwine n m (P : 'M[R]_n) (Q : 'M[R]_m) (B : 'M[R]_(n, m)) k :
  P *m B = B *m Q -> mpow P k *m B = B *m mpow Q k.
Proof.
move=> e; elim: k => [|k IH]; first by rewrite mul1mx mulmx1.
by rewrite !mpowS -mulmxA IH !mulmxA e.
Qed.

Variables (n L : nat) (P : 'M[R]_n) (h : 'cV[R]_L).

Lemma poly_filter_mul m (B : 'M[R]_(n, m)) : poly_filter P h *m B = \sum_(i < L) h i 0 *: (mpow P i *m B).
Proof. by rewrite mulmx_suml; apply: eq_bigr => i _; rewrite scalemxAl. Qed.

Lemma poly_filter_sym : P^T = P -> (poly_filter P h)^T = poly_filter P h.
Proof.
move=> s; rewrite /poly_filter linear_sum /=; apply: eq_bigr => i _.
by rewrite linearZ /= mpow_sym.
Qed.

Lemma poly_filter_intertwine m (Q : 'M[R]_m) (B : 'M[R]_(n, m)) : P *m B = B *m Q ->
  poly_filter P h *m B = B *m poly_filter Q h.
Proof.
move=> e; rewrite poly_filter_mul mulmx_sumr; apply: eq_bigr => i _.
by rewrite -scalemxAr (mpow_intertwine _ e).
Qed.

Lemma poly_atE lam : poly_at (unvec h) lam = \sum_(i < L) h i 0 * lam ^+ i.
Proof.
rewrite /poly_at size_unvec; apply: eq_bigr => i _.
by rewrite nth_unvec.
Qed.

Lemma poly_filter_eigen (u : 'cV[R]_n) lam : P *m u = lam *: u ->
  poly_filter P h *m u = poly_at (unvec h) lam *: u.
Proof.
move=> e; rewrite poly_filter_mul poly_atE scaler_suml; apply: eq_bigr => i _.
by rewrite (mpow_eigen _ e) scalerA.
Qed.

Lemma poly_filter_response (u : 'cV[R]_n) lam : P *m u = lam *: u -> dot u u = 1 ->
  (u^T *m poly_filter P h *m u) 0 0 = poly_at (unvec h) lam.
Proof.
move=> e u1; rewrite -mulmxA (poly_filter_eigen e) -scalemxAr mxE.
by rewrite -dotE u1 mulr1.
Qed.
End Poly.

Section PolyMv.
Variable R : rcfType.
Variables (A : arr2) (n : nat).
Hypotheses (h0 : n = sh0 A) (h1 : n = sh1 A).
Notation P := (toM R n n A).

Lemma mv_powE k (x : seq R) : size x = n -> mv_pow A k x = unvec (mpow P k *m vec n x).
Proof.
move=> sx; elim: k => [|k IH]; first by rewrite /mv_pow /= mul1mx vecK.
by rewrite /mv_pow iterS -/(mv_pow A k x) IH (mvE _ h0 h1) unvecK mpowS mulmxA.
Qed.

Lemma poly_mvE L (h : 'cV[R]_L) (x : seq R) : size x = n ->
  poly_mv A (unvec h) x = unvec (poly_filter P h *m vec n x).
Proof.
move=> sx; apply: (@eq_from_nth _ 0); first by rewrite size_mkseq size_unvec.
rewrite size_mkseq -h0 => i im; rewrite nth_mkseq -?h0 // -[i]/(val (Ordinal im)) nth_unvec poly_filter_mul summxE size_unvec.
apply: eq_bigr => k _.
by rewrite nth_unvec mv_powE // nth_unvec [in RHS]mxE.
Qed.
End PolyMv.

(** ** The coefficients *)
Section Coefs.
Variable R : rcfType.
Variable lstsq : forall m n, 'M[R]_(m, n) -> 'cV[R]_m -> 'cV[R]_n.
Variables (ev alpha : seq R) (L : nat).
Notation S k := (system_mat ev L k).
Definition coefs (k : nat) : 'cV[R]_L := lstsq (S k) (vec (size ev) alpha).

Lemma system_mulE k (g : 'cV[R]_L) i : (forall j : 'I_L, (k < j)%N -> g j 0 = 0) ->
  (S k *m g) i 0 = poly_at (unvec g) ev`_i.
Proof.
move=> gz; rewrite poly_atE mxE; apply: eq_bigr => j _; rewrite mxE mulrC.
by case: leqP => // kj; rewrite gz ?mul0r.
Qed.

Lemma misfitE k (g : 'cV[R]_L) : (forall j : 'I_L, (k < j)%N -> g j 0 = 0) ->
  misfit ev alpha (unvec g) = nrm2 (vec (size ev) alpha - S k *m g).
Proof.
move=> gz; rewrite /misfit /nrm2 /dot; apply: eq_bigr => i _.
by rewrite mxE [(- (S k *m g)) i 0]mxE system_mulE // mxE expr2.
Qed.

(** Columns of zeros leave the least-norm solution zero. *)
Lemma coefs_zero : lstsq_min_contract lstsq -> forall k (j : 'I_L), (k < j)%N -> coefs k j 0 = 0.
Proof.
move=> [_ mn] k j kj; set h := coefs k.
pose h' : 'cV[R]_L := \col_i if (i <= k)%N then h i 0 else 0.
have e : S k *m h' = S k *m h.
  apply/colP => i; rewrite !mxE; apply: eq_bigr => a _; rewrite !mxE.
  by case: ifP => // _; rewrite !mul0r.
have := mn _ _ (S k) (vec (size ev) alpha) h'; rewrite e lexx -/h => /(_ isT).
have -> : nrm2 h = nrm2 h' + \sum_(i < L | ~~ (i <= k)%N) h i 0 ^+ 2.
  rewrite /nrm2 /dot (bigID (fun i : 'I_L => (i <= k)%N)) /= [in RHS](bigID (fun i : 'I_L => (i <= k)%N)) /=.
  rewrite [X in _ = _ + X + _]big1 ?addr0 => [|i ik]; last by rewrite mxE (negbTE ik) mul0r.
  by congr (_ + _); apply: eq_bigr => i ik; rewrite ?mxE ?ik ?expr2.
rewrite ger_addl => le; have : \sum_(i < L | ~~ (i <= k)%N) h i 0 ^+ 2 = 0.
  by apply/eqP; rewrite eq_le le sumr_ge0 // => i _; rewrite sqr_ge0.
move/eqP; rewrite psumr_eq0 => [|i _]; last by rewrite sqr_ge0.
move/allP => /(_ j (mem_index_enum _)); rewrite -ltnNge kj /= sqrf_eq0.
by move/eqP.
Qed.

Lemma coefs_fit k : lstsq_min_contract lstsq -> best_fit L k ev alpha (unvec (coefs k)).
Proof.
move=> C; have Z := coefs_zero C; split; first by rewrite size_unvec.
split=> [j kj|g sg gz].
  case: (ltnP j L) => jL; first by rewrite -[j]/(val (Ordinal jL)) nth_unvec Z.
  by rewrite nth_default // size_unvec.
rewrite -(vecK sg) (misfitE (k := k)) ?(misfitE (k := k)) //.
- by have [le _] := C; exact: le.
- by move=> j kj; rewrite mxE gz.
exact: Z.
Qed.
End Coefs.

(** ** Runs *)
Section Collect.
Variable R : rcfType.
Lemma collect_rcons (A : Type) n (D : A -> 'M[R]_n * seq R * seq R * fl R) ms m :
  exists r, collect [seq D m | m <- rcons ms m] = Ok r /\
    run_estimated r = (D m).1.1.2 /\ run_filter r = rows (D m).1.1.1 /\
    run_responses r = [seq (D m).1.2 | m <- rcons ms m] /\ run_errors r = [seq (D m).2 | m <- rcons ms m].
Proof.
have lE : last (D m) [seq D m | m <- rcons ms m] = D m by rewrite map_rcons last_rcons.
have -> : [seq (D m).1.2 | m <- rcons ms m] = [seq x.1.2 | x <- [seq D m | m <- rcons ms m]] by rewrite -map_comp.
have -> : [seq (D m).2 | m <- rcons ms m] = [seq x.2 | x <- [seq D m | m <- rcons ms m]] by rewrite -map_comp.
have : (0 < size [seq D m | m <- rcons ms m])%N by rewrite size_map size_rcons.
case: [seq D m | m <- rcons ms m] lE => // s rest lE _; rewrite /collect.
move: lE => /= ->; case: (D m) => [[[a b] c] d]; eexists; split; first by [].
by [].
Qed.
End Collect.

Section Run.
Variable R : rcfType.
Variable lstsq : forall m n, 'M[R]_(m, n) -> 'cV[R]_m -> 'cV[R]_n.
Variables (A : arr2) (l : seq (R * 'cV[R]_(sh0 A))) (f t ev alpha : seq R).
Notation n := (sh0 A).
Notation P := (toM R n n A).
Hypotheses (sA : sh0 A = sh1 A) (sf : size f = n) (st : size t = n) (sa : size alpha = size ev).

Definition pstep L k : 'M[R]_n * seq R * seq R * fl R :=
  let h := coefs lstsq ev alpha L k in
  (poly_filter P h, poly_mv A (unvec h) f, diag_response (poly_filter P h) (up (zeroed l)),
   nrmse (poly_mv A (unvec h) f) t).

Lemma filter_stepE L k :
  filter_step lstsq A (up (zeroed l)) f t ev alpha L k = Ok (pstep L k).
Proof.
rewrite /filter_step sa eqxx /= /mat_dot sf eqxx /= -/(coefs lstsq ev alpha L k).
rewrite -(poly_mvE erefl sA _ sf) nrmseE // st /poly_mv size_mkseq //.
Qed.

Lemma apply_filterE m : apply_filter lstsq A (up (zeroed l)) f t ev alpha (Z.of_nat m) =
  collect [seq pstep m k | k <- iota 0 m].
Proof.
rewrite /apply_filter; case: Z.ltb_spec => [|_]; first by lia.
rewrite Nat2Z.id; suff -> : forall s, mapM (filter_step lstsq A (up (zeroed l)) f t ev alpha m) s =
  Ok [seq pstep m k | k <- s] by [].
by elim=> //= k s IH; rewrite filter_stepE /= IH.
Qed.
End Run.

(** ** Grids *)
Section Grid.
Variable R : rcfType.
Lemma linspace_grid (b : R) num xs : linspace 0 b num = Ok xs -> xs = even_grid b (Z.to_nat num).
Proof.
rewrite /linspace; case: ifP => // _ [<-]; rewrite /even_grid.
apply/eq_in_map => i; rewrite mem_iota add0n => /andP[_ il].
case: eqP => [e|_]; last by rewrite subr0 add0r mulrCA mulrA.
by move: il; rewrite e; case: i => // _; rewrite mulr0 mul0r.
Qed.

Lemma response_hpE (mu : R) xs g : mapM (frequency_response_hp mu) xs = Ok g ->
  g = [seq 1 / (1 + mu * x) | x <- xs] /\ forall x, x \in xs -> 1 + mu * x != 0.
Proof.
elim: xs g => [|x xs IH] g /=; first by case=> <-.
rewrite {1}/frequency_response_hp; case: ifP => //= nz; case e : (mapM _ _) => [ys|] //= [<-].
have [-> h] := IH _ e; split=> // y; rewrite inE => /orP[/eqP ->|]; last exact: h.
by rewrite nz.
Qed.
End Grid.

(** ** Interpolation *)
Section Interp.
Variable R : rcfType.
Lemma interp (xs ys : seq R) : uniq xs -> size ys = size xs ->
  exists p : {poly R}, (size p <= size xs)%N /\ forall i, (i < size xs)%N -> p.[xs`_i] = ys`_i.
Proof.
elim: xs ys => [|x xs IH] [|y ys] //= => [_ _|/andP[xn u] [s]]; first by exists 0; rewrite size_poly0.
have [p [sp hp]] := IH ys u s.
pose w := \prod_(z <- xs) ('X - z%:P).
have wx : w.[x] != 0.
  rewrite /w horner_prod prodf_seq_neq0; apply/allP => z zx /=.
  by rewrite hornerXsubC subr_eq0; apply: contraNneq xn => ->.
exists (p + ((y - p.[x]) / w.[x]) *: w); split.
  apply: leq_trans (size_add _ _) _; rewrite geq_max (leq_trans sp) //=.
  by apply: leq_trans (size_scale_leq _ _) _; rewrite size_prod_XsubC.
case=> [_|i il] /=; rewrite hornerD hornerZ; first by rewrite mulfVK // addrC subrK.
have /rootP -> : root w xs`_i by rewrite root_prod_XsubC mem_nth.
by rewrite mulr0 addr0 hp.
Qed.

Lemma interp_seq L (xs ys : seq R) : uniq xs -> size ys = size xs -> (size xs <= L)%N ->
  exists g, size g = L /\ misfit xs ys g = 0.
Proof.
move=> u s le; have [p [sp hp]] := interp u s.
exists (mkseq (fun i => p`_i) L); rewrite size_mkseq; split=> //.
apply: big1 => i _; rewrite /poly_at size_mkseq.
suff -> : \sum_(k < L) (mkseq (fun j => p`_j) L)`_k * xs`_i ^+ k = p.[xs`_i].
  by rewrite hp // subrr expr0n.
rewrite (horner_coef_wide _ (leq_trans sp le)); apply: eq_bigr => k _.
by rewrite nth_mkseq.
Qed.

Lemma misfit0 (xs ys g : seq R) : misfit xs ys g = 0 ->
  forall i, (i < size xs)%N -> poly_at g xs`_i = ys`_i.
Proof.
move=> /eqP; rewrite psumr_eq0 => [|i _]; last by rewrite sqr_ge0.
move=> /allP h i il; have := h (Ordinal il) (mem_index_enum _).
by rewrite /= sqrf_eq0 subr_eq0 => /eqP ->.
Qed.

(** A best fit with enough coefficients hits its targets. *)
Lemma best_fit_exact L (xs ys h : seq R) : uniq xs -> size ys = size xs -> (size xs <= L)%N ->
  (0 < L)%N -> best_fit L L.-1 xs ys h -> forall i, (i < size xs)%N -> poly_at h xs`_i = ys`_i.
Proof.
move=> u s le L0 [sh [_ bf]]; apply: misfit0.
have [g [sg g0]] := interp_seq u s le.
apply/eqP; rewrite eq_le -{1}g0 bf //; last first.
  by move=> j; rewrite (prednK L0) => jL; rewrite nth_default // sg.
by apply: sumr_ge0 => i _; rewrite sqr_ge0.
Qed.
End Interp.

(** ** Polynomials that are projectors *)
Section PolyProj.
Variable R : rcfType.
Variables (n m L : nat) (B : 'M[R]_(n, m)) (l : seq (R * 'cV[R]_n)) (h : 'cV[R]_L).
Hypothesis F : eigfam (B *m B^T) l.

Lemma poly_proj : (forall p, p \in l -> poly_at (unvec h) p.1 = (p.1 != 0)%:R) ->
  poly_filter (B *m B^T) h = proj B.
Proof.
move=> hl; have /eigfamP[s [o e]] := F.
rewrite -[LHS]mulmx1 -(onf_complete o) ?size_map // -(gram_sel_proj (P := fun x => x != 0) F).
- rewrite /outer /sel mulmx_sumr !big_map big_filter [RHS]big_mkcond; apply: eq_big_seq => p pl /=.
  by rewrite mulmxA (poly_filter_eigen h (e _ pl)) hl //; case: ifP => _; rewrite ?scale1r ?scale0r ?mul0mx.
- by rewrite eqxx.
by move=> p _; rewrite orNb.
Qed.
End PolyProj.

Section Detect.
Variable R : rcfType.
Variables (n : nat) (P : 'M[R]_n) (l : seq (R * 'cV[R]_n)).
Hypotheses (F : eigfam P l) (sP : P^T = P).
Lemma eigfam_detect (x : 'cV[R]_n) lam : x != 0 -> P *m x = lam *: x -> exists2 p, p \in l & p.1 = lam.
Proof.
move=> x0 e; have /eigfamP[s [o el]] := F.
have /hasP[p pl d0] : has (fun p => dot p.2 x != 0) l.
  apply: contraNT x0; rewrite -all_predC => /allP z.
  rewrite -[x]mul1mx -(onf_complete o) ?size_map // outer_mulE big_map big1_seq // => p /andP[_ pl].
  by have := z p pl; rewrite /= negbK => /eqP ->; rewrite scale0r.
exists p => //; apply/eqP; rewrite -subr_eq0; apply/eqP.
apply: (mulIf d0); rewrite mul0r mulrBl -dotZl -el // -dotZr -e.
by rewrite [dot (P *m _) _]dot_mulmx sP subrr.
Qed.
End Detect.
