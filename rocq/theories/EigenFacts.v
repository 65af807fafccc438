(** * Facts about the spectral model *)

From Coq Require Import ZArith String List.
From mathcomp Require Import all_ssreflect all_algebra ssrZ zify.
From Verif Require Import Py PyFacts Complex ComplexSpec ComplexFacts LinAlg Spectral Signal SignalSpec Bridge
  SignalFacts Eigen EigenSpec IntEigen.

Set Implicit Arguments.
Unset Strict Implicit.
Unset Printing Implicit Defensive.

Import GRing.Theory Num.Theory Order.Theory.
Local Open Scope ring_scope.

Section Generic.
Variable R : realFieldType.
Implicit Types (A : 'M[R]_1).

Lemma eps64_gt0 : 0 < eps64 R.
Proof. by rewrite invr_gt0 exprn_gt0 // ltr0n. Qed.
Lemma eps64_milli : eps64 R <= milli R.
Proof.
rewrite lef_pinv ?posrE ?exprn_gt0 ?ltr0n // -natrX ler_nat.
by apply: (@leq_trans (2 ^ 10)); rewrite // leq_exp2l.
Qed.

Lemma onf_nth n (l : seq 'cV[R]_n) :
  (forall i j, (i < size l)%N -> (j < size l)%N -> dot l`_i l`_j = (i == j)%:R) -> onf l.
Proof.
move=> H; have U : uniq l.
  apply/(uniqP 0) => i j il jl E; apply/eqP; have := H i j il jl.
  by rewrite E H // eqxx => /eqP; rewrite eq_sym pnatr_eq1 eqb1.
apply/onfP; split=> // x y /(nthP 0)[i il <-] /(nthP 0)[j jl <-].
by rewrite H // nth_uniq.
Qed.

Variable eigsh : forall n, 'M[R]_n -> seq (R * 'cV[R]_n).
Hypothesis EC : eigsh_contract eigsh.

Lemma contract_eigfam n (A : 'M[R]_n) : (0 < n)%N -> A^T = A -> eigfam A (eigsh A).
Proof.
move=> n0 sA; have [s [_ [e o]]] := EC n0 sA.
apply/eigfamP; split=> //; split=> //; apply: onf_nth => i j.
by rewrite size_map s => il jl; rewrite !(nth_map (0, 0)) ?s // o.
Qed.

Lemma onf_orthonormal n (l : seq 'cV[R]_n) : onf l -> orthonormal [seq unvec u | u <- l].
Proof.
move=> /onfP[U H] i j; rewrite size_map => il jl.
by rewrite !(nth_map 0) // dotp_unvec H ?mem_nth // nth_uniq.
Qed.

Lemma lincomb_unvec n w (l : seq 'cV[R]_n) : lincomb n w [seq unvec u | u <- l] =
  unvec (\sum_(i < size l) w`_i *: l`_i).
Proof.
apply: (@vecP _ n); rewrite ?size_mkseq ?size_unvec // => k kn.
rewrite nth_mkseq // size_map (nth_unvec _ (Ordinal kn)) summxE.
apply: eq_bigr => i _; rewrite !mxE (nth_map 0) //.
by rewrite -(nth_unvec _ (Ordinal kn)).
Qed.

Lemma weights_unvec n (l : seq 'cV[R]_n) x :
  weights [seq unvec u | u <- l] (unvec x) = [seq dot u x | u <- l].
Proof. by rewrite /weights -map_comp; apply: eq_map => u /=; rewrite dotp_unvec. Qed.

Lemma lincomb_weights n (l : seq 'cV[R]_n) x :
  lincomb n (weights [seq unvec u | u <- l] (unvec x)) [seq unvec u | u <- l] = unvec (outer l *m x).
Proof.
rewrite weights_unvec lincomb_unvec outer_mulE; congr unvec.
by rewrite (big_nth 0) big_mkord; apply: eq_bigr => i _; rewrite (nth_map 0).
Qed.

(** ** Selected parts of a spectrum *)
Definition sel n (P : pred R) (l : seq (R * 'cV[R]_n)) := [seq p.2 | p <- l & P p.1].

Lemma sel_onf n (A : 'M[R]_n) l P : eigfam A l -> onf (sel P l).
Proof.
case/eigfamP=> _ [/onfP[U H] _]; apply/onfP.
have sub : {subset sel P l <= [seq p.2 | p <- l]}.
  by move=> x /mapP[p]; rewrite mem_filter => /andP[_ pl] ->; apply: map_f.
split; last by move=> x y /sub xl /sub yl; apply: H.
have ul : uniq l by apply: map_uniq U.
rewrite map_inj_in_uniq ?filter_uniq // => p q.
rewrite !mem_filter => /andP[_ pl] /andP[_ ql] E.
move/(uniqP 0): U => U; have [i il pi] := nthP (0, 0) pl; have [j jl qj] := nthP (0, 0) ql.
rewrite -pi -qj; congr nth; apply: U; rewrite ?inE ?size_map //.
by rewrite !(nth_map (0, 0)) // pi qj.
Qed.

Lemma sel_eigen n (A : 'M[R]_n) l (P : pred R) u : eigfam A l -> u \in sel P l ->
  exists lam, P lam /\ A *m u = lam *: u /\ dot u u = 1.
Proof.
move=> El; have /onfP[_ H] := sel_onf P El.
case/eigfamP: El => _ [_ e] us; have := H u u us us; rewrite eqxx => u1.
move: us => /mapP[p]; rewrite mem_filter => /andP[Pp pl] E.
by exists p.1; rewrite u1 E -e.
Qed.

Lemma sel_split n (A : 'M[R]_n) l (P : pred R) : eigfam A l ->
  outer (sel P l) + outer (sel (predC P) l) = 1%:M.
Proof.
move=> El; rewrite -(eigfam_outer El) -outer_cat /outer; apply: perm_big.
by rewrite /sel -map_cat; apply: perm_map; rewrite perm_filterC.
Qed.

Lemma sym_eigen_orth n (A : 'M[R]_n) (u v : 'cV[R]_n) a b : A^T = A -> A *m u = a *: u -> A *m v = b *: v ->
  a != b -> dot u v = 0.
Proof.
move=> sA Au Av ab; have : dot (A *m u) v = dot u (A *m v) by rewrite dot_mulmx sA.
rewrite Au Av dotZl dotZr => /eqP; rewrite -subr_eq0 -mulrBl mulf_eq0 subr_eq0 (negbTE ab).
by move/eqP.
Qed.

(** An eigenvector whose eigenvalue is selected lies in the span of the selected ones. *)
Lemma sel_span n (A : 'M[R]_n) l (P : pred R) (u : 'cV[R]_n) a : A^T = A -> eigfam A l -> A *m u = a *: u -> P a ->
  outer (sel P l) *m u = u.
Proof.
move=> sA El Au Pa; rewrite -{2}[u]mul1mx -(sel_split P El) mulmxDl.
have -> : outer (sel (predC P) l) *m u = 0; last by rewrite addr0.
rewrite outer_mulE big1_seq // => v /andP[_ vs].
have [b [Pb [Av _]]] := sel_eigen El vs.
by rewrite (sym_eigen_orth sA Av Au) ?scale0r //; apply: contra Pb => /eqP ->.
Qed.

Lemma sel_kill n (A : 'M[R]_n) l (P : pred R) (u : 'cV[R]_n) a : A^T = A -> eigfam A l -> A *m u = a *: u -> ~~ P a ->
  outer (sel P l) *m u = 0.
Proof.
move=> sA El Au Pa; rewrite outer_mulE big1_seq // => v /andP[_ vs].
have [b [Pb [Av _]]] := sel_eigen El vs.
by rewrite (sym_eigen_orth sA Av Au) ?scale0r //; apply: contra Pa => /eqP <-.
Qed.

Lemma outer_perp n (l : seq 'cV[R]_n) (x : 'cV[R]_n) : (forall u, u \in l -> dot u x = 0) -> outer l *m x = 0.
Proof. by move=> H; rewrite outer_mulE big1_seq // => u /andP[_ /H ->]; rewrite scale0r. Qed.

Lemma outer_fix_in n (l : seq 'cV[R]_n) (x : 'cV[R]_n) m (B : 'M[R]_(n, m)) :
  (forall u, u \in l -> exists y : 'cV[R]_m, u = B *m y) -> exists y : 'cV[R]_m, outer l *m x = B *m y.
Proof.
move=> H; rewrite outer_mulE; elim: l H => [|u l IH] H.
  by exists 0; rewrite big_nil mulmx0.
rewrite big_cons; have [|y ->] := IH; first by move=> v vl; apply: H; rewrite inE vl orbT.
have [z ->] := H u (mem_head _ _).
by exists (dot (B *m z) x *: z + y); rewrite mulmxDr -scalemxAr.
Qed.

(** The projector of the non-zero part of the spectrum of B *m B^T is the projector on the image
    of B. *)
Lemma gram_sel_proj n m (B : 'M[R]_(n, m)) l (P : pred R) :
  eigfam (B *m B^T) l -> ~~ P 0 -> (forall p, p \in l -> P p.1 || (p.1 == 0)) ->
  outer (sel P l) = proj B.
Proof.
move=> El P0 Pl; apply: mx_ext => x.
have [y Ey] : exists y : 'cV[R]_m, outer (sel P l) *m x = B *m y.
  apply: outer_fix_in => u us; have [lam [Plam [Au _]]] := sel_eigen El us.
  have l0 : lam != 0 by apply: contraNneq P0 => <-.
  exists (lam^-1 *: (B^T *m u)); rewrite -scalemxAr mulmxA Au scalerA mulVf ?scale1r //.
have K : B^T *m (outer (sel (predC P) l) *m x) = 0.
  rewrite outer_mulE mulmx_sumr big1_seq // => u /andP[_ us].
  move: us => /mapP[p]; rewrite mem_filter /= => /andP[nP pl] ->.
  have p0 : p.1 = 0 by apply/eqP; move: (Pl p pl); rewrite (negbTE nP).
  case/eigfamP: El => _ [_ e]; have := e p pl; rewrite p0 scale0r => E.
  rewrite -scalemxAr; have -> : B^T *m p.2 = 0; last by rewrite scaler0.
  by apply: gram_ker; rewrite trmxK mulmxA.
rewrite Ey -[x in RHS]mul1mx -(sel_split P El) mulmxDl mulmxDr Ey proj_in.
by rewrite (proj_perp K) addr0.
Qed.

End Generic.

Section Cx.
Variable R : realFieldType.
Variable eigsh : forall n, 'M[R]_n -> seq (R * 'cV[R]_n).
Hypothesis EC : eigsh_contract eigsh.
Variables (nodes : list Z) (E : list (Z * Z)) (T : list (list Z)) (nf : dict Z fdict)
          (ef : dict (Z * Z) fdict) (sc : SC).
Hypothesis H : make_sc nodes E T nf ef = Ok sc.
Let N := length nodes.
Let M := length E.
Let K := length T.
Notation B1 := (B1m R nodes E sc).
Notation B2 := (B2m R E T sc).
Notation L1L := (L1Lm R nodes E sc).
Notation L1U := (L1Um R E T sc).

Hypothesis M0 : (0 < M)%N.

Lemma L1L_sym : L1L^T = L1L. Proof. by rewrite trmx_mul trmxK. Qed.
Lemma L1U_sym : L1U^T = L1U. Proof. by rewrite trmx_mul trmxK. Qed.
Lemma L1_sym : (L1L + L1U)^T = L1L + L1U. Proof. by rewrite linearD /= L1L_sym L1U_sym. Qed.

Lemma famL : eigfam L1L (eigsh L1L). Proof. exact: contract_eigfam L1L_sym. Qed.
Lemma famU : eigfam L1U (eigsh L1U). Proof. exact: contract_eigfam L1U_sym. Qed.
Lemma famS : eigfam (L1L + L1U) (eigsh (L1L + L1U)). Proof. exact: contract_eigfam L1_sym. Qed.

Definition up n (l : seq (R * 'cV[R]_n)) : eigpairs R := [seq (p.1, unvec p.2) | p <- l].
Definition zs (x : R) := if `|x| < eps64 R then 0 else x.
Definition zeroed n (l : seq (R * 'cV[R]_n)) := [seq (zs p.1, p.2) | p <- l].

Lemma decompE (A : arr2) n : n = sh0 A -> n = sh1 A -> (0 < n)%N ->
  get_eigendecomposition eigsh (Dense A) (eps64 R) = Ok (up (zeroed (eigsh (toM R n n A)))).
Proof.
move=> -> e n0; rewrite /get_eigendecomposition -e eqxx n0 /= /up /zeroed -map_comp.
by congr Ok; apply: eq_map.
Qed.

Lemma up_filter n (P : pred R) (l : seq (R * 'cV[R]_n)) :
  [seq p <- up l | P p.1] = up [seq p <- l | P p.1].
Proof. by rewrite /up filter_map; congr map; apply: eq_filter. Qed.

Lemma zs_small t x : eps64 R <= t -> `|x| < eps64 R -> 0 < t /\ x < t.
Proof.
move=> et xe; split; first exact: lt_le_trans (eps64_gt0 R) et.
by apply: lt_le_trans et; exact: le_lt_trans (ler_norm _) xe.
Qed.

Lemma zeroed_gt n t (l : seq (R * 'cV[R]_n)) : eps64 R <= t ->
  [seq p <- zeroed l | t < p.1] = [seq p <- l | t < p.1].
Proof.
move=> et; elim: l => //= -[x u] l /= ->; rewrite /zs; case: (ltP `|x| (eps64 R)) => // xe.
by have [t0 xt] := zs_small et xe; rewrite !ltNge (ltW t0) (ltW xt).
Qed.
Lemma zeroed_ge n t (l : seq (R * 'cV[R]_n)) : eps64 R <= t ->
  [seq p <- zeroed l | t <= p.1] = [seq p <- l | t <= p.1].
Proof.
move=> et; elim: l => //= -[x u] l /= ->; rewrite /zs; case: (ltP `|x| (eps64 R)) => // xe.
by have [t0 xt] := zs_small et xe; rewrite !leNgt t0 xt.
Qed.
Lemma zeroed_le n t (l : seq (R * 'cV[R]_n)) : eps64 R <= t ->
  [seq p <- zeroed l | p.1 <= t] = zeroed [seq p <- l | p.1 <= t].
Proof.
move=> et; elim: l => //= -[x u] l /= ->; rewrite {1 2}/zs; case: (ltP `|x| (eps64 R)) => // xe.
  by have [t0 xt] := zs_small et xe; rewrite (ltW t0) (ltW xt) /= /zs xe.
by case: ifP => //= _; rewrite /zs ltNge xe.
Qed.

Definition gradl t := [seq p <- eigsh L1L | t < p.1].
Definition curll t := [seq p <- eigsh L1U | t <= p.1].
Definition harml t := [seq p <- eigsh (L1L + L1U) | p.1 <= t].

Lemma gradE t : eps64 R <= t ->
  get_gradient_eigenpair eigsh (Dense (amul (atr (sc_B1 sc)) (sc_B1 sc))) t = Ok (up (gradl t)).
Proof.
move=> et; have [h0 h1] := B1_dims H; rewrite /get_gradient_eigenpair (@decompE _ M) //=.
by rewrite (up_filter (fun x => t < x)) zeroed_gt // (toM_L1L R H).
Qed.
Lemma curlE t : eps64 R <= t ->
  get_curl_eigenpair eigsh (Dense (amul (sc_B2 sc) (atr (sc_B2 sc)))) t = Ok (up (curll t)).
Proof.
move=> et; have [h0 h1] := B2_dims H; rewrite /get_curl_eigenpair (@decompE _ M) //=.
by rewrite (up_filter (fun x => t <= x)) zeroed_ge // (toM_L1U R H).
Qed.
Lemma harmE t : eps64 R <= t ->
  get_harmonic_eigenpair eigsh (Dense (aadd (amul (atr (sc_B1 sc)) (sc_B1 sc))
    (amul (sc_B2 sc) (atr (sc_B2 sc))))) t = Ok (up (zeroed (harml t))).
Proof.
move=> et; have [h0 h1] := B1_dims H; rewrite /get_harmonic_eigenpair (@decompE _ M) //=.
by rewrite (up_filter (fun x => x <= t)) zeroed_le // toM_aadd (toM_L1L R H) (toM_L1U R H).
Qed.

Lemma component_eigE c t : eps64 R <= t -> get_component_eigenpair eigsh sc c t =
  if String.eqb c "harmonic" then Ok (up (zeroed (harml t)))
  else if String.eqb c "curl" then Ok (up (curll t))
  else if String.eqb c "gradient" then Ok (up (gradl t)) else Raise ValueError.
Proof.
move=> et; rewrite /get_component_eigenpair.
case: ifP => _; first exact: harmE.
case: ifP => _; first exact: curlE.
by case: ifP => _ //; exact: gradE.
Qed.

(** ** spectra *)
Lemma gram_val n m (B : 'M[R]_(n, m)) l p : eigfam (B *m B^T) l -> p \in l -> 0 <= p.1.
Proof.
move=> El pl; have /onfP[_ o] : onf [seq q.2 | q <- l] by case/eigfamP: El => _ [].
have := o p.2 p.2 (map_f _ pl) (map_f _ pl); rewrite eqxx => p1.
case/eigfamP: El => _ [_ e]; have := nrm2_ge0 (B^T *m p.2).
by rewrite /nrm2 dot_mulmxr trmxK mulmxA (e _ pl) dotZl p1 mulr1.
Qed.

Lemma L1L_gram : L1L = B1^T *m (B1^T)^T. Proof. by rewrite trmxK. Qed.
Lemma valL p : p \in eigsh L1L -> 0 <= p.1.
Proof. by apply: (@gram_val _ _ B1^T); rewrite -L1L_gram; exact: famL. Qed.
Lemma valU p : p \in eigsh L1U -> 0 <= p.1.
Proof. exact: gram_val famU. Qed.

Lemma L1_stack : L1L + L1U = row_mx B1^T B2 *m (row_mx B1^T B2)^T.
Proof. by rewrite tr_row_mx mul_row_col trmxK. Qed.
Lemma valS p : p \in eigsh (L1L + L1U) -> 0 <= p.1.
Proof. by move=> pS; have := famS; rewrite L1_stack => F; apply: gram_val F _; rewrite -L1_stack. Qed.

Lemma gradl_sel t : [seq p.2 | p <- gradl t] = sel (fun x => t < x) (eigsh L1L).
Proof. by []. Qed.
Lemma curll_sel t : [seq p.2 | p <- curll t] = sel (fun x => t <= x) (eigsh L1U).
Proof. by []. Qed.
Lemma harml_sel t : [seq p.2 | p <- harml t] = sel (fun x => x <= t) (eigsh (L1L + L1U)).
Proof. by []. Qed.

Lemma onfG t : onf [seq p.2 | p <- gradl t]. Proof. exact: (sel_onf (fun x => t < x) famL). Qed.
Lemma onfC t : onf [seq p.2 | p <- curll t]. Proof. exact: (sel_onf (fun x => t <= x) famU). Qed.
Lemma onfH t : onf [seq p.2 | p <- harml t]. Proof. exact: (sel_onf (fun x => x <= t) famS). Qed.

Section Oriented.
Hypothesis B12 : B1 *m B2 = 0.

Lemma LU0 : L1L *m L1U = 0.
Proof. by rewrite /L1Lm /L1Um mulmxA -(mulmxA _ B1) B12 mulmx0 mul0mx. Qed.
Lemma UL0 : L1U *m L1L = 0.
Proof. by rewrite -[LHS]trmxK trmx_mul L1L_sym L1U_sym LU0 trmx0. Qed.

(** An eigenvector of one part for a non-zero eigenvalue is an eigenvector of the sum. *)
Lemma L_to_S (u : 'cV[R]_M) a : a != 0 -> L1L *m u = a *: u -> L1U *m u = 0 /\ (L1L + L1U) *m u = a *: u.
Proof.
move=> a0 Lu; have U0 : L1U *m u = 0.
  by apply: (scalerI a0); rewrite scaler0 scalemxAr -Lu mulmxA UL0 mul0mx.
by rewrite mulmxDl U0 addr0.
Qed.
Lemma U_to_S (u : 'cV[R]_M) a : a != 0 -> L1U *m u = a *: u -> L1L *m u = 0 /\ (L1L + L1U) *m u = a *: u.
Proof.
move=> a0 Uu; have L0 : L1L *m u = 0.
  by apply: (scalerI a0); rewrite scaler0 scalemxAr -Uu mulmxA LU0 mul0mx.
by rewrite mulmxDl L0 add0r.
Qed.

Lemma dim_sum t : 0 < t ->
  (size (harml t) + size (curll t) + size (gradl t) =
   M + seq.count (fun p => p.1 == t) (eigsh L1U))%N.
Proof.
move=> t0; have /seq.permP P := eigenvalues_sum LU0 famL famU famS.
have := P (fun x => t < x); rewrite !count_cat !count_map count_nseq /= ltNge (ltW t0) mul0n add0n.
rewrite !size_filter => Q.
have sS : size (eigsh (L1L + L1U)) = M by case/eigfamP: famS.
have Cs := count_predC (fun p : R * 'cV[R]_M => p.1 <= t) (eigsh (L1L + L1U)).
rewrite sS in Cs.
have -> : seq.count (fun p : R * 'cV[R]_M => t <= p.1) (eigsh L1U) =
  (seq.count (fun p => t < p.1)%R (eigsh L1U) + seq.count (fun p => p.1 == t) (eigsh L1U))%N.
  elim: (eigsh L1U) => //= p l ->; rewrite le_eqVlt eq_sym.
  case: eqP => [->|_] /=; rewrite ?ltxx ?add0n ?addn0 ?addnA //.
  by rewrite [X in (X + _)%N]addnC.
have e : seq.count (predC (fun p : R * 'cV[R]_M => p.1 <= t)) (eigsh (L1L + L1U)) =
  seq.count (preim fst (fun x => t < x)) (eigsh (L1L + L1U)) by apply: eq_count => p /=; rewrite ltNge.
rewrite e -Q /= in Cs; rewrite -Cs -!addnA; congr addn.
by rewrite addnA addnC addnA.
Qed.

Lemma cross_gc t s u v : 0 <= t -> 0 < s -> u \in [seq p.2 | p <- gradl t] ->
  v \in [seq p.2 | p <- curll s] -> dot u v = 0.
Proof.
move=> t0 s0; rewrite gradl_sel curll_sel => us vs.
have [a [at_ [Au _]]] := sel_eigen famL us; have [b [bt [Bv _]]] := sel_eigen famU vs.
have a0 : a != 0 by rewrite gt_eqF //; exact: le_lt_trans at_.
have b0 : b != 0 by rewrite gt_eqF //; exact: lt_le_trans bt.
have [_ e] := L_to_S a0 Au; have [L0 _] := U_to_S b0 Bv.
apply: (mulfI a0); rewrite mulr0 -dotZl -Au dot_mulmx L1L_sym L0 dot0r //.
Qed.

Lemma cross_hg t s u v : 0 <= t -> s <= t -> u \in [seq p.2 | p <- harml s] ->
  v \in [seq p.2 | p <- gradl t] -> dot u v = 0.
Proof.
move=> t0 st; rewrite gradl_sel harml_sel => us vs.
have [a [at_ [Au _]]] := sel_eigen famS us; have [b [bt [Bv _]]] := sel_eigen famL vs.
have b0 : b != 0 by rewrite gt_eqF //; exact: le_lt_trans bt.
have [_ e] := L_to_S b0 Bv; apply: (sym_eigen_orth L1_sym Au e).
by rewrite lt_eqF //; apply: le_lt_trans at_ _; exact: le_lt_trans bt.
Qed.

Lemma cross_hc t s u v : 0 < t -> s < t -> u \in [seq p.2 | p <- harml s] ->
  v \in [seq p.2 | p <- curll t] -> dot u v = 0.
Proof.
move=> t0 st; rewrite curll_sel harml_sel => us vs.
have [a [at_ [Au _]]] := sel_eigen famS us; have [b [bt [Bv _]]] := sel_eigen famU vs.
have b0 : b != 0 by rewrite gt_eqF //; exact: lt_le_trans bt.
have [_ e] := U_to_S b0 Bv; apply: (sym_eigen_orth L1_sym Au e).
by rewrite lt_eqF //; apply: le_lt_trans at_ _; exact: lt_le_trans bt.
Qed.

(** If no eigenvalue of the upper Laplacian equals [t], [<= t] and [< t] select the same. *)
Lemma cross_hc_eq t u v : 0 < t -> (forall p, p \in eigsh L1U -> p.1 != t) ->
  u \in [seq p.2 | p <- harml t] -> v \in [seq p.2 | p <- curll t] -> dot u v = 0.
Proof.
move=> t0 nt; rewrite harml_sel => us /mapP[p]; rewrite mem_filter => /andP[tp pU] ->.
have [a [at_ [Au _]]] := sel_eigen famS us.
case/eigfamP: famU => _ [_ /(_ p pU) Bv].
have b0 : p.1 != 0 by rewrite gt_eqF //; exact: lt_le_trans tp.
have [_ e] := U_to_S b0 Bv; apply: (sym_eigen_orth L1_sym Au e).
rewrite lt_eqF //; apply: le_lt_trans at_ _.
by rewrite lt_neqAle tp eq_sym nt.
Qed.

Lemma onf3 t : 0 < t -> (forall p, p \in eigsh L1U -> p.1 != t) ->
  onf ([seq p.2 | p <- harml t] ++ [seq p.2 | p <- curll t] ++ [seq p.2 | p <- gradl t]).
Proof.
move=> t0 nt; apply: onf_cat; first exact: onfH.
  apply: onf_cat; [exact: onfC|exact: onfG|].
  by move=> u v uc vg; rewrite dotC; apply: (@cross_gc t t) => //; exact: ltW.
move=> u v uh; rewrite mem_cat => /orP[]; first exact: cross_hc_eq.
by apply: (@cross_hg t t) => //; exact: ltW.
Qed.

Lemma onf2_gc t : 0 < t -> onf ([seq p.2 | p <- curll t] ++ [seq p.2 | p <- gradl t]).
Proof.
move=> t0; apply: onf_cat; [exact: onfC|exact: onfG|].
by move=> u v uc vg; rewrite dotC; apply: (@cross_gc t t) => //; exact: ltW.
Qed.

Lemma outer3 t : 0 < t -> (forall p, p \in eigsh L1U -> p.1 != t) ->
  outer [seq p.2 | p <- harml t] + (outer [seq p.2 | p <- curll t] + outer [seq p.2 | p <- gradl t])
  = 1%:M.
Proof.
move=> t0 nt; rewrite -!outer_cat; apply: onf_complete; first exact: onf3.
rewrite !size_cat !size_map addnA dim_sum //.
have -> : seq.count (fun p => p.1 == t) (eigsh L1U) = 0%N; last by rewrite addn0.
by apply/eqP; rewrite -leqn0 leqNgt -has_count; apply/hasPn => p pU; exact: nt.
Qed.
End Oriented.

(** ** projectors *)
Lemma outer_grad t : 0 <= t -> (forall p, p \in eigsh L1L -> p.1 <= t -> p.1 = 0) ->
  outer [seq p.2 | p <- gradl t] = Gm R nodes E sc.
Proof.
move=> t0 Z; rewrite gradl_sel; apply: gram_sel_proj.
- by rewrite -L1L_gram; exact: famL.
- by rewrite -leNgt.
by move=> p pl; case: (ltP t p.1) => //= /(Z p pl) ->.
Qed.
Lemma outer_curl t : 0 < t -> (forall p, p \in eigsh L1U -> p.1 < t -> p.1 = 0) ->
  outer [seq p.2 | p <- curll t] = Cm R E T sc.
Proof.
move=> t0 Z; rewrite curll_sel; apply: gram_sel_proj; first exact: famU.
  by rewrite -ltNge.
by move=> p pl; case: (leP t p.1) => //= /(Z p pl) ->.
Qed.

(** ** the specification's notions *)
Lemma mv_L1L (u : 'cV[R]_M) : mv (amul (atr (sc_B1 sc)) (sc_B1 sc)) (unvec u) = unvec (L1L *m u).
Proof. by have [h0 h1] := B1_dims H; rewrite (@mvE _ _ M M) // unvecK (toM_L1L R H). Qed.
Lemma mv_L1U (u : 'cV[R]_M) : mv (amul (sc_B2 sc) (atr (sc_B2 sc))) (unvec u) = unvec (L1U *m u).
Proof. by have [h0 h1] := B2_dims H; rewrite (@mvE _ _ M M) // unvecK (toM_L1U R H). Qed.
Lemma mv_L1 (u : 'cV[R]_M) : mv (aadd (amul (atr (sc_B1 sc)) (sc_B1 sc)) (amul (sc_B2 sc) (atr (sc_B2 sc))))
  (unvec u) = unvec ((L1L + L1U) *m u).
Proof.
have [h0 h1] := B1_dims H; rewrite (@mvE _ _ M M) // unvecK toM_aadd.
by rewrite (toM_L1L R H) (toM_L1U R H).
Qed.


Notation AL := (amul (atr (sc_B1 sc)) (sc_B1 sc)).
Notation AU := (amul (sc_B2 sc) (atr (sc_B2 sc))).

Lemma eigL u a : is_eigen AL a (unvec u) <-> L1L *m u = a *: u.
Proof. by rewrite /is_eigen mv_L1L scalef_unvec; split=> [/unvec_inj|->]. Qed.
Lemma eigU u a : is_eigen AU a (unvec u) <-> L1U *m u = a *: u.
Proof. by rewrite /is_eigen mv_L1U scalef_unvec; split=> [/unvec_inj|->]. Qed.
Lemma eigS u a : is_eigen (aadd AL AU) a (unvec u) <-> (L1L + L1U) *m u = a *: u.
Proof. by rewrite /is_eigen mv_L1 scalef_unvec; split=> [/unvec_inj|->]. Qed.

Lemma fam_unit n (A : 'M[R]_n) l p : eigfam A l -> p \in l -> A *m p.2 = p.1 *: p.2 /\ p.2 != 0.
Proof.
case/eigfamP=> _ [/onfP[_ o] e] pl; split; first exact: e.
have := o p.2 p.2 (map_f _ pl) (map_f _ pl); rewrite eqxx => p1.
by rewrite -dot_eq0 p1 oner_eq0.
Qed.

Lemma neq_zerof (u : 'cV[R]_M) : u != 0 -> unvec u <> zerof R M.
Proof. by move=> /eqP u0 e; apply: u0; apply: unvec_inj; rewrite e zerof_unvec. Qed.

Lemma not_eigenvalueU t : not_eigenvalue AU t -> forall p, p \in eigsh L1U -> p.1 != t.
Proof.
have [h0 h1] := B2_dims H; move=> nt p pU; apply/eqP => pt.
have [e /neq_zerof u0] := fam_unit famU pU; apply: u0.
move: (nt (unvec p.2)); rewrite /= -h0; apply; first exact: size_unvec.
by apply/eigU; rewrite e pt.
Qed.

Lemma fraction_not_eigenvalueU (t : R) : proper_fraction t -> not_eigenvalue AU t.
Proof.
have [h0 h1] := B2_dims H; move=> ft u; rewrite /= -h0 => su.
rewrite -(vecK su) => /eigU; rewrite -(toM_L1U R H) toM_int => e.
by rewrite (int_eigen_fraction ft e) zerof_unvec.
Qed.

Lemma belowL t : below_positive_spectrum AL t -> forall p, p \in eigsh L1L -> p.1 <= t -> p.1 = 0.
Proof.
have [h0 h1] := B1_dims H; move=> nt p pU.
have [e /neq_zerof u0] := fam_unit famL pU; apply: (nt _ (unvec p.2)).
- by rewrite size_unvec.
- exact/eigL.
by rewrite /= -h1.
Qed.
Lemma belowU t : below_positive_spectrum AU t -> forall p, p \in eigsh L1U -> p.1 <= t -> p.1 = 0.
Proof.
have [h0 h1] := B2_dims H; move=> nt p pU.
have [e /neq_zerof u0] := fam_unit famU pU; apply: (nt _ (unvec p.2)).
- by rewrite size_unvec.
- exact/eigU.
by rewrite /= -h0.
Qed.
Lemma belowS t : below_positive_spectrum (aadd AL AU) t ->
  forall p, p \in eigsh (L1L + L1U) -> p.1 <= t -> p.1 = 0.
Proof.
have [h0 h1] := B1_dims H; move=> nt p pU.
have [e /neq_zerof u0] := fam_unit famS pU; apply: (nt _ (unvec p.2)).
- by rewrite size_unvec.
- exact/eigS.
by rewrite /= -h1.
Qed.
(** On an oriented complex the positive spectra of the two parts are in that of the sum. *)
Lemma belowSL (t : R) : B1 *m B2 = 0 -> below_positive_spectrum (aadd AL AU) t -> below_positive_spectrum AL t.
Proof.
have [h0 h1] := B1_dims H; move=> B12 nt lam u /= su ei u0 lt.
rewrite -h1 in su u0; apply/eqP; case: eqP => // /eqP l0; exfalso; apply: (negP l0); apply/eqP.
apply: (nt lam u); rewrite /= -?h1 //; rewrite -(vecK su); apply/eigS.
by apply: (proj2 (L_to_S B12 l0 _)); apply/eigL; rewrite vecK.
Qed.
Lemma belowSU (t : R) : B1 *m B2 = 0 -> below_positive_spectrum (aadd AL AU) t -> below_positive_spectrum AU t.
Proof.
have [h0 h1] := B1_dims H; have [h2 h3] := B2_dims H; move=> B12 nt lam u /= su ei u0 lt.
rewrite -h2 in su u0; apply/eqP; case: eqP => // /eqP l0; exfalso; apply: (negP l0); apply/eqP.
apply: (nt lam u); rewrite /= -?h1 //; rewrite -(vecK su); apply/eigS.
by apply: (proj2 (U_to_S B12 l0 _)); apply/eigU; rewrite vecK.
Qed.

Lemma vectors_up n (l : seq (R * 'cV[R]_n)) : vectors (up l) = [seq unvec u | u <- [seq p.2 | p <- l]].
Proof. by rewrite /vectors /up -!map_comp. Qed.
Lemma vectors_zeroed n (l : seq (R * 'cV[R]_n)) : [seq p.2 | p <- zeroed l] = [seq p.2 | p <- l].
Proof. by rewrite /zeroed -map_comp. Qed.

End Cx.
