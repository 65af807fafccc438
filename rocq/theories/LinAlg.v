(** * Linear algebra over an arbitrary real field (no model content) *)

From mathcomp Require Import all_ssreflect all_algebra zify.

Set Implicit Arguments.
Unset Strict Implicit.
Unset Printing Implicit Defensive.

Import GRing.Theory Num.Theory Order.Theory.
Local Open Scope ring_scope.

Section Dot.
Variable R : realFieldType.

(** Inner product of column vectors. *)
Definition dot n (u v : 'cV[R]_n) : R := \sum_i u i 0 * v i 0.
(** Squared norm. *)
Definition nrm2 n (u : 'cV[R]_n) : R := dot u u.

Lemma dotE n (u v : 'cV[R]_n) : dot u v = (u^T *m v) 0 0.
Proof. by rewrite mxE; apply: eq_bigr => i _; rewrite mxE. Qed.

Lemma dotC n (u v : 'cV[R]_n) : dot u v = dot v u.
Proof. by apply: eq_bigr => i _; rewrite mulrC. Qed.

Lemma dotDl n (u v w : 'cV[R]_n) : dot (u + v) w = dot u w + dot v w.
Proof. by rewrite -big_split; apply: eq_bigr => i _; rewrite mxE mulrDl. Qed.
Lemma dotDr n (u v w : 'cV[R]_n) : dot w (u + v) = dot w u + dot w v.
Proof. by rewrite dotC dotDl !(dotC w). Qed.
Lemma dotNl n (u w : 'cV[R]_n) : dot (- u) w = - dot u w.
Proof. by rewrite -sumrN; apply: eq_bigr => i _; rewrite mxE mulNr. Qed.
Lemma dotNr n (u w : 'cV[R]_n) : dot w (- u) = - dot w u.
Proof. by rewrite dotC dotNl dotC. Qed.
Lemma dotBl n (u v w : 'cV[R]_n) : dot (u - v) w = dot u w - dot v w.
Proof. by rewrite dotDl dotNl. Qed.
Lemma dotBr n (u v w : 'cV[R]_n) : dot w (u - v) = dot w u - dot w v.
Proof. by rewrite dotDr dotNr. Qed.
Lemma dotZl n a (u w : 'cV[R]_n) : dot (a *: u) w = a * dot u w.
Proof. by rewrite mulr_sumr; apply: eq_bigr => i _; rewrite mxE mulrA. Qed.
Lemma dotZr n a (u w : 'cV[R]_n) : dot w (a *: u) = a * dot w u.
Proof. by rewrite dotC dotZl dotC. Qed.
Lemma dot0l n (w : 'cV[R]_n) : dot 0 w = 0.
Proof. by rewrite /dot big1 // => i _; rewrite mxE mul0r. Qed.
Lemma dot0r n (w : 'cV[R]_n) : dot w 0 = 0.
Proof. by rewrite dotC dot0l. Qed.
Lemma dot_suml n (I : Type) (r : seq I) (P : pred I) (F : I -> 'cV[R]_n) w :
  dot (\sum_(i <- r | P i) F i) w = \sum_(i <- r | P i) dot (F i) w.
Proof.
elim/big_rec2: _ => [|i x y _ <-]; first by rewrite dot0l.
by rewrite dotDl.
Qed.
Lemma dot_sumr n (I : Type) (r : seq I) (P : pred I) (F : I -> 'cV[R]_n) w :
  dot w (\sum_(i <- r | P i) F i) = \sum_(i <- r | P i) dot w (F i).
Proof. by rewrite dotC dot_suml; apply: eq_bigr => i _; rewrite dotC. Qed.

Lemma dot_ge0 n (u : 'cV[R]_n) : 0 <= dot u u.
Proof. by apply: sumr_ge0 => i _; rewrite -expr2 sqr_ge0. Qed.

Lemma dot_eq0 n (u : 'cV[R]_n) : (dot u u == 0) = (u == 0).
Proof.
apply/eqP/eqP => [H|->]; last by rewrite dot0l.
apply/colP => i; rewrite mxE.
have /allP H2 : all (fun j => (u j 0 * u j 0 == 0)) (index_enum (ordinal_finType n)).
  have := H; rewrite /dot => /eqP; rewrite psumr_eq0; last by move=> j _; rewrite -expr2 sqr_ge0.
  by move=> /allP K; apply/allP => j Hj; have := K j Hj.
have := H2 i (mem_index_enum _); by rewrite mulf_eq0 orbb => /eqP.
Qed.

Lemma nrm2_ge0 n (u : 'cV[R]_n) : 0 <= nrm2 u. Proof. exact: dot_ge0. Qed.
Lemma nrm2_eq0 n (u : 'cV[R]_n) : (nrm2 u == 0) = (u == 0). Proof. exact: dot_eq0. Qed.
Lemma nrm2_0 n : nrm2 (0 : 'cV[R]_n) = 0. Proof. exact: dot0l. Qed.

Lemma nrm2D n (u v : 'cV[R]_n) : nrm2 (u + v) = nrm2 u + 2%:R * dot u v + nrm2 v.
Proof.
rewrite /nrm2 dotDl !dotDr (dotC v u) mulr_natl mulr2n !addrA.
by [].
Qed.

Lemma dot_mulmx m n (A : 'M[R]_(m, n)) u v : dot (A *m u) v = dot u (A^T *m v).
Proof. by rewrite !dotE trmx_mul mulmxA. Qed.
Lemma dot_mulmxr m n (A : 'M[R]_(m, n)) u v : dot v (A *m u) = dot (A^T *m v) u.
Proof. by rewrite dotC dot_mulmx dotC. Qed.

(** A vector orthogonal to everything is zero. *)
Lemma dot_all0 n (u : 'cV[R]_n) : (forall v, dot u v = 0) -> u = 0.
Proof. by move=> H; apply/eqP; rewrite -dot_eq0 H. Qed.

(** Kernel of a Gram matrix. *)
Lemma gram_ker m n (A : 'M[R]_(m, n)) (x : 'cV[R]_n) : A^T *m (A *m x) = 0 -> A *m x = 0.
Proof. by move=> H; apply/eqP; rewrite -dot_eq0 dot_mulmx H dot0r. Qed.

Lemma gram_kerP m n (A : 'M[R]_(m, n)) (x : 'cV[R]_n) : (A^T *m A *m x == 0) = (A *m x == 0).
Proof.
rewrite -mulmxA; apply/eqP/eqP => [/gram_ker //|->]; by rewrite mulmx0.
Qed.

(** Matrix version. *)
Lemma gram_ker_mx m n p (A : 'M[R]_(m, n)) (X : 'M[R]_(n, p)) : A^T *m (A *m X) = 0 -> A *m X = 0.
Proof.
move=> H; apply/matrixP => i j; rewrite mxE.
have K : A *m col j X = 0.
  apply: gram_ker; by rewrite colE mulmxA mulmxA -(mulmxA A^T) H mul0mx.
have := congr1 (fun v : 'cV_m => v i 0) K; rewrite !mxE => K'.
rewrite -[RHS]K'; apply: eq_bigr => k _; by rewrite !mxE.
Qed.

Lemma mulmx_gram_eq0 m n (N : 'M[R]_(m, n)) : N^T *m N = 0 -> N = 0.
Proof.
move=> H; have := @gram_ker_mx m n n N 1%:M; rewrite mulmx1 => K; exact: K.
Qed.

(** Cauchy-Schwarz. *)
Lemma cauchy_schwarz n (u v : 'cV[R]_n) : dot u v ^+ 2 <= nrm2 u * nrm2 v.
Proof.
have [/eqP v0|v0] := boolP (nrm2 v == 0).
  have -> : v = 0 by apply/eqP; rewrite -nrm2_eq0 v0.
  by rewrite dot0r expr0n /= nrm2_0 mulr0.
have vp : 0 < nrm2 v by rewrite lt_def v0 nrm2_ge0.
set t := dot u v / nrm2 v.
have := nrm2_ge0 (u - t *: v).
rewrite nrm2D dotNr dotZr {2}/nrm2 dotNl dotNr opprK dotZl dotZr -/(nrm2 v).
have -> : t * (t * nrm2 v) = t * dot u v by rewrite /t divfK.
rewrite mulrN mulr_natl mulr2n opprD addrA subrK subr_ge0 /t -mulrAC ler_pdivr_mulr //.
Qed.

(** ** Least squares *)

(** [x] solves the normal equations of min |A x - b|. *)
Definition is_ls m n (A : 'M[R]_(m, n)) (b : 'cV[R]_m) (x : 'cV[R]_n) : Prop :=
  A^T *m (A *m x) = A^T *m b.

Lemma is_ls_orth m n (A : 'M[R]_(m, n)) b x y : is_ls A b x -> dot (b - A *m x) (A *m y) = 0.
Proof. by move=> H; rewrite dot_mulmxr mulmxBr H subrr dot0l. Qed.

Lemma is_ls_fit_unique m n (A : 'M[R]_(m, n)) b x y :
  is_ls A b x -> (exists z, y = A *m z) -> A^T *m y = A^T *m b -> A *m x = y.
Proof.
move=> H [z ->] K; apply/eqP; rewrite -subr_eq0; apply/eqP.
rewrite -mulmxBr; apply: gram_ker; by rewrite mulmxBr mulmxBr H K subrr.
Qed.

Lemma is_ls_unique m n (A : 'M[R]_(m, n)) b x y : is_ls A b x -> is_ls A b y -> A *m x = A *m y.
Proof.
move=> H K; apply/eqP; rewrite -subr_eq0 -mulmxBr; apply/eqP/gram_ker.
by rewrite !mulmxBr H K subrr.
Qed.

(** Residual is minimal. *)
Lemma is_ls_min m n (A : 'M[R]_(m, n)) b x y :
  is_ls A b x -> nrm2 (b - A *m x) <= nrm2 (b - A *m y).
Proof.
move=> H.
have -> : b - A *m y = (b - A *m x) + A *m (x - y) by rewrite mulmxBr addrA subrK.
rewrite [X in _ <= X]nrm2D (is_ls_orth _ H) mulr0 addr0 ler_addl; exact: nrm2_ge0.
Qed.

(** Conversely a minimiser solves the normal equations. *)
Lemma ls_min_normal m n (A : 'M[R]_(m, n)) b x :
  (forall y, nrm2 (b - A *m x) <= nrm2 (b - A *m y)) -> is_ls A b x.
Proof.
move=> H; rewrite /is_ls; apply/eqP; rewrite eq_sym -subr_eq0 -mulmxBr.
set g := A^T *m (b - A *m x).
have [//|gn] := boolP (g == 0).
have gp : 0 < nrm2 g by rewrite lt_def nrm2_eq0 gn nrm2_ge0.
set q := nrm2 (A *m g).
have q0 : 0 <= q by exact: nrm2_ge0.
set t := nrm2 g / (q + 1).
have q1 : 0 < q + 1 by rewrite ltr_spaddr // ltr01.
have tp : 0 < t by exact: divr_gt0.
have := H (x + t *: g).
rewrite mulmxDr opprD addrA -scalemxAr [X in _ <= X]nrm2D.
rewrite -addrA ler_addl dotNr dotZr /nrm2 dotNl dotNr opprK dotZl dotZr -/(nrm2 _) -/q.
rewrite dot_mulmxr -/g -/(nrm2 g) => K.
have : 2%:R * (t * nrm2 g) <= t * (t * q) by move: K; rewrite mulrN addrC subr_ge0.
rewrite mulrCA ler_pmul2l // => K2.
have : t * q < 2%:R * nrm2 g; last by move/lt_le_trans => /(_ _ K2); rewrite ltxx.
apply: (@le_lt_trans _ _ (nrm2 g)).
  rewrite /t mulrAC ler_pdivr_mulr // ler_wpmul2l // ?nrm2_ge0 // ler_addl ler01 //.
by rewrite mulr_natl mulr2n ltr_addl.
Qed.

(** Least-squares solutions exist. *)
Lemma rank_gram m n (A : 'M[R]_(m, n)) : \rank (A^T *m A) = \rank A.
Proof.
apply/eqP; rewrite eqn_leq mxrankM_maxr /=.
have K : (kermx (A^T *m A) <= kermx A^T)%MS.
  apply/sub_kermxP; set W := kermx _.
  have W0 : W *m (A^T *m A) = 0 by exact: mulmx_ker.
  apply: trmx_inj; rewrite trmx_mul trmxK trmx0.
  apply: gram_ker_mx; have := congr1 trmx W0.
  by rewrite !trmx_mul trmxK trmx0 -mulmxA.
have := mxrankS K; rewrite !mxrank_ker mxrank_tr.
have := rank_leq_col (A^T *m A); have := rank_leq_col A.
lia.
Qed.

Definition ls_sol m n (A : 'M[R]_(m, n)) (b : 'cV[R]_m) : 'cV[R]_n :=
  ((b^T *m A) *m pinvmx (A^T *m A))^T.

Lemma ls_solP m n (A : 'M[R]_(m, n)) b : is_ls A b (ls_sol A b).
Proof.
rewrite /is_ls mulmxA.
have S : (A <= A^T *m A)%MS by rewrite -(geq_leqif (mxrank_leqif_sup (submxMl _ _))) rank_gram.
have S' : (b^T *m A <= A^T *m A)%MS by exact: submx_trans (submxMl _ _) S.
apply: trmx_inj; rewrite [LHS]trmx_mul [RHS]trmx_mul /ls_sol !trmxK [(A^T *m A)^T]trmx_mul trmxK.
by rewrite mulmxKpV.
Qed.

(** ** Orthogonal projection on the column space *)
Definition proj m n (A : 'M[R]_(m, n)) : 'M[R]_m := A *m ((pinvmx (A^T *m A))^T *m A^T).

Lemma ls_solE m n (A : 'M[R]_(m, n)) b : ls_sol A b = (pinvmx (A^T *m A))^T *m (A^T *m b).
Proof. by rewrite /ls_sol trmx_mul (trmx_mul b^T) trmxK. Qed.

Lemma is_ls_proj m n (A : 'M[R]_(m, n)) b x : is_ls A b x -> A *m x = proj A *m b.
Proof.
move=> H; rewrite (is_ls_unique H (ls_solP A b)) ls_solE /proj -!mulmxA //.
Qed.

Lemma mx_ext m n (A B : 'M[R]_(m, n)) : (forall v : 'cV[R]_n, A *m v = B *m v) -> A = B.
Proof.
move=> H; apply/matrixP => i j.
have := congr1 (fun v : 'cV_m => v i 0) (H (delta_mx j 0)).
by rewrite -!colE !mxE.
Qed.

Lemma proj_normal m n (A : 'M[R]_(m, n)) (b : 'cV[R]_m) : A^T *m (proj A *m b) = A^T *m b.
Proof. by have /is_ls_proj <- := ls_solP A b; exact: ls_solP. Qed.

Lemma projA m n (A : 'M[R]_(m, n)) : proj A *m A = A.
Proof.
apply: mx_ext => v; rewrite -mulmxA.
by have /is_ls_proj <- : is_ls A (A *m v) v.
Qed.

Lemma proj_in m n (A : 'M[R]_(m, n)) (v : 'cV[R]_n) : proj A *m (A *m v) = A *m v.
Proof. by rewrite mulmxA projA. Qed.

Lemma proj_img m n (A : 'M[R]_(m, n)) (b : 'cV[R]_m) : exists x : 'cV[R]_n, proj A *m b = A *m x.
Proof. by eexists; rewrite /proj -!mulmxA. Qed.

Lemma proj_idem m n (A : 'M[R]_(m, n)) : proj A *m proj A = proj A.
Proof. by rewrite {2}/proj mulmxA projA. Qed.

Lemma proj_dot m n (A : 'M[R]_(m, n)) u v : dot (proj A *m u) v = dot (proj A *m u) (proj A *m v).
Proof.
have [x ->] := proj_img A u.
by rewrite [LHS]dot_mulmx [RHS]dot_mulmx proj_normal.
Qed.

Lemma proj_sym m n (A : 'M[R]_(m, n)) : (proj A)^T = proj A.
Proof.
apply: mx_ext => v; apply/eqP; rewrite -subr_eq0 -dot_eq0; set w := _ - _.
rewrite {1}/w dotBl; apply/eqP.
rewrite dot_mulmx trmxK [X in X - _]dotC proj_dot [X in _ - X]proj_dot.
by rewrite dotC subrr.
Qed.

Lemma proj_perp m n (A : 'M[R]_(m, n)) (v : 'cV[R]_m) : A^T *m v = 0 -> proj A *m v = 0.
Proof. by move=> H; rewrite /proj -!mulmxA H !mulmx0. Qed.

Lemma proj_perp_iff m n (A : 'M[R]_(m, n)) (v : 'cV[R]_m) : proj A *m v = 0 -> A^T *m v = 0.
Proof. by move=> H; rewrite -proj_normal H mulmx0. Qed.

Lemma proj_orth m n p (A : 'M[R]_(m, n)) (B : 'M[R]_(m, p)) :
  A^T *m B = 0 -> proj A *m proj B = 0.
Proof.
move=> H; apply: mx_ext => v; rewrite mul0mx -mulmxA.
by have [x ->] := proj_img B v; rewrite proj_perp // mulmxA H mul0mx.
Qed.

Lemma proj_min m n (A : 'M[R]_(m, n)) b x : nrm2 (b - proj A *m b) <= nrm2 (b - A *m x).
Proof. by have K := ls_solP A b; rewrite -(is_ls_proj K); apply: is_ls_min. Qed.

End Dot.
