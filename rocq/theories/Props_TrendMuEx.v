(** * Concrete runs for C97: a solver of the trend filters that also solves the problems with a large weight *)

From Coq Require Import ZArith String List.
From mathcomp Require Import all_ssreflect all_algebra all_real_closed ssrZ zify.
From Verif Require Import Py PyFacts ExampleData Complex ComplexSpec ComplexFacts LinAlg Spectral Signal
  SignalSpec Bridge SignalFacts Compute Props_Signal Props_Hodge Eigen EigenSpec EigenFacts
  Props_Eigen Filter FilterSpec FilterFacts FilterFacts2 PolyFacts Props_Masks Props_LowPass Trend TrendFacts
  Props_Logistic Props_Trend Props_Trend2 Props_Trend3 Props_TrendEx Props_TrendMu.

Set Implicit Arguments.
Unset Strict Implicit.
Unset Printing Implicit Defensive.

Import GRing.Theory Num.Theory Order.Theory.
Local Open Scope ring_scope.
Delimit Scope Z_scope with zz.

Section Large.
Variable R : rcfType.

(** The projection on the flows that meet the constraints [W] and have no penalty. *)
Definition restore m n k (M : 'M[R]_(m, n)) (W : 'M[R]_(k, n)) : 'M[R]_(n, m) :=
  (1%:M - proj W^T) *m pinvmx (M *m (1%:M - proj W^T)).
Definition best m n k (M : 'M[R]_(m, n)) (W : 'M[R]_(k, n)) (y z0 : 'cV[R]_n) : 'cV[R]_n :=
  y - proj (col_mx M W)^T *m (y - z0).

Lemma col0 m n k (M : 'M[R]_(m, n)) (W : 'M[R]_(k, n)) (u : 'cV[R]_n) :
  col_mx M W *m u = 0 <-> M *m u = 0 /\ W *m u = 0.
Proof.
rewrite mul_col_mx; split=> [e|[-> ->]]; last exact: col_mx0.
by rewrite -(@col_mx0 R m k 1) in e; have [] := eq_col_mx e.
Qed.

Lemma best_min m n k (M : 'M[R]_(m, n)) (W : 'M[R]_(k, n)) mu y z0 : M *m z0 = 0 -> W *m z0 = W *m y ->
  size_of (restore M W) <= mu ->
  W *m best M W y z0 = W *m y /\
  forall z, W *m z = W *m y ->
    len (y - best M W y z0) + mu * abs1 (M *m best M W y z0) <= len (y - z) + mu * abs1 (M *m z).
Proof.
move=> mz wz cm; set x := best M W y z0; set S := col_mx M W.
have mu0 : 0 <= mu by apply: le_trans cm; exact: size_of_ge0.
have sx : S *m (x - z0) = 0.
  rewrite (_ : x - z0 = (y - z0) - proj S^T *m (y - z0)); last by rewrite /x /best addrAC.
  by rewrite mulmxBr -{2}[S]trmxK proj_normal trmxK subrr.
have [mx wx] := proj1 (col0 _ _ _) sx.
rewrite (mulmxBr _ x z0) mz subr0 in mx.
rewrite (mulmxBr _ x z0) wz in wx; move/eqP: wx; rewrite subr_eq0 => /eqP wx; split=> // z ez.
have a0 : abs1 (M *m x) = 0 by rewrite mx /abs1 big1 // => i _; rewrite mxE normr0.
rewrite a0 mulr0 addr0.
set P := 1%:M - proj W^T; set N := restore M W; pose z' := z - N *m (M *m z).
have wP : W *m P = 0.
  apply/trmx_inj; rewrite trmx_mul trmx0 /P linearB /= trmx1 proj_sym mulmxBl mul1mx projA subrr //.
have fix_ (u : 'cV[R]_n) : W *m u = 0 -> P *m u = u.
  by move=> wu; rewrite /P mulmxBl mul1mx proj_perp ?subr0 // trmxK.
have wd : W *m (z - z0) = 0 by rewrite mulmxBr ez wz subrr.
have wz' : W *m (z' - z0) = 0.
  rewrite (_ : z' - z0 = (z - z0) - N *m (M *m z)); last by rewrite /z' addrAC.
  by rewrite mulmxBr wd /N /restore -/P -!mulmxA !(mulmxA W P) wP mul0mx subrr.
have md : M *m z = (M *m P) *m (z - z0) by rewrite -mulmxA fix_ // mulmxBr mz subr0.
have mz' : M *m z' = 0.
  rewrite /z' mulmxBr md /N /restore -/P; set B := M *m P; have eB : M *m P = B by []; clearbody B.
  by rewrite (mulmxA M) (mulmxA M) eB mulmxA mulmxKpV // subrr.
have near : len (y - x) <= len (y - z').
  apply: ler_wsqrtr.
  have sd : S *m (x - z') = 0.
    have -> : x - z' = (x - z0) - (z' - z0) by rewrite opprB addrA subrK.
    rewrite mulmxBr sx; suff -> : S *m (z' - z0) = 0 by rewrite subrr.
    by apply/col0; split=> //; rewrite mulmxBr mz' mz subrr.
  have -> : y - z' = (y - x) + (x - z') by rewrite addrA subrK.
  have -> : y - x = proj S^T *m (y - z0) by rewrite /x /best opprB addrC subrK.
  have [v ->] := proj_img S^T (y - z0).
  by rewrite nrm2D dot_mulmx trmxK sd dot0r mulr0 addr0 ler_addl nrm2_ge0.
apply: le_trans near _.
have t : len (y - z') <= len (y - z) + size_of N * abs1 (M *m z).
  rewrite (_ : y - z' = (y - z) + N *m (M *m z)); last by rewrite /z' opprB addrA addrAC.
  by apply: le_trans (len_triangle _ _) _; rewrite ler_add2l len_mul.
by apply: le_trans t _; rewrite ler_add2l ler_wpmul2r // abs1_ge0.
Qed.

(** A reference solver: for a large weight the best flow without penalty if the constraints admit one, for a small weight
    the input, and in between it gives up. *)
Definition rows_mx n (rows : seq (seq R)) : 'M[R]_(size rows, n) := \matrix_(i, j) (nth [::] rows i)`_j.
Definition start (A : arr2) (y : seq R) (rows : seq (seq R)) : 'cV[R]_(sh1 A) :=
  let M := toM R (sh0 A) (sh1 A) A in let W := rows_mx (sh1 A) rows in
  ((col_mx 0 (W *m vec (sh1 A) y))^T *m pinvmx (col_mx M W)^T)^T.
Definition weight (A : arr2) (rows : seq (seq R)) : R :=
  size_of (restore (toM R (sh0 A) (sh1 A) A) (rows_mx (sh1 A) rows)).
Definition solver_eq_big (A : arr2) (y : seq R) (rows : seq (seq R)) (mu : R) : res (seq R) :=
  let M := toM R (sh0 A) (sh1 A) A in let W := rows_mx (sh1 A) rows in
  let z0 := start A y rows in
  if [&& all (fun r => size r == sh1 A) rows, M *m z0 == 0, W *m z0 == W *m vec (sh1 A) y & weight A rows <= mu]
  then Ok (unvec (best M W (vec (sh1 A) y) z0)) else solver_ref A y mu.
Definition solver_big (A : arr2) (y : seq R) (mu : R) : res (seq R) := solver_eq_big A y [::] mu.

Lemma rowsP n rows x y : all (fun r => size r == n) rows -> size x = n -> size y = n ->
  agrees rows x y <-> rows_mx n rows *m vec n x = rows_mx n rows *m vec n y.
Proof.
move=> /allP sr sx sy.
have dE (i : 'I_(size rows)) z : (rows_mx n rows *m vec n z) i 0 = dotp (nth [::] rows i) z.
  have /eqP e := sr _ (mem_nth [::] (ltn_ord i)); rewrite mxE /dotp e.
  by apply: eq_bigr => j _; rewrite !mxE.
split=> [h|h r rr].
  by apply/colP => i; rewrite !dE; apply: h; exact: mem_nth.
have ir : (index r rows < size rows)%N by rewrite index_mem.
have := congr1 (fun M : 'cV_(size rows) => M (Ordinal ir) 0) h.
by rewrite !dE /= nth_index.
Qed.

Lemma solver_eq_big_ok : solver_eq_contract solver_eq_big.
Proof.
have main A y rows mu x : size y = sh1 A -> 0 <= mu -> solver_eq_big A y rows mu = Ok x ->
    (size x = size y /\ agrees rows x y) /\
    forall z, size z = size y -> agrees rows z y -> trend_cost A mu y x <= trend_cost A mu y z.
  move=> sy mu0; rewrite /solver_eq_big; case: ifP => [/and4P[sr /eqP mz /eqP wz cm] [<-]|_].
    have [wx mn] := best_min mz wz cm.
    split; first split; first by rewrite size_unvec sy.
      by apply/rowsP => //; rewrite ?size_unvec // unvecK.
    move=> z sz az; rewrite sy in sz; rewrite !(cost_len (n := sh1 A)) ?size_unvec // unvecK.
    by apply: mn; apply/rowsP.
  rewrite /solver_ref; case: ifP => // k1 [<-]; split; first by split.
  by move=> z sz _; exact: small_minimal.
by split=> A y rows mu x sy mu0 e; have [] := main _ _ _ _ _ sy mu0 e.
Qed.
Lemma solver_big_ok : solver_contract solver_big.
Proof.
have [f m] := solver_eq_big_ok; move=> A y mu x sy mu0 e; have [sx _] := f _ _ _ _ _ sy mu0 e.
by split=> // z sz; apply: m sy mu0 e _ sz _.
Qed.

(** It completes whenever the weight is small, or large and some flow meets the constraints without penalty. *)
Lemma solver_big_small A y rows mu : mu * row_norms R A <= 1 -> size y = sh1 A ->
  exists x, solver_eq_big A y rows mu = Ok x /\ size x = sh1 A.
Proof.
move=> k1 sy; rewrite /solver_eq_big; case: ifP => _; first by eexists; split; [reflexivity|rewrite size_unvec].
by rewrite /solver_ref k1; exists y.
Qed.
Lemma solver_big_large A y z rows mu : all (fun r => size r == sh1 A) rows -> size y = sh1 A -> size z = sh1 A ->
  mv A z = zerof R (sh0 A) -> agrees rows z y -> weight A rows <= mu ->
  exists x, solver_eq_big A y rows mu = Ok x /\ size x = sh1 A.
Proof.
move=> sr sy sz mz az cm.
have mz' := proj1 (mv_zero z erefl) mz; have wz := proj1 (rowsP sr sz sy) az.
have key : col_mx (toM R (sh0 A) (sh1 A) A) (rows_mx (sh1 A) rows) *m start A y rows =
    col_mx 0 (rows_mx (sh1 A) rows *m vec (sh1 A) y).
  apply/trmx_inj; rewrite trmx_mul /start trmxK mulmxKpV //.
  by rewrite -wz -mz' -mul_col_mx trmx_mul submxMl.
move: key; rewrite mul_col_mx => /eq_col_mx[k1 k2].
by rewrite /solver_eq_big sr k1 k2 !eqxx cm /=; eexists; split; [reflexivity|rewrite size_unvec].
Qed.

Lemma sampling_sizes n s : all (fun r => size r == n) (sampling_matrix (sample_mask R n s)).
Proof.
apply/allP => r; rewrite /sampling_matrix mem_filter => /andP[_ /mapP[i _ ->]].
by rewrite !size_mkseq.
Qed.

(** Runs on the triangle. *)
Lemma big_l1_completes pow10 randn (flow snr : seq R) num mu : (forall i j n, size (randn i j n) = n) ->
  size flow = 3%N -> Z.le Z0 num ->
  mu * row_norms R (sc_B1 tri_sc) <= 1 \/ weight (sc_B1 tri_sc) [::] <= mu ->
  exists r, denoise_l1 pow10 randn solver_big tri_sc flow "divergence" num snr 0 mu = Ok r.
Proof.
move=> sr sf n0 k1; have M0 : (0 < length tri_edges)%N by [].
rewrite /denoise_l1 tri_components tri_shift0 bindOk to_arrC bindOk (power_noiseE _ tri_ok M0) bindOk.
cbv beta iota zeta; case: Z.ltb_spec => [|_]; first by lia.
rewrite (scE tri_ok).
apply: table_then => i j; rewrite size_map => li lj; rewrite (noisyE pow10 sr) // bindOk size_addf sf eqxx.
rewrite -/(noisy_flow pow10 flow (length tri_edges) snr`_i (randn i j (length tri_edges))).
set y := noisy_flow _ _ _ _ _; have sy : size y = sh1 (sc_B1 tri_sc) by rewrite size_addf sf.
have [x [e sx]] : exists x, solver_big (sc_B1 tri_sc) y mu = Ok x /\ size x = sh1 (sc_B1 tri_sc).
  case: k1 => k1; first exact: solver_big_small.
  apply: (@solver_big_large _ y (zerof R (sh1 (sc_B1 tri_sc)))) => //.
  by rewrite (mvE _ erefl erefl) !zerof_unvec unvecK mulmx0.
by rewrite e bindOk; apply: tri_cell.
Qed.
Lemma big_interp_completes (floor : R -> Z) (flow : seq R) ratio mu :
  size flow = 3%N -> mv (sc_B1 tri_sc) flow = zerof R (sh0 (sc_B1 tri_sc)) ->
  Z.le Z0 (floor (3%:R * ratio)) /\ Z.le (floor (3%:R * ratio)) 3 ->
  mu * row_norms R (sc_B1 tri_sc) <= 1 \/
  weight (sc_B1 tri_sc) (sampling_matrix (sample_mask R 3 (choice_ref 0 0 3 (Z.to_nat (floor (3%:R * ratio)))))) <= mu ->
  exists r, interpolate_l1 solver_eq_big floor choice_ref tri_sc flow "divergence" [:: ratio] 1 0 mu = Ok r.
Proof.
move=> sf mz [f0 f3] k1.
rewrite /interpolate_l1 tri_components tri_shift0 bindOk to_arrC bindOk.
cbv beta iota zeta; case: Z.ltb_spec => [|_]; first by lia.
rewrite (scE tri_ok).
have s3 : size tri_edges = 3%N by [].
apply: table_then => -[|//] [|//] _ _; rewrite s3 [nth _ _ _]/=.
case: Z.ltb_spec => [|_]; first by lia. case: Z.ltb_spec => [|_]; first by lia.
rewrite orbF (masked _ sf) bindOk size_mkseq eqxx.
set y := mkseq _ _; set rows := sampling_matrix _ in k1 *.
have sy : size y = sh1 (sc_B1 tri_sc) by rewrite size_mkseq.
have [x [e sx]] : exists x, solver_eq_big (sc_B1 tri_sc) y rows mu = Ok x /\ size x = sh1 (sc_B1 tri_sc).
  case: k1 => k1; first exact: solver_big_small.
  apply: (@solver_big_large _ y flow) => //; first exact: sampling_sizes.
  by apply/agreesP => k lk ks; rewrite nth_mkseq // ks.
by rewrite e bindOk; apply: tri_cell.
Qed.

Lemma tri_rotation : mv (sc_B1 tri_sc) [:: 1; -1; 1 : R] = zerof R (sh0 (sc_B1 tri_sc)).
Proof.
have s0 : sh0 (sc_B1 tri_sc) = 3%N by vm_compute.
have s1 : sh1 (sc_B1 tri_sc) = 3%N by vm_compute.
have e00 : at2 (sc_B1 tri_sc) 0 0 = (-1)%zz by vm_compute.
have e01 : at2 (sc_B1 tri_sc) 0 1 = (-1)%zz by vm_compute.
have e02 : at2 (sc_B1 tri_sc) 0 2 = 0%zz by vm_compute.
have e10 : at2 (sc_B1 tri_sc) 1 0 = 1%zz by vm_compute.
have e11 : at2 (sc_B1 tri_sc) 1 1 = 0%zz by vm_compute.
have e12 : at2 (sc_B1 tri_sc) 1 2 = (-1)%zz by vm_compute.
have e20 : at2 (sc_B1 tri_sc) 2 0 = 0%zz by vm_compute.
have e21 : at2 (sc_B1 tri_sc) 2 1 = 1%zz by vm_compute.
have e22 : at2 (sc_B1 tri_sc) 2 2 = 1%zz by vm_compute.
rewrite mvCE /mvC s0 s1; move: (sc_B1 _) e00 e01 e02 e10 e11 e12 e20 e21 e22 => A e00 e01 e02 e10 e11 e12 e20 e21 e22.
rewrite /= /mkseq /= e00 e01 e02 e10 e11 e12 e20 e21 e22 /zmul !mulr0z !addr0.
by rewrite !mulr1z !mulrN1z opprK !add0r ?addNr ?subrr.
Qed.
End Large.

(** ** C97: both filters complete for a small weight and for every weight beyond some bound; the l1 filter is run on a
    flow with divergence, the interpolation with one observed edge of three. *)
Example C97_example : let R := realalg_rcfType in
  solver_contract (@solver_big R) /\ solver_eq_contract (@solver_eq_big R) /\ floor_contract floor_ref /\
  choice_contract choice_ref /\ lstsq_contract (@ls_sol R) /\
  (forall i j n, size (@no_noise R i j n) = n) /\
  make_sc tri_nodes tri_edges tri_triangles nil nil = Ok tri_sc /\
  0 < 10%:R^-1 :> R /\
  (forall mu, 0 <= mu -> exists r, denoise_l2 (@exp_ref R) (@no_noise R) tri_sc [:: 1; 0; 0] "curl" 1 [:: 0] mu = Ok r) /\
  exists C, 10%:R^-1 < C /\ forall mu, mu = 10%:R^-1 \/ C < mu ->
    (exists r, denoise_l1 (@exp_ref R) (@no_noise R) (@solver_big R) tri_sc [:: 1; 0; 0] "divergence" 1 [:: 0]
       0 mu = Ok r) /\
    (exists r, interpolate_l1 (@solver_eq_big R) floor_ref choice_ref tri_sc [:: 1; -1; 1] "divergence"
       [:: 3%:R^-1] 1 0 mu = Ok r) /\
    (exists z, size z = length tri_edges /\ z`_0 = [:: 1; -1; 1]`_0 /\ vanishes tri_sc "divergence" (z : seq R)).
Proof.
move=> R; split; first exact: solver_big_ok. split; first exact: solver_eq_big_ok.
split; first exact: floor_ref_ok. split; first exact: choice_ref_ok. split; first exact: ls_sol_ok.
split; first exact: size_no_noise. split; first exact: tri_ok.
have t0 : 0 < 10%:R^-1 :> R by rewrite invr_gt0 ltr0n.
split; first exact: t0. split.
  move=> mu mu0; have M0 : (0 < length tri_edges)%N by [].
  have s0 : [:: 0 : R] <> [::] by [].
  have [r [F [e _]]] := C47_l2_estimates (@exp_ref R) (@size_no_noise R) tri_ok M0 (erefl _)
    (erefl : size [:: 1 : R; 0; 0] = length tri_edges)
    (or_intror erefl : ("curl" = "divergence" \/ "curl" = "curl")%string) (erefl : Z.lt Z0 1) s0 mu0.
  by exists r.
have k1 := ltW (tri_rows R).
have f_nat n : floor_ref n%:R = Z.of_nat n.
  have := floor_ref_ok (n%:R : R); move: (floor_ref _) => z /andP[a b].
  have a' : (int_of_Z z)%:~R <= (Posz n)%:~R :> R := a.
  have b' : (Posz n)%:~R < (int_of_Z z + 1)%:~R :> R by rewrite intrD.
  by move: a' b'; rewrite ler_int ltr_int; lia.
have f1 : floor_ref (3%:R * 3%:R^-1 : R) = 1%zz by rewrite mulfV ?pnatr_eq0 // -[1]/(1%:R) f_nat.
pose rows := sampling_matrix (sample_mask R 3 (choice_ref 0 0 3 (Z.to_nat (floor_ref (3%:R * 3%:R^-1 : R))))).
have [w1 W1] : exists w, w = weight (sc_B1 tri_sc) [::] :> R by eexists.
have [w2 W2] : exists w, w = weight (sc_B1 tri_sc) rows :> R by eexists.
have w10 : 0 <= w1 by rewrite W1; exact: size_of_ge0.
have w20 : 0 <= w2 by rewrite W2; exact: size_of_ge0.
pose C : R := 10%:R^-1 + (1 + (w1 + w2)); exists C.
have s0 : 0 <= w1 + w2 by exact: addr_ge0.
split; first by rewrite /C ltr_addl ltr_spaddl ?ltr01.
have le w : w <= w1 + w2 -> w <= C.
  move=> lw; apply: le_trans lw _; rewrite /C addrA ler_addr addr_ge0 ?ler01 //; exact: ltW.
move=> mu h.
have h1 : mu * row_norms R (sc_B1 tri_sc) <= 1 \/ w1 <= mu.
  case: h => [em|lt]; first by left; rewrite em.
  by right; apply: le_trans (ltW lt); apply: le; rewrite ler_addl.
have h2 : mu * row_norms R (sc_B1 tri_sc) <= 1 \/ w2 <= mu.
  case: h => [em|lt]; first by left; rewrite em.
  by right; apply: le_trans (ltW lt); apply: le; rewrite ler_addr.
rewrite W1 in h1; rewrite W2 in h2.
split; first by apply: big_l1_completes; [exact: size_no_noise|by []|by []|exact: h1].
split; first by apply: big_interp_completes; [by []|exact: tri_rotation|rewrite f1|exact: h2].
exists [:: 1; -1; 1]; do 2 split=> //.
by apply/(vanishesP tri_ok (tri_shift0)) => //; exact: tri_rotation.
Qed.
Print Assumptions C97_example.
