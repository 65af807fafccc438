(** * Exactness of the type-two least-squares extraction: C36 *)

From Coq Require Import ZArith String List.
From mathcomp Require Import all_ssreflect all_algebra all_real_closed ssrZ zify.
From Verif Require Import Py PyFacts ExampleData Complex ComplexSpec ComplexFacts LinAlg Spectral Signal
  SignalSpec Bridge SignalFacts Compute Props_Signal Props_Hodge Eigen EigenSpec IntEigen EigenFacts
  Props_Eigen Filter FilterSpec FilterFacts FilterFacts2 PolyFacts Props_Masks Props_LowPass Props_Poly.

Set Implicit Arguments.
Unset Strict Implicit.
Unset Printing Implicit Defensive.

Import GRing.Theory Num.Theory Order.Theory.
Local Open Scope ring_scope.

(** [lam] is an eigenvalue of [A]. *)
Definition eigenvalue_of (R : realFieldType) (A : arr2) (lam : R) : Prop :=
  exists u, size u = sh1 A /\ u <> zerof R (sh1 A) /\ is_eigen A lam u.

(** [A] has at most [L] different eigenvalues. *)
Definition eigenvalues_at_most (R : realFieldType) (A : arr2) (L : nat) : Prop :=
  forall vs : seq R, uniq vs -> (forall lam, lam \in vs -> eigenvalue_of A lam) -> (size vs <= L)%N.

Lemma sorted_lt_head (R : realFieldType) (s : seq R) x : sorted <%R s -> x \in s ->
  (forall y, y \in s -> x <= y) -> s`_0 = x.
Proof.
case: s => // a s /= so; rewrite inE => /orP[/eqP -> //|xs] mn.
have := allP (order_path_min lt_trans so) _ xs; rewrite ltNge mn ?mem_head //.
Qed.

Section Exact.
Variable R : rcfType.
Variable eigsh : forall n, 'M[R]_n -> seq (R * 'cV[R]_n).
Variables (nodes : list Z) (E : list (Z * Z)) (T : list (list Z)) (nf : dict Z fdict)
          (ef : dict (Z * Z) fdict) (sc : SC).
Hypothesis H : make_sc nodes E T nf ef = Ok sc.
Hypothesis EC : eigsh_contract eigsh.
Hypothesis M0 : (0 < length E)%N.
Variables (s p : string).
Hypothesis sp : type_two_laplacian s p.
Notation A := (p_array sc p).
Notation P := (p_mat R nodes E T sc p).
Notation M := (length E).

Lemma FP : eigfam P (eigsh P). Proof. exact: contract_eigfam (p_sym R nodes E T sc p). Qed.
Lemma eigval_ge0 q : q \in eigsh P -> 0 <= q.1.
Proof.
move=> ql; have := p_psd nodes T sc p q.2.
by rewrite (eigfam_eq FP ql) dotZr (eigfam_unit FP ql) mulr1.
Qed.
Lemma eigval_of q : q \in eigsh P -> eigenvalue_of A q.1.
Proof.
move=> ql; have [d0 d1] := p_dims H p; exists (unvec q.2); rewrite size_unvec -d1; split=> //; split.
  rewrite zerof_unvec => /unvec_inj z; have := eigfam_unit FP ql; rewrite z dot0l => /esym/eqP.
  by rewrite oner_eq0.
exact: (is_eigen_p H (eigfam_eq FP ql)).
Qed.
Lemma eigval_in lam : eigenvalue_of A lam -> exists2 q, q \in eigsh P & q.1 = lam.
Proof.
have [d0 d1] := p_dims H p; rewrite /eigenvalue_of -d1 => -[u [su [u0 e]]].
apply: (eigfam_detect FP (p_sym R nodes E T sc p) (x := vec M u)).
  by apply/eqP => z; apply: u0; rewrite -(vecK su) z zerof_unvec.
have := e; rewrite /is_eigen (mv_p H) -{2}(vecK su) scalef_unvec => /unvec_inj.
by [].
Qed.
Lemma valuesE : values (up (zeroed (eigsh P))) = [seq zs q.1 | q <- eigsh P].
Proof. by rewrite /values /up /zeroed -!map_comp. Qed.

Lemma comp_proj : exists k (B : 'M[R]_(M, k)), P = B *m B^T /\ comp_mx R nodes E T sc s = proj B.
Proof.
case: sp => [[-> ->]|[-> ->]].
- by exists (length nodes), (B1m R nodes E sc)^T; rewrite trmxK.
- by exists (length T), (B2m R E T sc).
Qed.

Variables (tol : R) (ev : seq R).
Hypothesis et : eps64 R <= tol.
Hypothesis DV : distinct_values (values (up (zeroed (eigsh P)))) tol ev.
Hypothesis BS : below_positive_spectrum A tol.

Lemma ev_in x : x \in ev <-> exists2 q, q \in eigsh P & q.1 = x.
Proof.
have e0 := eps64_gt0 R; have [_ h] := DV; rewrite valuesE in h.
have key q : q \in eigsh P -> (if `|zs q.1| < tol then 0 else zs q.1) = q.1.
  move=> ql; have q0 := eigval_ge0 ql; rewrite /zs (ger0_norm q0).
  have small : q.1 <= tol -> q.1 = 0.
    by have [u [su [u0 e]]] := eigval_of ql; exact: BS su e u0.
  case: (ltP q.1 (eps64 R)) => qe /=.
    by rewrite normr0 (lt_le_trans e0 et) small //; apply/ltW/(lt_le_trans qe).
  rewrite ger0_norm //; case: (ltP q.1 tol) => // qt.
  by rewrite small // ltW.
split; first by move=> /h[lam /mapP[q ql ->] ->]; exists q => //; rewrite key.
by case=> q ql <-; apply/h; exists (zs q.1); [apply/mapP; exists q|rewrite key].
Qed.

Lemma ev_le L : eigenvalues_at_most R A L -> (size ev <= L)%N.
Proof.
apply; first by have [so _] := DV; rewrite lt_sorted_uniq_le in so; case/andP: so.
by move=> lam /ev_in[q ql <-]; exact: eigval_of.
Qed.
End Exact.

(** ** C36 *)

Theorem C36_type_two_exact :
  forall (R : rcfType) eigsh lstsq rint, eigsh_contract eigsh -> lstsq_min_contract lstsq ->
  forall nodes E T nf ef sc, make_sc nodes E T nf ef = Ok sc -> (0 < length E)%N ->
  forall s p A, type_two_laplacian s p -> get_p_matrix sc p = Ok (Csr A) ->
  forall L tol, Z.lt Z0 L -> (2%:R ^+ 52)^-1 <= tol -> below_positive_spectrum A tol ->
  eigenvalue_of A (0 : R) -> eigenvalues_at_most R A (Z.to_nat L) ->
  forall (f : seq R), size f = length E ->
  exists r, ls_type_two eigsh lstsq rint sc f s L tol = Ok r /\
    get_component_flow lstsq rint sc f s false 2 = Ok (run_estimated r) /\
    (forall x, size x = length E ->
       get_component_flow lstsq rint sc x s false 2 = Ok (rmv (run_filter r) x)) /\
    (run_estimated r <> zerof R (length E) -> last (NaN R) (run_errors r) = Fin 0).
Proof.
move=> R eigsh lstsq rint EC LC nodes E T nf ef sc H M0 s p A sp pA L tol L0 et.
have := C35_ls_type_two rint EC LC H M0 sp pA _ tol L0.
move: pA => /p_of[pv ->] TT BS Z0' AM f sf.
have [r [hs [t [U [ev [eR [eT [sh [pr [eU [dv bf]]]]]]]]]]] := TT f sf.
have cn : component_name s by case: sp => [[-> _]|[-> _]]; [left|right; left].
have eU' : U = up (zeroed (eigsh _ (p_mat R nodes E T sc p))).
  by move: eU; rewrite (p_decomp eigsh H p M0) => -[<-].
rewrite eU' in dv.
have evI := ev_in H EC M0 et dv BS.
have [so _] := dv.
have ue : uniq ev by move: so; rewrite lt_sorted_uniq_le => /andP[].
have z0 : 0 \in ev by apply/evI; exact: (eigval_in H EC M0).
have ge0 y : y \in ev -> 0 <= y by move=> /evI[q ql <-]; exact: (eigval_ge0 EC M0 ql).
have e0 := sorted_lt_head so z0 ge0.
have ev0 : (0 < size ev)%N by case: (ev) z0.
have Ln : (0 < Z.to_nat L)%N by lia.
have lh : nth [::] hs (Z.to_nat L).-1 = last [::] hs by rewrite -nth_last sh.
have bfL := bf (Z.to_nat L).-1; rewrite sh prednK // lh in bfL.
have sz : size (0 :: nseq (size ev).-1 (1 : R)) = size ev by rewrite /= size_nseq prednK.
have hit := best_fit_exact ue sz (ev_le H EC M0 et dv BS AM) Ln (bfL (leqnn _)).
set h := last [::] hs in hit.
have pr1 q : q \in eigsh _ (p_mat R nodes E T sc p) -> poly_at h q.1 = (q.1 != 0)%:R.
  move=> ql; have : q.1 \in ev by apply/evI; exists q.
  move=> /(nthP 0)[i il ei]; rewrite -ei hit //; case: i il ei => [|i] il ei /=.
    by rewrite e0 eqxx.
  rewrite nth_nseq -ltnS prednK // il; case: eqP => // z.
  have := nth_uniq 0 il ev0 ue; rewrite z e0 eqxx //.
have hv : h = unvec (vec (size h) h) by rewrite vecK.
have [k [B [eP eC]]] := comp_proj R nodes E T sc sp.
have F := contract_eigfam EC M0 (p_sym R nodes E T sc p).
have PP : poly_filter (p_mat R nodes E T sc p) (vec (size h) h) = proj B.
  move: F pr1; rewrite eP => F pr1; apply: (poly_proj F).
  by move=> q ql; rewrite vecK // pr1.
have [d0 d1] := p_dims H p.
have flt x : size x = length E -> get_component_flow lstsq rint sc x s false 2 =
    Ok (poly_mv (p_array sc p) h x).
  move=> sx; rewrite (component_Ok H (proj1 LC)) //= hv (poly_mvE d0 d1) // (toM_p R H) PP eC //.
have [_ [_ [pF [pE [se [_ [pX _]]]]]]] := pr; rewrite -/h -d0 in pF.
exists r; split=> //; rewrite pE; split; first by rewrite pF // flt.
split=> [x sx|nz]; first by rewrite pF // flt.
have Ls : ((Z.to_nat L).-1 < size hs)%N by rewrite sh prednK.
have := pX _ Ls; rewrite lh -/h; move: eT; rewrite flt // => -[et'].
have st : size t = length E by rewrite -et' size_mkseq -d0.
have energy0 : energy t = 0 -> t = zerof R (length E).
  rewrite -(vecK st) energy_unvec => /eqP; rewrite nrm2_eq0 => /eqP ->; exact/esym/zerof_unvec.
rewrite -nth_last se sh; case: (nth _ _ _) => [e||] /=.
- rewrite -et'; set y := poly_mv _ _ _; have -> : energy (subf y y) = 0.
    by rewrite -(vecK (erefl (size y))) subf_unvec subrr energy_unvec /nrm2 dot0l.
  move=> [e0' [/eqP]]; rewrite mulf_eq0 => /orP[|/eqP ->]; last by rewrite ltxx => -[].
  by rewrite expf_eq0 => /eqP ->.
- by move=> [te _]; case: nz; rewrite pF // et' energy0.
by move=> [te _]; case: nz; rewrite pF // et' energy0.
Qed.
Print Assumptions C36_type_two_exact.

(** If 0 is not an eigenvalue the smallest eigenvalue takes its place in the design: the whole
    eigenspace is removed although it belongs to the component. *)
Theorem C36_nonsingular_laplacian_loses_a_mode :
  forall (R : rcfType) eigsh lstsq rint, eigsh_contract eigsh -> lstsq_min_contract lstsq ->
  forall nodes E T nf ef sc, make_sc nodes E T nf ef = Ok sc -> (0 < length E)%N ->
  forall s p A, type_two_laplacian s p -> get_p_matrix sc p = Ok (Csr A) ->
  forall L tol, Z.lt Z0 L -> (2%:R ^+ 52)^-1 <= tol -> below_positive_spectrum A tol ->
  ~ eigenvalue_of A (0 : R) -> eigenvalues_at_most R A (Z.to_nat L) ->
  exists lam, eigenvalue_of A lam /\
    forall f, size f = length E -> is_eigen A lam f -> exists r,
      ls_type_two eigsh lstsq rint sc f s L tol = Ok r /\
      get_component_flow lstsq rint sc f s false 2 = Ok f /\ run_estimated r = zerof R (length E).
Proof.
move=> R eigsh lstsq rint EC LC nodes E T nf ef sc H M0 s p A sp pA L tol L0 et.
have := C35_ls_type_two rint EC LC H M0 sp pA _ tol L0.
move: pA => /p_of[pv ->] TT BS Z0' AM.
have cn : component_name s by case: sp => [[-> _]|[-> _]]; [left|right; left].
pose U0 := up (zeroed (eigsh _ (p_mat R nodes E T sc p))).
pose ev := np_unique [seq if `|q.1| < tol then 0 else q.1 | q <- U0].
have dv : distinct_values (values U0) tol ev := np_unique_distinct U0 tol.
have evI := ev_in H EC M0 et dv BS.
have [so _] := dv.
have F := contract_eigfam EC M0 (p_sym R nodes E T sc p).
have [d0 d1] := p_dims H p.
have ev0 : (0 < size ev)%N.
  have q0 : nth (0, 0) (eigsh _ (p_mat R nodes E T sc p)) 0 \in eigsh _ (p_mat R nodes E T sc p).
    by rewrite mem_nth // (eigfam_size F).
  have : (nth (0, 0) (eigsh _ (p_mat R nodes E T sc p)) 0).1 \in ev by apply/evI; eexists; first exact: q0.
  by case: (ev).
have [q ql eq] : exists2 q, q \in eigsh _ (p_mat R nodes E T sc p) & q.1 = ev`_0 by apply/evI; rewrite mem_nth.
exists ev`_0; split; first by rewrite -eq; exact: (eigval_of H EC M0).
move=> f sf ef'; have [r [hs [t [U [ev' [eR [eT [sh [pr [eU [dv' bf]]]]]]]]]]] := TT f sf.
have eU' : U = U0 by move: eU; rewrite (p_decomp eigsh H p M0) => -[<-].
rewrite eU' in dv'.
have evI' := ev_in H EC M0 et dv' BS.
have ee : ev' = ev.
  have [so' _] := dv'; apply: lt_sorted_eq so' so _ => x.
  by apply/idP/idP => [/evI'/evI|/evI/evI'].
rewrite {}ee {dv' evI'} in bf.
have ue : uniq ev := lt_sorted_uniq so.
have Ln : (0 < Z.to_nat L)%N by lia.
have lh : nth [::] hs (Z.to_nat L).-1 = last [::] hs by rewrite -nth_last sh.
have bfL := bf (Z.to_nat L).-1; rewrite sh prednK // lh in bfL.
have sz : size (0 :: nseq (size ev).-1 (1 : R)) = size ev by rewrite /= size_nseq prednK.
have hit := best_fit_exact ue sz (ev_le H EC M0 et dv BS AM) Ln (bfL (leqnn _)) ev0.
set h := last [::] hs in hit.
have hv : h = unvec (vec (size h) h) by rewrite vecK.
have e : p_mat R nodes E T sc p *m vec (length E) f = ev`_0 *: vec (length E) f.
  have := ef'; rewrite /is_eigen (mv_p H) -{2}(vecK sf) scalef_unvec => /unvec_inj.
  by [].
have [k [B [eP eC]]] := comp_proj R nodes E T sc sp.
have l0 : ev`_0 != 0.
  by apply/eqP => z; apply: Z0'; rewrite -z -eq; exact: (eigval_of H EC M0).
have [_ [_ [pF [pE _]]]] := pr; rewrite -/h -d0 in pF.
exists r; split=> //; split.
  rewrite (component_Ok H (proj1 LC)) //= eC.
  have -> : vec (length E) f = B *m ((ev`_0)^-1 *: (B^T *m vec (length E) f)).
    by rewrite -scalemxAr mulmxA -eP e scalerA mulVf // scale1r.
  by rewrite proj_in -scalemxAr mulmxA -eP e scalerA mulVf // scale1r vecK.
rewrite pE pF // hv (poly_mvE d0 d1) // (toM_p R H) (poly_filter_eigen _ e) -hv hit /=.
by rewrite scale0r zerof_unvec.
Qed.
Print Assumptions C36_nonsingular_laplacian_loses_a_mode.

(** One edge: the lower Laplacian is the number 2.  Every flow is a gradient flow, and the extracted
    gradient is zero. *)
Definition edge_nodes : list Z := [:: 0; 1]%zz.
Definition edge_edges : list (Z * Z) := [:: (0, 1)]%zz.
Definition edge_sc := get_sc (make_sc edge_nodes edge_edges nil nil nil).
Lemma edge_ok : make_sc edge_nodes edge_edges nil nil nil = Ok edge_sc.
Proof. by vm_compute. Qed.
Definition eLL := amul (atr (sc_B1 edge_sc)) (sc_B1 edge_sc).
Lemma eLL_sh : 1%N = sh0 eLL /\ 1%N = sh1 eLL. Proof. by vm_compute. Qed.
Lemma eLL_at : at2 eLL 0 0 = 2%zz. Proof. by vm_compute. Qed.
Lemma eLL_mat (R : realFieldType) : toM R 1 1 eLL = 2%:R%:M.
Proof. by apply/matrixP => i j; rewrite !ord1 !mxE /toM eLL_at eqxx. Qed.
Lemma eLL_eig (R : realFieldType) (lam : R) u : size u = 1%N -> u <> zerof R 1 -> is_eigen eLL lam u -> lam = 2%:R.
Proof.
move=> su; rewrite -(vecK su) => u0.
rewrite /is_eigen (mvE _ (proj1 eLL_sh) (proj2 eLL_sh)) unvecK scalef_unvec => /unvec_inj/eqP.
rewrite eLL_mat mul_scalar_mx -subr_eq0 -scalerBl scaler_eq0 subr_eq0 => /orP[/eqP-> //|/eqP z].
by case: u0; rewrite z zerof_unvec.
Qed.
Lemma eLL_all (R : realFieldType) (u : seq R) : size u = 1%N -> is_eigen eLL 2%:R u.
Proof.
move=> su; rewrite /is_eigen (mvE _ (proj1 eLL_sh) (proj2 eLL_sh)) eLL_mat mul_scalar_mx.
by rewrite -scalef_unvec vecK.
Qed.

Theorem C36_one_edge_refuted :
  exists nodes E T sc, make_sc nodes E T nil nil = Ok sc /\
  forall (R : rcfType) eigsh lstsq rint, eigsh_contract eigsh -> lstsq_min_contract lstsq ->
  forall L (a : R), Z.lt Z0 L -> a != 0 -> exists r,
    ls_type_two eigsh lstsq rint sc [:: a] "gradient" L 1000%:R^-1 = Ok r /\
    get_component_flow lstsq rint sc [:: a] "gradient" false 2 = Ok [:: a] /\
    run_estimated r = [:: 0].
Proof.
exists edge_nodes, edge_edges, nil, edge_sc; split; first exact: edge_ok.
move=> R eigsh lstsq rint EC LC L a L0 a0.
have GP : get_p_matrix edge_sc "L1L" = Ok (Csr eLL) by [].
have M0 : (0 < length edge_edges)%N by [].
have sp : type_two_laplacian "gradient" "L1L" by left.
have m2 : milli R < 2%:R by apply: (@le_lt_trans _ _ 1); rewrite ?ltr1n // /milli invf_le1 ?ltr0n // ler1n.
have n2 : 2%:R != 0 :> R by rewrite pnatr_eq0.
have BS : below_positive_spectrum eLL (milli R).
  move=> lam u; rewrite -(proj2 eLL_sh) => su e u0; rewrite (eLL_eig su u0 e) => le.
  by move: (le_lt_trans le m2); rewrite ltxx.
have NZ : ~ eigenvalue_of eLL (0 : R).
  case=> u; rewrite -(proj2 eLL_sh) => -[su [u0 e]]; have /eqP := eLL_eig su u0 e.
  by rewrite eq_sym (negbTE n2).
have AM : eigenvalues_at_most R eLL (Z.to_nat L).
  move=> vs uv h; apply: (@leq_trans 1); last by lia.
  apply: (@uniq_leq_size _ vs [:: 2%:R]) => // lam /h [u]; rewrite -(proj2 eLL_sh) => -[su [u0 e]].
  by rewrite inE (eLL_eig su u0 e).
have [lam [[u]]] := C36_nonsingular_laplacian_loses_a_mode rint EC LC edge_ok M0 sp GP L0 (eps64_milli R) BS NZ AM.
rewrite -(proj2 eLL_sh) => -[su [u0 e]]; rewrite (eLL_eig su u0 e) => h.
by have [r [h1 [h2 h3]]] := h [:: a] erefl (@eLL_all R [:: a] (erefl 1%N)); exists r; rewrite h3.
Qed.
Print Assumptions C36_one_edge_refuted.

(** The hypotheses of C36 hold for the gradient on the complete graph with four nodes and L = 2 (and
    those of the refutation for the contracts, see C31_C32_example). *)
Section K4.
Variable R : rcfType.
Lemma k4_at_most2 : eigenvalues_at_most R kLL 2.
Proof.
move=> vs uv h; apply: (@uniq_leq_size _ vs [:: 0; 4%:R]) => // lam /h [u]; rewrite -(proj2 kLL_sh) => -[su [u0 e]].
by rewrite !inE; have [->|->] := kLL_eig su u0 e; rewrite eqxx ?orbT.
Qed.
Lemma k4_belowL : below_positive_spectrum kLL (milli R).
Proof.
move=> lam u; rewrite -(proj2 kLL_sh) => su e u0; have [//|->] := kLL_eig su u0 e => le.
by have := lt_trans (le_lt_trans le (milli3 R)) (_ : 3%:R < 4%:R); rewrite ltr_nat ltxx => /(_ isT).
Qed.
Lemma k4_B2_00 : at2 (sc_B2 k4_sc) 0 0 = 1%zz. Proof. by vm_compute. Qed.
Lemma k4_zero : eigenvalue_of kLL (0 : R).
Proof.
pose u : 'cV[R]_(length k4_edges) := B2m R k4_edges k4_triangles k4_sc *m (const_mx 1 : 'cV[R]_(length k4_triangles)).
have B12 := oriented_B1B2 R k4_ok k4_oriented.
exists (unvec u); rewrite -(proj2 kLL_sh) size_unvec; split=> //; split.
  rewrite (zerof_unvec R 6) => /unvec_inj /matrixP /(_ 0 0); rewrite !mxE big_ord_recl big_ord0 !mxE addr0 mulr1.
  by rewrite /toM k4_B2_00 => /eqP; rewrite oner_eq0.
apply: (proj2 (@eigL R _ _ _ _ _ _ k4_ok u 0)).
by rewrite scale0r /u /L1Lm -mulmxA (mulmxA (B1m R k4_nodes k4_edges k4_sc)) B12 mul0mx mulmx0.
Qed.
End K4.

Example C36_example :
  let R := realalg_rcfType in
  eigsh_contract (@eigsh_std R) /\ lstsq_min_contract (@ls_min R) /\
  make_sc k4_nodes k4_edges k4_triangles nil nil = Ok k4_sc /\ (0 < length k4_edges)%N /\
  type_two_laplacian "gradient" "L1L" /\ get_p_matrix k4_sc "L1L" = Ok (Csr kLL) /\
  eps64 R <= milli R /\ below_positive_spectrum kLL (milli R) /\
  eigenvalue_of kLL (0 : R) /\ eigenvalues_at_most R kLL (Z.to_nat 2).
Proof.
split; first exact: eigsh_std_ok. split; first exact: ls_min_ok. split; first exact: k4_ok.
split; first by []. split; first by left. split; first by []. split; first exact: eps64_milli.
split; first exact: k4_belowL. by split; [exact: k4_zero|exact: k4_at_most2].
Qed.
