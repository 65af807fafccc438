(** * Properties of eigenpairs, embeddings and total variance *)

From Coq Require Import ZArith String List.
From mathcomp Require Import all_ssreflect all_algebra all_real_closed ssrZ zify.
From Verif Require Import Py PyFacts Complex ComplexSpec ComplexFacts ComplexFacts2 ExampleData
  LinAlg Spectral Signal SignalSpec Bridge SignalFacts Compute Eigen EigenSpec IntEigen EigenFacts
  Props_Signal Props_Hodge.

Set Implicit Arguments.
Unset Strict Implicit.
Unset Printing Implicit Defensive.

Import GRing.Theory Num.Theory Order.Theory.
Local Open Scope ring_scope.
Delimit Scope Z_scope with zz.

(** ** C24 *)

Theorem C24_eigenpair_component_names :
  forall (R : realFieldType) (eigsh : forall n, 'M[R]_n -> seq (R * 'cV[R]_n)),
  forall nodes E T nf ef sc, make_sc nodes E T nf ef = Ok sc ->
  forall s (t : R),
  (~ component_name s -> get_component_eigenpair eigsh sc s t = Raise ValueError) /\
  (component_name s -> (0 < length E)%N -> exists ps, get_component_eigenpair eigsh sc s t = Ok ps).
Proof.
move=> R eigsh nodes E T nf ef sc H s t; have [h0 h1] := B1_dims H; have [h2 h3] := B2_dims H.
split=> [N|].
  rewrite /get_component_eigenpair; case: String.eqb_spec => [e|_]; first by case: N; right; right.
  case: String.eqb_spec => [e|_]; first by case: N; right; left.
  by case: String.eqb_spec => [e|_] //; case: N; left.
move=> Hs E0; case: Hs => [->|[->| ->]]; rewrite /get_component_eigenpair /=.
- by rewrite /get_gradient_eigenpair (@decompE _ _ _ (length E)) //=; eexists.
- by rewrite /get_curl_eigenpair (@decompE _ _ _ (length E)) //=; eexists.
by rewrite /get_harmonic_eigenpair (@decompE _ _ _ (length E)) //=; eexists.
Qed.
Print Assumptions C24_eigenpair_component_names.

Section Names.
Variable R : realFieldType.
Variable eigsh : forall n, 'M[R]_n -> seq (R * 'cV[R]_n).
Variables (nodes : list Z) (E : list (Z * Z)) (T : list (list Z)) (nf : dict Z fdict)
          (ef : dict (Z * Z) fdict) (sc : SC).
Hypothesis H : make_sc nodes E T nf ef = Ok sc.
Hypothesis M0 : (0 < length E)%N.
Lemma eigG t : eps64 R <= t ->
  get_component_eigenpair eigsh sc "gradient" t = Ok (up (gradl eigsh nodes E sc t)).
Proof. by move=> et; rewrite (component_eigE _ H) // . Qed.
Lemma eigC t : eps64 R <= t ->
  get_component_eigenpair eigsh sc "curl" t = Ok (up (curll eigsh E T sc t)).
Proof. by move=> et; rewrite (component_eigE _ H) // . Qed.
Lemma eigH t : eps64 R <= t ->
  get_component_eigenpair eigsh sc "harmonic" t = Ok (up (zeroed (harml eigsh nodes E T sc t))).
Proof. by move=> et; rewrite (component_eigE _ H) // . Qed.
End Names.

(** ** C25 *)

Theorem C25_gradient_eigenpairs :
  forall (R : realFieldType) eigsh, eigsh_contract eigsh ->
  forall nodes E T nf ef sc, make_sc nodes E T nf ef = Ok sc -> (0 < length E)%N ->
  forall LL LH, lower_laplacian_matrix sc 1 = Ok (Csr LL) -> hodge_laplacian_matrix sc 1 = Ok (Csr LH) ->
  forall (t : R), (2%:R ^+ 52)^-1 <= t ->
  exists ps, get_component_eigenpair eigsh sc "gradient" t = Ok ps /\
  (forall lam u, (lam, u) \in ps ->
     size u = length E /\ is_eigen LL lam u /\ t < lam /\ energy u = 1 /\
     (proper_edges (length nodes) E -> exists p, size p = length nodes /\ u = potential_diff E p) /\
     (oriented (length nodes) E T ->
        is_eigen LH lam u /\ get_curl sc u = Ok (zerof R (length T)))) /\
  (forall lam u, size u = length E -> is_eigen LL lam u -> t < lam ->
     lincomb (length E) (weights (vectors ps) u) (vectors ps) = u).
Proof.
move=> R eigsh EC nodes E T nf ef sc H M0 LL LH [<-] [<-] t et.
rewrite (eigG eigsh H M0 et); eexists; split; first by [].
have t0 : 0 < t := lt_le_trans (eps64_gt0 R) et.
have F := famL EC nodes sc M0; split.
  move=> lam u /mapP[p]; rewrite mem_filter => /andP[tp pl] [-> ->].
  have [e _] := fam_unit F pl; have p0 : p.1 != 0 by rewrite gt_eqF // (lt_trans t0).
  split; first exact: size_unvec. split; first exact/(eigL H). split; first by [].
  split.
    case/eigfamP: F => _ [/onfP[_ o] _]; rewrite energy_unvec /nrm2.
    by rewrite o ?map_f // eqxx.
  split=> [P|O].
    exists (unvec (p.1^-1 *: (B1m R nodes E sc *m p.2))); split; first exact: size_unvec.
    apply: (@vec_inj _ (length E)); rewrite ?size_unvec ?size_potential_diff //.
    rewrite -(B1T_potential H P) !unvecK -scalemxAr mulmxA.
    by rewrite e scalerA mulVf // scale1r.
  have B12 := oriented_B1B2 R H O; have [U0 e'] := L_to_S B12 p0 e.
  split; first exact/(eigS H).
  rewrite (curl_Ok H) ?size_unvec // unvecK zerof_unvec; congr (Ok (unvec _)).
  by apply: gram_ker; rewrite trmxK mulmxA.
move=> lam u su; rewrite -(vecK su) => /(eigL H) e tl.
rewrite vectors_up lincomb_weights gradl_sel.
by rewrite (sel_span (L1L_sym R nodes E sc) F e).
Qed.
Print Assumptions C25_gradient_eigenpairs.

Theorem C25_curl_eigenpairs :
  forall (R : realFieldType) eigsh, eigsh_contract eigsh ->
  forall nodes E T nf ef sc, make_sc nodes E T nf ef = Ok sc -> (0 < length E)%N ->
  forall LU LH, upper_laplacian_matrix sc 1 = Ok (Csr LU) -> hodge_laplacian_matrix sc 1 = Ok (Csr LH) ->
  forall (t : R), (2%:R ^+ 52)^-1 <= t ->
  exists ps, get_component_eigenpair eigsh sc "curl" t = Ok ps /\
  (forall lam u, (lam, u) \in ps ->
     size u = length E /\ is_eigen LU lam u /\ t <= lam /\ energy u = 1 /\
     (simple_edges E -> proper_triangles T -> exists w, size w = length T /\ u = circulation E T w) /\
     (oriented (length nodes) E T ->
        is_eigen LH lam u /\ get_divergence sc u = Ok (zerof R (length nodes)))) /\
  (forall lam u, size u = length E -> is_eigen LU lam u -> t <= lam ->
     lincomb (length E) (weights (vectors ps) u) (vectors ps) = u).
Proof.
move=> R eigsh EC nodes E T nf ef sc H M0 LU LH [<-] [<-] t et.
rewrite (eigC eigsh H M0 et); eexists; split; first by [].
have t0 : 0 < t := lt_le_trans (eps64_gt0 R) et.
have F := famU EC T sc M0; split.
  move=> lam u /mapP[p]; rewrite mem_filter => /andP[tp pl] [-> ->].
  have [e _] := fam_unit F pl; have p0 : p.1 != 0 by rewrite gt_eqF // (lt_le_trans t0).
  split; first exact: size_unvec. split; first exact/(eigU H). split; first by [].
  split.
    case/eigfamP: F => _ [/onfP[_ o] _]; rewrite energy_unvec /nrm2.
    by rewrite o ?map_f // eqxx.
  split=> [S P|O].
    exists (unvec (p.1^-1 *: ((B2m R E T sc)^T *m p.2))); split; first exact: size_unvec.
    apply: (@vec_inj _ (length E)); rewrite ?size_unvec ?size_map //.
    rewrite -(B2_circulation H S P) !unvecK -scalemxAr mulmxA.
    by rewrite e scalerA mulVf // scale1r.
  have B12 := oriented_B1B2 R H O; have [U0 e'] := U_to_S B12 p0 e.
  split; first exact/(eigS H).
  rewrite (divergence_Ok H) ?size_unvec // unvecK zerof_unvec; congr (Ok (unvec _)).
  by apply: gram_ker; rewrite mulmxA.
move=> lam u su; rewrite -(vecK su) => /(eigU H) e tl.
rewrite vectors_up lincomb_weights curll_sel.
by rewrite (sel_span (L1U_sym R E T sc) F e).
Qed.
Print Assumptions C25_curl_eigenpairs.

Theorem C25_harmonic_eigenpairs :
  forall (R : realFieldType) eigsh, eigsh_contract eigsh ->
  forall nodes E T nf ef sc, make_sc nodes E T nf ef = Ok sc -> (0 < length E)%N ->
  forall LH, hodge_laplacian_matrix sc 1 = Ok (Csr LH) ->
  forall (t : R), (2%:R ^+ 52)^-1 <= t ->
  exists ps, get_component_eigenpair eigsh sc "harmonic" t = Ok ps /\
  (forall x u, (x, u) \in ps ->
     size u = length E /\ energy u = 1 /\
     (exists lam, is_eigen LH lam u /\ 0 <= lam <= t /\ x = if lam < (2%:R ^+ 52)^-1 then 0 else lam) /\
     (below_positive_spectrum LH t ->
        x = 0 /\ is_eigen LH 0 u /\
        get_divergence sc u = Ok (zerof R (length nodes)) /\ get_curl sc u = Ok (zerof R (length T)))) /\
  (forall lam u, size u = length E -> is_eigen LH lam u -> lam <= t ->
     lincomb (length E) (weights (vectors ps) u) (vectors ps) = u) /\
  (forall u, size u = length E ->
     get_divergence sc u = Ok (zerof R (length nodes)) -> get_curl sc u = Ok (zerof R (length T)) ->
     lincomb (length E) (weights (vectors ps) u) (vectors ps) = u).
Proof.
move=> R eigsh EC nodes E T nf ef sc H M0 LH [<-] t et.
rewrite (eigH eigsh H M0 et); eexists; split; first by [].
have t0 : 0 < t := lt_le_trans (eps64_gt0 R) et.
have F := famS EC nodes T sc M0.
have span lam (u : seq R) : size u = length E ->
  (L1Lm R nodes E sc + L1Um R E T sc) *m vec (length E) u = lam *: vec (length E) u -> lam <= t ->
  lincomb (length E) (weights (vectors (up (zeroed (harml eigsh nodes E T sc t)))) u)
    (vectors (up (zeroed (harml eigsh nodes E T sc t)))) = u.
  move=> su e tl; rewrite -{1 2}(vecK su).
  rewrite vectors_up vectors_zeroed lincomb_weights harml_sel.
  by rewrite (sel_span (L1_sym R nodes E T sc) F e).
split; last first.
  split=> [lam u su|u su]; first by rewrite -{1}(vecK su) => /(eigS H); apply: span.
  rewrite (divergence_Ok H) // (curl_Ok H) // !zerof_unvec => -[/unvec_inj d] [/unvec_inj c].
  apply: (span 0) => //; last exact: ltW.
  by rewrite scale0r mulmxDl /L1Lm /L1Um -!mulmxA d c !mulmx0 addr0.
move=> x u /mapP[q /mapP[p]]; rewrite mem_filter => /andP[tp pl] -> [-> ->].
have [e p2] := fam_unit F pl; have p0 : 0 <= p.1 := valS EC M0 pl.
have Ex : zs p.1 = if p.1 < eps64 R then 0 else p.1 by rewrite /zs ger0_norm.
split; first exact: size_unvec.
split.
  case/eigfamP: (F) => _ [/onfP[_ o] _]; rewrite energy_unvec /nrm2.
  by rewrite o ?map_f // eqxx.
split; first by exists p.1; rewrite p0 tp; split=> //; exact/(eigS H).
move=> bel; have z : p.1 = 0 by apply: (belowS EC H M0 bel).
move: e; rewrite z scale0r /zs normr0 eps64_gt0 => e; split=> //.
split; first by apply/(eigS H); rewrite scale0r.
have e' : (row_mx (B1m R nodes E sc)^T (B2m R E T sc))^T *m p.2 = 0.
  by apply: gram_ker; rewrite trmxK mulmxA -L1_stack.
move: e'; rewrite tr_row_mx trmxK mul_col_mx -[0]vsubmxK => /eq_col_mx[d c].
rewrite (divergence_Ok H) ?size_unvec // (curl_Ok H) ?size_unvec // unvecK d c !zerof_unvec.
by split; congr (Ok (unvec _)); apply/colP => i; rewrite !mxE.
Qed.
Print Assumptions C25_harmonic_eigenpairs.

(** ** C26 *)

Theorem C26_orthonormal_each :
  forall (R : realFieldType) eigsh, eigsh_contract eigsh ->
  forall nodes E T nf ef sc, make_sc nodes E T nf ef = Ok sc -> (0 < length E)%N ->
  forall (t : R), (2%:R ^+ 52)^-1 <= t ->
  forall s ps, get_component_eigenpair eigsh sc s t = Ok ps -> orthonormal (vectors ps).
Proof.
move=> R eigsh EC nodes E T nf ef sc H M0 t et s ps.
rewrite (component_eigE eigsh H) //.
case: ifP => _; [|case: ifP => _; [|case: ifP => // _]]; case=> <-.
- by rewrite vectors_up vectors_zeroed; apply: onf_orthonormal; exact: onfH.
- by rewrite vectors_up; apply: onf_orthonormal; exact: onfC.
- by rewrite vectors_up; apply: onf_orthonormal; exact: onfG.
Qed.
Print Assumptions C26_orthonormal_each.

Theorem C26_curl_gradient_orthonormal :
  forall (R : realFieldType) eigsh, eigsh_contract eigsh ->
  forall nodes E T nf ef sc, make_sc nodes E T nf ef = Ok sc -> (0 < length E)%N ->
  oriented (length nodes) E T ->
  forall (t : R), (2%:R ^+ 52)^-1 <= t ->
  forall cs gs, get_component_eigenpair eigsh sc "curl" t = Ok cs ->
    get_component_eigenpair eigsh sc "gradient" t = Ok gs ->
  orthonormal (vectors cs ++ vectors gs).
Proof.
move=> R eigsh EC nodes E T nf ef sc H M0 O t et cs gs.
rewrite (eigC eigsh H M0 et) (eigG eigsh H M0 et) => -[<-] [<-].
rewrite !vectors_up -map_cat; apply: onf_orthonormal.
apply: onf2_gc => //; first exact: (oriented_B1B2 R H O).
exact: lt_le_trans (eps64_gt0 R) et.
Qed.
Print Assumptions C26_curl_gradient_orthonormal.

Theorem C26_orthonormal_all :
  forall (R : realFieldType) eigsh, eigsh_contract eigsh ->
  forall nodes E T nf ef sc, make_sc nodes E T nf ef = Ok sc -> (0 < length E)%N ->
  oriented (length nodes) E T ->
  forall LU, upper_laplacian_matrix sc 1 = Ok (Csr LU) ->
  forall (t : R), (2%:R ^+ 52)^-1 <= t -> not_eigenvalue LU t \/ proper_fraction t ->
  forall hs cs gs, get_component_eigenpair eigsh sc "harmonic" t = Ok hs ->
    get_component_eigenpair eigsh sc "curl" t = Ok cs ->
    get_component_eigenpair eigsh sc "gradient" t = Ok gs ->
  orthonormal (vectors hs ++ vectors cs ++ vectors gs).
Proof.
move=> R eigsh EC nodes E T nf ef sc H M0 O LU [<-] t et nt hs cs gs.
rewrite (eigH eigsh H M0 et) (eigC eigsh H M0 et) (eigG eigsh H M0 et) => -[<-] [<-] [<-].
rewrite !vectors_up vectors_zeroed -2!map_cat; apply: onf_orthonormal.
apply: onf3 => //; first exact: (oriented_B1B2 R H O).
  exact: lt_le_trans (eps64_gt0 R) et.
apply: (not_eigenvalueU EC H M0).
by case: nt => // ft; exact: (fraction_not_eigenvalueU H).
Qed.
Print Assumptions C26_orthonormal_all.

(** ** C27 *)

Theorem C27_dimensions :
  forall (R : realFieldType) eigsh, eigsh_contract eigsh ->
  forall nodes E T nf ef sc, make_sc nodes E T nf ef = Ok sc -> (0 < length E)%N ->
  oriented (length nodes) E T ->
  forall (t : R), (2%:R ^+ 52)^-1 <= t ->
  exists hs cs gs, get_component_eigenpair eigsh sc "harmonic" t = Ok hs /\
    get_component_eigenpair eigsh sc "curl" t = Ok cs /\
    get_component_eigenpair eigsh sc "gradient" t = Ok gs /\
    (size hs + size cs + size gs = length E + seq.count (pred1 t) (values cs))%N /\
    (proper_fraction t -> (size hs + size cs + size gs = length E)%N).
Proof.
move=> R eigsh EC nodes E T nf ef sc H M0 O t et.
rewrite (eigH eigsh H M0 et) (eigC eigsh H M0 et) (eigG eigsh H M0 et).
do 3 eexists; split; first by []. split; first by []. split; first by [].
have t0 : 0 < t := lt_le_trans (eps64_gt0 R) et.
have B12 := oriented_B1B2 R H O; rewrite !size_map.
have D := dim_sum EC M0 B12 t0; rewrite D; split.
  congr addn; rewrite /values /up -map_comp count_map count_filter; apply: eq_count => p /=.
  by case: eqP => //= ->; rewrite lexx.
move=> /(fraction_not_eigenvalueU H) /(not_eigenvalueU EC H M0) nt.
suff -> : seq.count (fun p => p.1 == t) (eigsh _ (L1Um R E T sc)) = 0%N by rewrite addn0.
by apply/eqP; rewrite -leqn0 leqNgt -has_count; apply/hasPn => p pU; exact: nt.
Qed.
Print Assumptions C27_dimensions.

(** ** C28 *)

Theorem C28_embeddings :
  forall (R : realFieldType) eigsh, eigsh_contract eigsh ->
  forall nodes E T nf ef sc, make_sc nodes E T nf ef = Ok sc -> (0 < length E)%N ->
  oriented (length nodes) E T ->
  forall hs cs gs, get_component_eigenpair eigsh sc "harmonic" 1000%:R^-1 = Ok hs ->
    get_component_eigenpair eigsh sc "curl" 1000%:R^-1 = Ok cs ->
    get_component_eigenpair eigsh sc "gradient" 1000%:R^-1 = Ok gs ->
  forall f : seq R,
  (size f = length E -> exists fh fc fg, get_simplicial_embeddings eigsh sc f = Ok (fh, fc, fg) /\
     size fh = size hs /\ size fc = size cs /\ size fg = size gs /\
     energy f = energy fh + energy fc + energy fg /\
     f = lincomb (length E) (fh ++ fc ++ fg) (vectors hs ++ vectors cs ++ vectors gs)) /\
  (size f <> length E -> get_simplicial_embeddings eigsh sc f = Raise ValueError).
Proof.
move=> R eigsh EC nodes E T nf ef sc H M0 O hs cs gs.
have et := eps64_milli R; have t0 : 0 < milli R := lt_le_trans (eps64_gt0 R) et.
rewrite (eigH eigsh H M0 et) (eigC eigsh H M0 et) (eigG eigsh H M0 et) => -[<-] [<-] [<-] f.
have [h0 h1] := B1_dims H.
rewrite /get_simplicial_embeddings /= (harmE _ H) //= (curlE _ H) //= (gradE _ H) //= /coeffs -h1.
split=> sf; last by case: eqP => // /sf.
rewrite sf eqxx /=; do 3 eexists; split; first by [].
rewrite !size_map; do 3 split=> //.
have B12 := oriented_B1B2 R H O.
have nt := not_eigenvalueU EC H M0 (fraction_not_eigenvalueU H (milli_fraction R)).
have cw (l : seq (R * 'cV[R]_(length E))) :
  [seq \sum_(i < length E) p.2`_i * f`_i | p <- up l] = [seq dot u (vec (length E) f) | u <- [seq p.2 | p <- l]].
  rewrite /up -!map_comp; apply: eq_map => p /=; rewrite -dotp_unvec vecK //.
  by rewrite /dotp size_unvec.
rewrite !cw vectors_zeroed; set lh := [seq p.2 | p <- harml _ _ _ _ _ _].
set lc := [seq p.2 | p <- curll _ _ _ _ _]; set lg := [seq p.2 | p <- gradl _ _ _ _ _].
have O3 : onf (lh ++ lc ++ lg) by apply: onf3.
have C3 : outer (lh ++ lc ++ lg) = 1%:M by rewrite !outer_cat; apply: outer3.
have en (l : seq 'cV[R]_(length E)) : energy [seq dot u (vec (length E) f) | u <- l] =
  dot (outer l *m vec (length E) f) (vec (length E) f).
  rewrite /energy /dotp size_map outer_mulE dot_suml (big_nth 0) big_mkord.
  by apply: eq_bigr => i _; rewrite (nth_map 0) // dotZl.
split.
  rewrite !en -!dotDl -!mulmxDl -{1}(vecK sf) energy_unvec /nrm2.
  by rewrite -addrA -outer_cat -outer_cat C3 mul1mx.
rewrite !vectors_up vectors_zeroed -/lh -/lc -/lg -4!map_cat -weights_unvec lincomb_weights.
by rewrite C3 mul1mx vecK.
Qed.
Print Assumptions C28_embeddings.

(** ** C29 *)

Theorem C29_spectral_equals_least_squares :
  forall (R : realFieldType) eigsh lstsq rint, eigsh_contract eigsh -> lstsq_contract lstsq ->
  forall nodes E T nf ef sc, make_sc nodes E T nf ef = Ok sc -> (0 < length E)%N ->
  forall LL LU LH, lower_laplacian_matrix sc 1 = Ok (Csr LL) -> upper_laplacian_matrix sc 1 = Ok (Csr LU) ->
    hodge_laplacian_matrix sc 1 = Ok (Csr LH) ->
  forall (t : R), (2%:R ^+ 52)^-1 <= t ->
  forall hs cs gs, get_component_eigenpair eigsh sc "harmonic" t = Ok hs ->
    get_component_eigenpair eigsh sc "curl" t = Ok cs ->
    get_component_eigenpair eigsh sc "gradient" t = Ok gs ->
  forall (f : seq R) d, size f = length E ->
  let projected ps := lincomb (length E) (weights (vectors ps) f) (vectors ps) in
  (below_positive_spectrum LL t ->
     get_component_flow lstsq rint sc f "gradient" false d = Ok (projected gs)) /\
  (below_positive_spectrum LU t ->
     get_component_flow lstsq rint sc f "curl" false d = Ok (projected cs)) /\
  (oriented (length nodes) E T -> below_positive_spectrum LH t ->
     get_component_flow lstsq rint sc f "gradient" false d = Ok (projected gs) /\
     get_component_flow lstsq rint sc f "curl" false d = Ok (projected cs) /\
     get_component_flow lstsq rint sc f "harmonic" false d = Ok (projected hs)).
Proof.
move=> R eigsh lstsq rint EC LS nodes E T nf ef sc H M0 LL LU LH [<-] [<-] [<-] t et hs cs gs.
rewrite (eigH eigsh H M0 et) (eigC eigsh H M0 et) (eigG eigsh H M0 et) => -[<-] [<-] [<-] f d sf.
have t0 : 0 < t := lt_le_trans (eps64_gt0 R) et.
rewrite (compG H LS) // (compC H LS) // (compH H LS) // /maybe_round /=.
have pr (l : seq (R * 'cV[R]_(length E))) : lincomb (length E) (weights (vectors (up l)) f) (vectors (up l)) =
  unvec (outer [seq p.2 | p <- l] *m vec (length E) f).
  by rewrite -{1}(vecK sf) vectors_up lincomb_weights.
rewrite !pr vectors_zeroed.
have GG : below_positive_spectrum (amul (atr (sc_B1 sc)) (sc_B1 sc)) t ->
   outer [seq p.2 | p <- gradl eigsh nodes E sc t] = Gm R nodes E sc.
  by move=> b; apply: outer_grad => //; [exact: ltW|exact: (belowL EC H M0 b)].
have CC : below_positive_spectrum (amul (sc_B2 sc) (atr (sc_B2 sc))) t ->
   outer [seq p.2 | p <- curll eigsh E T sc t] = Cm R E T sc.
  by move=> b; apply: outer_curl => // p pU /ltW; apply: (belowU EC H M0 b).
split; first by move=> /GG ->. split; first by move=> /CC ->.
move=> O b; have B12 := oriented_B1B2 R H O.
have bU := belowSU H B12 b.
rewrite (GG (belowSL H B12 b)) (CC bU); split=> //; split=> //; congr (Ok (unvec (_ *m _))).
have nt p : p \in eigsh _ (L1Um R E T sc) -> p.1 != t.
  move=> pU; apply/eqP => pt; have := belowU EC H M0 bU pU; rewrite pt => /(_ (lexx _)) z.
  by rewrite z ltxx in t0.
have := outer3 EC M0 B12 t0 nt; rewrite (GG (belowSL H B12 b)) (CC bU) /Hm => <-.
by rewrite -addrA -opprD [X in _ - X]addrC addrK.
Qed.
Print Assumptions C29_spectral_equals_least_squares.

(** ** C30 *)

Theorem C30_method_always_fails :
  forall (R : realFieldType) (eigsh : forall n, 'M[R]_n -> seq (R * 'cV[R]_n)) sc,
  get_total_variance eigsh sc = Raise AssertionError.
Proof. by []. Qed.
Print Assumptions C30_method_always_fails.

Lemma trace_eigenvalues (R : realFieldType) n (A : 'M[R]_n) l : eigfam A l ->
  \tr A = \sum_(p <- l) p.1.
Proof.
move=> F; rewrite -[A]mulmx1 -(eigfam_outer F) /outer mulmx_sumr raddf_sum /= big_map.
rewrite big_seq [RHS]big_seq; apply: eq_bigr => p pl.
case/eigfamP: F => _ [/onfP[_ o] e]; rewrite mulmxA mxtrace_mulC e // /mxtrace big_ord1.
by rewrite -scalemxAr mxE -dotE o ?map_f // eqxx mulr1.
Qed.

Theorem C30_total_variance_function :
  forall (R : realFieldType) eigsh, eigsh_contract eigsh ->
  forall nodes E T nf ef sc, make_sc nodes E T nf ef = Ok sc ->
  forall L, returned_laplacian sc L -> (0 < sh0 L)%N ->
  exists vs : seq R, total_variance eigsh (Dense L) = Ok vs /\
  size vs = sh0 L /\ sorted <=%R vs /\
  (exists us, size us = sh0 L /\ orthonormal us /\
     forall i, (i < sh0 L)%N -> is_eigen L vs`_i (nth [::] us i)) /\
  \sum_(v <- vs) v = \sum_(i < sh0 L) zmul (at2 L i i) 1 /\
  (forall v, v \in vs -> 0 <= v).
Proof.
move=> R eigsh EC nodes E T nf ef sc H L HL n0.
have [sq [sy ps]] := C14_symmetric_psd R H HL.
set n := sh0 L in n0 *; pose A := toM R n n L.
have sA : A^T = A by apply/matrixP => i j; rewrite !mxE sy.
have F := contract_eigfam EC n0 sA.
have [sz [so [ev _]]] := EC _ _ n0 sA.
have e (p : R * 'cV[R]_n) : mv L (unvec p.2) = unvec (A *m p.2).
  by rewrite (@mvE _ _ n n) // unvecK.
exists [seq p.1 | p <- eigsh n A]; split.
  rewrite /total_variance (@decompE _ eigsh _ n) //= /up /zeroed -map_comp -/A.
  have: {subset eigsh n A <= eigsh n A} by [].
  elim: {-2}(eigsh n A) => //= p l IH sub.
  have pl : p \in eigsh n A by apply: sub; rewrite mem_head.
  have e1 : arr_dot L (unvec p.2) = Ok (unvec (p.1 *: p.2)).
    by rewrite (@arr_dot_Ok _ _ _ n n) // ?size_unvec // unvecK ev.
  rewrite e1 /= IH /=; last by move=> q ql; apply: sub; rewrite inE ql orbT.
  congr (Ok (_ :: _)); rewrite size_unvec.
  have := fam_unit F pl; case/eigfamP: F => _ [/onfP[_ o] _] _.
  have := o p.2 p.2 (map_f _ pl) (map_f _ pl); rewrite eqxx => p1.
  rewrite -[RHS]mulr1 -[X in _ = _ * X]p1 -dotZr -dotp_unvec /dotp size_unvec //.
rewrite size_map sz; split=> //; split=> //; split.
  exists [seq unvec p.2 | p <- eigsh n A]; rewrite size_map sz; split=> //; split.
    rewrite (map_comp (@unvec R n) (fun p => p.2)); apply: onf_orthonormal.
    by case/eigfamP: F => _ [].
  move=> i i_n; rewrite !(nth_map (0, 0)) ?sz // /is_eigen e scalef_unvec ev // mem_nth // sz //.
split.
  rewrite big_map -(trace_eigenvalues F) /mxtrace; apply: eq_bigr => i _.
  by rewrite mxE zmulE mulr1.
move=> _ /mapP[p pl ->]; have := (ps (unvec p.2) (size_unvec _)).1.
rewrite (@qformE _ _ n) // unvecK -/A ev // dotZr.
case/eigfamP: F => _ [/onfP[_ o] _].
by rewrite o ?map_f // eqxx mulr1.
Qed.
Print Assumptions C30_total_variance_function.

(** ** The contract can be met: a solver over the real algebraic numbers *)
Section Ref.
Variable R : rcfType.
Definition eigsh_ref n (A : 'M[R]_n) : seq (R * 'cV[R]_n) :=
  if @idP (A^T == A) is ReflectT s then xchoose (spectral_list (eqP s)) else [::].
Lemma eigsh_ref_ok : eigsh_contract eigsh_ref.
Proof.
move=> n A n0 sA; rewrite /eigsh_ref; case: {-}_ / idP => [s|]; last by rewrite sA eqxx.
have /andP[F so] := xchooseP (spectral_list (eqP s)).
case/eigfamP: F; set l := xchoose _ => sz [/onfP[u o] e]; do 3 split=> //.
by move=> i j il jl; rewrite -!(nth_map _ 0 (fun p : R * 'cV[R]_n => p.2)) ?sz // o ?mem_nth ?size_map ?sz //
  nth_uniq ?size_map ?sz.
Qed.
End Ref.

(** ** The filled triangle: spectrum 0, 3, 3 below and 0, 0, 3 above *)
Section Tri.
Variable R : realFieldType.
Variable eigsh : forall n, 'M[R]_n -> seq (R * 'cV[R]_n).
Hypothesis EC : eigsh_contract eigsh.

Lemma tri_oriented : oriented (length tri_nodes) tri_edges tri_triangles.
Proof. by have [o _] := C19_example. Qed.

Definition tLL := amul (atr (sc_B1 tri_sc)) (sc_B1 tri_sc).
Definition tLU := amul (sc_B2 tri_sc) (atr (sc_B2 tri_sc)).
Lemma tri_entries : forall i j, (i < 3)%N -> (j < 3)%N ->
  at2 (aadd tLL tLU) i j = if i == j then Zpos 3 else Z0.
Proof. by case=> [|[|[|//]]] [|[|[|//]]] _ _; vm_compute. Qed.
Lemma tri_LU_entries : forall i j, (i < 3)%N -> (j < 3)%N ->
  at2 tLU i j = if (i == 1%N) == (j == 1%N) then Zpos xH else Zneg xH.
Proof. by case=> [|[|[|//]]] [|[|[|//]]] _ _; vm_compute. Qed.

Lemma tri_LH : L1Lm R tri_nodes tri_edges tri_sc + L1Um R tri_edges tri_triangles tri_sc = 3%:R%:M.
Proof.
rewrite -(toM_L1L R tri_ok) -(toM_L1U R tri_ok) -toM_aadd; apply/matrixP => i j.
rewrite /toM !mxE tri_entries ?ltn_ord // -val_eqE /=; case: eqP => //= _.
Qed.

Lemma tri_below : below_positive_spectrum (aadd tLL tLU) (milli R).
Proof.
move=> lam u; have -> : sh1 (aadd tLL tLU) = length tri_edges by vm_compute.
move=> su; rewrite -(vecK su) => /(eigS tri_ok); rewrite tri_LH mul_scalar_mx => /eqP.
rewrite -subr_eq0 -scalerBl scaler_eq0 => /orP[]; last by move=> /eqP ->; rewrite zerof_unvec.
rewrite subr_eq0 => /eqP <- _; rewrite /milli => le.
have : 3%:R * 1000%:R <= 1 :> R by rewrite -(ler_pdivl_mulr 3%:R 1) ?ltr0n // mul1r.
by rewrite -natrM -[1]/(1%:R) ler_nat.
Qed.

Lemma tri_sum_below3 t : eps64 R <= t -> t < 3%:R -> below_positive_spectrum (aadd tLL tLU) t.
Proof.
move=> et t3 lam u; have -> : sh1 (aadd tLL tLU) = length tri_edges by vm_compute.
move=> su; rewrite -(vecK su) => /(eigS tri_ok); rewrite tri_LH mul_scalar_mx => /eqP.
rewrite -subr_eq0 -scalerBl scaler_eq0 => /orP[]; last by move=> /eqP ->; rewrite zerof_unvec.
by rewrite subr_eq0 => /eqP <- _ le; move: (le_lt_trans le t3); rewrite ltxx.
Qed.

Lemma milli3 : milli R < 3%:R.
Proof. by apply: (@le_lt_trans _ _ 1); rewrite ?ltr1n // /milli invf_le1 ?ltr0n // ler1n. Qed.

(** Number of eigenpairs of each component, for any solver and any tolerance in [eps, 3). *)
Lemma tri_counts t : eps64 R <= t -> t < 3%:R ->
  size (harml eigsh tri_nodes tri_edges tri_triangles tri_sc t) = 0%N /\
  size (curll eigsh tri_edges tri_triangles tri_sc t) = 1%N /\
  size (gradl eigsh tri_nodes tri_edges tri_sc t) = 2%N.
Proof.
move=> et t3; have t0 : 0 < t := lt_le_trans (eps64_gt0 R) et.
have E0 : (0 < length tri_edges)%N by [].
have B12 := oriented_B1B2 R tri_ok tri_oriented.
have bS := tri_sum_below3 et t3.
have S3 p : p \in eigsh (L1Lm R tri_nodes tri_edges tri_sc + L1Um R tri_edges tri_triangles tri_sc) ->
    p.1 = 3%:R.
  move=> pl; have [e u0] := fam_unit (famS EC tri_nodes tri_triangles tri_sc E0) pl.
  apply/eqP; move/eqP: e; rewrite tri_LH mul_scalar_mx -subr_eq0 -scalerBl scaler_eq0 (negbTE u0) orbF.
  by rewrite subr_eq0 eq_sym.
have hs : size (harml eigsh tri_nodes tri_edges tri_triangles tri_sc t) = 0%N.
  rewrite /harml size_filter; apply/eqP; rewrite -leqn0 leqNgt -has_count.
  by apply/hasPn => p /S3 ->; rewrite -ltNge.
have bU := belowSU tri_ok B12 bS.
have U3 p : p \in eigsh (L1Um R tri_edges tri_triangles tri_sc) -> t <= p.1 -> p.1 = 3%:R.
  move=> pl tp; have [e u0] := fam_unit (famU EC tri_triangles tri_sc E0) pl.
  have p0 : p.1 != 0 by rewrite gt_eqF // (lt_le_trans t0).
  have [_ ] := U_to_S B12 p0 e; rewrite tri_LH mul_scalar_mx => /eqP.
  by rewrite -subr_eq0 -scalerBl scaler_eq0 (negbTE u0) orbF subr_eq0 eq_sym => /eqP.
have cs : size (curll eigsh tri_edges tri_triangles tri_sc t) = 1%N.
  have := trace_eigenvalues (famU EC tri_triangles tri_sc E0).
  rewrite (bigID (fun p => t <= p.1)) /= [X in _ = _ + X]big1_seq ?addr0; last first.
    by move=> p /andP[]; rewrite -ltNge => pt pU; apply: (belowU EC tri_ok E0 bU) => //; exact: ltW.
  rewrite -big_filter (eq_big_seq (fun=> 3%:R)); last first.
    by move=> p; rewrite mem_filter => /andP[tp pU]; apply: U3.
  rewrite big_const_seq count_predT -/(curll eigsh tri_edges tri_triangles tri_sc t).
  rewrite -(toM_L1U R tri_ok) /mxtrace -/tLU.
  rewrite (eq_bigr (fun=> 1)) => [|i _]; last by rewrite mxE tri_LU_entries ?ltn_ord // eqxx.
  rewrite sumr_const card_ord; set k := size _.
  have -> : iter k (+%R 3%:R) 0 = (3 * k)%:R :> R.
    by elim: k => [|k IH]; rewrite ?muln0 //= IH -natrD mulnS.
  by move/eqP; rewrite eqr_nat => /eqP; rewrite /tri_edges /=; lia.
split=> //; split=> //.
have := dim_sum EC E0 B12 t0; rewrite hs cs add0n.
have -> : seq.count (fun p => p.1 == t) (eigsh (L1Um R tri_edges tri_triangles tri_sc)) = 0%N.
  apply/eqP; rewrite -leqn0 leqNgt -has_count; apply/hasPn => p pU; apply/eqP => pt.
  by have := U3 p pU; rewrite pt lexx => /(_ isT) q; rewrite q ltxx in t3.
by rewrite addn0 /=; lia.
Qed.
End Tri.

(** All hypotheses of C25-C29 hold together for the filled triangle and the solver above, at the
    default tolerance; the three numbers of eigenpairs are 0, 1 and 2 (for every solver). *)
Example C25_C29_example :
  eigsh_contract (@eigsh_ref realalg_rcfType) /\
  make_sc tri_nodes tri_edges tri_triangles nil nil = Ok tri_sc /\ (0 < length tri_edges)%N /\
  oriented (length tri_nodes) tri_edges tri_triangles /\ simple_edges tri_edges /\
  eps64 realalg_rcfType <= milli realalg_rcfType /\ proper_fraction (milli realalg_rcfType) /\
  hodge_laplacian_matrix tri_sc 1 = Ok (Csr (aadd tLL tLU)) /\
  below_positive_spectrum (aadd tLL tLU) (milli realalg_rcfType) /\
  (forall (R : realFieldType) eigsh, eigsh_contract eigsh -> exists hs cs gs,
     get_component_eigenpair eigsh tri_sc "harmonic" (milli R) = Ok hs /\ size hs = 0%N /\
     get_component_eigenpair eigsh tri_sc "curl" (milli R) = Ok cs /\ size cs = 1%N /\
     get_component_eigenpair eigsh tri_sc "gradient" (milli R) = Ok gs /\ size gs = 2%N).
Proof.
split; first exact: eigsh_ref_ok. split; first exact: tri_ok. split; first by [].
split; first exact: tri_oriented. split.
  split; first by unfold tri_edges; repeat constructor; simpl; intuition congruence.
  unfold tri_edges; simpl; intros u v HI.
  repeat (destruct HI as [HI|HI]; [injection HI; intros <- <-; intuition congruence|]); destruct HI.
split; first exact: eps64_milli. split; first exact: milli_fraction. split; first by [].
split; first exact: tri_below.
move=> R eigsh EC; have [ch [cc cg]] := tri_counts EC (eps64_milli R) (milli3 R).
rewrite (eigH eigsh tri_ok) ?eps64_milli // (eigC eigsh tri_ok) ?eps64_milli //.
rewrite (eigG eigsh tri_ok) ?eps64_milli //.
do 3 eexists; split; first by []. split; first by rewrite !size_map ch.
split; first by []. split; first by rewrite !size_map cc.
by split; first by []; rewrite !size_map cg.
Qed.

(** The exception in C26/C27 is real: on the filled triangle with tolerance 3, which is an
    eigenvalue, the single curl eigenvector is returned as harmonic as well, so there are four
    vectors for three edges and they are not orthonormal. *)
Theorem C26_eigenvalue_tolerance_refuted :
  exists (R : realFieldType) nodes E T sc (t : R),
    make_sc nodes E T nil nil = Ok sc /\ oriented (length nodes) E T /\ (2%:R ^+ 52)^-1 <= t /\
    (exists eigsh : forall n, 'M[R]_n -> seq (R * 'cV[R]_n), eigsh_contract eigsh) /\
    forall eigsh, eigsh_contract eigsh -> exists hs cs gs,
      get_component_eigenpair eigsh sc "harmonic" t = Ok hs /\
      get_component_eigenpair eigsh sc "curl" t = Ok cs /\
      get_component_eigenpair eigsh sc "gradient" t = Ok gs /\
      (length E < size hs + size cs + size gs)%N /\
      ~ orthonormal (vectors hs ++ vectors cs ++ vectors gs).
Proof.
exists realalg_rcfType, tri_nodes, tri_edges, tri_triangles, tri_sc, 3%:R.
split; first exact: tri_ok. split; first exact: tri_oriented.
have et : eps64 realalg_rcfType <= 3%:R.
  exact: le_trans (eps64_milli _) (ltW (milli3 _)).
split; first by [].
split; first by exists (@eigsh_ref realalg_rcfType); exact: eigsh_ref_ok.
move=> eigsh EC.
have E0 : (0 < length tri_edges)%N by [].
rewrite (eigH eigsh tri_ok E0 et) (eigC eigsh tri_ok E0 et) (eigG eigsh tri_ok E0 et).
do 3 eexists; split; first by []. split; first by []. split; first by [].
have B12 := oriented_B1B2 realalg_rcfType tri_ok tri_oriented.
have t0 : 0 < 3%:R :> realalg_rcfType by rewrite ltr0n.
have D := dim_sum EC E0 B12 t0.
have [_ [c1 _]] := tri_counts EC (eps64_milli _) (milli3 _).
have cs : (0 < size (curll eigsh tri_edges tri_triangles tri_sc 3%:R))%N.
  have: (0 < size (curll eigsh tri_edges tri_triangles tri_sc (milli realalg_rcfType)))%N by rewrite c1.
  rewrite !size_filter -!has_count => /hasP[p pU tp]; apply/hasP; exists p => //.
  have [e u0] := fam_unit (famU EC tri_triangles tri_sc E0) pU.
  have p0 : p.1 != 0.
    rewrite gt_eqF // (lt_le_trans _ tp) //; exact: lt_le_trans (eps64_gt0 _) (eps64_milli _).
  have [_ ] := U_to_S B12 p0 e; rewrite tri_LH mul_scalar_mx => /eqP.
  by rewrite -subr_eq0 -scalerBl scaler_eq0 (negbTE u0) orbF subr_eq0 => /eqP ->.
have all : size (harml eigsh tri_nodes tri_edges tri_triangles tri_sc 3%:R) = length tri_edges.
  case/eigfamP: (famS EC tri_nodes tri_triangles tri_sc E0) => sz _; rewrite -[RHS]sz {sz}.
  rewrite size_filter; apply/eqP; rewrite -all_count; apply/allP => p pl.
  have [e u0] := fam_unit (famS EC tri_nodes tri_triangles tri_sc E0) pl.
  move/eqP: e; rewrite tri_LH mul_scalar_mx -subr_eq0 -scalerBl scaler_eq0 (negbTE u0) orbF.
  by rewrite subr_eq0 => /eqP <-.
have big : (length tri_edges < size (harml eigsh tri_nodes tri_edges tri_triangles tri_sc 3%:R) +
     size (curll eigsh tri_edges tri_triangles tri_sc 3%:R) +
     size (gradl eigsh tri_nodes tri_edges tri_sc 3%:R))%N.
  by rewrite all -addnA -addn1 leq_add2l ltn_addr.
split; first by rewrite !size_map.
move=> on; rewrite !vectors_up vectors_zeroed -2!map_cat in on.
set l := _ ++ _ in on.
have : (size l <= length tri_edges)%N.
  apply: onf_size; apply: onf_nth => i j il jl.
  move: (on i j); rewrite size_map => /(_ il jl).
  by rewrite !(nth_map 0) // dotp_unvec.
by rewrite /l !size_cat !size_map addnA leqNgt big.
Qed.
Print Assumptions C26_eigenvalue_tolerance_refuted.

(** The hypotheses of C30 hold for the node Laplacian of the filled triangle; its total variance
    adds up to 6 for every solver. *)
Example C30_example : exists L, returned_laplacian tri_sc L /\ (0 < sh0 L)%N /\
  forall (R : realFieldType) eigsh, eigsh_contract eigsh -> exists vs : seq R,
    total_variance eigsh (Dense L) = Ok vs /\ \sum_(v <- vs) v = 6%:R.
Proof.
exists (amul (sc_B1 tri_sc) (atr (sc_B1 tri_sc))).
have rl : returned_laplacian tri_sc (amul (sc_B1 tri_sc) (atr (sc_B1 tri_sc))) by left.
split; first exact: rl. split; first by vm_compute.
move=> R eigsh EC; have [|vs [e [_ [_ [_ [s _]]]]]] := C30_total_variance_function EC tri_ok rl.
  by vm_compute.
exists vs; split; first by [].
rewrite s; set A := amul _ _; have -> : sh0 A = 3%N by vm_compute.
have K : forall i, (i < 3)%N -> at2 A i i = Zpos 2 by case=> [|[|[|//]]] _; vm_compute.
rewrite (eq_bigr (fun=> 2%:R)) => [|i _]; last by rewrite K ?ltn_ord.
by rewrite sumr_const card_ord -mulrnA.
Qed.
