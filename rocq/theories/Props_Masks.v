(** * Properties of the component masks and of the ideal filter *)

From Coq Require Import ZArith String List.
From mathcomp Require Import all_ssreflect all_algebra all_real_closed ssrZ zify.
From Verif Require Import Py PyFacts Complex ComplexSpec ComplexFacts ComplexFacts2 ExampleData
  LinAlg Spectral Signal SignalSpec Bridge SignalFacts Compute Eigen EigenSpec IntEigen EigenFacts
  Props_Signal Props_Hodge Props_Eigen Filter FilterSpec FilterFacts.

Set Implicit Arguments.
Unset Strict Implicit.
Unset Printing Implicit Defensive.

Import GRing.Theory Num.Theory Order.Theory.
Local Open Scope ring_scope.
Delimit Scope Z_scope with zz.

(** ** C31 *)

Theorem C31_masks_partition :
  forall (R : rcfType) eigsh argsort, eigsh_contract eigsh -> argsort_contract argsort ->
  forall nodes E T nf ef sc, make_sc nodes E T nf ef = Ok sc -> (0 < length E)%N ->
  oriented (length nodes) E T ->
  exists hs cs gs mh mc mg : seq _,
    get_component_eigenpair eigsh sc "harmonic" (1000%:R^-1 : R) = Ok hs /\
    get_component_eigenpair eigsh sc "curl" (1000%:R^-1 : R) = Ok cs /\
    get_component_eigenpair eigsh sc "gradient" (1000%:R^-1 : R) = Ok gs /\
    get_component_coefficients eigsh argsort sc "harmonic" = Ok mh /\
    get_component_coefficients eigsh argsort sc "curl" = Ok mc /\
    get_component_coefficients eigsh argsort sc "gradient" = Ok mg /\
    (size mh = length E /\ binary mh /\ ones mh = size hs) /\
    (size mc = length E /\ binary mc /\ ones mc = size cs) /\
    (size mg = length E /\ binary mg /\ ones mg = size gs) /\
    (forall i, (i < length E)%N -> mh`_i + mc`_i + mg`_i = 1).
Proof.
move=> R eigsh argsort EC AC nodes E T nf ef sc H M0 O.
have et := eps64_milli R.
rewrite (eigH eigsh H M0 et) (eigC eigsh H M0 et) (eigG eigsh H M0 et).
rewrite !(coefficientsE H EC AC M0 O) /=.
do 6 eexists; do 6 (split; first by []).
have [n1 [n2 n3]] := count_block_size H EC M0 O.
have sz c : size [seq (block eigsh nodes E T sc c i)%:R : R | i <- argsort (evals eigsh nodes E T sc)] = length E.
  by rewrite size_map (size_argsort AC) (size_evals H EC M0 O).
have bi c : binary [seq (block eigsh nodes E T sc c i)%:R : R | i <- argsort (evals eigsh nodes E T sc)].
  by move=> x /mapP[i _ ->]; case: block; [right|left].
rewrite !sz !ones_map !(count_block H EC AC M0 O) n1 n2 n3 !size_map.
do 3 (split; first by split=> //; split=> //; exact: bi).
move=> i iM; have ia : (i < size (argsort (evals eigsh nodes E T sc)))%N.
  by rewrite (size_argsort AC) (size_evals H EC M0 O).
by rewrite !(nth_map 0%N) // -!natrD block_excl.
Qed.
Print Assumptions C31_masks_partition.

Theorem C31_rejections :
  forall (R : rcfType) (eigsh : forall n, 'M[R]_n -> seq (R * 'cV[R]_n)) argsort,
  forall nodes E T nf ef sc, make_sc nodes E T nf ef = Ok sc ->
  forall s, ~ component_name s \/ length E = 0%N ->
  get_component_coefficients eigsh argsort sc s = Raise ValueError.
Proof.
move=> R eigsh argsort nodes E T nf ef sc H s hs.
have [h0 h1] := B1_dims H; have [h2 h3] := B2_dims H.
rewrite /get_component_coefficients /=.
case: (posnP (length E)) => M0.
  by rewrite /get_component_eigenpair /= /get_harmonic_eigenpair /get_eigendecomposition /= -h1 M0.
have [N|e] := hs; last by rewrite e in M0.
have et := eps64_milli R.
rewrite (eigH eigsh H M0 et) (eigC eigsh H M0 et) (eigG eigsh H M0 et) /=.
case: String.eqb_spec => [e|_]; first by case: N; right; right.
case: String.eqb_spec => [e|_]; first by case: N; right; left.
by case: String.eqb_spec => [e|_] //; case: N; left.
Qed.
Print Assumptions C31_rejections.

(** ** C32 *)

Theorem C32_ideal_filter_harmonic :
  forall (R : rcfType) eigsh argsort lstsq rint, eigsh_contract eigsh -> argsort_contract argsort ->
    lstsq_contract lstsq ->
  forall nodes E T nf ef sc, make_sc nodes E T nf ef = Ok sc -> (0 < length E)%N ->
  oriented (length nodes) E T ->
  forall LH, hodge_laplacian_matrix sc 1 = Ok (Csr LH) -> below_positive_spectrum LH (1000%:R^-1 : R) ->
  exists m F, get_component_coefficients eigsh argsort sc "harmonic" = Ok m /\
    get_ideal_frequency eigsh sc m = Ok F /\ shaped F (length E) (length E) /\
    forall f : seq R, size f = length E ->
      get_component_flow lstsq rint sc f "harmonic" false 2 = Ok (rmv F f).
Proof.
move=> R eigsh argsort lstsq rint EC AC LS nodes E T nf ef sc H M0 O LH [<-] bel.
have et := eps64_milli R; have t0 : 0 < milli R := lt_le_trans (eps64_gt0 R) et.
have B12 := oriented_B1B2 R H O.
rewrite (coefficientsE H EC AC M0 O) /=.
have hz p : p \in harml eigsh nodes E T sc (milli R) -> zs p.1 = 0.
  rewrite mem_filter => /andP[tp pS]; rewrite (belowS EC H M0 bel pS tp).
  by rewrite /zs normr0 eps64_gt0.
have cz p : p \in curll eigsh E T sc (milli R) -> (p.1 == 0) = false.
  by rewrite mem_filter => /andP[tp _]; apply: gt_eqF; exact: lt_le_trans tp.
have gz p : p \in gradl eigsh nodes E sc (milli R) -> (p.1 == 0) = false.
  by rewrite mem_filter => /andP[tp _]; apply: gt_eqF; exact: lt_trans tp.
have P i : (i < length E)%N -> block eigsh nodes E T sc "harmonic" i = ((evals eigsh nodes E T sc)`_i == 0).
  move=> iM; have x := block_excl eigsh nodes E T sc i.
  have [[b [p pl ->]]|[[b [p pl ->]]|[b [p pl ->]]]] := evals_at H EC M0 O iM.
  - by rewrite b hz // eqxx.
  - by rewrite cz //; move: x; rewrite b; case: block => //; case: block.
  by rewrite gz //; move: x; rewrite b; case: block => //; case: block.
do 2 eexists; split; first by [].
split; first exact: (ideal_frequencyE H EC AC M0 O (P := fun x => x == 0) P).
split; first exact: rows_shaped.
move=> f sf; rewrite rmv_rows // (compH H LS) // /maybe_round /=.
rewrite (@sel_component _ _ _ _ _ _ _ _ H EC M0 O (fun x => x == 0) true false false) //.
  rewrite scale1r !scale0r !addr0; congr (Ok (unvec (_ *m _))).
  have bU := belowSU H B12 bel.
  have nt p : p \in eigsh _ (L1Um R E T sc) -> p.1 != milli R.
    by move: p; apply: (not_eigenvalueU EC H M0); exact: (fraction_not_eigenvalueU H (milli_fraction R)).
  have := outer3 EC M0 B12 t0 nt; rewrite outer_grad //; first last.
  - by move=> p; exact: (belowL EC H M0 (belowSL H B12 bel)).
  - exact: ltW.
  rewrite outer_curl //; last by move=> p pU /ltW; apply: (belowU EC H M0 bU).
  by rewrite /Hm => <-; rewrite -addrA -opprD [X in _ - X]addrC addrK.
by move=> p /hz ->; rewrite eqxx.
Qed.
Print Assumptions C32_ideal_filter_harmonic.

Theorem C32_ideal_filter_gradient_curl :
  forall (R : rcfType) eigsh argsort lstsq rint, eigsh_contract eigsh -> argsort_contract argsort ->
    lstsq_contract lstsq ->
  forall nodes E T nf ef sc, make_sc nodes E T nf ef = Ok sc -> (0 < length E)%N ->
  oriented (length nodes) E T ->
  forall LL LU LH, lower_laplacian_matrix sc 1 = Ok (Csr LL) -> upper_laplacian_matrix sc 1 = Ok (Csr LU) ->
    hodge_laplacian_matrix sc 1 = Ok (Csr LH) ->
    below_positive_spectrum LH (1000%:R^-1 : R) -> disjoint_spectra R LL LU ->
  forall s, s = "gradient"%string \/ s = "curl"%string ->
  exists m F, get_component_coefficients eigsh argsort sc s = Ok m /\
    get_ideal_frequency eigsh sc m = Ok F /\ shaped F (length E) (length E) /\
    forall f : seq R, size f = length E ->
      get_component_flow lstsq rint sc f s false 2 = Ok (rmv F f).
Proof.
move=> R eigsh argsort lstsq rint EC AC LS nodes E T nf ef sc H M0 O LL LU LH [<-] [<-] [<-] bel dis.
have et := eps64_milli R; have t0 : 0 < milli R := lt_le_trans (eps64_gt0 R) et.
have [h0 h1] := B1_dims H; have [h2 h3] := B2_dims H.
have B12 := oriented_B1B2 R H O.
have hz p : p \in harml eigsh nodes E T sc (milli R) -> zs p.1 = 0.
  rewrite mem_filter => /andP[tp pS]; rewrite (belowS EC H M0 bel pS tp).
  by rewrite /zs normr0 eps64_gt0.
pose cv := [seq p.1 | p <- curll eigsh E T sc (milli R)].
pose gv := [seq p.1 | p <- gradl eigsh nodes E sc (milli R)].
have c0 : 0 \in cv = false.
  by apply/negP => /mapP[p]; rewrite mem_filter => /andP[tp _] e; rewrite -e leNgt t0 in tp.
have g0 : 0 \in gv = false.
  by apply/negP => /mapP[p]; rewrite mem_filter => /andP[tp _] e; rewrite -e ltNge (ltW t0) in tp.
have nz (u : 'cV[R]_(length E)) : u != 0 -> unvec u <> zerof R (length E).
  by move=> /eqP u0 e; apply: u0; apply: unvec_inj; rewrite e zerof_unvec.
have cg p q : p \in curll eigsh E T sc (milli R) -> q \in gradl eigsh nodes E sc (milli R) -> p.1 <> q.1.
  rewrite !mem_filter => /andP[tp pU] /andP[tq qL] e.
  have [pe /nz pn] := fam_unit (famU EC T sc M0) pU.
  have [qe /nz qn] := fam_unit (famL EC nodes sc M0) qL.
  have : q.1 = 0.
    apply: (dis _ (unvec q.2) (unvec p.2)); rewrite /= -?h1 -?h2 ?size_unvec //.
      exact/(eigL H).
    by rewrite -e; exact/(eigU H).
  by move=> q0; rewrite q0 ltNge (ltW t0) in tq.
have cg1 p : p \in gradl eigsh nodes E sc (milli R) -> (p.1 \in cv) = false.
  by move=> pg; apply/negP => /mapP[q qc e]; exact: (cg q p).
have cg2 p : p \in curll eigsh E T sc (milli R) -> (p.1 \in gv) = false.
  by move=> pg; apply/negP => /mapP[q qc e]; exact: (cg p q).
have cc p : p \in curll eigsh E T sc (milli R) -> p.1 \in cv by move=> h; exact: map_f.
have gg p : p \in gradl eigsh nodes E sc (milli R) -> p.1 \in gv by move=> h; exact: map_f.
have Pg i : (i < length E)%N -> block eigsh nodes E T sc "gradient" i = ((evals eigsh nodes E T sc)`_i \in gv).
  move=> iM; have x := block_excl eigsh nodes E T sc i.
  have [[b [p pl ->]]|[[b [p pl ->]]|[b [p pl ->]]]] := evals_at H EC M0 O iM.
  - by rewrite hz // g0; move: x; rewrite b; do 2 case: block => //.
  - by rewrite cg2 //; move: x; rewrite b; do 2 case: block => //.
  by rewrite gg.
have Pc i : (i < length E)%N -> block eigsh nodes E T sc "curl" i = ((evals eigsh nodes E T sc)`_i \in cv).
  move=> iM; have x := block_excl eigsh nodes E T sc i.
  have [[b [p pl ->]]|[[b [p pl ->]]|[b [p pl ->]]]] := evals_at H EC M0 O iM.
  - by rewrite hz // c0; move: x; rewrite b; do 2 case: block => //.
  - by rewrite b cc.
  by rewrite cg1 //; move: x; rewrite b; do 2 case: block => //.
have bU := belowSU H B12 bel.
move=> s [->|->]; rewrite (coefficientsE H EC AC M0 O) /=; do 2 eexists; split; try by [].
  split; first exact: (ideal_frequencyE H EC AC M0 O (P := fun x => x \in gv) Pg).
  split; first exact: rows_shaped.
  move=> f sf; rewrite rmv_rows // (compG H LS) // /maybe_round /=.
  rewrite (@sel_component _ _ _ _ _ _ _ _ H EC M0 O (fun x => x \in gv) false false true) //.
    rewrite scale1r !scale0r !add0r outer_grad //; first exact: ltW.
    by move=> p; exact: (belowL EC H M0 (belowSL H B12 bel)).
  by move=> p /hz ->.
split; first exact: (ideal_frequencyE H EC AC M0 O (P := fun x => x \in cv) Pc).
split; first exact: rows_shaped.
move=> f sf; rewrite rmv_rows // (compC H LS) // /maybe_round /=.
rewrite (@sel_component _ _ _ _ _ _ _ _ H EC M0 O (fun x => x \in cv) false true false) //.
  rewrite scale1r !scale0r !add0r addr0 outer_curl //.
  by move=> p pU /ltW; apply: (belowU EC H M0 bU).
by move=> p /hz ->.
Qed.
Print Assumptions C32_ideal_filter_gradient_curl.

(** ** Solvers satisfying the contracts *)
Section Ref.
Variable R : rcfType.

Definition argsort_ref (s : seq R) : seq nat := sort (fun i j => s`_i <= s`_j) (iota 0 (size s)).
Lemma argsort_ref_ok : argsort_contract argsort_ref.
Proof.
move=> s; split; first by rewrite perm_sort.
rewrite sorted_map; apply: sort_sorted => i j; exact: le_total.
Qed.

(** For a multiple of the identity every orthonormal basis is admissible; this solver returns the
    standard one. *)
Definition eigsh_std n (A : 'M[R]_n) : seq (R * 'cV[R]_n) :=
  if is_scalar_mx A then [seq (A i i, delta_mx i 0) | i <- enum 'I_n] else eigsh_ref A.

Lemma sorted_const (T : Type) (a : R) (l : seq T) : sorted <=%R [seq a | _ <- l].
Proof. by case: l => //= x l; elim: l => //= y l ->; rewrite lexx. Qed.

Lemma eigsh_std_ok : eigsh_contract eigsh_std.
Proof.
move=> n A n0 sA; rewrite /eigsh_std; case: ifP => [/is_scalar_mxP[a ->]|_]; last exact: eigsh_ref_ok.
split; first by rewrite size_map size_enum_ord. split.
  rewrite -map_comp (eq_map (f2 := fun=> a)); first exact: sorted_const.
  by move=> i /=; rewrite mxE eqxx.
split=> [p /mapP[i _ ->]|i j il jl] /=; first by rewrite mul_scalar_mx mxE eqxx.
rewrite (_ : i = nat_of_ord (Ordinal il)) // (_ : j = nat_of_ord (Ordinal jl)) // !nth_enumI /=.
rewrite /dot (bigD1 (Ordinal il)) //= !mxE !eqxx mul1r big1 => [|k kl].
  by rewrite addr0 andbT -val_eqE.
by rewrite mxE eqxx andbT (negbTE kl) mul0r.
Qed.

(** Least squares of least norm. *)
Definition ls_min m n (A : 'M[R]_(m, n)) (b : 'cV[R]_m) : 'cV[R]_n := proj A^T *m ls_sol A b.
Lemma ls_minE m n (A : 'M[R]_(m, n)) b : A *m ls_min A b = A *m ls_sol A b.
Proof.
apply/eqP; rewrite -subr_eq0 -mulmxBr; apply/eqP.
by have := proj_normal A^T (ls_sol A b); rewrite trmxK => e; rewrite mulmxBr e subrr.
Qed.
Lemma ls_min_ok : lstsq_min_contract ls_min.
Proof.
split=> [m n A b x|m n A b x h]; first by rewrite ls_minE; exact: (is_ls_min x (ls_solP A b)).
have e : A *m x = A *m ls_min A b.
  rewrite ls_minE; apply: (is_ls_unique (b := b)); last exact: ls_solP.
  apply: ls_min_normal => y; apply: le_trans h _; rewrite ls_minE; exact: (is_ls_min y (ls_solP A b)).
have [z ez] := proj_img A^T (ls_sol A b).
have [k [xk Ak]] : exists k, x = ls_min A b + k /\ A *m k = 0.
  by exists (x - ls_min A b); rewrite addrC subrK mulmxBr e subrr.
rewrite xk nrm2D; have -> : dot (ls_min A b) k = 0 by rewrite {1}/ls_min ez dot_mulmx trmxK Ak dot0r.
by rewrite mulr0 addr0 ler_addl nrm2_ge0.
Qed.
End Ref.

(** ** The exception in C32 is real: on the filled triangle gradient and curl share the eigenvalue 3
    and an admissible solver makes the ideal gradient filter wrong, however ties are sorted. *)
Theorem C32_shared_eigenvalue_refuted :
  exists (R : rcfType) (eigsh : forall n, 'M[R]_n -> seq (R * 'cV[R]_n)) nodes E T sc LH,
    eigsh_contract eigsh /\ make_sc nodes E T nil nil = Ok sc /\ (0 < length E)%N /\
    oriented (length nodes) E T /\
    hodge_laplacian_matrix sc 1 = Ok (Csr LH) /\ below_positive_spectrum LH (1000%:R^-1 : R) /\
    (exists argsort : seq R -> seq nat, argsort_contract argsort) /\
    (exists lstsq : forall m n, 'M[R]_(m, n) -> 'cV[R]_m -> 'cV[R]_n, lstsq_contract lstsq) /\
    forall argsort lstsq rint, argsort_contract argsort -> lstsq_contract lstsq ->
    exists m F f, get_component_coefficients eigsh argsort sc "gradient" = Ok m /\
      get_ideal_frequency eigsh sc m = Ok F /\ size f = length E /\
      get_component_flow lstsq rint sc f "gradient" false 2 <> Ok (rmv F f).
Proof.
pose R := realalg_rcfType.
exists R, (@eigsh_std R), tri_nodes, tri_edges, tri_triangles, tri_sc, (aadd tLL tLU).
have EC := @eigsh_std_ok R; split; first exact: EC. split; first exact: tri_ok. split; first by [].
split; first exact: tri_oriented. split; first by [].
split; first exact: tri_below.
split; first by exists (@argsort_ref R); exact: argsort_ref_ok.
split; first by exists (@ls_sol R); exact: ls_sol_ok.
move=> argsort lstsq rint AC LS.
have M0 : (0 < length tri_edges)%N by [].
have [hs [cs [gs [mh [mc [mg [_ [_ [eg [_ [_ [emg [_ [_ [[sg [bg og]] _]]]]]]]]]]]]]]] :=
  C31_masks_partition EC AC tri_ok M0 tri_oriented.
have [_ [_ g2]] := tri_counts EC (eps64_milli R) (milli3 R).
move: eg; rewrite (eigG _ tri_ok M0 (eps64_milli R)) => - [egs].
have og2 : ones mg = 2%N by rewrite og -egs size_map g2.
have /(nthP 0)[k kl k1] : 1 \in mg by rewrite -has_pred1 has_count -/(ones mg) og2.
rewrite sg in kl.
exists mg; rewrite emg.
have szU : size (eigsh_std (L1Lm R tri_nodes tri_edges tri_sc + L1Um R tri_edges tri_triangles tri_sc)) =
  length tri_edges by rewrite tri_LH /eigsh_std scalar_mx_is_scalar size_map size_enum_ord.
rewrite (ideal_frequency_sum tri_ok M0); last by rewrite sg szU.
pose e : 'cV[R]_(length tri_edges) := delta_mx (Ordinal kl) 0.
eexists; exists (unvec e); split; first by []. split; first by [].
split; first exact: size_unvec.
rewrite (compG tri_ok LS) ?size_unvec // /maybe_round /= rmv_rows ?size_unvec // !unvecK.
set S := \sum_(i < _) _; have -> : S *m e = e.
  rewrite /S tri_LH /eigsh_std scalar_mx_is_scalar mulmx_suml size_map size_enum_ord.
  rewrite (bigD1 (Ordinal kl)) //= big1 => [|i ik].
    rewrite k1 scale1r addr0 (_ : k = nat_of_ord (Ordinal kl)) // nth_enumI /= -mulmxA.
    by rewrite trmx_delta mul_delta_mx mul_delta_mx.
  rewrite nth_enumI /= -scalemxAl -mulmxA trmx_delta mul_delta_mx_0 ?mulmx0 ?scaler0 //.
move=> [/unvec_inj Ge].
have : L1Um R tri_edges tri_triangles tri_sc *m e = 0.
  rewrite -Ge /L1Um -mulmxA (mulmxA _^T) /Gm.
  have -> : (B2m R tri_edges tri_triangles tri_sc)^T *m proj (B1m R tri_nodes tri_edges tri_sc)^T = 0.
    have := oriented_B1B2 R tri_ok tri_oriented => B12.
    rewrite /proj mulmxA -trmx_mul B12 trmx0 mul0mx //.
  by rewrite mul0mx mulmx0.
rewrite -(toM_L1U R tri_ok) => /matrixP /(_ (Ordinal kl) 0).
rewrite -colE !mxE tri_LU_entries // eqxx.
by move/eqP; rewrite oner_eq0.
Qed.
Print Assumptions C32_shared_eigenvalue_refuted.

(** ** An example with disjoint positive spectra: the complete graph on four nodes (eigenvalue 4)
    with one filled triangle (eigenvalue 3) *)
Definition k4_nodes : list Z := [:: 0; 1; 2; 3]%zz.
Definition k4_edges : list (Z * Z) := [:: (0, 1); (0, 2); (0, 3); (1, 2); (1, 3); (2, 3)]%zz.
Definition k4_triangles : list (list Z) := [:: [:: 0; 1; 2]]%zz.
Definition k4_sc := get_sc (make_sc k4_nodes k4_edges k4_triangles nil nil).
Lemma k4_ok : make_sc k4_nodes k4_edges k4_triangles nil nil = Ok k4_sc.
Proof. by vm_compute. Qed.
Lemma k4_oriented : oriented (length k4_nodes) k4_edges k4_triangles.
Proof.
split; first by intros u v HI; simpl in HI; unfold k4_nodes; simpl length; inlist HI.
split.
  unfold proper_triangles, k4_triangles; simpl; intros a b c HI.
  repeat (destruct HI as [HI|HI]; [injection HI; intros <- <- <-; lia|]); destruct HI.
unfold k4_triangles; simpl; intros t HI; destruct HI as [<-|[]].
by do 3 eexists; split; [reflexivity|]; left; unfold k4_edges; simpl; auto 20.
Qed.

Definition kLL := amul (atr (sc_B1 k4_sc)) (sc_B1 k4_sc).
Definition kLU := amul (sc_B2 k4_sc) (atr (sc_B2 k4_sc)).
Definition kLH := aadd kLL kLU.

(** Entrywise comparison of two square arrays. *)
Definition agree (n : nat) (A B : nat -> nat -> Z) : bool :=
  all (fun i => all (fun j => Z.eqb (A i j) (B i j)) (iota 0 n)) (iota 0 n).
Lemma agreeP n A B : agree n A B -> forall i j : 'I_n, A i j = B i j.
Proof.
move=> /allP h i j; have := h (nat_of_ord i); rewrite mem_iota ltn_ord => /(_ isT) /allP /(_ (nat_of_ord j)).
by rewrite mem_iota ltn_ord => /(_ isT) /Z.eqb_eq.
Qed.

Lemma kLL_sh : 6%N = sh0 kLL /\ 6%N = sh1 kLL. Proof. by vm_compute. Qed.
Lemma kLU_sh : 6%N = sh0 kLU /\ 6%N = sh1 kLU. Proof. by vm_compute. Qed.
Lemma kLH_sh : 6%N = sh1 kLH. Proof. by vm_compute. Qed.
Lemma kLL_sq : agree 6 (at2 (amul kLL kLL)) (fun i j => 4 * at2 kLL i j)%zz. Proof. by vm_compute. Qed.
Lemma kLU_sq : agree 6 (at2 (amul kLU kLU)) (fun i j => 3 * at2 kLU i j)%zz. Proof. by vm_compute. Qed.

Section K4.
Variable R : realFieldType.

(** A A = k A *)
Lemma eig_square (A : arr2) n (k : Z) : n = sh0 A -> n = sh1 A ->
  agree n (at2 (amul A A)) (fun i j => k * at2 A i j)%zz ->
  forall (lam : R) u, size u = n -> u <> zerof R n -> is_eigen A lam u -> lam = 0 \/ lam = ZR R k.
Proof.
move=> h0 h1 /agreeP ag lam u su; rewrite -(vecK su) => u0.
rewrite /is_eigen (@mvE _ _ n n) // unvecK scalef_unvec => /unvec_inj e.
have A2 : toM R n n A *m toM R n n A = ZR R k *: toM R n n A.
  by rewrite -toM_amul //; apply/matrixP => i j; rewrite !mxE ag ZRM.
have : (lam * (lam - ZR R k)) *: vec n u = 0.
  have /(congr1 (mulmx^~ (vec n u))) := A2; rewrite -mulmxA e -scalemxAr e scalerA -scalemxAl e scalerA.
  by move/eqP; rewrite -subr_eq0 -scalerBl -mulrBl mulrC => /eqP.
move/eqP; rewrite scaler_eq0 mulf_eq0 subr_eq0 => /orP[/orP[/eqP|/eqP]|/eqP z]; [by left|by right|].
by case: u0; rewrite z zerof_unvec.
Qed.

Lemma kLL_eig (lam : R) u : size u = 6%N -> u <> zerof R 6 -> is_eigen kLL lam u -> lam = 0 \/ lam = 4%:R.
Proof. exact: (eig_square (proj1 kLL_sh) (proj2 kLL_sh) kLL_sq). Qed.
Lemma kLU_eig (lam : R) u : size u = 6%N -> u <> zerof R 6 -> is_eigen kLU lam u -> lam = 0 \/ lam = 3%:R.
Proof. exact: (eig_square (proj1 kLU_sh) (proj2 kLU_sh) kLU_sq). Qed.

Lemma k4_disjoint : disjoint_spectra R kLL kLU.
Proof.
move=> lam u v; rewrite -(proj2 kLL_sh) -(proj2 kLU_sh) => su sv u0 v0 eu ev.
have [//|e4] := kLL_eig su u0 eu; have [//|e3] := kLU_eig sv v0 ev.
by move: e4; rewrite e3 => /eqP; rewrite eqr_nat.
Qed.

Lemma k4_below : below_positive_spectrum kLH (milli R).
Proof.
move=> lam u; rewrite -kLH_sh.
move=> su eu u0 le; apply/eqP; case: eqP => [_ |/eqP l0]; [by []|exfalso].
have B12 := oriented_B1B2 R k4_ok k4_oriented.
move: eu u0; rewrite -(vecK su) => eu u0.
have e := proj1 (@eigS R _ _ _ _ _ _ k4_ok (vec 6 u) lam) eu.
set L := L1Lm R k4_nodes k4_edges k4_sc in e; set U := L1Um R k4_edges k4_triangles k4_sc in e.
have m3 : milli R < 3%:R := milli3 R.
have big (a : R) : a = 3%:R \/ a = 4%:R -> ~ a <= milli R.
  by case=> -> h; move: (le_lt_trans h m3); rewrite ltr_nat.
have LU : L *m U = 0 := LU0 B12; have UL : U *m L = 0 := UL0 B12.
case: (eqVneq (L *m vec 6 u) 0) => Lu.
  move: e; rewrite mulmxDl Lu add0r => e.
  have ev : is_eigen kLU lam (unvec (vec 6 u)).
    exact: (proj2 (@eigU R _ _ _ _ _ _ k4_ok (vec 6 u) lam) e).
  have [/eqP|l3] := kLU_eig (size_unvec _) u0 ev; first by rewrite (negbTE l0).
  by apply: (big lam); [left|].
have e' : L *m (L *m vec 6 u) = lam *: (L *m vec 6 u).
  by rewrite scalemxAr -e mulmxDl mulmxDr [L *m (U *m _)]mulmxA LU mul0mx addr0.
have ev := proj2 (@eigL R _ _ _ _ _ _ k4_ok (L *m vec 6 u) lam) e'.
have [|/eqP|l3] := kLL_eig (size_unvec _) _ ev.
- by rewrite zerof_unvec => /unvec_inj /eqP; rewrite (negbTE Lu).
- by rewrite (negbTE l0).
by apply: (big lam); [right|].
Qed.
End K4.

(** All hypotheses of C31 and C32 hold for this complex with the solvers above; its lower
    Laplacian has the positive eigenvalue 4 only, its upper Laplacian 3 only. *)
Example C31_C32_example :
  eigsh_contract (@eigsh_std realalg_rcfType) /\ argsort_contract (@argsort_ref realalg_rcfType) /\
  lstsq_contract (@ls_min realalg_rcfType) /\
  make_sc k4_nodes k4_edges k4_triangles nil nil = Ok k4_sc /\ (0 < length k4_edges)%N /\
  oriented (length k4_nodes) k4_edges k4_triangles /\
  lower_laplacian_matrix k4_sc 1 = Ok (Csr kLL) /\ upper_laplacian_matrix k4_sc 1 = Ok (Csr kLU) /\
  hodge_laplacian_matrix k4_sc 1 = Ok (Csr kLH) /\
  below_positive_spectrum kLH (milli realalg_rcfType) /\ disjoint_spectra realalg_rcfType kLL kLU.
Proof.
split; first exact: eigsh_std_ok. split; first exact: argsort_ref_ok.
split; first by have [h _] := @ls_min_ok realalg_rcfType.
split; first exact: k4_ok. split; first by []. split; first exact: k4_oriented.
do 3 (split; first by []).
by split; [exact: k4_below|exact: k4_disjoint].
Qed.
