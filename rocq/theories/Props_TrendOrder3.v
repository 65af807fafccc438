(** * C98: the reported correlation depends on the direction of edges; examples *)

From Coq Require Import ZArith String List Ring Field.
From mathcomp Require Import all_ssreflect all_algebra all_real_closed ssrZ zify.
From Verif Require Import RingTac Py PyFacts ExampleData Complex ComplexSpec ComplexFacts ComplexFacts2 LinAlg Spectral
  Signal SignalSpec Bridge SignalFacts Compute Props_Complex Props_Signal Props_Hodge Eigen EigenSpec
  EigenFacts Props_Eigen Filter FilterSpec FilterFacts FilterFacts2 PolyFacts Props_Masks Props_LowPass
  Props_Poly Props_Linear Props_Topology Props_Power Props_Grid Props_Solver Props_Reorder Props_FilterOrder
  Trend TrendFacts Props_Logistic Props_Trend Props_Trend2 Props_Trend3 Props_TrendEx Props_TrendOrder Props_TrendOrder2.

Set Implicit Arguments.
Unset Strict Implicit.
Unset Printing Implicit Defensive.

Import GRing.Theory Num.Theory Order.Theory.
Local Open Scope ring_scope.
Delimit Scope Z_scope with zz.

(** *** The correlation depends on the direction *)
Section Path.
Variable R : rcfType.
Add Field R_fieldTO : (mc_field R).

(** An estimate without noise is determined by its equation. *)
Lemma l2_equation (pow10 : R -> R) nodes E T nf ef sc (flow z : seq R) mu :
  make_sc nodes E T nf ef = Ok sc -> (0 < length E)%N -> size flow = length E -> 0 <= mu -> size z = length E ->
  addf z (scalef mu (mv (amul (atr (sc_B1 sc)) (sc_B1 sc)) z)) = flow ->
  exists r, denoise_l2 pow10 (@no_noise R) sc flow "divergence" 1 [:: 0] mu = Ok r /\
  nth [::] (nth [::] (trend_responses r) 0) 0 = z /\
  trend_correlations r = [:: fl_mean [:: corr flow z]].
Proof.
move=> H M0 sf mu0 sz e.
have s0 : [:: 0 : R] <> [::] by [].
eexists; split.
  exact: (l2_run pow10 (@size_no_noise R) H M0 sf mu0 (erefl : components R sc "divergence" = _) (erefl : Z.lt Z0 1) s0).
have x00 : l2x pow10 (@no_noise R) nodes E T sc flow [:: 0] mu 0 0 = z.
  rewrite /l2x no_noise_flow -e (mv_p H "L1L"); set A := 1%:M + _.
  have uA : A \in unitmx by apply: shift_unit => // x; exact: (p_psd nodes T sc).
  rewrite scalef_unvec -{1}(@vecK R (length E) z) // addf_unvec unvecK.
  rewrite -[X in invmx A *m X](_ : A *m vec (length E) z = _); last by rewrite /A mulmxDl mul1mx -scalemxAl.
  by rewrite mulKmx // vecK.
by split; [rewrite l2_entry|rewrite /= /l2cell x00].
Qed.

Lemma path_mv (a b : R) : mv pLL [:: a; b] = [:: 2%:R * a - b; 2%:R * b - a].
Proof.
have v : [seq at2 pLL i.1 i.2 | i <- [:: (0, 0); (0, 1); (1, 0); (1, 1)]%N] = (2 :: -1 :: -1 :: 2 :: nil)%zz by vm_compute.
have [s0 s1] : 2%N = sh0 pLL /\ 2%N = sh1 pLL by vm_compute.
rewrite mvCE /mvC -s0 -s1; move: v; move: pLL => A; rewrite /mkseq /=; case=> -> -> -> ->.
rewrite /zmul -![int_of_Z _]/(_%:Z) !mulrN1z !addr0 !mulr_natl.
by rewrite [X in [:: _; X]]addrC.
Qed.
Lemma turned_mv (a b : R) : mv tuLL [:: a; b] = [:: 2%:R * a + b; 2%:R * b + a].
Proof.
have v : [seq at2 tuLL i.1 i.2 | i <- [:: (0, 0); (0, 1); (1, 0); (1, 1)]%N] = (2 :: 1 :: 1 :: 2 :: nil)%zz by vm_compute.
have [s0 s1] : 2%N = sh0 tuLL /\ 2%N = sh1 tuLL by vm_compute.
rewrite mvCE /mvC -s0 -s1; move: v; move: tuLL => A; rewrite /mkseq /=; case=> -> -> -> ->.
rewrite /zmul -![int_of_Z _]/(_%:Z) !addr0 !mulr_natl.
by rewrite [X in [:: _; X]]addrC.
Qed.

Lemma path_l2 (pow10 : R -> R) mu : 0 <= mu -> let a := (1 + mu)^-1 in
  (exists r, denoise_l2 pow10 (@no_noise R) path_sc [:: 1; 1] "divergence" 1 [:: 0] mu = Ok r /\
    nth [::] (nth [::] (trend_responses r) 0) 0 = [:: a; a] /\
    trend_correlations r = [:: fl_mean [:: corr [:: 1; 1] [:: a; a]]]) /\
  exists r, denoise_l2 pow10 (@no_noise R) path_turned_sc [:: -1; 1] "divergence" 1 [:: 0] mu = Ok r /\
    nth [::] (nth [::] (trend_responses r) 0) 0 = [:: - a; a] /\
    trend_correlations r = [:: fl_mean [:: corr [:: -1; 1] [:: - a; a]]].
Proof.
move=> mu0 a; have /eqP m1 : 1 + mu != 0 by rewrite gt_eqF // ltr_spaddl ?ltr01.
have e : a + mu * (2%:R * a - a) = 1 by rewrite /a; to_r R; field.
split.
  apply: (l2_equation pow10 path_ok) => //; rewrite -/pLL path_mv.
  by rewrite /scalef /addf /mkseq /= e.
apply: (l2_equation pow10 path_turned_ok) => //; rewrite -/tuLL turned_mv /scalef /addf /mkseq /=.
have -> : 2%:R * - a + a = - (2%:R * a - a) by rewrite mulrN opprB addrC.
by rewrite mulrN -opprD e.
Qed.

Lemma corr_flat (a b : R) : corr [:: a; a] [:: b; b] = NaN R.
Proof.
rewrite /corr (_ : energy (centred [:: a; a]) = 0) ?eqxx //.
have -> : centred [:: a; a] = zerof R 2.
  have av : average [:: a; a] = a.
    rewrite /average !big_ord_recl big_ord0 addr0 [size _]/= [nth _ _ _]/=.
    have -> : a + a = a * 2%:R by rewrite mulr_natr.
    by rewrite mulfK // pnatr_eq0.
  by rewrite /centred /= av subrr.
by rewrite /energy /dotp !big_ord_recl big_ord0 /= mulr0 !addr0.
Qed.
Lemma corr_steep (a : R) : 0 < a -> corr [:: -1; 1] [:: - a; a] = Fin 1.
Proof.
move=> a0.
have ce b : centred [:: - b; b] = [:: - b; b] :> seq R.
  have av : average [:: - b; b] = 0.
    by rewrite /average !big_ord_recl big_ord0 addr0 [size _]/= [nth _ _ _]/= addNr mul0r.
  by rewrite /centred /= av !subr0.
have en b c : dotp [:: - b; b] [:: - c; c] = 2%:R * (b * c) :> R.
  by rewrite /dotp !big_ord_recl big_ord0 /= mulrNN addr0 -mulr2n mulr_natl.
rewrite /corr !ce /energy !en.
have p2 : 0 < 2%:R :> R by rewrite ltr0n.
have s1 : 0 < Num.sqrt (2%:R * (1 * 1)) :> R by rewrite sqrtr_gt0 !mulr1.
rewrite !mulf_eq0 !oner_eq0 !(gt_eqF a0) !(gt_eqF p2) /=.
have -> : 2%:R * (1 * a) = Num.sqrt (2%:R * (1 * 1)) * Num.sqrt (2%:R * (a * a)) :> R.
  rewrite mul1r -sqrtrM ?mulr1 ?ler0n // mulrA -expr2 -expr2 -exprMn sqrtr_sqr gtr0_norm ?mulr_gt0 //.
by rewrite mulfV // mulf_neq0 // gt_eqF // sqrtr_gt0 !mulr_gt0.
Qed.
End Path.

(** The correlation that is reported next to the estimate depends on the directions: a flow that is 1 on both edges of a
    path has no correlation with its estimate (nan); if one of the edges is turned round, it has correlation 1. *)
Theorem C98_correlation_refuted :
  exists nodes E sc marks sc', make_sc nodes E nil nil nil = Ok sc /\ proper_edges (length nodes) E /\
  size marks = length E /\ make_sc nodes (reversed marks E) nil nil nil = Ok sc' /\
  forall (R : rcfType) (pow10 : R -> R) mu, 0 <= mu -> exists (flow : seq R) r r', size flow = length E /\
    denoise_l2 pow10 (@no_noise R) sc flow "divergence" 1 [:: 0] mu = Ok r /\
    denoise_l2 pow10 (@no_noise R) sc' (negated marks flow) "divergence" 1 [:: 0] mu = Ok r' /\
    nth [::] (nth [::] (trend_responses r') 0) 0 = negated marks (nth [::] (nth [::] (trend_responses r) 0) 0) /\
    trend_correlations r = [:: NaN R] /\ trend_correlations r' = [:: Fin 1].
Proof.
exists path_nodes, path_edges, path_sc, [:: true; false], path_turned_sc.
split; first exact: path_ok. split; first exact: (proj1 path_oriented). split; first by [].
split; first exact: path_turned_ok.
move=> R pow10 mu mu0; have [[r [e [x c]]] [r' [e' [x' c']]]] := path_l2 pow10 mu0.
exists [:: 1; 1], r, r'; do 3 split=> //; split; first by rewrite x x'.
rewrite c c' corr_flat corr_steep ?invr_gt0 ?ltr_spaddl ?ltr01 // /fl_mean /= big_seq1 divr1.
by [].
Qed.
Print Assumptions C98_correlation_refuted.

(** *** Runs to which the theorems apply *)
Section Completion.
Variable R : rcfType.
Variables (nodes : list Z) (E : list (Z * Z)) (T : list (list Z)) (nf : dict Z fdict)
          (ef : dict (Z * Z) fdict) (sc : SC).
Hypotheses (H : make_sc nodes E T nf ef = Ok sc) (M0 : (0 < length E)%N).

Lemma div_cell (f x : seq R) : size f = length E -> size x = length E -> exists z, cell (get_divergence sc) f x = Ok z.
Proof. by move=> sf sx; eexists; rewrite (@cellE _ _ _ _ _ _ _ H "divergence" _ _ _ erefl). Qed.

(** For weights that are small enough the solvers of C48 and C49 return an estimate. *)
Lemma l1_completes pow10 randn (flow snr : seq R) num order : (forall i j n, size (randn i j n) = n) ->
  size flow = length E -> Z.le Z0 num -> Z.le Z0 order ->
  exists b : R, 0 <= b /\ forall mu, 0 <= mu -> mu * b <= 1 ->
    exists r, denoise_l1 pow10 randn (@solver_ref R) sc flow "divergence" num snr order mu = Ok r.
Proof.
move=> sr sf n0 o0; exists (row_norms R (op_of (base_array sc "divergence") (Z.to_nat order))); split.
  by apply: sumr_ge0 => i _; exact: sqrtr_ge0.
move=> mu mu0 k1; rewrite /denoise_l1 -[components _ _ _]/(Some (@get_divergence R sc)) shift_opE // bindOk to_arrC bindOk.
rewrite (power_noiseE _ H M0) bindOk.
cbv beta iota zeta; case: Z.ltb_spec => [|_]; first by lia.
rewrite (scE H).
apply: table_then => i j; rewrite size_map => li lj; rewrite (noisyE pow10 sr) // bindOk size_addf sf eqxx.
by rewrite /solver_ref k1 bindOk; apply: div_cell => //; rewrite size_addf.
Qed.
Lemma interp_completes (floor : R -> Z) choice (flow ratio : seq R) num order :
  size flow = length E -> Z.le Z0 num -> Z.le Z0 order ->
  (forall i, (i < size ratio)%N -> Z.le Z0 (floor ((length E)%:R * ratio`_i)) /\
     Z.le (floor ((length E)%:R * ratio`_i)) (Z.of_nat (length E))) ->
  exists b : R, 0 <= b /\ forall mu, 0 <= mu -> mu * b <= 1 ->
    exists r, interpolate_l1 (@solver_eq_ref R) floor choice sc flow "divergence" ratio num order mu = Ok r.
Proof.
move=> sf n0 o0 fl; exists (row_norms R (op_of (base_array sc "divergence") (Z.to_nat order))); split.
  by apply: sumr_ge0 => i _; exact: sqrtr_ge0.
move=> mu mu0 k1; rewrite /interpolate_l1 -[components _ _ _]/(Some (@get_divergence R sc)) shift_opE // bindOk to_arrC bindOk.
cbv beta iota zeta; case: Z.ltb_spec => [|_]; first by lia.
rewrite (scE H).
apply: table_then => i j li lj; have [f0 f3] := fl i li.
case: Z.ltb_spec => [|_]; first by rewrite -[size E]/(length E); lia. case: Z.ltb_spec => [|_]; first by rewrite -[size E]/(length E); lia.
rewrite orbF (masked _ sf) bindOk size_mkseq eqxx.
rewrite /solver_eq_ref /solver_ref k1 bindOk; apply: div_cell => //; exact: size_mkseq.
Qed.
End Completion.

(** A positive weight that is small with respect to finitely many bounds. *)
Lemma small_weight (R : rcfType) (bs : seq R) : (forall k, (k < size bs)%N -> 0 <= bs`_k) ->
  exists mu, 0 < mu /\ forall k, (k < size bs)%N -> mu * bs`_k <= 1.
Proof.
move=> b0; pose s := \sum_(k < size bs) bs`_k.
have s0 : 0 <= s by apply: sumr_ge0 => k _; exact: b0.
have p0 : 0 < 1 + s by rewrite ltr_spaddl ?ltr01.
exists (1 + s)^-1; split=> [|k lk]; first by rewrite invr_gt0.
rewrite mulrC ler_pdivr_mulr // mul1r /s (bigD1 (Ordinal lk)) //= addrCA ler_addl addr_ge0 ?ler01 //.
by apply: sumr_ge0 => i _; exact: b0.
Qed.

(** Noise that is 1 on each edge, and the corresponding noise when the last edge of the triangle is turned round. *)
Definition one_noise (R : rcfType) (i j n : nat) : seq R := nseq n 1.
Definition turned_noise (R : rcfType) (i j n : nat) : seq R :=
  if n == 3%N then [:: 1; 1; - 1] else nseq n 1.
(** The choice on the rotated triangle that corresponds to choice_ref. *)
Definition choice_rot (i j n m : nat) : seq nat := [seq k <- iota 0 n | ((k + 2) %% 3 < m)%N].

Example C98_example :
  let R := realalg_rcfType in
  let f := [:: 5%:R; 6%:R; 7%:R] : seq R in
  let f' := [:: 7%:R; 5%:R; 6%:R] : seq R in
  let E' := [:: (1, 2); (0, 1); (0, 2)]%zz in
  let marks := [:: false; false; true] in
  solver_contract (@solver_ref R) /\ solver_eq_contract (@solver_eq_ref R) /\
  (forall i j n, size (one_noise R i j n) = n /\ size (turned_noise R i j n) = n) /\
  proper_edges (length tri_nodes) tri_edges /\ simple_edges tri_edges /\ proper_triangles tri_triangles /\
  perm_eq tri_edges E' /\ same_at tri_edges E' f f' /\
  (forall i j, same_at tri_edges E' (one_noise R i j 3) (one_noise R i j 3)) /\
  (forall i j m k k', (k < 3)%N -> (k' < 3)%N -> nth (Z0, Z0) tri_edges k = nth (Z0, Z0) E' k' ->
     (k \in choice_ref i j 3 m) = (k' \in choice_rot i j 3 m)) /\
  (forall i j, turned_noise R i j 3 = negated marks (one_noise R i j 3)) /\
  (forall mu, 0 <= mu -> exists r, denoise_l2 (@exp_ref R) (@one_noise R) tri_sc f "divergence" 2 [:: 0; 10%:R] mu = Ok r) /\
  forall sc1 sc2 sc3, make_sc tri_nodes E' tri_triangles nil nil = Ok sc1 ->
    make_sc tri_nodes (List.map (renumber swap02) tri_edges) (List.map (List.map swap02) tri_triangles) nil nil = Ok sc2 ->
    make_sc tri_nodes (reversed marks tri_edges) tri_triangles nil nil = Ok sc3 ->
  exists mu : R, 0 < mu /\
    let l1 randn sc flow := denoise_l1 (@exp_ref R) randn (@solver_ref R) sc flow "divergence" 2 [:: 0; 10%:R] 1 mu in
    let interp choice sc flow := interpolate_l1 (@solver_eq_ref R) floor_ref choice sc flow "divergence" [:: 0; 1] 2 1 mu in
    (exists r, l1 (@one_noise R) tri_sc f = Ok r) /\ (exists r, l1 (@one_noise R) sc1 f' = Ok r) /\
    (exists r, l1 (@one_noise R) sc2 f = Ok r) /\ (exists r, l1 (@turned_noise R) sc3 (negated marks f) = Ok r) /\
    (exists r, interp choice_ref tri_sc f = Ok r) /\ (exists r, interp choice_rot sc1 f' = Ok r) /\
    (exists r, interp choice_ref sc2 f = Ok r) /\ (exists r, interp choice_ref sc3 (negated marks f) = Ok r).
Proof.
move=> R; move: (5%:R : R) (6%:R : R) (7%:R : R) => a b c f f' E' marks.
have [pe [se [pt _]]] := C86_example.
have rot (x y z : R) : same_at tri_edges E' [:: x; y; z] [:: z; x; y].
  by split=> //; split=> //; rewrite -(perm_rot 2) /=; exact: perm_refl.
have sn i j n : size (one_noise R i j n) = n by exact: size_nseq.
have st i j n : size (turned_noise R i j n) = n by rewrite /turned_noise; case: eqP => [->|_] //; exact: size_nseq.
split; first exact: solver_ref_ok. split; first exact: solver_eq_ref_ok.
split; first by [].
do 3 (split; first by []). split; first by []. split; first exact: rot.
split; first by move=> i j; exact: rot.
split.
  move=> i j m k k'; rewrite /choice_ref /choice_rot mem_filter !mem_iota /=.
  by case: k => [|[|[|//]]] _; case: k' => [|[|[|//]]] _ //= h; rewrite ?andbT //; discriminate h.
split; first by [].
have M0 : (0 < length tri_edges)%N by [].
have sf : size f = length tri_edges by [].
split.
  move=> mu mu0; have s0 : [:: 0 : R; 10%:R] <> [::] by [].
  eexists; exact: (l2_run (@exp_ref R) sn tri_ok M0 sf mu0 (erefl : components R tri_sc "divergence" = _) (erefl : Z.lt Z0 2) s0).
move=> sc1 sc2 sc3 h1 h2 h3.
have f_nat n : floor_ref n%:R = Z.of_nat n.
  have := floor_ref_ok (n%:R : R); move: (floor_ref _) => z /andP[u v].
  have u' : (int_of_Z z)%:~R <= (Posz n)%:~R :> R := u.
  have v' : (Posz n)%:~R < (int_of_Z z + 1)%:~R :> R by rewrite intrD.
  by move: u' v'; rewrite ler_int ltr_int; lia.
have fl (i : nat) : (i < 2)%N ->
    Z.le Z0 (floor_ref (3%:R * nth 0 [:: 0 : R; 1] i)) /\ Z.le (floor_ref (3%:R * nth 0 [:: 0 : R; 1] i)) (Z.of_nat 3).
  have z0 : floor_ref 0 = Z0 by exact: (f_nat 0%N).
  case: i => [|[|//]] _ /=; first by rewrite mulr0 z0.
  by rewrite mulr1 (f_nat 3%N).
pose rr : seq R := [:: 0; 1].
have n2 : Z.le Z0 2 by []. have o1 : Z.le Z0 1 by [].
have e' : (0 < length E')%N by [].
have sg : size (negated marks f) = 3%N by [].
have [b0 [p0 q0]] := l1_completes tri_ok M0 (@exp_ref R) [:: 0; 10%:R] sn sf n2 o1.
have [b1 [p1 q1]] := l1_completes h1 e' (@exp_ref R) [:: 0; 10%:R] sn (erefl : size f' = _) n2 o1.
have [b2 [p2 q2]] := l1_completes h2 (isT : (0 < length (List.map (renumber swap02) tri_edges))%N) (@exp_ref R) [:: 0; 10%:R] sn (erefl : size f = _) n2 o1.
have [b3 [p3 q3]] := l1_completes h3 (isT : (0 < length (reversed marks tri_edges))%N) (@exp_ref R) [:: 0; 10%:R] st (sg : size (negated marks f) = length (reversed marks tri_edges)) n2 o1.
have [b4 [p4 q4]] := interp_completes tri_ok M0 (floor := floor_ref) choice_ref (ratio := rr) sf n2 o1 (fl : forall i : nat, (i < size rr)%N -> _).
have [b5 [p5 q5]] := interp_completes h1 e' (floor := floor_ref) choice_rot (ratio := rr) (erefl : size f' = length E') n2 o1 (fl : forall i : nat, (i < size rr)%N -> _).
have [b6 [p6 q6]] := interp_completes h2 (isT : (0 < length (List.map (renumber swap02) tri_edges))%N) (floor := floor_ref) choice_ref (ratio := rr) (erefl : size f = length (List.map (renumber swap02) tri_edges)) n2 o1 (fl : forall i : nat, (i < size rr)%N -> _).
have [b7 [p7 q7]] := interp_completes h3 (isT : (0 < length (reversed marks tri_edges))%N) (floor := floor_ref) choice_ref (ratio := rr) (sg : size (negated marks f) = length (reversed marks tri_edges)) n2 o1 (fl : forall i : nat, (i < size rr)%N -> _).
have [|mu [m0 sm]] := @small_weight R [:: b0; b1; b2; b3; b4; b5; b6; b7].
  by case=> [|[|[|[|[|[|[|[|//]]]]]]]] _.
exists mu; split=> //; have m1 := ltW m0; cbv zeta.
split; first exact: (q0 _ m1 (sm 0%N isT)). split; first exact: (q1 _ m1 (sm 1%N isT)).
split; first exact: (q2 _ m1 (sm 2%N isT)). split; first exact: (q3 _ m1 (sm 3%N isT)).
split; first exact: (q4 _ m1 (sm 4%N isT)). split; first exact: (q5 _ m1 (sm 5%N isT)).
split; first exact: (q6 _ m1 (sm 6%N isT)). exact: (q7 _ m1 (sm 7%N isT)).
Qed.
