(** * The Chebyshev series of the logistic function: C88 *)

From Coq Require Import ZArith String List Ring Field.
From mathcomp Require Import all_ssreflect all_algebra all_field complex realalg ssrZ zify.
From Verif Require Import Py PyFacts ExampleData Complex ComplexSpec ComplexFacts LinAlg RingTac Spectral Signal
  SignalSpec Bridge SignalFacts Compute Props_Signal Props_Hodge Eigen EigenSpec EigenFacts
  Filter FilterSpec FilterFacts FilterFacts2 PolyFacts Props_LowPass Props_Poly Props_Power Props_Cheb
  Props_Logistic Props_Eigen Props_Masks ChebSeries.

Set Implicit Arguments.
Unset Strict Implicit.
Unset Printing Implicit Defensive.

Import GRing.Theory Num.Theory Order.Theory.
Local Open Scope ring_scope.

(** There are n Chebyshev points, -1 and 1 among them for n > 1. *)
Theorem C88_points : forall (R : rcfType) n, (0 < n)%N ->
  exists xs : seq R, uniq xs /\ size xs = n /\ (forall x, x \in xs <-> cheb_point n x) /\
    (forall x, x \in xs -> -1 <= x <= 1) /\ ((1 < n)%N -> 1 \in xs /\ -1 \in xs).
Proof.
move=> R n n0; exists (cheb_points R n); have [u s] := cheb_points_size R n0.
do 2 split=> //; split; first by move=> x; exact: cheb_pointsP.
split.
  move=> x /(cheb_pointsP x n0)[[_ ->]|[n1 [z [zm ->]]]]; first by rewrite oppr_le0 ler01.
  have m0 : (0 < (n.-1).*2)%N by rewrite double_gt0; case: n n1 {n0 u s zm} => [|[]].
  have zn := root_norm m0 zm; have : complex.Re z ^+ 2 <= 1 by rewrite -zn ler_addl sqr_ge0.
  by move=> h; rewrite -ler_norml -(@expr_le1 _ 2) ?normr_ge0 // real_normK ?num_real.
move=> n1; split; apply/(cheb_pointsP _ n0); right; split=> //; [exists 1|exists (-1)].
  by rewrite expr1n.
by split; [rewrite -mul2n exprM sqrrN expr1n expr1n|].
Qed.
Print Assumptions C88_points.

Section Val.
Variable R : rcfType.
Add Field R_field3 : (mc_field R).
Lemma series_valueE (c : seq R) (a b x : R) :
  series_value c a b x = \sum_(k < size c) c`_k * (chebT R k).[(2%:R * x - a - b) / (b - a)].
Proof.
rewrite /series_value; set y := _ / _; set F := (X in foldl X).
suff h (m k : nat) s : (m + k = size c)%N ->
    (foldl F (s, (chebT R k).[y], (chebT R k.+1).[y]) (drop k c)).1.1 =
    s + \sum_(i < m) c`_(k + i) * (chebT R (k + i)).[y].
  have := h (size c) 0%N 0 (addn0 _); rewrite drop0 hornerC hornerX add0r => ->.
  by apply: eq_bigr => i _.
elim: m k s => [|m IH] k s e; first by rewrite drop_oversize -?e // big_ord0 addr0.
have kc : (k < size c)%N by rewrite -e addSn ltnS leq_addl.
rewrite (drop_nth 0) // [foldl _ _ _](_ : _ = foldl F (s + c`_k * (chebT R k).[y], (chebT R k.+1).[y],
  2%:R * y * (chebT R k.+1).[y] - (chebT R k).[y]) (drop k.+1 c)); last by [].
rewrite -chebTSSE IH; last by rewrite -e addSnnS.
rewrite [in RHS]big_ord_recl [(k + _)%N]addn0 [in RHS]addrA; congr (_ + _); apply: eq_bigr => i _.
by rewrite addSnnS.
Qed.
End Val.

Lemma half_shift (R : rcfType) (b x : R) : 0 + (b - 0) / 2%:R * (1 + x) = b / 2%:R * (1 + x).
Proof. by rewrite add0r subr0. Qed.

(** A run of apply with the default number of points (n = L): the last filter is the polynomial of degree
    below L that agrees with the logistic function at the L Chebyshev points of [0, b], where b is the
    estimate of the largest eigenvalue. *)
Theorem C88_filter_interpolates_logistic :
  forall (R : rcfType) eigsh lstsq rint argsort expf chebfun norm_2,
    eigsh_contract eigsh -> lstsq_contract lstsq -> argsort_contract argsort -> chebfun_contract chebfun ->
  forall nodes E T nf ef sc, make_sc nodes E T nf ef = Ok sc -> (1 < length E)%N ->
    oriented (length nodes) E T ->
  forall p A s (f : seq R) L cut steep alpha b,
    get_p_matrix sc p = Ok (Csr A) -> component_name s -> size f = length E ->
    get_alpha R sc p = Ok (alpha, b) -> 0 < b -> (0 < L)%N ->
    let g := logistic_function expf cut steep in
  exists r,
    cheb_apply eigsh lstsq rint argsort expf chebfun norm_2 sc f p s (Z.of_nat L) None cut steep = Ok r /\
    size (cheb_filter r) = L /\ size (cheb_estimated r) = L /\
    let H := nth [::] (cheb_filter r) L.-1 in
    nth [::] (cheb_estimated r) L.-1 = rmv H f /\
    (forall x u, cheb_point L x -> size u = length E -> is_eigen A (b / 2%:R * (1 + x)) u ->
       rmv H u = scalef (g (b / 2%:R * (1 + x))) u) /\
    (forall q : {poly R}, (size q <= L)%N ->
       (forall x, cheb_point L x -> q.[b / 2%:R * (1 + x)] = g (b / 2%:R * (1 + x))) ->
       forall lam u, size u = length E -> is_eigen A lam u -> rmv H u = scalef q.[lam] u).
Proof.
move=> R eigsh lstsq rint argsort expf cf norm_2 EC LC AC CC nodes E T nf ef sc H M1 O p A s f L cut steep alpha b.
move=> pA cn sf ga b0 L0 g.
have n2 : (2%:R : R) != 0 by rewrite pnatr_eq0.
have ab : alpha = b / 2%:R.
  move: ga; rewrite /get_alpha => /bind_Ok[X1 [_]] /bind_Ok[X2 [_]].
  by cbv zeta => /bind_Ok[v [_]] /bind_Ok[l [_]] [<- <-].
have ap : 0 < alpha by rewrite ab divr_gt0 // ltr0n.
have a0 : alpha != 0 by rewrite gt_eqF.
have [c [ec [sc' hc]]] := CC g 0 b L b0 L0.
have LZ : Z.lt Z0 (Z.of_nat L) by lia.
have LcE : (Z.to_nat (Z.of_nat L) <= size c)%N by rewrite Nat2Z.id sc'.
have [r [t [F [m [us [er [_ [_ [_ [s1 [s2 [_ [_ [_ [_ [_ h]]]]]]]]]]]]]]]] :=
  C43_apply rint norm_2 EC LC AC H M1 O pA cn sf ga a0 (n := None) ec LZ LcE.
rewrite Nat2Z.id in s1 s2 h.
exists r; do 3 split=> //; move: h => /(_ L.-1); rewrite prednK // => /(_ (leqnn _)).
move=> [_ [-> [_ [_ [_ act]]]]]; have mn : minn L.+1 L = L by apply/minn_idPr.
rewrite mn in act.
split=> //.
pose S := \sum_(k < L) c`_k *: chebT R k.
have SE x : S.[x] = \sum_(k < L) c`_k * (chebT R k).[x].
  by rewrite horner_sum; apply: eq_bigr => k _; rewrite hornerZ.
have sh x : (alpha * (1 + x) - alpha) / alpha = x.
  by rewrite mulrDr mulr1 addrAC subrr add0r mulrC mulKf.
have hc' x : cheb_point L x -> S.[x] = g (alpha * (1 + x)).
  by move=> cx; rewrite SE hc // half_shift ab.
split=> [x u cx su|q sq hq lam u su eu].
  by rewrite -ab => eu; rewrite (act _ _ su eu) sh -SE hc'.
rewrite (act _ _ su eu) -SE; congr (scalef _ u).
pose q' : {poly R} := q \Po (alpha *: ('X + 1)).
have sa : size (alpha *: ('X + 1) : {poly R}) = 2%N.
  by rewrite size_scale // -[1]opprK -polyCN size_XsubC.
have -> : S = q'.
  apply: (cheb_unique L0); first exact: size_cheb_series.
    by rewrite size_comp_poly2.
  by move=> x cx; rewrite hc' // horner_comp !hornerE ab -hq // addrC.
rewrite horner_comp !hornerE; congr (_.[_]).
by rewrite mulrDr mulr1 mulrCA mulfV // mulr1 subrK.
Qed.
Print Assumptions C88_filter_interpolates_logistic.

(** Extracting the gradient part with L1L (the default): a flow without divergence, whose gradient part is
    zero, is not removed but multiplied by the logistic function at 0, 1 / (1 + exp(steep cut_off)).  That
    factor is positive, and below 1/2 if cut_off and steep are positive. *)
Theorem C88_divergence_free_flow_is_kept :
  forall (R : rcfType) eigsh lstsq rint argsort expf chebfun norm_2,
    eigsh_contract eigsh -> lstsq_contract lstsq -> argsort_contract argsort -> chebfun_contract chebfun ->
  forall nodes E T nf ef sc, make_sc nodes E T nf ef = Ok sc -> (1 < length E)%N ->
    oriented (length nodes) E T ->
  forall (f : seq R) L cut steep alpha b,
    size f = length E -> get_divergence sc f = Ok (zerof R (length nodes)) ->
    get_alpha R sc "L1L" = Ok (alpha, b) -> 0 < b -> (1 < L)%N ->
    let gain := 1 / (1 + expf (steep * cut)) in
  exists r,
    cheb_apply eigsh lstsq rint argsort expf chebfun norm_2 sc f "L1L" "gradient" (Z.of_nat L) None cut steep
      = Ok r /\
    get_component_flow lstsq rint sc f "gradient" false 2 = Ok (zerof R (length E)) /\
    nth [::] (cheb_estimated r) L.-1 = scalef gain f /\
    (exp_contract expf -> 0 < gain /\ (0 < steep * cut -> gain < 1 / 2%:R)).
Proof.
move=> R eigsh lstsq rint argsort expf cf norm_2 EC LC AC CC nodes E T nf ef sc H M1 O f L cut steep alpha b.
move=> sf; rewrite (divergence_Ok H) // zerof_unvec => -[/unvec_inj d0] ga b0 L1 gain.
have L0 := ltnW L1.
have pA : get_p_matrix sc "L1L" = Ok (Csr (p_array sc "L1L")) by rewrite get_p_matrixE.
have cn : component_name "gradient" by left.
have [r [er [_ [_ [le [h _]]]]]] :=
  C88_filter_interpolates_logistic rint expf norm_2 EC LC AC CC H M1 O cut steep pA cn sf ga b0 L0.
exists r; split=> //; split.
  rewrite (component_Ok H LC) // /maybe_round /comp_mx /= zerof_unvec; congr (Ok (unvec _)).
  by apply: proj_perp; rewrite trmxK.
split.
  rewrite le; have /(_ (-1) f) := h; rewrite subrr mulr0 => -> //.
  - by rewrite /gain /logistic_function sub0r mulrNN.
  - right; split=> //; exists (-1); split=> //.
    by rewrite -mul2n exprM sqrrN expr1n expr1n.
  rewrite /is_eigen (mv_p H) /p_mat /= -mulmxA d0 mulmx0 -[in RHS](vecK sf) scalef_unvec scale0r //.
move=> [pos [mono [e0 _]]].
have p1 x : 0 < 1 + expf x by rewrite addr_gt0 ?ltr01.
rewrite /gain !mul1r invr_gt0 p1; split=> // s0.
rewrite ltf_pinv ?posrE ?p1 ?ltr0n // -[2%:R]/(1 + 1) ltr_add2l -e0; exact: mono.
Qed.
Print Assumptions C88_divergence_free_flow_is_kept.

(** The points drawn by plot_chebyshev_series_approx: the eigenvalues (tiny ones replaced by zero) with the
    logistic function, and with the factors by which the filter of the same size multiplies the
    eigenvectors. *)
Theorem C88_plot :
  forall (R : rcfType) eigsh lstsq rint argsort expf chebfun norm_2,
    eigsh_contract eigsh -> lstsq_contract lstsq -> argsort_contract argsort -> chebfun_contract chebfun ->
  forall nodes E T nf ef sc, make_sc nodes E T nf ef = Ok sc -> (1 < length E)%N ->
    oriented (length nodes) E T ->
  forall p A (n : option Z) L cut steep alpha b,
    get_p_matrix sc p = Ok (Csr A) -> get_alpha R sc p = Ok (alpha, b) -> 0 < b -> (0 < L)%N ->
    (n = Some (Z.of_nat L) \/ (n = None \/ n = Some Z0) /\ L = length E) ->
  exists lams us xs ys zs,
    plot_chebyshev_series_approx eigsh expf chebfun sc p n cut steep = Ok (xs, ys, zs) /\
    spectral_basis A lams us /\ xs = [seq if `|lam| < (2%:R ^+ 52)^-1 then 0 else lam | lam <- lams] /\
    ys = [seq logistic_function expf cut steep x | x <- xs] /\ size zs = length E /\
    (forall i x, (i < length E)%N -> cheb_point L x -> xs`_i = b / 2%:R * (1 + x) -> zs`_i = ys`_i) /\
    forall (f : seq R) s r, size f = length E -> component_name s ->
      cheb_apply eigsh lstsq rint argsort expf chebfun norm_2 sc f p s (Z.of_nat L) None cut steep = Ok r ->
      forall i, (i < length E)%N -> xs`_i = lams`_i ->
        rmv (nth [::] (cheb_filter r) L.-1) (nth [::] us i) = scalef zs`_i (nth [::] us i).
Proof.
move=> R eigsh lstsq rint argsort expf cf norm_2 EC LC AC CC nodes E T nf ef sc H M1 O p A n L cut steep alpha b.
move=> pA ga b0 L0 hn; set g := logistic_function expf cut steep.
have M0 := ltnW M1; have := pA => /p_of[pv eA].
have F := contract_eigfam EC M0 (p_sym R nodes E T sc p); have sF := eigfam_size F.
set A1 := p_mat R nodes E T sc p in F sF *; set V := eigsh (length E) A1 in F sF *.
have [d0 d1] := p_dims H p.
have [c [ec [sc' hc]]] := CC g 0 b L b0 L0.
have ab : alpha = b / 2%:R.
  move: ga; rewrite /get_alpha => /bind_Ok[X1 [_]] /bind_Ok[X2 [_]].
  by cbv zeta => /bind_Ok[v [_]] /bind_Ok[l [_]] [<- <-].
pose xs := [seq if `|q.1| < eps64 R then 0 else q.1 | q <- V].
have sx : size xs = length E by rewrite size_map.
have sb : spectral_basis A [seq q.1 | q <- V] [seq unvec q.2 | q <- V].
  rewrite /spectral_basis eA -d0 !size_map sF; do 2 split=> //; split; first exact: eigfam_orthonormal F.
  move=> i im; rewrite !(nth_map (0, 0)) ?sF //; set q := nth _ _ _.
  have ql : q \in V by rewrite mem_nth ?sF.
  by rewrite size_unvec; split=> //; exact: (is_eigen_p H (eigfam_eq F ql)).
exists [seq q.1 | q <- V], [seq unvec q.2 | q <- V], xs, [seq g x | x <- xs], [seq series_value c 0 b x | x <- xs].
split.
  rewrite /plot_chebyshev_series_approx pA bindOk to_arrC bindOk eA (p_decomp eigsh H p M0) bindOk ga bindOk.
  cbv zeta; rewrite -d0.
  have -> : match n with None => Z.of_nat (length E) | Some m => if Z.eqb m 0 then Z.of_nat (length E) else m end
      = Z.of_nat L.
    by case: hn => [->|[[->| ->] ->]] //; case: Z.eqb_spec => // z0; lia.
  rewrite /get_chebyshev_series ec bindOk.
  by rewrite /xs /up /zeroed -!map_comp.
split=> //; split; first by rewrite /xs -map_comp.
do 2 split=> //; first by rewrite !size_map.
have vE x : series_value c 0 b x = \sum_(k < L) c`_k * (chebT R k).[(x - alpha) / alpha].
  rewrite series_valueE sc'; apply: eq_bigr => k _; congr (_ * _.[_]).
  have n2 : (2%:R : R) != 0 by rewrite pnatr_eq0.
  by rewrite !subr0 ab invf_div [in RHS]mulrA [in RHS]mulrBl mulfVK // [x * _]mulrC.
have nz (G : R -> R) i : (i < length E)%N -> [seq G x | x <- xs]`_i = G xs`_i.
  by move=> il; apply: (@nth_map _ 0 _ 0); rewrite sx.
split=> [i x il cx e|f s r sf cn er i il e].
  rewrite !nz // e vE -ab.
  have ap : alpha != 0 by rewrite ab gt_eqF // divr_gt0 // ltr0n.
  have -> : (alpha * (1 + x) - alpha) / alpha = x by rewrite mulrDr mulr1 addrAC subrr add0r mulrC mulKf.
  by rewrite hc // half_shift ab.
rewrite nz // vE e.
have ap : alpha != 0 by rewrite ab gt_eqF // divr_gt0 // ltr0n.
have LZ : Z.lt Z0 (Z.of_nat L) by lia.
have LcE : (Z.to_nat (Z.of_nat L) <= size c)%N by rewrite Nat2Z.id sc'.
have [r' [t [F' [m [us [er' [_ [_ [_ [_ [_ [_ [_ [_ [_ [_ h]]]]]]]]]]]]]]]] :=
  C43_apply rint norm_2 EC LC AC H M1 O pA cn sf ga ap (n := None) ec LZ LcE.
move: er'; rewrite er => -[rr]; rewrite -rr {r' rr} Nat2Z.id in h.
move: h => /(_ L.-1); rewrite prednK // => /(_ (leqnn _)) [_ [_ [_ [_ [_ act]]]]].
have mn : minn L.+1 L = L by apply/minn_idPr.
rewrite mn in act; have [_ [_ [_ hb]]] := sb; move: hb; rewrite eA -d0 => /(_ i il)[su eu].
by apply: act; rewrite ?eA.
Qed.
Print Assumptions C88_plot.

(** ** Example: a cycle of four edges, all from the nodes 0, 1 to the nodes 2, 3 *)
Definition k22_nodes : list Z := (0 :: 1 :: 2 :: 3 :: nil)%zz.
Definition k22_edges : list (Z * Z) := ((0, 2) :: (0, 3) :: (1, 2) :: (1, 3) :: nil)%zz.
Definition k22_sc := get_sc (make_sc k22_nodes k22_edges nil nil nil).
Lemma k22_ok : make_sc k22_nodes k22_edges nil nil nil = Ok k22_sc. Proof. by vm_compute. Qed.
Lemma k22_oriented : oriented (length k22_nodes) k22_edges nil.
Proof.
split; first by intros u v HI; simpl in HI; unfold k22_nodes; simpl length; inlist HI.
by split=> // a b c [].
Qed.
Definition k22_L := amul (atr (sc_B1 k22_sc)) (sc_B1 k22_sc).
Lemma k22_p : get_p_matrix k22_sc "L1L" = Ok (Csr k22_L). Proof. by []. Qed.
Lemma k22_mv (R : realFieldType) (a b c d : R) : mv k22_L [:: a; b; c; d] =
  [:: 2%:R * a + b + c; a + 2%:R * b + d; a + 2%:R * c + d; b + c + 2%:R * d].
Proof.
have s0 : sh0 k22_L = 4%N by vm_compute. have s1 : sh1 k22_L = 4%N by vm_compute.
have v : [seq at2 k22_L i.1 i.2 | i <- [seq (i, j) | i <- iota 0 4, j <- iota 0 4]] =
  ([:: 2; 1; 1; 0; 1; 2; 0; 1; 1; 0; 2; 1; 0; 1; 1; 2])%zz by vm_compute.
rewrite mvCE /mvC s0 s1; move: v; move: k22_L => A; rewrite /mkseq /=.
case=> -> -> -> -> -> -> -> -> -> -> -> -> -> -> -> ->.
by congr [:: _; _; _; _]; rewrite /zmul /= ?mulr1z ?mulr0z ?addr0 ?add0r ?mulr_natl ?addrA.
Qed.

Lemma k22_alpha (R : rcfType) : get_alpha R k22_sc "L1L" = Ok (4%:R / 2%:R, 4%:R).
Proof.
have p4 : 0 < (4%:R : R) by rewrite ltr0n.
have e1 : mv k22_L (nseq 4 1) = nseq 4 (4%:R : R).
  by rewrite k22_mv /nseq /=; congr [:: _; _; _; _]; rewrite mulr1 -[2%:R]/(1 + 1) -!addrA.
exact: (proj1 (C41_equal_row_sums k22_ok (isT : (0 < length k22_edges)%N) k22_p p4 e1)).
Qed.

(** The gradient filter does not remove a flow without gradient part, whatever its size, cut-off and
    steepness. *)
Theorem C88_other_parts_are_removed_refuted : exists nodes E sc,
  make_sc nodes E nil nil nil = Ok sc /\
  forall (R : rcfType) eigsh lstsq rint argsort expf chebfun norm_2,
    eigsh_contract eigsh -> lstsq_contract lstsq -> argsort_contract argsort -> chebfun_contract chebfun ->
    exp_contract expf ->
  exists f : seq R, size f = length E /\
    get_component_flow lstsq rint sc f "gradient" false 2 = Ok (zerof R (length E)) /\
    forall L cut steep, (1 < L)%N -> exists r,
      cheb_apply eigsh lstsq rint argsort expf chebfun norm_2 sc f "L1L" "gradient" (Z.of_nat L) None cut steep
        = Ok r /\
      nth [::] (cheb_estimated r) L.-1 <> zerof R (length E).
Proof.
exists k22_nodes, k22_edges, k22_sc; split; first exact: k22_ok.
move=> R eigsh lstsq rint argsort expf cf norm_2 EC LC AC CC XC; pose f : seq R := [:: 1; -1; -1; 1]; exists f.
have sf : size f = length k22_edges by [].
have dv : get_divergence k22_sc f = Ok (zerof R (length k22_nodes)).
  have s1 : sh1 (sc_B1 k22_sc) = 4%N by vm_compute. have s0 : sh0 (sc_B1 k22_sc) = 4%N by vm_compute.
  have v : [seq at2 (sc_B1 k22_sc) i.1 i.2 | i <- [seq (i, j) | i <- iota 0 4, j <- iota 0 4]] =
    ([:: -1; -1; 0; 0; 0; 0; -1; -1; 1; 0; 1; 0; 0; 1; 0; 1])%zz by vm_compute.
  rewrite divergenceC ?s1 // /mvC s0 s1; move: v; move: (sc_B1 k22_sc) => A; rewrite /mkseq /=.
  case=> -> -> -> -> -> -> -> -> -> -> -> -> -> -> -> ->.
  congr Ok; by congr [:: _; _; _; _]; rewrite /zmul /= ?mulr1z ?mulr0z ?mulrNz ?mulr1z ?addr0 ?add0r ?opprK ?addNr ?subrr.
have p4 : 0 < (4%:R : R) by rewrite ltr0n.
have K L cut steep := C88_divergence_free_flow_is_kept rint expf norm_2 EC LC AC CC k22_ok
  (isT : (1 < length k22_edges)%N) k22_oriented (L := L) cut steep sf dv (k22_alpha R) p4.
split=> //; split; first by have [r [_ [h _]]] := K 2%N 0 0 isT.
move=> L cut steep L1; have [r [er [_ [le h]]]] := K L cut steep L1; exists r; split=> //.
by rewrite le; move: (h XC) => [g0 _] /(congr1 (head 0)) /= /eqP; rewrite mulr1 gt_eqF.
Qed.
Print Assumptions C88_other_parts_are_removed_refuted.

(** All hypotheses hold on that cycle; for L = 3 its eigenvalues 0, 2, 4 are the three Chebyshev points, so
    the last filter multiplies every eigenvector by the logistic function of its eigenvalue. *)
Example C88_example : let R := realalg_rcfType in
  eigsh_contract (@eigsh_std R) /\ lstsq_contract (@ls_min R) /\ argsort_contract (@argsort_ref R) /\
  chebfun_contract (@chebfun_ref R) /\ exp_contract (@exp_ref R) /\
  make_sc k22_nodes k22_edges nil nil nil = Ok k22_sc /\ (1 < length k22_edges)%N /\
  oriented (length k22_nodes) k22_edges nil /\ get_p_matrix k22_sc "L1L" = Ok (Csr k22_L) /\
  component_name "gradient" /\ get_alpha R k22_sc "L1L" = Ok (4%:R / 2%:R, 4%:R) /\ 0 < (4%:R : R) /\
  (forall rint norm_2, exists r,
    cheb_apply (@eigsh_std R) (@ls_min R) rint (@argsort_ref R) (@exp_ref R) (@chebfun_ref R) norm_2 k22_sc
      [:: 3%:R; 1; 1; -1] "L1L" "gradient" 3 None 1 1 = Ok r /\
    let H := nth [::] (cheb_filter r) 2 in
    rmv H [:: 1; -1; -1; 1] = scalef (3%:R^-1) [:: 1; -1; -1; 1] /\
    rmv H [:: 1; 0; 0; -1] = scalef (2%:R / 3%:R) [:: 1; 0; 0; -1] /\
    rmv H [:: 1; 1; 1; 1] = scalef (4%:R / 5%:R) [:: 1; 1; 1; 1]).
Proof.
move=> R.
have p4 : 0 < (4%:R : R) by rewrite ltr0n.
split; first exact: eigsh_std_ok. split; first exact: (proj1 (@ls_min_ok R)). split; first exact: argsort_ref_ok.
split; first exact: chebfun_ref_ok. split; first exact: exp_ref_ok.
split; first exact: k22_ok. split; first by []. split; first exact: k22_oriented.
split; first exact: k22_p. split; first by left. split; first exact: k22_alpha. split=> // rint norm_2.
have cn : component_name "gradient" by left.
have [r [er [_ [_ [_ [h _]]]]]] := C88_filter_interpolates_logistic rint (@exp_ref R) norm_2 (@eigsh_std_ok R)
  (proj1 (@ls_min_ok R)) (@argsort_ref_ok R) (@chebfun_ref_ok R) k22_ok (isT : (1 < length k22_edges)%N)
  k22_oriented 1 1 k22_p cn (erefl : size [:: 3%:R; 1; 1; -1 : R] = length k22_edges) (k22_alpha R) p4 (isT : (0 < 3)%N).
exists r; split=> //=.
have n2 : (2%:R : R) != 0 by rewrite pnatr_eq0.
have n3 : (3%:R : R) != 0 by rewrite pnatr_eq0.
have f2 : 4%:R / 2%:R = 2%:R :> R by rewrite (natrM _ 2 2) mulfK.
have g0 : logistic_function (@exp_ref R) 1 1 0 = 3%:R^-1.
  by rewrite /logistic_function /exp_ref sub0r mulrNN mulr1 ler01 mul1r.
have g2 : logistic_function (@exp_ref R) 1 1 2%:R = 2%:R / 3%:R.
  rewrite /logistic_function /exp_ref -(natrB _ (isT : (1 <= 2)%N)) mulr1 oppr_ge0 leNgt ltr01 /= opprK.
  have -> : 1 + (1 + 1)^-1 = 3%:R / 2%:R :> R by rewrite (natrD _ 2 1) mulrDl mulfV // mul1r.
  by rewrite mul1r invf_div.
have g4 : logistic_function (@exp_ref R) 1 1 4%:R = 4%:R / 5%:R.
  have n4 : (4%:R : R) != 0 by rewrite pnatr_eq0.
  rewrite /logistic_function /exp_ref -(natrB _ (isT : (1 <= 4)%N)) mulN1r oppr_ge0 leNgt ltr0n /= opprK.
  have -> : 1 + (1 + 3%:R)^-1 = 5%:R / 4%:R :> R.
    by rewrite -(natrD _ 1 3) (natrD _ 4 1) mulrDl mulfV // mul1r.
  by rewrite mul1r invf_div.
split; last split.
- have := h (-1) [:: 1; -1; -1; 1]; rewrite subrr mulr0 g0; apply=> //.
    by right; split=> //; exists (-1); split=> //; rewrite -signr_odd.
  rewrite /is_eigen k22_mv /scalef /= !mul0r ?mulrN mulr1 -[2%:R]/(1 + 1).
  by rewrite -addrA -opprD subrr addNr opprD addrA subrr add0r addNr.
- have := h 0 [:: 1; 0; 0; -1]; rewrite addr0 mulr1 f2 g2; apply=> //.
    by right; split=> //; exists 'i; rewrite -mul2n exprM sqrCi sqrrN expr1n.
  by rewrite /is_eigen k22_mv /scalef /= !mulr0 !addr0 ?add0r subrr.
have := h 1 [:: 1; 1; 1; 1]; rewrite -[1 + 1]/2%:R f2 -natrM g4; apply=> //.
  by right; split=> //; exists 1; rewrite expr1n.
by rewrite /is_eigen k22_mv /scalef /= !mulr1; congr [:: _; _; _; _]; rewrite -[2%:R]/(1 + 1) -!addrA.
Qed.
