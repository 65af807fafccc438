(** * C95: trend filters on networks of several parts *)

From Coq Require Import ZArith String List Ring Field.
From mathcomp Require Import all_ssreflect all_algebra all_real_closed ssrZ zify.
From Verif Require Import RingTac Py PyFacts ExampleData Complex ComplexSpec ComplexFacts ComplexFacts2 LinAlg Spectral
  Signal SignalSpec Bridge SignalFacts Compute Props_Complex Props_Signal Props_Hodge Eigen EigenSpec
  EigenFacts Props_Eigen Filter FilterSpec FilterFacts FilterFacts2 PolyFacts Props_Masks Props_LowPass
  Props_Poly Props_Linear Props_Topology Props_Solver Props_Reorder Props_FilterOrder Props_GpOrder Props_Local
  Trend TrendFacts Props_Logistic Props_Trend Props_Trend2 Props_Trend3 Props_TrendEx.

Set Implicit Arguments.
Unset Strict Implicit.
Unset Printing Implicit Defensive.

Import GRing.Theory Num.Theory Order.Theory.
Local Open Scope ring_scope.
Delimit Scope Z_scope with zz.

(** The l2 trend filter treats each part of a network for itself: if the noisy flow of a run on one part is the part of
    the noisy flow of a run on the network, then the same holds for the estimates, whatever component is named. *)
Theorem C95_l2_trend :
  forall (R : rcfType) (pow10 : R -> R) randn randn', (forall i j n, size (randn i j n) = n) ->
    (forall i j n, size (randn' i j n) = n) ->
  forall nodes E T nf ef sc, make_sc nodes E T nf ef = Ok sc ->
  proper_edges (length nodes) E -> simple_edges E -> proper_triangles T ->
  forall keep, separate keep E -> (0 < length (part keep E))%N ->
  forall nf' ef' sc', make_sc nodes (part keep E) (tri_part keep T) nf' ef' = Ok sc' ->
  forall (flow flow' snr snr' : seq R) c c' num num' mu r r', 0 <= mu ->
    denoise_l2 pow10 randn sc flow c num snr mu = Ok r -> denoise_l2 pow10 randn' sc' flow' c' num' snr' mu = Ok r' ->
  forall i j i' j', (i < size snr)%N -> (j < Z.to_nat num)%N -> (i' < size snr')%N -> (j' < Z.to_nat num')%N ->
    noisy_flow pow10 flow' (length (part keep E)) snr'`_i' (randn' i' j' (length (part keep E))) =
      on_part keep E (noisy_flow pow10 flow (length E) snr`_i (randn i j (length E))) ->
    nth [::] (nth [::] (trend_responses r') i') j' = on_part keep E (nth [::] (nth [::] (trend_responses r) i) j).
Proof.
move=> R pow10 randn randn' sr sr' nodes E T nf ef sc H PE SE PT keep S M0' nf' ef' sc' H'.
move=> flow flow' snr snr' c c' num num' mu r r' mu0 e e' i j i' j' li lj li' lj' hy.
have M0 : (0 < length E)%N by apply: leq_trans M0' _; rewrite -[length E]/(size E) -[length _]/(size _) size_filter count_size.
have run nodes1 E1 T1 nf1 ef1 sc1 rn fl s k n q a b : (forall i j n, size (rn i j n) = n) ->
    make_sc nodes1 E1 T1 nf1 ef1 = Ok sc1 -> (0 < length E1)%N ->
    denoise_l2 pow10 rn sc1 fl k n s mu = Ok q -> (a < size s)%N -> (b < Z.to_nat n)%N ->
    size fl = length E1 /\ nth [::] (nth [::] (trend_responses q) a) b =
      unvec (invmx (1%:M + mu *: p_mat R nodes1 E1 T1 sc1 "L1L") *m
             vec (length E1) (noisy_flow pow10 fl (length E1) s`_a (rn a b (length E1)))).
  move=> srn H1 M1 eq la lb; have eq' : trend_call pow10 rn (fun _ _ _ => Raise NonFinite)
    (fun _ _ _ _ => Raise NonFinite) (fun _ => Z0) (fun _ _ _ _ => [::]) sc1 (TL2 fl k n s mu) = Ok q by [].
  have [_ [_ [_ [_ [_ /(_ a la)[_ [/(_ b lb)[_ sf]]]]]]]] := C76_history_entries H1 eq'.
  split=> //; case ec : (components R sc1 k) => [comp|]; last by move: eq; rewrite /denoise_l2 ec.
  have n0 : Z.lt Z0 n by lia.
  have s0 : s <> [::] by move=> sn; rewrite sn in la.
  by move: eq; rewrite (l2_run pow10 srn H1 M1 sf mu0 ec n0 s0) => -[<-]; rewrite l2_entry.
have [sf ->] := run _ _ _ _ _ _ _ _ _ _ _ _ i j sr H M0 e li lj.
have [_ ->] := run _ _ _ _ _ _ _ _ _ _ _ _ i' j' sr' H' M0' e' li' lj'.
rewrite hy; set y := noisy_flow _ flow _ _ _.
have sy : size y = length E by rewrite size_addf.
have [p [q]] := part_setup R H PE SE PT S H'.
set P := sel R p => /= -[_ _ [vf _] _ [_ L U]].
have G := p_part L U "L1L"; have [sf' ef1] := vf y sy; rewrite ef1.
set B := p_mat R nodes E T sc _ in G *; set B' := p_mat R nodes _ _ sc' _ in G *.
have u : 1%:M + mu *: B \in unitmx by apply: shift_unit => // x; exact: (p_psd nodes T sc).
have u' : 1%:M + mu *: B' \in unitmx by apply: shift_unit => // x; exact: (p_psd nodes _ sc').
have iv : invmx (1%:M + mu *: B') *m P = P *m invmx (1%:M + mu *: B).
  apply: (can_inj (mulKmx u')); rewrite mulmxA mulmxV // mul1mx mulmxA.
  have -> : (1%:M + mu *: B') *m P = P *m (1%:M + mu *: B).
    by rewrite mulmxDl mulmxDr mul1mx mulmx1 -scalemxAl -scalemxAr G.
  by rewrite -mulmxA mulmxV // mulmx1.
rewrite mulmxA iv -mulmxA; set v := _ *m vec _ y.
have [s1 h] := vf (unvec v) (size_unvec v); rewrite unvecK in h.
by rewrite -h vecK.
Qed.
Print Assumptions C95_l2_trend.

(** *** The l1 trend filter *)

Section Two.
Variable R : rcfType.
Add Field R_fieldLT : (mc_field R).

(** The incidence of two separate edges. *)
Definition two_B (A : arr2) : bool :=
  [&& sh0 A == 4%N, sh1 A == 2%N &
      [seq at2 A i.1 i.2 | i <- [:: (0, 0); (0, 1); (1, 0); (1, 1); (2, 0); (2, 1); (3, 0); (3, 1)]%N]
        == [:: -1; 0; 1; 0; 0; -1; 0; 1]%zz].
Lemma two_mv A (a b : R) : two_B A -> mv A [:: a; b] = [:: - a; a; - b; b].
Proof.
case/and3P => /eqP s0 /eqP s1 /eqP; rewrite mvCE /mvC s0 s1 /mkseq /=; case=> -> -> -> -> -> -> -> ->.
by rewrite /zmul !mulr0z !mulr1z !mulrN1z !addr0 !add0r.
Qed.
Lemma two_costE A mu (a b : R) : two_B A -> trend_cost A mu [:: 1; 1] [:: a; b] =
  Num.sqrt ((1 - a) ^+ 2 + (1 - b) ^+ 2) + mu * (2%:R * (`|a| + `|b|)).
Proof.
move=> h; rewrite /trend_cost two_mv // /dist /energy /dotp /l1 !big_ord_recl !big_ord0 /= !addr0.
by rewrite !mulN1r -!expr2 !normrN; congr (_ + mu * _); to_r R; ring.
Qed.

Definition mu25 : R := 2%:R / 5%:R.
Lemma mu25_ge0 : 0 <= mu25. Proof. by rewrite divr_ge0 ?ler0n. Qed.
Definition r2 : R := Num.sqrt 2%:R.
Lemma r2sq : r2 * r2 = 2%:R. Proof. by rewrite -expr2 sqr_sqrtr ?ler0n. Qed.
Lemma r2pos : 0 < r2. Proof. by rewrite sqrtr_gt0 ltr0n. Qed.
Lemma r2big : 1 < r2 * (mu25 * 2%:R).
Proof.
have p : 0 <= r2 * (mu25 * 2%:R) by apply: mulr_ge0; [exact: ltW r2pos|apply: mulr_ge0; [exact: mu25_ge0|exact: ler0n]].
rewrite -(ltr_pexpn2r (isT : (0 < 2)%N)) ?nnegrE ?ler01 // expr1n expr2 mulrACA r2sq.
have -> : 2%:R * (mu25 * 2%:R * (mu25 * 2%:R)) = 32%:R / 25%:R :> R.
  have n5 : 5%:R <> 0 :> R by apply/eqP; rewrite pnatr_eq0.
  have n25 : 25%:R = 5%:R * 5%:R :> R by rewrite -natrM.
  have n32 : 32%:R = 2%:R * 2%:R * 2%:R * 2%:R * 2%:R :> R by rewrite -!natrM.
  rewrite n25 n32 /mu25; move: n5; move: (5%:R) => v n5; to_r R; field. exact: n5.
by rewrite ltr_pdivl_mulr ?ltr0n // mul1r ltr_nat.
Qed.

(** Zero is the only best estimate. *)
Lemma two_far (a b : R) : 2%:R - (`|a| + `|b|) <= r2 * Num.sqrt ((1 - a) ^+ 2 + (1 - b) ^+ 2).
Proof.
have q0 : 0 <= (1 - a) ^+ 2 + (1 - b) ^+ 2 by rewrite addr_ge0 ?sqr_ge0.
rewrite /r2 -sqrtrM ?ler0n //; apply: (@le_trans _ _ `|(1 - a) + (1 - b)|).
  apply: le_trans (ler_norm _); rewrite addrACA -[1 + 1](natrD _ 1 1) -opprD ler_add2l ler_opp2.
  by apply: ler_add; exact: ler_norm.
rewrite -sqrtr_sqr; apply: ler_wsqrtr; rewrite -subr_ge0.
have -> : 2%:R * ((1 - a) ^+ 2 + (1 - b) ^+ 2) - (1 - a + (1 - b)) ^+ 2 = (a - b) ^+ 2.
  by rewrite !expr2; to_r R; ring.
exact: sqr_ge0.
Qed.
Lemma two_worse A (a b : R) : two_B A ->
  r2 * trend_cost A mu25 [:: 1; 1] [:: 0; 0] + (r2 * (mu25 * 2%:R) - 1) * (`|a| + `|b|) <=
  r2 * trend_cost A mu25 [:: 1; 1] [:: a; b].
Proof.
move=> h; rewrite !two_costE // !subr0 expr1n normr0 addr0 !mulr0 addr0 -[1 + 1](natrD _ 1 1) -/r2 r2sq (mulrDr r2).
have -> : r2 * (mu25 * (2%:R * (`|a| + `|b|))) = r2 * (mu25 * 2%:R) * (`|a| + `|b|) by rewrite !mulrA.
by rewrite mulrBl mul1r addrA addrAC ler_add2r; exact: two_far.
Qed.
Lemma two_zero A (z : seq R) : two_B A -> size z = 2%N ->
  trend_cost A mu25 [:: 1; 1] z <= trend_cost A mu25 [:: 1; 1] [:: 0; 0] -> z = [:: 0; 0].
Proof.
case: z => [|a [|b [|? ?]]] // h _ le.
have := le_trans (two_worse a b h) (ler_wpmul2l (ltW r2pos) le).
rewrite ger_addl pmulr_rle0 ?subr_gt0 ?r2big // => t0.
have /eqP : `|a| + `|b| = 0 by apply/eqP; rewrite eq_le t0 addr_ge0 ?normr_ge0.
by rewrite paddr_eq0 ?normr_ge0 // !normr_eq0 => /andP[/eqP-> /eqP->].
Qed.
Lemma two_best A (z : seq R) : two_B A -> size z = 2%N ->
  trend_cost A mu25 [:: 1; 1] [:: 0; 0] <= trend_cost A mu25 [:: 1; 1] z.
Proof.
case: z => [|a [|b [|? ?]]] // h _; rewrite -(ler_pmul2l r2pos).
apply: le_trans (two_worse a b h); rewrite ler_addl mulr_ge0 ?subr_ge0 ?addr_ge0 ?normr_ge0 //; exact: ltW r2big.
Qed.

(** A solver for these networks. *)
Definition solver_two (A : arr2) (y : seq R) (mu : R) : res (seq R) :=
  if [&& two_B A, y == [:: 1; 1] & mu == mu25] then Ok [:: 0; 0] else solver_ref A y mu.
Lemma solver_two_ok : solver_contract solver_two.
Proof.
move=> A y mu x sy mu0; rewrite /solver_two; case: ifP => [/and3P[h /eqP-> /eqP->] [<-]|_ e].
  by split=> // z sz; exact: two_best.
exact: (solver_ref_ok sy mu0 e).
Qed.

Lemma two_isB : two_B (sc_B1 two_sc). Proof. by vm_compute. Qed.
Lemma two_shift : get_shift_operator two_sc "divergence" 0 = Ok (Csr (sc_B1 two_sc)). Proof. by []. Qed.
Lemma one_shift : get_shift_operator one_sc "divergence" 0 = Ok (Csr (sc_B1 one_sc)). Proof. by []. Qed.
Lemma one_small : mu25 * row_norms R (sc_B1 one_sc) < 1.
Proof.
have s0 : sh0 (sc_B1 one_sc) = 4%N by vm_compute.
have s1 : sh1 (sc_B1 one_sc) = 1%N by vm_compute.
have e : [seq at2 (sc_B1 one_sc) i 0 | i <- [:: 0; 1; 2; 3]%N] = [:: -1; 1; 0; 0]%zz by vm_compute.
move: s0 s1 e; move: (sc_B1 one_sc) => A s0 s1 [e0 e1 e2 e3].
rewrite /row_norms s0 s1 !big_ord_recl !big_ord0 /= /bump /= !addn0 !add1n e0 e1 e2 e3.
rewrite /zmul !mulr0z !mulr1z !mulrN1z !addr0 sqrrN !expr1n expr0n /= sqrtr1 sqrtr0 !addr0 -[1 + 1](natrD _ 1 1).
have n5 : 5%:R != 0 :> R by rewrite pnatr_eq0.
by rewrite /mu25 mulrAC -natrM ltr_pdivr_mulr ?ltr0n // mul1r ltr_nat.
Qed.
End Two.

(** The l1 trend filter does not: its objective adds the length of the residual, not its square
    (simplicial_trend_filter.py 80-82), so parts without any connection are weighed against each other. The flow that is
    one on two separate edges is estimated as zero, but as unchanged if only one of the edges is there. *)
Theorem C95_l1_trend_refuted :
  exists nodes E sc keep sc', make_sc nodes E nil nil nil = Ok sc /\ proper_edges (length nodes) E /\ simple_edges E /\
  separate keep E /\ make_sc nodes (part keep E) nil nil nil = Ok sc' /\
  forall (R : rcfType) (pow10 : R -> R), exists mu (flow : seq R), 0 < mu /\ size flow = length E /\
  (exists solver, solver_contract solver /\ (exists r, denoise_l1 pow10 (@no_noise R) solver sc flow "divergence" 1 [:: 0] 0 mu = Ok r) /\
     exists r', denoise_l1 pow10 (@no_noise R) solver sc' (on_part keep E flow) "divergence" 1 [:: 0] 0 mu = Ok r') /\
  forall solver r r', solver_contract solver ->
    denoise_l1 pow10 (@no_noise R) solver sc flow "divergence" 1 [:: 0] 0 mu = Ok r ->
    denoise_l1 pow10 (@no_noise R) solver sc' (on_part keep E flow) "divergence" 1 [:: 0] 0 mu = Ok r' ->
    nth [::] (nth [::] (trend_responses r) 0) 0 = zerof R (length E) /\
    nth [::] (nth [::] (trend_responses r') 0) 0 = on_part keep E flow /\
    nth [::] (nth [::] (trend_responses r') 0) 0 <> on_part keep E (nth [::] (nth [::] (trend_responses r) 0) 0).
Proof.
exists two_nodes, two_edges, two_sc, (fun z => Z.leb z 1), one_sc.
split; first exact: two_ok. split; first exact: two_proper.
split; first by split; [apply/NoDupE|move=> u v /= h h'; inlist h; inlist h'].
split; first by move=> u v /= h; inlist h.
split; first exact: one_ok.
move=> R pow10; exists (mu25 R), [:: 1; 1].
have mu0 : 0 < mu25 R by rewrite divr_gt0 ?ltr0n.
split; first exact: mu0. split; first by [].
have op : on_part (fun z => Z.leb z 1) two_edges [:: 1; 1] = [:: 1 : R] by [].
rewrite op; split.
  exists (@solver_two R); split; first exact: solver_two_ok. split.
    rewrite /denoise_l1 -[components _ _ _]/(Some (@get_divergence R two_sc)) two_shift bindOk to_arrC bindOk (power_noiseE _ two_ok) // bindOk.
    cbv beta iota zeta; rewrite (scE two_ok).
    apply: table_then => i j li lj; rewrite (noisyE pow10 (@size_no_noise R)) // bindOk size_addf eqxx.
    rewrite -/(noisy_flow pow10 _ _ _ _) no_noise_flow /solver_two two_isB !eqxx bindOk.
    by eexists; rewrite (@cellE _ _ _ _ _ _ _ two_ok "divergence" _ _ _ erefl).
  rewrite /denoise_l1 -[components _ _ _]/(Some (@get_divergence R one_sc)) one_shift bindOk to_arrC bindOk (power_noiseE _ one_ok) // bindOk.
  cbv beta iota zeta; rewrite (scE one_ok).
  apply: table_then => i j li lj; rewrite (noisyE pow10 (@size_no_noise R)) // bindOk size_addf eqxx.
  rewrite -/(noisy_flow pow10 _ _ _ _) no_noise_flow /solver_two [_ && _]/= /solver_ref (ltW (one_small R)) bindOk.
  by eexists; rewrite (@cellE _ _ _ _ _ _ _ one_ok "divergence" _ _ _ erefl).
move=> solver r r' SC e e'.
have [A [eA [_ /(_ 0%N 0%N isT isT)]]] := C49_l1_estimates (@size_no_noise R) SC two_ok (ltW mu0) e.
have [A' [eA' [_ /(_ 0%N 0%N isT isT)]]] := C49_l1_estimates (@size_no_noise R) SC one_ok (ltW mu0) e'.
move: eA eA'; rewrite two_shift one_shift => -[<-] -[<-]; cbv zeta.
rewrite !no_noise_flow => -[_ [_ [_ [_ [_ /(_ (one_small R))-> ]]]]] [s2 [m2 _]].
have -> : nth [::] (nth [::] (trend_responses r) 0) 0 = [:: 0; 0].
  by apply: (two_zero two_isB s2); exact: m2.
do 2 split=> //; rewrite /on_part /= => -[/eqP]; rewrite oner_eq0 //.
Qed.
Print Assumptions C95_l1_trend_refuted.

(** The network of [C95_example]. *)
Example C95_trend_example : let R := realalg_rcfType in
  let f := [:: 4%:R; 7%:R; 8%:R; - 4%:R] : seq R in
  (forall i j n, size (@no_noise R i j n) = n) /\
  proper_edges (length apart_nodes) apart_edges /\ simple_edges apart_edges /\ proper_triangles apart_triangles /\
  separate low apart_edges /\ part low apart_edges = tri_edges /\ tri_part low apart_triangles = apart_triangles /\
  exists sc', make_sc apart_nodes tri_edges apart_triangles nil nil = Ok sc' /\
  exists r r', denoise_l2 (@exp_ref R) (@no_noise R) apart_sc f "divergence" 1 [:: 0] 1 = Ok r /\
    denoise_l2 (@exp_ref R) (@no_noise R) sc' [:: 4%:R; 8%:R; - 4%:R] "curl" 2 [:: 10%:R] 1 = Ok r' /\
    nth [::] (nth [::] (trend_responses r') 0) 1 = on_part low apart_edges (nth [::] (nth [::] (trend_responses r) 0) 0).
Proof.
move=> R f.
have [pe [se [pt [sp [ep [et _]]]]]] := C95_example.
do 7 (split; first by [exact: size_no_noise|exact: pe|exact: se|exact: pt|exact: sp|exact: ep|exact: et]).
have [sc' H'] := C95_part apart_ok sp nil nil.
exists sc'; split; first exact: H'.
have s0 : [:: 0 : R] <> [::] by [].
have s10 : [:: 10%:R : R] <> [::] by [].
have [g G] : exists g : R, g = 10%:R by eexists.
rewrite -G in s10 *.
have [r [F [e _]]] := C47_l2_estimates (@exp_ref R) (@size_no_noise R) apart_ok (isT : (0 < length apart_edges)%N) (erefl _)
    (erefl : size f = length apart_edges)
    (or_introl erefl : ("divergence" = "divergence" \/ "divergence" = "curl")%string) (erefl : Z.lt Z0 1)
    s0 ler01.
have [r' [F' [e' _]]] := C47_l2_estimates (@exp_ref R) (@size_no_noise R) H' (isT : (0 < length tri_edges)%N) (erefl _)
    (erefl : size [:: 4%:R; 8%:R; - 4%:R : R] = length tri_edges)
    (or_intror erefl : ("curl" = "divergence" \/ "curl" = "curl")%string) (erefl : Z.lt Z0 2)
    s10 ler01.
exists r, r'; split; first exact: e. split; first exact: e'.
apply: (C95_l2_trend (@size_no_noise R) (@size_no_noise R) apart_ok pe se pt sp _ H' ler01 e e') => //.
by rewrite !no_noise_flow.
Qed.
Print Assumptions C95_trend_example.
