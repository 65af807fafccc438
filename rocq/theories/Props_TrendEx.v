(** * Concrete runs of the trend filter: C46-C50, C76 *)

From Coq Require Import ZArith String List.
From mathcomp Require Import all_ssreflect all_algebra all_real_closed ssrZ zify.
From Verif Require Import Py PyFacts ExampleData Complex ComplexSpec ComplexFacts LinAlg Spectral Signal
  SignalSpec Bridge SignalFacts Compute Props_Signal Props_Hodge Eigen EigenSpec EigenFacts
  Props_Eigen Filter FilterSpec FilterFacts FilterFacts2 PolyFacts Props_Masks Props_LowPass Trend TrendFacts
  Props_Logistic Props_Trend Props_Trend2 Props_Trend3.

Set Implicit Arguments.
Unset Strict Implicit.
Unset Printing Implicit Defensive.

Import GRing.Theory Num.Theory Order.Theory.
Local Open Scope ring_scope.

(** Regularising the curl, as the documentation says, is not what happens: on a triangle with a rotating
    flow the estimate for the component "curl" keeps all of the curl. *)
Section Tri.
Variable R : rcfType.
Lemma tri_curl100 : get_curl tri_sc [:: 1; 0; 0] = Ok [:: 1 : R].
Proof.
rewrite (curl_mv tri_ok) //; congr Ok.
have s0 : sh0 (atr (sc_B2 tri_sc)) = 1%N by vm_compute.
have s1 : sh1 (atr (sc_B2 tri_sc)) = 3%N by vm_compute.
have e0 : at2 (atr (sc_B2 tri_sc)) 0 0 = 1%zz by vm_compute.
rewrite mvCE /mvC s0 s1; move: (atr _) e0 => A e0.
by rewrite /= /mkseq /= e0 /zmul !mul0rz !addr0.
Qed.
Definition no_noise (i j n : nat) : seq R := zerof R n.
Lemma size_no_noise i j n : size (no_noise i j n) = n. Proof. exact: size_nseq. Qed.
Lemma no_noise_flow pow10 f n s i j : noisy_flow pow10 f n s (no_noise i j n) = f.
Proof.
apply: (@eq_from_nth _ 0); rewrite size_addf // => k lk.
rewrite nth_mkseq // /scalef /no_noise /zerof map_nseq nth_nseq mulr0.
by case: ifP => _; rewrite addr0.
Qed.
End Tri.

Theorem C47_curl_is_regularised_refuted :
  exists (R : rcfType) (pow10 : R -> R) randn nodes E T sc (flow snr : seq R) mu r cx cy,
    let x := nth [::] (nth [::] (trend_responses r) 0) 0 in
    let y := noisy_flow pow10 flow (length E) snr`_0 (randn 0%N 0%N (length E)) in
    (forall i j n, size (randn i j n) = n) /\ (forall a, 0 < pow10 a) /\
    make_sc nodes E T nil nil = Ok sc /\ oriented (length nodes) E T /\ size flow = length E /\ 0 < mu /\
    denoise_l2 pow10 randn sc flow "curl" 1 snr mu = Ok r /\
    get_curl sc x = Ok cx /\ get_curl sc y = Ok cy /\ 0 < energy cy /\ energy cx = energy cy.
Proof.
pose R := realalg_rcfType.
have sf : size [:: 1 : R; 0; 0] = length tri_edges by [].
have M0 : (0 < length tri_edges)%N by [].
have s0 : [:: 0 : R] <> [::] by [].
have [r [F [e [_ [_ [_ h]]]]]] := C47_l2_estimates (fun _ => 1) (@size_no_noise R) tri_ok M0 (erefl _) sf
  (or_intror erefl : ("curl" = "divergence" \/ "curl" = "curl")%string) (erefl : Z.lt Z0 1) s0 ler01.
have [_ [_ [_ hc]]] := h 0%N 0%N isT isT.
exists R, (fun _ => 1), (@no_noise R), tri_nodes, tri_edges, tri_triangles, tri_sc, [:: 1; 0; 0], [:: 0], 1.
exists r, [:: 1], [:: 1]; cbv zeta.
move: (hc tri_oriented); rewrite no_noise_flow tri_curl100 => ec.
split; first exact: size_no_noise. split; first by move=> _; exact: ltr01.
split; first exact: tri_ok. split; first exact: tri_oriented.
split=> //; split; first exact: ltr01.
do 3 split=> //; split=> //.
by rewrite /energy /dotp big_ord1 mulr1 ltr01.
Qed.
Print Assumptions C47_curl_is_regularised_refuted.

(** ** C46: the operators of orders 0 to 3 on the triangle *)
Definition entries (M : res pymat) : list (list Z) :=
  match M with
  | Ok (Csr A) => [seq [seq at2 A i j | j <- iota 0 (sh1 A)] | i <- iota 0 (sh0 A)]
  | _ => nil
  end.
Example C46_example :
  get_shift_operator tri_sc "divergence" (-1) = Raise ValueError /\
  entries (get_shift_operator tri_sc "divergence" 0) = [:: [:: -1; -1; 0]; [:: 1; 0; -1]; [:: 0; 1; 1]]%zz /\
  entries (get_shift_operator tri_sc "divergence" 1) = [:: [:: 2; 1; -1]; [:: 1; 2; 1]; [:: -1; 1; 2]]%zz /\
  entries (get_shift_operator tri_sc "divergence" 2) = [:: [:: -3; -3; 0]; [:: 3; 0; -3]; [:: 0; 3; 3]]%zz /\
  entries (get_shift_operator tri_sc "curl" 0) = [:: [:: 1; -1; 1]]%zz /\
  entries (get_shift_operator tri_sc "curl" 3) = [:: [:: 3; -3; 3]; [:: -3; 3; -3]; [:: 3; -3; 3]]%zz.
Proof. by vm_compute. Qed.

(** ** C47 *)
Example C47_example :
  pow_contract (@exp_ref realalg_rcfType) /\ (forall i j n, size (@no_noise realalg_rcfType i j n) = n) /\
  make_sc tri_nodes tri_edges tri_triangles nil nil = Ok tri_sc /\ (0 < length tri_edges)%N /\
  lower_laplacian_matrix tri_sc 1 = Ok (Csr tLL) /\
  get_divergence tri_sc [:: 1; 0; 0] = Ok [:: -1; 1; 0 : realalg_rcfType].
Proof.
split; first by have [a [b [c _]]] := exp_ref_ok realalg_rcfType.
split; first exact: size_no_noise. split; first exact: tri_ok. split; first by [].
split; first by [].
rewrite (div_mv tri_ok) //; congr Ok.
have s0 : sh0 (sc_B1 tri_sc) = 3%N by vm_compute.
have s1 : sh1 (sc_B1 tri_sc) = 3%N by vm_compute.
have e0 : at2 (sc_B1 tri_sc) 0 0 = (-1)%zz by vm_compute.
have e1 : at2 (sc_B1 tri_sc) 1 0 = 1%zz by vm_compute.
have e2 : at2 (sc_B1 tri_sc) 2 0 = 0%zz by vm_compute.
rewrite mvCE /mvC s0 s1; move: (sc_B1 _) e0 e1 e2 => A e0 e1 e2.
by rewrite /= /mkseq /= e0 e1 e2 /zmul !mul0rz !addr0.
Qed.

(** ** C48, C49: solvers meeting the contracts that solve all problems with a small weight *)
Section Solvers.
Variable R : rcfType.
Definition solver_ref (A : arr2) (y : seq R) (mu : R) : res (seq R) :=
  if mu * row_norms R A <= 1 then Ok y else Raise NonFinite.
Definition solver_eq_ref (A : arr2) (y : seq R) (rows : seq (seq R)) (mu : R) : res (seq R) := solver_ref A y mu.

Lemma small_minimal A y mu z : 0 <= mu -> mu * row_norms R A <= 1 -> size y = sh1 A -> size z = size y ->
  trend_cost A mu y y <= trend_cost A mu y z.
Proof.
move=> mu0 k1 sy sz; have sz' : size z = sh1 A by rewrite sz.
rewrite /trend_cost distxx add0r.
have t : mu * l1 (mv A y) <= mu * l1 (mv A z) + mu * row_norms R A * dist y z.
  rewrite -mulrA -mulrDr ler_wpmul2l //; apply: le_trans (l1_triangle sy sz') _.
  by rewrite ler_add2l; apply: l1_rows; rewrite size_addf.
apply: le_trans t _; rewrite addrC ler_add2r; apply: ler_pimull => //; exact: dist_ge0.
Qed.
Lemma solver_ref_ok : solver_contract solver_ref.
Proof.
move=> A y mu x sy mu0; rewrite /solver_ref; case: ifP => // k1 [<-]; split=> // z sz.
exact: small_minimal.
Qed.
Lemma solver_eq_ref_ok : solver_eq_contract solver_eq_ref.
Proof.
split=> [A y rows mu x sy mu0|A y rows mu x sy mu0]; rewrite /solver_eq_ref /solver_ref; case: ifP => // k1 [<-].
  by split.
by move=> z sz _; exact: small_minimal.
Qed.
Definition choice_ref (i j n m : nat) : seq nat := iota 0 m.
Lemma choice_ref_ok : choice_contract choice_ref.
Proof.
move=> i j n m mn; rewrite /choice_ref iota_uniq size_iota; do 2 split=> //.
by apply/allP => k; rewrite mem_iota /= => lk; apply: leq_trans mn.
Qed.

Lemma tri_rows : 10%:R^-1 * row_norms R (sc_B1 tri_sc) < 1.
Proof.
have s0 : sh0 (sc_B1 tri_sc) = 3%N by vm_compute.
have s1 : sh1 (sc_B1 tri_sc) = 3%N by vm_compute.
have e i j : (i < 3)%N -> (j < 3)%N -> Z.le (-1) (at2 (sc_B1 tri_sc) i j) /\ Z.le (at2 (sc_B1 tri_sc) i j) 1.
  by case: i => [|[|[|//]]]; case: j => [|[|[|//]]] _ _; split; vm_compute.
rewrite /row_norms s0 s1 mulrC ltr_pdivr_mulr ?ltr0n // mul1r.
apply: (@le_lt_trans _ _ (\sum_(i < 3) 2%:R)); last first.
  by rewrite sumr_const card_ord -mulr_natl -natrM ltr_nat.
apply: ler_sum => i _.
have -> : 2%:R = Num.sqrt (2%:R ^+ 2) :> R by rewrite sqrtr_sqr ger0_norm ?ler0n.
apply: ler_wsqrtr; apply: (@le_trans _ _ (\sum_(j < 3) 1)); last first.
  by rewrite sumr_const card_ord -natrX ler_nat.
apply: ler_sum => j _; have [a b] := e i j (ltn_ord i) (ltn_ord j).
rewrite sqr_norm_le1 /zmul -intr_norm -[X in _ <= X]/(1%:~R) ler_int; lia.
Qed.

Lemma tri_comp x : size x = 3%N -> exists y : seq R, get_divergence tri_sc x = Ok y.
Proof. by move=> s; eexists; rewrite (div_mv tri_ok). Qed.
Lemma tri_cell f x : size f = 3%N -> size x = 3%N -> exists z, @cell R (get_divergence tri_sc) f x = Ok z.
Proof. by move=> sf sx; eexists; rewrite (@cellE _ _ _ _ _ _ _ tri_ok "divergence" _ _ _ erefl). Qed.

Lemma tri_components : components R tri_sc "divergence" = Some (@get_divergence R tri_sc). Proof. by []. Qed.
Lemma tri_shift0 : get_shift_operator tri_sc "divergence" 0 = Ok (Csr (sc_B1 tri_sc)). Proof. by []. Qed.
Lemma tri_l1_completes pow10 randn (flow snr : seq R) num mu : (forall i j n, size (randn i j n) = n) ->
  size flow = 3%N -> Z.le Z0 num -> mu * row_norms R (sc_B1 tri_sc) <= 1 ->
  exists r, denoise_l1 pow10 randn solver_ref tri_sc flow "divergence" num snr 0 mu = Ok r.
Proof.
move=> sr sf n0 k1; have M0 : (0 < length tri_edges)%N by [].
rewrite /denoise_l1 tri_components tri_shift0 bindOk to_arrC bindOk (power_noiseE _ tri_ok M0) bindOk.
cbv beta iota zeta; case: Z.ltb_spec => [|_]; first by lia.
rewrite (scE tri_ok).
apply: table_then => i j; rewrite size_map => li lj; rewrite (noisyE pow10 sr) // bindOk size_addf sf eqxx.
by rewrite /solver_ref k1 bindOk; apply: tri_cell => //; rewrite size_addf.
Qed.
Lemma tri_interp_completes (floor : R -> Z) (flow ratio : seq R) num mu :
  size flow = 3%N -> Z.le Z0 num -> mu * row_norms R (sc_B1 tri_sc) <= 1 ->
  (forall i, (i < size ratio)%N -> Z.le Z0 (floor (3%:R * ratio`_i)) /\ Z.le (floor (3%:R * ratio`_i)) 3) ->
  exists r, interpolate_l1 solver_eq_ref floor choice_ref tri_sc flow "divergence" ratio num 0 mu = Ok r.
Proof.
move=> sf n0 k1 fl; have M0 : (0 < length tri_edges)%N by [].
rewrite /interpolate_l1 tri_components tri_shift0 bindOk to_arrC bindOk.
cbv beta iota zeta; case: Z.ltb_spec => [|_]; first by lia.
rewrite (scE tri_ok).
have s3 : size tri_edges = 3%N by [].
apply: table_then => i j li lj; have [f0 f3] := fl i li; rewrite s3.
case: Z.ltb_spec => [|_]; first by lia. case: Z.ltb_spec => [|_]; first by lia.
rewrite orbF (masked _ sf) bindOk size_mkseq eqxx.
rewrite /solver_eq_ref /solver_ref k1 bindOk; apply: tri_cell => //.
Qed.
End Solvers.

(** Floor function of the real algebraic numbers. *)
Section Floor.
Notation R := realalg_rcfType.
Lemma ex_above (x : R) : exists n : nat, x < n.+1%:R.
Proof.
have [x0|x0] := lerP 0 x; last by exists 0%N; apply: lt_trans x0 _; exact: ltr01.
exists (Num.bound (x : realalg_archiFieldType)).
apply: lt_trans (archi_boundP (x0 : 0 <= (x : realalg_archiFieldType))) _; by rewrite ltr_nat.
Qed.
Lemma ex_above' (x : R) : exists n : nat, x <= n%:R.
Proof. by have [n h] := ex_above x; exists n.+1; exact: ltW. Qed.
Definition floor_ref (x : R) : Z :=
  if 0 <= x then Z.of_nat (ex_minn (ex_above x)) else Z.opp (Z.of_nat (ex_minn (ex_above' (- x)))).
Lemma zmul_nat n : zmul (Z.of_nat n) 1 = n%:R :> R.
Proof. by rewrite /zmul -[X in _ = X]/((Posz n)%:~R); congr (_ *~ _); lia. Qed.
Lemma floor_ref_ok : floor_contract floor_ref.
Proof.
move=> x; rewrite /floor_ref; case: (lerP 0 x) => x0.
  case: ex_minnP => n h mn; rewrite zmul_nat; apply/andP; split; last by rewrite -(natrD _ n 1) addn1.
  case: n h mn => [|n] h mn; first exact: x0.
  by rewrite leNgt; apply/negP => h'; have := mn _ h'; rewrite ltnn.
have zo z : zmul (Z.opp z) 1 = - zmul z 1 :> R.
  by rewrite /zmul -mulrNz; congr (_ *~ _); lia.
case: ex_minnP => n h mn; rewrite zo zmul_nat; apply/andP; split; first by rewrite ler_oppl.
case: n h mn => [|n] h mn; first by rewrite oppr_le0 leNgt x0 in h.
rewrite -(addn1 n) natrD opprD subrK ltNge; apply/negP => h'.
by have := mn n; rewrite ler_oppl h' ltnn => /(_ isT).
Qed.
End Floor.

Example C48_C49_example : let R := realalg_rcfType in
  solver_contract (@solver_ref R) /\ solver_eq_contract (@solver_eq_ref R) /\ floor_contract floor_ref /\
  choice_contract choice_ref /\ pow_contract (@exp_ref R) /\
  make_sc tri_nodes tri_edges tri_triangles nil nil = Ok tri_sc /\
  0 <= 10%:R^-1 :> R /\ 10%:R^-1 * row_norms R (sc_B1 tri_sc) < 1 /\
  (exists r, denoise_l1 (@exp_ref R) (@no_noise R) (@solver_ref R) tri_sc [:: 1; 0; 0] "divergence" 2 [:: 0; 10%:R]
     0 10%:R^-1 = Ok r) /\
  (exists r, interpolate_l1 (@solver_eq_ref R) floor_ref choice_ref tri_sc [:: 1; 0; 0] "divergence" [:: 0; 1]
     2 0 10%:R^-1 = Ok r) /\
  interpolate_l1 (@solver_eq_ref R) floor_ref choice_ref tri_sc [:: 1; 0; 0] "divergence" [:: 2%:R] 2 0 10%:R^-1
    = Raise ValueError.
Proof.
move=> R; split; first exact: solver_ref_ok. split; first exact: solver_eq_ref_ok.
split; first exact: floor_ref_ok. split; first exact: choice_ref_ok.
split; first by have [a [b [c _]]] := exp_ref_ok R.
split; first exact: tri_ok. split; first by rewrite invr_ge0 ler0n.
have k1 := tri_rows R; split; first exact: k1.
have M0 : (0 < length tri_edges)%N by [].
have f_nat n : floor_ref n%:R = Z.of_nat n.
  have := floor_ref_ok (n%:R : R); move: (floor_ref _) => z /andP[a b].
  have a' : (int_of_Z z)%:~R <= (Posz n)%:~R :> R := a.
  have b' : (Posz n)%:~R < (int_of_Z z + 1)%:~R :> R by rewrite intrD.
  by move: a' b'; rewrite ler_int ltr_int; lia.
split; first by apply: tri_l1_completes; [exact: size_no_noise|by []|by []|exact: ltW].
split.
  apply: tri_interp_completes => //; first exact: ltW.
  by case=> [|[|//]] _ /=; rewrite ?mulr0 ?mulr1 -?[0]/(0%:R) f_nat.
have [_ [_ h]] := @C48_ratios R (@solver_eq_ref R) _ choice_ref floor_ref_ok _ _ _ _ _ _ tri_ok [:: 1; 0; 0] [:: 2%:R]
  "divergence" 2 0 10%:R^-1.
have big : (length tri_edges)%:R + 1 <= (length tri_edges)%:R * [:: 2%:R]`_0 :> R.
  by rewrite -natrM -[1]/(1%:R) -natrD ler_nat.
have ex : exists i, (i < size [:: 2%:R : R])%N /\ ((length tri_edges)%:R * [:: 2%:R]`_i < 0 :> R \/
    (length tri_edges)%:R + 1 <= (length tri_edges)%:R * [:: 2%:R]`_i :> R) by exists 0%N; split=> //; right.
by have [_ h'] := h (erefl : Z.lt Z0 2) ex; apply: h'; right.
Qed.

(** ** C50, C76 *)
Example C50_example : forall R : rcfType, pow_contract (@exp_ref R) /\
  get_power_noise (@exp_ref R) tri_sc [:: 3%:R; 0; 4%:R] [:: 0; 10%:R] =
    Ok ([:: 5%:R / 1 / 3%:R; 5%:R / 2%:R / 3%:R], [:: 1; 2%:R]).
Proof.
move=> R; split; first by have [a [b [c _]]] := exp_ref_ok R.
have M0 : (0 < length tri_edges)%N by [].
rewrite (power_noiseE _ tri_ok M0) /calculate_snr /= mul0r mulfV ?pnatr_eq0 // /exp_ref lexx ler01 addr0.
have -> : norm [:: 3%:R; 0; 4%:R] = 5%:R :> R.
  rewrite /norm !big_ord_recl big_ord0 /= expr0n add0r addr0 -!natrX -natrD.
  by rewrite -[_%:R]/((5 ^ 2)%:R) natrX sqrtr_sqr ger0_norm ?ler0n.
by [].
Qed.

Example C76_example : forall R : rcfType,
  calculate_correlation [:: 0; 1] [:: 1; 3%:R] = Ok (Fin (1 : R)) /\
  calculate_correlation [:: 0; 1] [:: 3%:R; 1] = Ok (Fin (-1 : R)) /\
  calculate_correlation [:: 0; 1] [:: 3%:R; 3%:R] = Ok (NaN R) /\
  forall solver solver_eq floor choice mu, 0 <= mu -> exists r,
    foldl (trend_exec (@exp_ref R) (@no_noise R) solver solver_eq floor choice tri_sc) None
      [:: TInterp [:: 1; 0; 0] "harmonic" [:: 1] 1 0 1; TL2 [:: 1; 0; 0] "curl" 1 [:: 0] mu;
          TL1 [:: 1; 0; 0] "curl" 1 [:: 0] (-1) 1] = Some r.
Proof.
move=> R.
have nE : energy (centred [:: 0; 1 : R]) != 0.
  apply/eqP => h; have := @energy_eq0 _ 2 (centred [:: 0; 1 : R]) erefl h; rewrite /centred /= => -[e0 e1].
  by move: e1; rewrite -[_ - _]opprK opprB => /eqP; rewrite oppr_eq0; rewrite sub0r in e0;
     move/eqP: e0; rewrite oppr_eq0 => /eqP ->; rewrite sub0r oppr_eq0 oner_eq0.
have K (y : seq R) c r : calculate_correlation [:: 0; 1] y = Ok c -> is_correlation [:: 0; 1] y c ->
    is_correlation [:: 0; 1] y (Fin r) -> c = Fin r.
  move=> _; case: c => [q||//] /=; last by move=> [] e [] + [] + _; rewrite e ltxx.
  move=> [px [py ->]] [_ [_]]; rewrite -!mulrA => e; congr Fin; move: e; apply: mulIf.
  by rewrite mulf_neq0 // gt_eqF ?sqrtr_gt0.
split.
  have [c [e [ic _]]] := proj2 (C76_correlation [:: 0; 1 : R] [:: 1; 3%:R]) erefl.
  have n2 : 2%:R != 0 :> R by rewrite pnatr_eq0.
  have := affine_corr 1 n2 nE; rewrite /= mulr0 add0r mulr1 gtr0_sg ?ltr0n // -(natrD _ 2 1) => h.
  by rewrite e (K _ _ 1 e ic h).
split.
  have [c [e [ic _]]] := proj2 (C76_correlation [:: 0; 1 : R] [:: 3%:R; 1]) erefl.
  have n2 : - 2%:R < 0 :> R by rewrite oppr_lt0 ltr0n.
  have n0 : - 2%:R != 0 :> R by rewrite lt_eqF.
  have := affine_corr 3%:R n0 nE; rewrite /= mulr0 add0r mulr1 (ltr0_sg n2) addrC.
  rewrite -(natrB _ (isT : (2 <= 3)%N)) => h.
  by rewrite e (K _ _ (-1) e ic h).
split.
  have [c [e [ic _]]] := proj2 (C76_correlation [:: 0; 1 : R] [:: 3%:R; 3%:R]) erefl.
  rewrite e; case: c ic {e} => [q||//] // [_ [py _]]; move: py.
  have -> : centred [:: 3%:R; 3%:R : R] = zerof R 2.
    have n2 : 2%:R != 0 :> R by rewrite pnatr_eq0.
    have av : average [:: 3%:R; 3%:R : R] = 3%:R.
      rewrite /average !big_ord_recl big_ord0 addr0 [size _]/= [nth _ _ _]/=.
      by apply: (mulIf n2); rewrite divfK // -natrD -natrM.
    by rewrite /centred /= av subrr.
  by rewrite /energy /dotp !big_ord_recl big_ord0 /= mulr0 !addr0 ltxx.
move=> solver solver_eq floor choice mu mu0.
have M0 : (0 < length tri_edges)%N by [].
have s0 : [:: 0 : R] <> [::] by [].
have [r [F [e _]]] := C47_l2_estimates (@exp_ref R) (@size_no_noise R) tri_ok M0 (erefl _)
  (erefl : size [:: 1 : R; 0; 0] = length tri_edges)
  (or_intror erefl : ("curl" = "divergence" \/ "curl" = "curl")%string) (erefl : Z.lt Z0 1)
  s0 mu0.
exists r; rewrite /foldl /trend_exec /trend_call.
have -> : interpolate_l1 solver_eq floor choice tri_sc [:: 1; 0; 0] "harmonic" [:: 1] 1 0 1 = Raise ValueError by [].
by rewrite e.
Qed.
