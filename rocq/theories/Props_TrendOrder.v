(** * C98: the trend filters and the way a network is written down *)

From Coq Require Import ZArith String List Ring Field.
From mathcomp Require Import all_ssreflect all_algebra all_real_closed ssrZ zify.
From Verif Require Import RingTac Py PyFacts ExampleData Complex ComplexSpec ComplexFacts ComplexFacts2 LinAlg Spectral
  Signal SignalSpec Bridge SignalFacts Compute Props_Complex Props_Signal Props_Hodge Eigen EigenSpec
  EigenFacts Props_Eigen Filter FilterSpec FilterFacts FilterFacts2 PolyFacts Props_Masks Props_LowPass
  Props_Poly Props_Linear Props_Topology Props_Solver Props_Reorder Props_FilterOrder
  Trend TrendFacts Props_Logistic Props_Trend Props_Trend2 Props_Trend3 Props_TrendEx.

Set Implicit Arguments.
Unset Strict Implicit.
Unset Printing Implicit Defensive.

Import GRing.Theory Num.Theory Order.Theory.
Local Open Scope ring_scope.
Delimit Scope Z_scope with zz.

Lemma l1_perm (R : rcfType) (x y : seq R) : perm_eq x y -> l1 x = l1 y.
Proof.
have s (z : seq R) : l1 z = \sum_(a <- z) `|a| by rewrite /l1 (big_nth 0) big_mkord.
by move=> h; rewrite !s; exact: perm_big.
Qed.
Lemma energy_perm (R : rcfType) (x y : seq R) : perm_eq x y -> energy x = energy y.
Proof.
have s (z : seq R) : energy z = \sum_(a <- z) a * a by rewrite /energy /dotp (big_nth 0) big_mkord.
by move=> h; rewrite !s; exact: perm_big.
Qed.

(** ** Two complexes and a relation between their flows *)
Section Pair.
Variable R : rcfType.
Variables (nodes : list Z) (E : list (Z * Z)) (T : list (list Z)) (nf : dict Z fdict)
          (ef : dict (Z * Z) fdict) (sc : SC).
Hypothesis H : make_sc nodes E T nf ef = Ok sc.
Variables (nodes' : list Z) (E' : list (Z * Z)) (T' : list (list Z)) (nf' : dict Z fdict)
          (ef' : dict (Z * Z) fdict) (sc' : SC).
Hypothesis H' : make_sc nodes' E' T' nf' ef' = Ok sc'.
Variables (p : 'I_(length E') -> 'I_(length E)) (sg : nat -> R).
Hypotheses (bp : bijective p) (sgg : forall k, sg k * sg k = 1).
Notation S := (ssel sg p).
Notation moved := (moved p sg).
Let NN : length E' = length E := nn bp.

Lemma sg_norm k : `|sg k| = 1.
Proof.
apply/eqP; rewrite -(@eqr_expn2 _ 2) ?normr_ge0 ?ler01 //.
by rewrite expr1n -normrX expr2 sgg normr1.
Qed.
Lemma sum_p (F : 'I_(length E) -> R) : \sum_k F (p k) = \sum_k F k.
Proof. by rewrite [RHS](reindex p) //; exact: onW_bij. Qed.

Lemma dotp_moved x x' y y' : moved x x' -> moved y y' -> dotp x' y' = dotp x y.
Proof.
move=> [sx [sx' hx]] [sy [sy' hy]]; rewrite /dotp sx sx' -[RHS]sum_p.
by apply: eq_bigr => k _; rewrite hx hy mulrACA sgg mul1r.
Qed.
Lemma energy_moved x x' : moved x x' -> energy x' = energy x.
Proof. by move=> h; exact: dotp_moved. Qed.
Lemma l1_moved x x' : moved x x' -> l1 x' = l1 x.
Proof.
move=> [sx [sx' hx]]; rewrite /l1 sx sx' -[RHS](sum_p (fun k => `|x`_k|)).
by apply: eq_bigr => k _; rewrite hx normrM sg_norm mul1r.
Qed.
Lemma add_moved x x' y y' : moved x x' -> moved y y' -> moved (addf x y) (addf x' y').
Proof.
move=> [sx [sx' hx]] [sy [sy' hy]]; split; first by rewrite size_addf.
split; first by rewrite size_addf.
by move=> k; rewrite !nth_mkseq ?sx ?sx' // hx hy mulrDr.
Qed.
Lemma scale_moved a x x' : moved x x' -> moved (scalef a x) (scalef a x').
Proof.
move=> [sx [sx' hx]]; split; first by rewrite size_map.
split; first by rewrite size_map.
by move=> k; rewrite !(nth_map 0) ?sx ?sx' // hx mulrCA.
Qed.
Lemma sub_moved x x' y y' : moved x x' -> moved y y' -> moved (subf x y) (subf x' y').
Proof. by move=> hx hy; apply: add_moved => //; exact: scale_moved. Qed.
Lemma dist_moved x x' y y' : moved x x' -> moved y y' -> dist x' y' = dist x y.
Proof. by move=> hx hy; rewrite /dist (energy_moved (sub_moved hx hy)). Qed.
Lemma noisy_moved pow10 f f' s z z' : moved f f' -> moved z z' ->
  moved (noisy_flow pow10 f (length E) s z) (noisy_flow pow10 f' (length E') s z').
Proof.
move=> hf hz; rewrite /noisy_flow (energy_moved hf) NN; apply: add_moved => //; exact: scale_moved.
Qed.
Lemma moved_back x' : size x' = length E' -> exists x, moved x x'.
Proof.
move=> sx'; exists (unvec (S^T *m vec (length E') x')).
by have := vec_moved p sg (S^T *m vec (length E') x'); rewrite mulmxA (SS bp sgg) mul1mx vecK.
Qed.
Lemma moved_on x : size x = length E -> exists x', moved x x'.
Proof. by move=> sx; exists (unvec (S *m vec (length E) x)); have := vec_moved p sg (vec (length E) x); rewrite vecK. Qed.
Lemma moved_inj x y x' : moved x x' -> moved y x' -> x = y.
Proof.
move=> hx hy; have [sx [sx' _]] := hx; have [sy _] := hy.
rewrite -(vecK sx) -(vecK sy); congr unvec.
have := moved_vec hx; rewrite (moved_vec hy) => /(congr1 (mulmx S^T)); by rewrite !mulmxA (StS bp sgg) !mul1mx.
Qed.
Lemma moved_fun x x' y' : moved x x' -> moved x y' -> x' = y'.
Proof.
move=> hx hy; have [_ [sx' _]] := hx; have [_ [sy' _]] := hy.
by rewrite -(vecK sx') -(vecK sy') (moved_vec hx) (moved_vec hy).
Qed.

(** The l2 filter. *)
Hypothesis pL : p_same nodes T sc nodes' T' sc' p sg "L1L".
Variable c : string.
Hypothesis cb : forall x x', moved x x' -> perm_eq (mv (comp_arr sc c) x) (mv (comp_arr sc' c) x').

Section L2.
Variables (pow10 : R -> R) (randn randn' : nat -> nat -> nat -> seq R).
Hypotheses (sr : forall i j n, size (randn i j n) = n) (sr' : forall i j n, size (randn' i j n) = n).
Hypothesis rr : forall i j, moved (randn i j (length E)) (randn' i j (length E')).
Variables (flow flow' snr : seq R) (mu : R).
Hypotheses (ff : moved flow flow') (mu0 : 0 <= mu).

Lemma inv_pair : invmx (1%:M + mu *: p_mat R nodes' E' T' sc' "L1L") =
  S *m invmx (1%:M + mu *: p_mat R nodes E T sc "L1L") *m S^T.
Proof.
have u : 1%:M + mu *: p_mat R nodes E T sc "L1L" \in unitmx by apply: shift_unit => // x; exact: (p_psd nodes T sc).
rewrite -(conj_inv bp sgg u) pL; congr invmx.
by rewrite mulmxDr mulmxDl mulmx1 (SS bp sgg) -scalemxAr -scalemxAl.
Qed.
Lemma l2x_moved i j : moved (l2x pow10 randn nodes E T sc flow snr mu i j) (l2x pow10 randn' nodes' E' T' sc' flow' snr mu i j).
Proof.
rewrite /l2x (moved_vec (noisy_moved pow10 snr`_i ff (rr i j))) inv_pair -!mulmxA (mulmxA S^T) (StS bp sgg) mul1mx.
exact: vec_moved.
Qed.
Lemma nrmse_same x x' : moved x x' -> nrmse x' flow' = nrmse x flow.
Proof.
by move=> hx; rewrite /nrmse !normE (energy_moved ff) (energy_moved (sub_moved hx ff)).
Qed.

(** What is stored, from the cells. *)
Lemma results_same num r : denoise_l2 pow10 randn sc flow c num snr mu = Ok r ->
  (forall i j, (forall k, sg k = 1) -> corr flow' (l2x pow10 randn' nodes' E' T' sc' flow' snr mu i j) =
     corr flow (l2x pow10 randn nodes E T sc flow snr mu i j)) ->
  exists r', denoise_l2 pow10 randn' sc' flow' c num snr mu = Ok r' /\
    r = trend_result (Some (rows (invmx (1%:M + mu *: p_mat R nodes E T sc "L1L"))))
      [seq [seq l2cell pow10 randn nodes E T sc flow snr mu c i j | j <- iota 0 (Z.to_nat num)] | i <- iota 0 (size snr)] /\
    r' = trend_result (Some (rows (invmx (1%:M + mu *: p_mat R nodes' E' T' sc' "L1L"))))
      [seq [seq l2cell pow10 randn' nodes' E' T' sc' flow' snr mu c i j | j <- iota 0 (Z.to_nat num)] | i <- iota 0 (size snr)] /\
    trend_component r' = trend_component r /\ trend_errors r' = trend_errors r /\
    ((forall k, sg k = 1) -> trend_correlations r' = trend_correlations r).
Proof.
move=> e cc; have [sf [sf' _]] := ff.
have M0 : (0 < length E)%N.
  move: e; rewrite /denoise_l2; case: (components R sc c) => [comp|] // /PyFacts.bind_Ok[q [eq _]]; move: eq.
  by rewrite /get_power_noise (scE H); case: eqP => // n0 _; rewrite lt0n; apply/eqP.
have M0' : (0 < length E')%N by rewrite NN.
case ec : (components R sc c) => [comp|]; last by move: e; rewrite /denoise_l2 ec.
have [comp' ec'] : exists comp, components R sc' c = Some comp.
  by apply/(components_some R sc'); apply/(components_some R sc); exists comp.
have [n0 s0] : Z.lt Z0 num /\ snr <> [::].
  move: e; rewrite /denoise_l2 ec (power_noiseE pow10 H M0) !bindOk; case: Z.ltb_spec => // n1.
  case: table => [t|] //; rewrite bindOk size_map; case: eqP => //= nz; case: eqP => // mz _.
  by split; [lia|move=> h; rewrite h in nz].
rewrite (l2_run pow10 sr' H' M0' sf' mu0 ec' n0 s0).
move: e; rewrite (l2_run pow10 sr H M0 sf mu0 ec n0 s0) => -[<-].
eexists; split; first reflexivity. split; first by []. split; first by [].
have cs i j : norm (mv (comp_arr sc' c) (l2x pow10 randn' nodes' E' T' sc' flow' snr mu i j)) =
  norm (mv (comp_arr sc c) (l2x pow10 randn nodes E T sc flow snr mu i j)).
  by rewrite !normE; congr Num.sqrt; apply/esym/energy_perm/cb; exact: l2x_moved.
rewrite /trend_result /= -!map_comp; split; [|split=> [|s1]].
- by apply: eq_map => i /=; rewrite -!map_comp; congr fl_mean; apply: eq_map => j /=; rewrite cs.
- by apply: eq_map => i /=; rewrite -!map_comp; congr fl_mean; apply: eq_map => j /=; rewrite (nrmse_same (l2x_moved i j)).
by apply: eq_map => i /=; rewrite -!map_comp; congr fl_mean; apply: eq_map => j /=; rewrite cc.
Qed.
End L2.

(** Correlations, if no edge is turned round. *)
Lemma corr_moved x x' y y' : (forall k, sg k = 1) -> moved x x' -> moved y y' -> corr x' y' = corr x y.
Proof.
move=> s1 hx hy.
have av z z' : moved z z' -> average z' = average z.
  move=> [sz [sz' hz]]; rewrite /average sz sz'; congr (_ / _); last by rewrite NN.
  by rewrite -[RHS](sum_p (fun k => z`_k)); apply: eq_bigr => k _; rewrite hz s1 mul1r.
have ce z z' : moved z z' -> moved (centred z) (centred z').
  move=> h; have [sz [sz' hz]] := h; split; first by rewrite size_map.
  split; first by rewrite size_map.
  by move=> k; rewrite !(nth_map 0) ?sz ?sz' // hz s1 !mul1r (av _ _ h).
by rewrite /corr !(energy_moved (ce _ _ hx)) !(energy_moved (ce _ _ hy)) (dotp_moved (ce _ _ hx) (ce _ _ hy)).
Qed.

Lemma l2_pair pow10 randn randn' (flow flow' snr : seq R) mu num r :
  (forall i j n, size (randn i j n) = n) -> (forall i j n, size (randn' i j n) = n) ->
  (forall i j, moved (randn i j (length E)) (randn' i j (length E'))) -> moved flow flow' -> 0 <= mu ->
  denoise_l2 pow10 randn sc flow c num snr mu = Ok r ->
  exists r', denoise_l2 pow10 randn' sc' flow' c num snr mu = Ok r' /\
    (forall i j, (i < size snr)%N -> (j < Z.to_nat num)%N ->
      moved (nth [::] (nth [::] (trend_responses r) i) j) (nth [::] (nth [::] (trend_responses r') i) j)) /\
    trend_component r' = trend_component r /\ trend_errors r' = trend_errors r /\
    ((forall k, sg k = 1) -> trend_correlations r' = trend_correlations r).
Proof.
move=> sr sr' rr ff mu0 e.
have [|r' [e' [er [er' cc]]]] := results_same sr sr' rr ff mu0 e.
  by move=> i j s1; apply: corr_moved => //; exact: l2x_moved.
exists r'; split; first exact: e'.
split; last exact: cc.
by move=> i j li lj; rewrite er er' !l2_entry //; exact: l2x_moved.
Qed.

(** The objective of the l1 filters. *)
Hypothesis gb : forall x x', moved x x' ->
  moved (mv (amul (atr (base_array sc c)) (base_array sc c)) x) (mv (amul (atr (base_array sc' c)) (base_array sc' c)) x').
Lemma op_pair k x x' : moved x x' -> l1 (mv (op_of (base_array sc' c) k) x') = l1 (mv (op_of (base_array sc c) k) x).
Proof.
move=> h; have it j : moved (iter j (mv (amul (atr (base_array sc c)) (base_array sc c))) x)
   (iter j (mv (amul (atr (base_array sc' c)) (base_array sc' c))) x').
  by elim: j => [|j IH] //=; exact: gb.
rewrite -(odd_double_half k); case: (odd k); first by rewrite add1n !op_odd; apply: l1_moved; exact: it.
by rewrite add0n !op_even; apply/esym/l1_perm/cb; exact: it.
Qed.
Lemma cost_pair k mu y y' z z' : moved y y' -> moved z z' ->
  trend_cost (op_of (base_array sc' c) k) mu y' z' = trend_cost (op_of (base_array sc c) k) mu y z.
Proof. by move=> hy hz; rewrite /trend_cost (dist_moved hy hz) (op_pair k hz). Qed.

(** Minimisers correspond. *)
Lemma best_pair k mu y y' (ok : seq R -> Prop) (ok' : seq R -> Prop) x x' :
  let A := op_of (base_array sc c) k in let A' := op_of (base_array sc' c) k in
  moved y y' -> (forall z z', moved z z' -> (ok z <-> ok' z')) ->
  size x = length E -> size x' = length E' -> ok x -> ok' x' ->
  (forall z, size z = length E -> ok z -> trend_cost A mu y x <= trend_cost A mu y z) ->
  (forall z, size z = length E' -> ok' z -> trend_cost A' mu y' x' <= trend_cost A' mu y' z) ->
  trend_cost A' mu y' x' = trend_cost A mu y x /\
  ((forall z, size z = length E -> ok z -> trend_cost A mu y z <= trend_cost A mu y x -> z = x) -> moved x x').
Proof.
move=> A A' hy oo sx sx' ox ox' mx mx'.
have [u hu] := moved_back sx'; have [v hv] := moved_on sx.
have [su _] := hu; have [_ [sv _]] := hv.
have ou := proj2 (oo _ _ hu) ox'; have ov := proj1 (oo _ _ hv) ox.
have cu : trend_cost A' mu y' x' = trend_cost A mu y u := cost_pair k mu hy hu.
have cv : trend_cost A' mu y' v = trend_cost A mu y x := cost_pair k mu hy hv.
have e : trend_cost A' mu y' x' = trend_cost A mu y x.
  by apply/eqP; rewrite eq_le -{1}cv mx' //= cu mx.
by split=> // un; rewrite -(un u su ou) -?cu ?e.
Qed.

Lemma l1_pair pow10 randn randn' solver solver' (flow flow' snr : seq R) mu num num' order r r' :
  (forall i j n, size (randn i j n) = n) -> (forall i j n, size (randn' i j n) = n) ->
  (forall i j, moved (randn i j (length E)) (randn' i j (length E'))) -> moved flow flow' -> 0 <= mu ->
  solver_contract solver -> solver_contract solver' ->
  denoise_l1 pow10 randn solver sc flow c num snr order mu = Ok r ->
  denoise_l1 pow10 randn' solver' sc' flow' c num' snr order mu = Ok r' ->
  exists A A', get_shift_operator sc c order = Ok (Csr A) /\ get_shift_operator sc' c order = Ok (Csr A') /\
  forall i j, (i < size snr)%N -> (j < Z.to_nat num)%N -> (j < Z.to_nat num')%N ->
    let y := noisy_flow pow10 flow (length E) snr`_i (randn i j (length E)) in
    let y' := noisy_flow pow10 flow' (length E') snr`_i (randn' i j (length E')) in
    let x := nth [::] (nth [::] (trend_responses r) i) j in
    let x' := nth [::] (nth [::] (trend_responses r') i) j in
    (forall z z', moved z z' -> trend_cost A' mu y' z' = trend_cost A mu y z) /\
    trend_cost A' mu y' x' = trend_cost A mu y x /\
    ((forall z, size z = length E -> trend_cost A mu y z <= trend_cost A mu y x -> z = x) -> moved x x').
Proof.
move=> sr sr' rr ff mu0 SC SC' e e'.
have [A [eA [_ h]]] := C49_l1_estimates sr SC H mu0 e.
have [A' [eA' [_ h']]] := C49_l1_estimates sr' SC' H' mu0 e'.
exists A, A'; do 2 split=> //.
have k0 : Z.le Z0 order by move: eA; rewrite /get_shift_operator; case: Z.ltb_spec.
move: eA eA'; rewrite !shift_opE // => -[EA] [EA'].
move=> i j li lj lj' y y' x x'; have [sx [mx _]] := h i j li lj; have [sx' [mx' _]] := h' i j li lj'.
have hy : moved y y' by exact: noisy_moved.
split; first by move=> z z' hz; rewrite -EA -EA'; exact: cost_pair.
have oo : forall z z', moved z z' -> (Logic.True <-> Logic.True) by [].
have [||a b] := @best_pair (Z.to_nat order) mu y y' (fun _ => Logic.True) (fun _ => Logic.True) x x' hy oo sx sx' I I.
- by move=> z sz _; rewrite EA; exact: mx.
- by move=> z sz _; rewrite EA'; exact: mx'.
rewrite EA EA' in a b; split=> // un; apply: b => z sz _; exact: un.
Qed.

Lemma interp_pair solver solver' floor choice choice' (flow flow' ratio : seq R) mu num num' order r r' :
  (forall i j m (k : 'I_(length E')), ((k : nat) \in choice' i j (length E') m) = ((p k : nat) \in choice i j (length E) m)) ->
  moved flow flow' -> 0 <= mu ->
  solver_eq_contract solver -> solver_eq_contract solver' ->
  interpolate_l1 solver floor choice sc flow c ratio num order mu = Ok r ->
  interpolate_l1 solver' floor choice' sc' flow' c ratio num' order mu = Ok r' ->
  exists A A', get_shift_operator sc c order = Ok (Csr A) /\ get_shift_operator sc' c order = Ok (Csr A') /\
  forall i j, (i < size ratio)%N -> (j < Z.to_nat num)%N -> (j < Z.to_nat num')%N ->
    let s := choice i j (length E) (Z.to_nat (floor ((length E)%:R * ratio`_i))) in
    let s' := choice' i j (length E') (Z.to_nat (floor ((length E')%:R * ratio`_i))) in
    let y := mkseq (fun k => if k \in s then flow`_k else 0) (length E) in
    let y' := mkseq (fun k => if k \in s' then flow'`_k else 0) (length E') in
    let x := nth [::] (nth [::] (trend_responses r) i) j in
    let x' := nth [::] (nth [::] (trend_responses r') i) j in
    (forall z z', moved z z' -> trend_cost A' mu y' z' = trend_cost A mu y z) /\
    trend_cost A' mu y' x' = trend_cost A mu y x /\
    ((forall z, size z = length E -> (forall k, (k < length E)%N -> k \in s -> z`_k = flow`_k) ->
        trend_cost A mu y z <= trend_cost A mu y x -> z = x) -> moved x x').
Proof.
move=> hs ff mu0 [FC MC] [FC' MC'] e e'.
have [A [eA [dA [_ h]]]] := interp_cells H e; have [A' [eA' [dA' [_ h']]]] := interp_cells H' e'.
exists A, A'; do 2 split=> //.
have k0 : Z.le Z0 order by move: eA; rewrite /get_shift_operator; case: Z.ltb_spec.
move: eA eA'; rewrite !shift_opE // => -[EA] [EA'].
move=> i j li lj lj' s s' y y' x x'.
have [_ [_ [sf [sx ex]]]] := h i j li lj; have [_ [_ [sf' [sx' ex']]]] := h' i j li lj'.
have sy : size y = sh1 A by rewrite size_mkseq dA.
have sy' : size y' = sh1 A' by rewrite size_mkseq dA'.
have ss (k : 'I_(length E')) : ((k : nat) \in s') = ((p k : nat) \in s) by rewrite /s' hs NN.
have [_ [_ hf]] := ff.
have hy : moved y y'.
  split; first by rewrite size_mkseq. split; first by rewrite size_mkseq.
  by move=> k; rewrite !nth_mkseq // ss hf; case: ifP; rewrite ?mulr0.
split; first by move=> z z' hz; rewrite -EA -EA'; exact: cost_pair.
have [_ ag] := FC _ _ _ _ _ sy mu0 ex; have mn := MC _ _ _ _ _ sy mu0 ex.
have [_ ag'] := FC' _ _ _ _ _ sy' mu0 ex'; have mn' := MC' _ _ _ _ _ sy' mu0 ex'.
pose ok z := forall k, (k < length E)%N -> k \in s -> z`_k = flow`_k.
pose ok' z := forall k, (k < length E')%N -> k \in s' -> z`_k = flow'`_k.
have oy z : ok z <-> agrees (sampling_matrix (sample_mask R (length E) s)) z y.
  by rewrite agreesP; split=> o k lk ks; have := o k lk ks; rewrite nth_mkseq // ks.
have oy' z : ok' z <-> agrees (sampling_matrix (sample_mask R (length E') s')) z y'.
  by rewrite agreesP; split=> o k lk ks; have := o k lk ks; rewrite nth_mkseq // ks.
have oo z z' : moved z z' -> (ok z <-> ok' z').
  move=> [sz [sz' hz]]; split=> o k lk ks.
    have := hz (Ordinal lk); rewrite /= => ->; have := hf (Ordinal lk); rewrite /= => ->.
    by congr (_ * _); apply: o => //; rewrite -ss.
  have [g gp pg] := bp; pose q := g (Ordinal lk).
  have qk : (p q : nat) = k by rewrite /q pg.
  have := o q (ltn_ord q); rewrite ss qk => /(_ ks); rewrite hz hf qk => /(congr1 (fun a => sg q * a)).
  by rewrite !mulrA sgg !mul1r.
have [||a b] := @best_pair (Z.to_nat order) mu y y' ok ok' x x' hy oo sx sx' (proj2 (oy _) ag) (proj2 (oy' _) ag').
- by move=> z sz oz; rewrite EA; apply: mn; [rewrite sz size_mkseq|apply/oy].
- by move=> z sz oz; rewrite EA'; apply: mn'; [rewrite sz size_mkseq|apply/oy'].
by rewrite EA EA' in a b.
Qed.
End Pair.

Section Gram.
Variable R : rcfType.
Variables (nodes : list Z) (E : list (Z * Z)) (T : list (list Z)) (nf : dict Z fdict)
          (ef : dict (Z * Z) fdict) (sc : SC).
Hypothesis H : make_sc nodes E T nf ef = Ok sc.
Variables (nodes' : list Z) (E' : list (Z * Z)) (T' : list (list Z)) (nf' : dict Z fdict)
          (ef' : dict (Z * Z) fdict) (sc' : SC).
Hypothesis H' : make_sc nodes' E' T' nf' ef' = Ok sc'.
Variables (p : 'I_(length E') -> 'I_(length E)) (sg : nat -> R).
Hypotheses (bp : bijective p) (sgg : forall k, sg k * sg k = 1).

Lemma gram_moved s x x' : p_same nodes T sc nodes' T' sc' p sg s -> moved p sg x x' ->
  moved p sg (mv (p_array sc s) x) (mv (p_array sc' s) x').
Proof.
move=> ps hx; rewrite (mv_p H) (mv_p H') ps (moved_vec hx) -!mulmxA (mulmxA (ssel sg p)^T) (StS bp sgg) mul1mx.
exact: vec_moved.
Qed.
Lemma base_moved c x x' : p_same nodes T sc nodes' T' sc' p sg (if String.eqb c "divergence" then "L1L" else "L1U")%string ->
  moved p sg x x' -> moved p sg (mv (amul (atr (base_array sc c)) (base_array sc c)) x)
    (mv (amul (atr (base_array sc' c)) (base_array sc' c)) x').
Proof.
rewrite /base_array; case: String.eqb => ps hx; first exact: (gram_moved ps hx).
by rewrite !atrK; exact: (gram_moved ps hx).
Qed.
End Gram.

(** Two estimates are equally good: corresponding flows have the same objective value in the two problems, so do the
    estimates, and if the first problem has only one solution then the estimates correspond. *)
Definition equally_good (R : rcfType) (n : nat) (rel : seq R -> seq R -> Prop) (ok : seq R -> Prop) (cost cost' : seq R -> R)
    (x x' : seq R) : Prop :=
  (forall z z', rel z z' -> cost' z' = cost z) /\ cost' x' = cost x /\
  ((forall z, size z = n -> ok z -> cost z <= cost x -> z = x) -> rel x x').

(** ** Order of edges and triangles *)
Lemma order_comp (R : rcfType) nodes E T nf ef sc : make_sc nodes E T nf ef = Ok sc ->
  proper_edges (length nodes) E -> simple_edges E -> proper_triangles T ->
  forall E' T' nf' ef' sc', make_sc nodes E' T' nf' ef' = Ok sc' -> perm_eq T T' ->
  forall c (x x' : seq R), same_at E E' x x' -> perm_eq (mv (comp_arr sc c) x) (mv (comp_arr sc' c) x').
Proof.
move=> H PE SE PT E' T' nf' ef' sc' H' hT c x x' [sx [sx' h]].
have [d [[u [u' [eu [eu' pu]]]] _]] := C86_order (fun _ => 0) (@ls_sol_ok R) H PE SE PT H' sx sx' h hT.
rewrite /comp_arr; case: String.eqb.
  by move: d; rewrite (div_mv H) // (div_mv H') // => -[->].
move: eu eu'; rewrite (curl_mv H) // (curl_mv H') // => -[eu] [eu']; rewrite eu eu'.
have su : size u = size T by rewrite -eu size_mv; have [_ h2] := B2_dims H; rewrite /= -[size T]/(length T) -h2.
have su' : size u' = size T' by rewrite -eu' size_mv; have [_ h2] := B2_dims H'; rewrite /= -[size T']/(length T') -h2.
by have := perm_map snd pu; rewrite -/(unzip2 _) -/(unzip2 (zip T' u')) !unzip2_zip ?su ?su'.
Qed.

Theorem C98_l2_order :
  forall (R : rcfType) (pow10 : R -> R) randn randn', (forall i j n, size (randn i j n) = n) ->
    (forall i j n, size (randn' i j n) = n) ->
  forall nodes E T nf ef sc, make_sc nodes E T nf ef = Ok sc ->
  proper_edges (length nodes) E -> simple_edges E -> proper_triangles T ->
  forall E' T' nf' ef' sc', make_sc nodes E' T' nf' ef' = Ok sc' -> perm_eq E E' -> perm_eq T T' ->
  (forall i j, same_at E E' (randn i j (length E)) (randn' i j (length E'))) ->
  forall (flow flow' snr : seq R) c num mu r, same_at E E' flow flow' -> 0 <= mu ->
  denoise_l2 pow10 randn sc flow c num snr mu = Ok r ->
  exists r', denoise_l2 pow10 randn' sc' flow' c num snr mu = Ok r' /\
    (forall i j, (i < size snr)%N -> (j < Z.to_nat num)%N ->
      same_at E E' (nth [::] (nth [::] (trend_responses r) i) j) (nth [::] (nth [::] (trend_responses r') i) j)) /\
    trend_component r' = trend_component r /\ trend_errors r' = trend_errors r /\
    trend_correlations r' = trend_correlations r.
Proof.
move=> R pow10 randn randn' sr sr' nodes E T nf ef sc H PE SE PT E' T' nf' ef' sc' H' hE hT rr flow flow' snr c num mu r ff mu0 e.
have [p [V [bp VV hp e1 e2]]] := order_setup R H PE SE PT H' hE hT.
have eqv := @same_at_moved R _ SE _ _ bp hp.
have QQ : (1%:M : 'M[R]_(length nodes))^T *m 1%:M = 1%:M by rewrite trmx1 mulmx1.
have oo k : (fun _ : nat => 1 : R) k * (fun _ : nat => 1 : R) k = 1 := mulr1 1.
have cb x x' : moved p (fun _ => 1 : R) x x' -> perm_eq (mv (comp_arr sc c) x) (mv (comp_arr sc' c) x').
  by move=> /eqv h; exact: (order_comp H PE SE PT H' hT).
have rm i j := proj1 (eqv _ _) (rr i j).
have [r' [e' [h1 [h2 [h3 h4]]]]] := l2_pair H H' bp oo (p_conj QQ VV e1 e2 "L1L") cb sr sr' rm (proj1 (eqv _ _) ff) mu0 e.
by exists r'; split=> //; split; [move=> i j li lj; apply/eqv; exact: h1|do 2 split=> //; exact: h4].
Qed.
Print Assumptions C98_l2_order.

Theorem C98_l1_order :
  forall (R : rcfType) (pow10 : R -> R) randn randn', (forall i j n, size (randn i j n) = n) ->
    (forall i j n, size (randn' i j n) = n) ->
  forall solver solver', solver_contract solver -> solver_contract solver' ->
  forall nodes E T nf ef sc, make_sc nodes E T nf ef = Ok sc ->
  proper_edges (length nodes) E -> simple_edges E -> proper_triangles T ->
  forall E' T' nf' ef' sc', make_sc nodes E' T' nf' ef' = Ok sc' -> perm_eq E E' -> perm_eq T T' ->
  (forall i j, same_at E E' (randn i j (length E)) (randn' i j (length E'))) ->
  forall (flow flow' snr : seq R) c num num' order mu r r', same_at E E' flow flow' -> 0 <= mu ->
  denoise_l1 pow10 randn solver sc flow c num snr order mu = Ok r ->
  denoise_l1 pow10 randn' solver' sc' flow' c num' snr order mu = Ok r' ->
  exists A A', get_shift_operator sc c order = Ok (Csr A) /\ get_shift_operator sc' c order = Ok (Csr A') /\
  forall i j, (i < size snr)%N -> (j < Z.to_nat num)%N -> (j < Z.to_nat num')%N ->
    equally_good (length E) (@same_at R E E') (fun _ => Logic.True)
      (trend_cost A mu (noisy_flow pow10 flow (length E) snr`_i (randn i j (length E))))
      (trend_cost A' mu (noisy_flow pow10 flow' (length E') snr`_i (randn' i j (length E'))))
      (nth [::] (nth [::] (trend_responses r) i) j) (nth [::] (nth [::] (trend_responses r') i) j).
Proof.
move=> R pow10 randn randn' sr sr' solver solver' SC SC' nodes E T nf ef sc H PE SE PT E' T' nf' ef' sc' H' hE hT rr.
move=> flow flow' snr c num num' order mu r r' ff mu0 e e'.
have [p [V [bp VV hp e1 e2]]] := order_setup R H PE SE PT H' hE hT.
have eqv := @same_at_moved R _ SE _ _ bp hp.
have QQ : (1%:M : 'M[R]_(length nodes))^T *m 1%:M = 1%:M by rewrite trmx1 mulmx1.
have oo k : (fun _ : nat => 1 : R) k * (fun _ : nat => 1 : R) k = 1 := mulr1 1.
have cb x x' : moved p (fun _ => 1 : R) x x' -> perm_eq (mv (comp_arr sc c) x) (mv (comp_arr sc' c) x').
  by move=> /eqv h; exact: (order_comp H PE SE PT H' hT).
have gb x x' := @base_moved R _ _ _ _ _ _ H _ _ _ _ _ _ H' _ _ bp oo c x x' (p_conj QQ VV e1 e2 _).
have rm i j := proj1 (eqv _ _) (rr i j).
have [A [A' [eA [eA' h]]]] := l1_pair H H' bp oo cb gb sr sr' rm (proj1 (eqv _ _) ff) mu0 SC SC' e e'.
exists A, A'; do 2 split=> //; move=> i j li lj lj'; have [h1 [h2 h3]] := h i j li lj lj'.
split; first by move=> z z' /eqv; exact: h1.
by split=> // un; apply/eqv; apply: h3 => z sz le; exact: un.
Qed.
Print Assumptions C98_l1_order.

(** The edges observed are the same edges. *)
Theorem C98_interpolation_order :
  forall (R : rcfType) solver solver' (floor : R -> Z) choice choice', solver_eq_contract solver -> solver_eq_contract solver' ->
  forall nodes E T nf ef sc, make_sc nodes E T nf ef = Ok sc ->
  proper_edges (length nodes) E -> simple_edges E -> proper_triangles T ->
  forall E' T' nf' ef' sc', make_sc nodes E' T' nf' ef' = Ok sc' -> perm_eq E E' -> perm_eq T T' ->
  (forall i j m k k', (k < length E)%N -> (k' < length E')%N -> nth (Z0, Z0) E k = nth (Z0, Z0) E' k' ->
     (k \in choice i j (length E) m) = (k' \in choice' i j (length E') m)) ->
  forall (flow flow' ratio : seq R) c num num' order mu r r', same_at E E' flow flow' -> 0 <= mu ->
  interpolate_l1 solver floor choice sc flow c ratio num order mu = Ok r ->
  interpolate_l1 solver' floor choice' sc' flow' c ratio num' order mu = Ok r' ->
  exists A A', get_shift_operator sc c order = Ok (Csr A) /\ get_shift_operator sc' c order = Ok (Csr A') /\
  forall i j, (i < size ratio)%N -> (j < Z.to_nat num)%N -> (j < Z.to_nat num')%N ->
    let s := choice i j (length E) (Z.to_nat (floor ((length E)%:R * ratio`_i))) in
    let s' := choice' i j (length E') (Z.to_nat (floor ((length E')%:R * ratio`_i))) in
    equally_good (length E) (@same_at R E E') (fun z => forall k, (k < length E)%N -> k \in s -> z`_k = flow`_k)
      (trend_cost A mu (mkseq (fun k => if k \in s then flow`_k else 0) (length E)))
      (trend_cost A' mu (mkseq (fun k => if k \in s' then flow'`_k else 0) (length E')))
      (nth [::] (nth [::] (trend_responses r) i) j) (nth [::] (nth [::] (trend_responses r') i) j).
Proof.
move=> R solver solver' floor choice choice' SC SC' nodes E T nf ef sc H PE SE PT E' T' nf' ef' sc' H' hE hT hc.
move=> flow flow' ratio c num num' order mu r r' ff mu0 e e'.
have [p [V [bp VV hp e1 e2]]] := order_setup R H PE SE PT H' hE hT.
have eqv := @same_at_moved R _ SE _ _ bp hp.
have QQ : (1%:M : 'M[R]_(length nodes))^T *m 1%:M = 1%:M by rewrite trmx1 mulmx1.
have oo k : (fun _ : nat => 1 : R) k * (fun _ : nat => 1 : R) k = 1 := mulr1 1.
have cb x x' : moved p (fun _ => 1 : R) x x' -> perm_eq (mv (comp_arr sc c) x) (mv (comp_arr sc' c) x').
  by move=> /eqv h; exact: (order_comp H PE SE PT H' hT).
have gb x x' := @base_moved R _ _ _ _ _ _ H _ _ _ _ _ _ H' _ _ bp oo c x x' (p_conj QQ VV e1 e2 _).
have hs i j m (k : 'I_(length E')) : ((k : nat) \in choice' i j (length E') m) = ((p k : nat) \in choice i j (length E) m).
  by apply/esym/hc; rewrite ?hp.
have [A [A' [eA [eA' h]]]] := interp_pair H H' bp oo cb gb hs (proj1 (eqv _ _) ff) mu0 SC SC' e e'.
exists A, A'; do 2 split=> //; move=> i j li lj lj' s s'; have [h1 [h2 h3]] := h i j li lj lj'.
split; first by move=> z z' /eqv; exact: h1.
by split=> // un; apply/eqv; apply: h3 => z sz oz le; exact: un.
Qed.
Print Assumptions C98_interpolation_order.


(** ** Numbers of the nodes *)
Lemma rows_cast (R : rcfType) m n (e : m = n) (X : 'M[R]_n) :
  Filter.rows (ssel (fun _ => 1) (cast_ord e) *m X *m (ssel (fun _ => 1 : R) (cast_ord e))^T) = Filter.rows X.
Proof.
case: n / e X => X; have -> : ssel (fun _ => 1 : R) (cast_ord (erefl m)) = 1%:M.
  by apply/matrixP => i j; rewrite !mxE mul1r cast_ord_id eq_sym.
by rewrite trmx1 mulmx1 mul1mx.
Qed.

Section Renumber.
Variable R : rcfType.
Variables (nodes : list Z) (E : list (Z * Z)) (T : list (list Z)) (nf : dict Z fdict)
          (ef : dict (Z * Z) fdict) (sc : SC).
Hypothesis H : make_sc nodes E T nf ef = Ok sc.
Hypotheses (PE : proper_edges (length nodes) E) (SE : simple_edges E) (PT : proper_triangles T).
Variable pi : Z -> Z.
Hypothesis inj : injective pi.
Hypothesis range : forall i, (0 <= i < Z.of_nat (length nodes))%zz -> (0 <= pi i < Z.of_nat (length nodes))%zz.
Variables (nodes' : list Z) (nf' : dict Z fdict) (ef' : dict (Z * Z) fdict) (sc' : SC).
Hypothesis hN : length nodes' = length nodes.
Notation E' := (List.map (renumber pi) E).
Notation T' := (List.map (List.map pi) T).
Hypothesis H' : make_sc nodes' E' T' nf' ef' = Ok sc'.

Lemma renumber_comp c (x : seq R) : size x = length E -> perm_eq (mv (comp_arr sc c) x) (mv (comp_arr sc' c) x).
Proof.
move=> sx; have [[y [y' [ey [ey' [sy hy]]]]] [cu _]] := C86_renumbering (fun _ => 0) (@ls_sol_ok R) H PE SE PT inj range hN H' sx.
have sx' : size x = length E' by rewrite sx List.map_length.
rewrite /comp_arr; case: String.eqb; last by move: cu; rewrite (curl_mv H) // (curl_mv H') // => -[->].
move: ey ey'; rewrite (div_mv H) // (div_mv H') // => -[ey] [ey']; rewrite ey ey'.
have ny : size y = length nodes by rewrite -ey size_mv; have [<- _] := B1_dims H.
pose g i := Z.to_nat (pi (Z.of_nat i)).
have gi : {in iota 0 (size y) &, injective g}.
  move=> i j; rewrite !mem_iota !add0n /= ny => li lj e.
  have := @range (Z.of_nat i); have := @range (Z.of_nat j); move: e; rewrite /g => e rj ri.
  by have /inj : pi (Z.of_nat i) = pi (Z.of_nat j); lia.
have pg : perm_eq [seq g i | i <- iota 0 (size y)] (iota 0 (size y)).
  have ug : uniq [seq g i | i <- iota 0 (size y)] by rewrite map_inj_in_uniq ?iota_uniq.
  apply: uniq_perm; rewrite ?iota_uniq //.
  have sub : {subset [seq g i | i <- iota 0 (size y)] <= iota 0 (size y)}.
    move=> k h; case: (mapP h) => i hi ->; move: hi; rewrite !mem_iota !add0n /= ny => li.
    by have := @range (Z.of_nat i); rewrite /g; lia.
  have le : (size (iota 0 (size y)) <= size [seq g i | i <- iota 0 (size y)])%N by rewrite size_map.
  by have [] := uniq_min_size ug sub le.
have -> : y = [seq y'`_(g i) | i <- iota 0 (size y)].
  apply: (@eq_from_nth _ 0); first by rewrite size_map size_iota.
  by move=> i li; rewrite (nth_map 0%N) ?size_iota // nth_iota // add0n hy.
have -> : [seq y'`_(g i) | i <- iota 0 (size y)] = [seq y'`_k | k <- [seq g i | i <- iota 0 (size y)]] by rewrite -map_comp.
apply: perm_trans (perm_map _ pg) _.
by rewrite -sy -/(mkseq (fun k => y'`_k) (size y')) mkseq_nth.
Qed.
End Renumber.

(** The numbers of the nodes do not matter at all for the l2 filter. *)
Theorem C98_l2_renumbering :
  forall (R : rcfType) (pow10 : R -> R) randn, (forall i j n, size (randn i j n) = n) ->
  forall nodes E T nf ef sc, make_sc nodes E T nf ef = Ok sc ->
  proper_edges (length nodes) E -> simple_edges E -> proper_triangles T ->
  forall pi, injective pi ->
  (forall i, (0 <= i < Z.of_nat (length nodes))%zz -> (0 <= pi i < Z.of_nat (length nodes))%zz) ->
  forall nodes' nf' ef' sc', length nodes' = length nodes ->
  make_sc nodes' (List.map (renumber pi) E) (List.map (List.map pi) T) nf' ef' = Ok sc' ->
  forall (flow snr : seq R) c num mu r, size flow = length E -> 0 <= mu ->
  denoise_l2 pow10 randn sc flow c num snr mu = Ok r -> denoise_l2 pow10 randn sc' flow c num snr mu = Ok r.
Proof.
move=> R pow10 randn sr nodes E T nf ef sc H PE SE PT pi inj range nodes' nf' ef' sc' hN H' flow snr c num mu r sf mu0 e.
have [sE [Q [V [bc QQ VV e1 e2]]]] := renumber_setup R H PE SE PT inj range hN H'.
have mv1 (x : seq R) : size x = length E -> moved (cast_ord sE) (fun _ => 1) x x.
  by move=> sx; split; [|split; [rewrite sE|move=> k; rewrite mul1r]].
have vm (x x' : seq R) : moved (cast_ord sE) (fun _ => 1) x x' -> x' = x /\ size x = length E.
  move=> [sx [sx' h]]; split=> //; apply: (@eq_from_nth _ 0); first by rewrite sx sx' sE.
  by move=> i; rewrite sx' => li; rewrite (h (Ordinal li)) mul1r.
have oo k : (fun _ : nat => 1 : R) k * (fun _ : nat => 1 : R) k = 1 := mulr1 1.
have cb x x' : moved (cast_ord sE) (fun _ => 1 : R) x x' -> perm_eq (mv (comp_arr sc c) x) (mv (comp_arr sc' c) x').
  by move=> /vm[-> sx]; exact: (renumber_comp H PE SE PT inj range hN H' c sx).
have rm i j : moved (cast_ord sE) (fun _ => 1 : R) (randn i j (length E)) (randn i j (length (List.map (renumber pi) E))).
  by rewrite {2}sE; apply: mv1.
have pL := p_conj QQ VV e1 e2 "L1L".
have lm i j := l2x_moved bc oo pL pow10 rm snr (mv1 _ sf) mu0 i j.
have [|r' [e' [er [er' [h1 [h2 h3]]]]]] := results_same H H' bc oo pL cb sr sr rm (mv1 _ sf) mu0 e.
  by move=> i j s1; exact: (corr_moved bc oo s1 (mv1 _ sf) (lm i j)).
rewrite e'; congr Ok.
have f : trend_filter r' = trend_filter r.
  by rewrite er er' /= (inv_pair bc oo pL mu0) rows_cast.
have s : trend_responses r' = trend_responses r.
  rewrite er er' /= -!map_comp; apply: eq_map => i /=; rewrite -!map_comp; apply: eq_map => j /=.
  by have [] := vm _ _ (lm i j).
have h4 := h3 (fun _ => erefl); case: (r) (r') f s h1 h2 h4 => [? ? ? ? ?] [? ? ? ? ?] /= -> -> -> -> -> //.
Qed.
Print Assumptions C98_l2_renumbering.

Theorem C98_l1_renumbering :
  forall (R : rcfType) (pow10 : R -> R) randn, (forall i j n, size (randn i j n) = n) ->
  forall solver solver' solver_eq solver_eq' (floor : R -> Z) choice, solver_contract solver -> solver_contract solver' ->
    solver_eq_contract solver_eq -> solver_eq_contract solver_eq' ->
  forall nodes E T nf ef sc, make_sc nodes E T nf ef = Ok sc ->
  proper_edges (length nodes) E -> simple_edges E -> proper_triangles T ->
  forall pi, injective pi ->
  (forall i, (0 <= i < Z.of_nat (length nodes))%zz -> (0 <= pi i < Z.of_nat (length nodes))%zz) ->
  forall nodes' nf' ef' sc', length nodes' = length nodes ->
  make_sc nodes' (List.map (renumber pi) E) (List.map (List.map pi) T) nf' ef' = Ok sc' ->
  forall (flow snr : seq R) c num order mu r r', size flow = length E -> 0 <= mu ->
  let same z z' := z' = z /\ size z = length E in
  let x i j := nth [::] (nth [::] (trend_responses r) i) j in
  let x' i j := nth [::] (nth [::] (trend_responses r') i) j in
  (denoise_l1 pow10 randn solver sc flow c num snr order mu = Ok r ->
   denoise_l1 pow10 randn solver' sc' flow c num snr order mu = Ok r' ->
   exists A A', get_shift_operator sc c order = Ok (Csr A) /\ get_shift_operator sc' c order = Ok (Csr A') /\
   forall i j, (i < size snr)%N -> (j < Z.to_nat num)%N ->
     let y := noisy_flow pow10 flow (length E) snr`_i (randn i j (length E)) in
     equally_good (length E) same (fun _ => Logic.True) (trend_cost A mu y) (trend_cost A' mu y) (x i j) (x' i j)) /\
  (interpolate_l1 solver_eq floor choice sc flow c snr num order mu = Ok r ->
   interpolate_l1 solver_eq' floor choice sc' flow c snr num order mu = Ok r' ->
   exists A A', get_shift_operator sc c order = Ok (Csr A) /\ get_shift_operator sc' c order = Ok (Csr A') /\
   forall i j, (i < size snr)%N -> (j < Z.to_nat num)%N ->
     let s := choice i j (length E) (Z.to_nat (floor ((length E)%:R * snr`_i))) in
     let y := mkseq (fun k => if k \in s then flow`_k else 0) (length E) in
     equally_good (length E) same (fun z => forall k, (k < length E)%N -> k \in s -> z`_k = flow`_k)
       (trend_cost A mu y) (trend_cost A' mu y) (x i j) (x' i j)).
Proof.
move=> R pow10 randn sr solver solver' solver_eq solver_eq' floor choice SC SC' SQ SQ' nodes E T nf ef sc H PE SE PT.
move=> pi inj range nodes' nf' ef' sc' hN H' flow snr c num order mu r r' sf mu0 same X X'.
have [sE [Q [V [bc QQ VV e1 e2]]]] := renumber_setup R H PE SE PT inj range hN H'.
have mv1 (x : seq R) : size x = length E -> moved (cast_ord sE) (fun _ => 1) x x.
  by move=> sx; split; [|split; [rewrite sE|move=> k; rewrite mul1r]].
have vm (x x' : seq R) : moved (cast_ord sE) (fun _ => 1) x x' -> x' = x /\ size x = length E.
  move=> [sx [sx' h]]; split=> //; apply: (@eq_from_nth _ 0); first by rewrite sx sx' sE.
  by move=> i; rewrite sx' => li; rewrite (h (Ordinal li)) mul1r.
have oo k : (fun _ : nat => 1 : R) k * (fun _ : nat => 1 : R) k = 1 := mulr1 1.
have cb x x' : moved (cast_ord sE) (fun _ => 1 : R) x x' -> perm_eq (mv (comp_arr sc c) x) (mv (comp_arr sc' c) x').
  by move=> /vm[-> sx]; exact: (renumber_comp H PE SE PT inj range hN H' c sx).
have gb x x' := @base_moved R _ _ _ _ _ _ H _ _ _ _ _ _ H' _ _ bc oo c x x' (p_conj QQ VV e1 e2 _).
have rm i j : moved (cast_ord sE) (fun _ => 1 : R) (randn i j (length E)) (randn i j (length (List.map (renumber pi) E))).
  by rewrite {2}sE; apply: mv1.
split=> e e'.
  have [A [A' [eA [eA' h]]]] := l1_pair H H' bc oo cb gb sr sr rm (mv1 _ sf) mu0 SC SC' e e'.
  exists A, A'; do 2 split=> //; move=> i j li lj y; have [h1 [h2 h3]] := h i j li lj lj.
  have yE : noisy_flow pow10 flow (length (List.map (renumber pi) E)) snr`_i (randn i j (length (List.map (renumber pi) E))) = y.
    by rewrite sE.
  rewrite yE in h1 h2.
  split; first by move=> z z' [-> sz]; apply: h1; exact: mv1.
  by split=> // un; apply: vm; apply: h3 => z sz le; exact: un.
have hs i j m (k : 'I_(length (List.map (renumber pi) E))) :
    ((k : nat) \in choice i j (length (List.map (renumber pi) E)) m) = ((cast_ord sE k : nat) \in choice i j (length E) m).
  by rewrite {2}sE.
have [A [A' [eA [eA' h]]]] := interp_pair H H' bc oo cb gb hs (mv1 _ sf) mu0 SQ SQ' e e'.
exists A, A'; do 2 split=> //; move=> i j li lj s y; have [h1 [h2 h3]] := h i j li lj lj.
have yE : mkseq (fun k => if k \in choice i j (length (List.map (renumber pi) E))
     (Z.to_nat (floor ((length (List.map (renumber pi) E))%:R * snr`_i))) then flow`_k else 0) (length (List.map (renumber pi) E)) = y.
  by rewrite sE.
rewrite yE in h1 h2.
split; first by move=> z z' [-> sz]; apply: h1; exact: mv1.
by split=> // un; apply: vm; apply: h3 => z sz oz le; exact: un.
Qed.
Print Assumptions C98_l1_renumbering.
