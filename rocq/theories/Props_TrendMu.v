(** * C97: what the weight of the trend filters does *)

From Coq Require Import ZArith String List Ring Field.
From mathcomp Require Import all_ssreflect all_algebra ssrZ zify.
From Verif Require Import RingTac Py PyFacts ExampleData Complex ComplexSpec ComplexFacts LinAlg Spectral Signal
  SignalSpec Bridge SignalFacts Compute Props_Signal Props_Hodge Eigen EigenSpec EigenFacts
  Props_Eigen Filter FilterSpec FilterFacts FilterFacts2 PolyFacts Props_Masks Props_LowPass Trend TrendFacts
  Props_Logistic Props_Trend Props_Trend2 Props_Trend3 Props_TrendEx Props_Poly Props_Linear.

Set Implicit Arguments.
Unset Strict Implicit.
Unset Printing Implicit Defensive.

Import GRing.Theory Num.Theory Order.Theory.
Local Open Scope ring_scope.
Delimit Scope Z_scope with zz.

(** ** Exact penalties *)
Section Penalty.
Variable R : rcfType.
Add Field R_fieldTM : (mc_field R).

Definition len n (u : 'cV[R]_n) : R := Num.sqrt (nrm2 u).
Definition abs1 n (u : 'cV[R]_n) : R := \sum_i `|u i 0|.

Lemma len_ge0 n (u : 'cV[R]_n) : 0 <= len u. Proof. exact: sqrtr_ge0. Qed.
Lemma len_sq n (u : 'cV[R]_n) : len u ^+ 2 = nrm2 u. Proof. by rewrite sqr_sqrtr ?nrm2_ge0. Qed.
Lemma abs1_ge0 n (u : 'cV[R]_n) : 0 <= abs1 u. Proof. by apply: sumr_ge0 => i _; exact: normr_ge0. Qed.
Lemma abs1_eq0 n (u : 'cV[R]_n) : abs1 u = 0 -> u = 0.
Proof.
move=> e; apply/colP => i; rewrite mxE; apply/eqP; rewrite -normr_eq0.
have /eqP : abs1 u == 0 by rewrite e.
by move/eqP; rewrite /abs1 psumr_eq0 => [/allP/(_ i)|? _]; [rewrite mem_index_enum => /(_ isT)|exact: normr_ge0].
Qed.
Lemma len_abs1 n (u : 'cV[R]_n) : len u <= abs1 u.
Proof.
rewrite -[X in _ <= X](ger0_norm (abs1_ge0 u)) -sqrtr_sqr; apply: ler_wsqrtr.
rewrite expr2 /nrm2 /dot {1}/abs1 mulr_suml; apply: ler_sum => i _.
apply: le_trans (ler_norm _) _; rewrite normrM ler_wpmul2l //.
by rewrite /abs1 (bigD1 i) //= ler_addl sumr_ge0 // => j _; exact: normr_ge0.
Qed.
Lemma len_triangle n (u v : 'cV[R]_n) : len (u + v) <= len u + len v.
Proof.
have s0 : 0 <= len u + len v by rewrite addr_ge0 ?len_ge0.
rewrite -[X in _ <= X](ger0_norm s0) -sqrtr_sqr; apply: ler_wsqrtr.
rewrite nrm2D -!len_sq sqrrD ler_add2r ler_add2l mulr_natl ler_muln2r /=.
apply: le_trans (ler_norm _) _; rewrite -sqrtr_sqr.
have l0 : 0 <= len u * len v by rewrite mulr_ge0 ?len_ge0.
rewrite -[X in _ <= X](ger0_norm l0) -[X in _ <= X]sqrtr_sqr; apply: ler_wsqrtr.
by rewrite exprMn !len_sq; exact: cauchy_schwarz.
Qed.

Definition size_of m n (N : 'M[R]_(m, n)) : R := \sum_i \sum_j `|N i j|.
Lemma size_of_ge0 m n (N : 'M[R]_(m, n)) : 0 <= size_of N.
Proof. by do 2 (apply: sumr_ge0 => ? _); exact: normr_ge0. Qed.
Lemma len_mul m n (N : 'M[R]_(m, n)) (v : 'cV[R]_n) : len (N *m v) <= size_of N * abs1 v.
Proof.
apply: le_trans (len_abs1 _) _; rewrite /size_of mulr_suml; apply: ler_sum => i _; rewrite mxE.
apply: le_trans (ler_norm_sum _ _ _) _; rewrite mulr_suml; apply: ler_sum => j _; rewrite normrM ler_wpmul2l //.
by rewrite /abs1 (bigD1 j) //= ler_addl sumr_ge0 // => k _; exact: normr_ge0.
Qed.

(** [P] selects the free coordinates.  For a large weight a minimiser pays no penalty at all, if that is possible, and
    then it is the nearest such point. *)
Lemma exact_penalty m n (M : 'M[R]_(m, n)) (P : 'M[R]_n) : P *m P = P ->
  exists C, 0 <= C /\ forall mu (y x z0 : 'cV[R]_n), C < mu -> M *m z0 = 0 -> P *m (x - z0) = x - z0 ->
    (forall z, P *m (z - z0) = z - z0 -> len (y - x) + mu * abs1 (M *m x) <= len (y - z) + mu * abs1 (M *m z)) ->
    M *m x = 0 /\ forall z, P *m (z - z0) = z - z0 -> M *m z = 0 -> len (y - x) <= len (y - z).
Proof.
move=> PP; pose N := P *m pinvmx (M *m P); exists (size_of N); split; first exact: size_of_ge0.
move=> mu y x z0 cm mz0 fx mn.
have mu0 : 0 < mu by apply: le_lt_trans cm; exact: size_of_ge0.
have x0 : M *m x = 0.
  set d := x - z0 in fx; pose z := x - N *m (M *m x).
  have md : M *m x = (M *m P) *m d by rewrite -mulmxA fx mulmxBr mz0 subr0.
  have fz : P *m (z - z0) = z - z0.
    rewrite (_ : z - z0 = d - N *m (M *m x)) 1?mulmxBr ?fx; last by rewrite /z /d addrAC.
    by rewrite /N -!mulmxA !(mulmxA P P) PP.
  have mz : M *m z = 0.
    rewrite /z mulmxBr md /N; set B := M *m P; have eB : M *m P = B by []; clearbody B.
    by rewrite (mulmxA M) (mulmxA M) eB mulmxA mulmxKpV // subrr.
  have a0 : abs1 (M *m z) = 0 by rewrite mz /abs1 big1 // => i _; rewrite mxE normr0.
  have := mn _ fz; rewrite a0 mulr0 addr0 => h; apply: abs1_eq0; apply/eqP; rewrite eq_le abs1_ge0 andbT.
  have t : len (y - z) <= len (y - x) + size_of N * abs1 (M *m x).
    rewrite (_ : y - z = (y - x) + N *m (M *m x)); last by rewrite /z opprB addrA addrAC.
    by apply: le_trans (len_triangle _ _) _; rewrite ler_add2l len_mul.
  have := le_trans h t; rewrite ler_add2l -subr_le0 -mulrBl pmulr_rle0 // subr_gt0 //.
split=> // z fz mz; have := mn z fz; rewrite x0 mz.
by rewrite !ler_add2r.
Qed.
End Penalty.

Section Bridge.
Variable R : rcfType.
Add Field R_fieldTB : (mc_field R).
Implicit Types (x y z : seq R).

Lemma dist_len n x y : size x = n -> size y = n -> dist x y = len (vec n x - vec n y).
Proof. by move=> sx sy; rewrite /dist -{1}(vecK sx) -{1}(vecK sy) subf_unvec energy_unvec. Qed.
Lemma l1_unvec n (u : 'cV[R]_n) : l1 (unvec u) = abs1 u.
Proof. by rewrite /l1 size_unvec; apply: eq_bigr => i _; rewrite nth_unvec. Qed.
Lemma cost_len A n mu y x : sh1 A = n -> size y = n -> size x = n ->
  trend_cost A mu y x = len (vec n y - vec n x) + mu * abs1 (toM R (sh0 A) n A *m vec n x).
Proof. by move=> sA sy sx; rewrite /trend_cost (dist_len sy sx) (mvE x erefl (esym sA)) l1_unvec. Qed.
Lemma mv_zero A n x : sh1 A = n -> (mv A x = zerof R (sh0 A)) <-> toM R (sh0 A) n A *m vec n x = 0.
Proof. by move=> sA; rewrite (mvE x erefl (esym sA)) zerof_unvec; split=> [/unvec_inj|->]. Qed.

(** The free coordinates. *)
Definition free n (obs : seq nat) : 'M[R]_n := \matrix_(i, j) ((i == j) && ((i : nat) \notin obs))%:R.
Lemma free_mul n obs (u : 'cV[R]_n) i : (free n obs *m u) i 0 = if (i : nat) \in obs then 0 else u i 0.
Proof.
rewrite mxE (bigD1 i) //= big1 ?addr0 => [|j /negbTE ji]; last by rewrite mxE eq_sym ji mul0r.
by rewrite mxE eqxx /=; case: ifP => _; rewrite ?mul0r ?mul1r.
Qed.
Lemma free_id n obs : free n obs *m free n obs = free n obs.
Proof.
apply/matrixP => i j; rewrite [LHS]mxE (bigD1 i) //= big1 ?addr0 => [|k /negbTE ki]; last by rewrite mxE eq_sym ki mul0r.
by rewrite !mxE eqxx /=; case: (_ \in _) => /=; rewrite ?andbF ?mul0r ?mul1r.
Qed.
Lemma freeP n obs x z : size x = n -> size z = n ->
  free n obs *m (vec n x - vec n z) = vec n x - vec n z <-> forall k, (k < n)%N -> k \in obs -> x`_k = z`_k.
Proof.
move=> sx sz; split=> [e k lk ko|h].
  have := congr1 (fun M : 'cV_n => M (Ordinal lk) 0) e; rewrite /= free_mul /= ko !mxE /=.
  by move/esym/eqP; rewrite subr_eq0 => /eqP.
apply/colP => k; rewrite free_mul; case: ifP => // ko; rewrite !mxE h //.
by rewrite subrr.
Qed.

(** The penalty for flows with some values given. *)
Lemma penalty_flows A n (obs : seq nat) : sh1 A = n -> exists C, 0 <= C /\ forall mu y x z0, C < mu ->
  size y = n -> size x = n -> size z0 = n ->
  (forall k, (k < n)%N -> k \in obs -> x`_k = z0`_k) -> mv A z0 = zerof R (sh0 A) ->
  (forall z, size z = n -> (forall k, (k < n)%N -> k \in obs -> z`_k = z0`_k) ->
     trend_cost A mu y x <= trend_cost A mu y z) ->
  mv A x = zerof R (sh0 A) /\
  forall z, size z = n -> (forall k, (k < n)%N -> k \in obs -> z`_k = z0`_k) -> mv A z = zerof R (sh0 A) ->
    dist y x <= dist y z.
Proof.
move=> sA; have [C [C0 h]] := exact_penalty (toM R (sh0 A) n A) (free_id n obs).
exists C; split=> // mu y x z0 cm sy sx sz0 ag mz0 mn.
have [||z /= fz|h1 h2] := h mu (vec n y) (vec n x) (vec n z0) cm.
- exact/(mv_zero _ sA).
- exact/freeP.
- have sz : size (unvec z) = n by rewrite size_unvec.
  rewrite -(cost_len _ sA sy sx) -[z]unvecK -(cost_len _ sA sy sz); apply: mn => //.
  by apply/freeP => //; rewrite unvecK.
split; first exact/(mv_zero _ sA).
move=> z sz az mz; rewrite !(dist_len (n := n)) //; apply: h2; first exact/freeP.
exact/(mv_zero _ sA).
Qed.

(** More weight on the penalty: less penalty, more distance. *)
Lemma exchange (a a' d d' m m' : R) : 0 <= m -> m < m' -> d + m * a <= d' + m * a' -> d' + m' * a' <= d + m' * a ->
  a' <= a /\ d <= d'.
Proof.
move=> m0 lt h h'.
have a1 : a' <= a.
  have : (m' - m) * (a' - a) <= 0.
    have -> : (m' - m) * (a' - a) = d + m * a + (d' + m' * a') - (d' + m * a' + (d + m' * a)).
      by to_r R; ring.
    by rewrite subr_le0 ler_add.
  by rewrite pmulr_rle0 ?subr_gt0 // subr_le0.
split=> //; apply: le_trans (_ : d' + m * a' - m * a <= _); first by rewrite ler_subr_addr.
by rewrite -addrA ger_addl subr_le0 ler_wpmul2l.
Qed.
End Bridge.

Lemma nearest_kernel (R : rcfType) m n (D : 'M[R]_(n, m)) (y x : 'cV[R]_n) : D^T *m x = 0 ->
  (forall z, D^T *m z = 0 -> len (y - x) <= len (y - z)) -> x = y - proj D *m y.
Proof.
move=> dx mn; set z := y - proj D *m y.
have dz : D^T *m z = 0 by rewrite mulmxBr proj_normal subrr.
apply/esym/eqP; rewrite -subr_eq0 -nrm2_eq0 eq_le nrm2_ge0 andbT.
have dw : D^T *m (z - x) = 0 by rewrite mulmxBr dz dx subrr.
have h : nrm2 (y - x) <= nrm2 (y - z) by rewrite -!len_sq ler_expn2r ?nnegrE ?len_ge0 ?mn.
have yz : y - z = proj D *m y by rewrite /z opprB addrC subrK.
move: h; rewrite (_ : y - x = (y - z) + (z - x)); last by rewrite addrA subrK.
rewrite nrm2D yz -addrA ger_addl; have [v ->] := proj_img D y.
by rewrite dot_mulmx dw dot0r mulr0 add0r.
Qed.

(** The divergence or, for the other component, the curl is zero. *)
Definition vanishes (R : rcfType) (sc : SC) (c : string) (f : seq R) : Prop :=
  (c = "divergence"%string -> exists n, get_divergence sc f = Ok (zerof R n)) /\
  (c <> "divergence"%string -> exists n, get_curl sc f = Ok (zerof R n)).

Section Runs.
Variable R : rcfType.
Variables (nodes : list Z) (E : list (Z * Z)) (T : list (list Z)) (nf : dict Z fdict)
          (ef : dict (Z * Z) fdict) (sc : SC).
Hypothesis H : make_sc nodes E T nf ef = Ok sc.

Lemma vanishesP c k A : get_shift_operator sc c k = Ok (Csr A) -> forall f : seq R, size f = length E ->
  mv A f = zerof R (sh0 A) <-> vanishes sc c f.
Proof.
move=> eA f sf; have [k1 k2] := C46_kernel H eA sf; rewrite /vanishes.
have dg := divergence_Ok H sf; have cu := curl_Ok H sf.
have zn n m (u : 'cV[R]_n) : unvec u = zerof R m -> unvec u = zerof R n.
  by move=> e; rewrite e; have := congr1 size e; rewrite size_unvec size_nseq => ->.
split=> [z|[z1 z2]].
  by split=> hc; [move/(k1 hc): z|move/(k2 hc): z]; eexists; eassumption.
have [hc|hc] := String.eqb_spec c "divergence".
  by apply/(k1 hc); have [n] := z1 hc; rewrite dg => -[/zn ->].
by apply/(k2 hc); have [n] := z2 hc; rewrite cu => -[/zn ->].
Qed.

Lemma vanishes_B1 (f : seq R) : size f = length E ->
  vanishes sc "divergence" f <-> toM R (length nodes) (length E) (sc_B1 sc) *m vec (length E) f = 0.
Proof.
move=> sf; rewrite /vanishes (divergence_Ok H) //; split=> [[/(_ erefl)[n [e]] _]|->].
  have nn : length nodes = n by have := congr1 size e; rewrite size_unvec size_nseq.
  by apply: unvec_inj; rewrite e -zerof_unvec nn.
by split=> // _; exists (length nodes); rewrite zerof_unvec.
Qed.
Lemma vanishes_B2 c (f : seq R) : c <> "divergence"%string -> size f = length E ->
  vanishes sc c f <-> (toM R (length E) (length T) (sc_B2 sc))^T *m vec (length E) f = 0.
Proof.
move=> hc sf; rewrite /vanishes (curl_Ok H) //; split=> [[_ /(_ hc)[n [e]]]|->].
  have nn : length T = n by have := congr1 size e; rewrite size_unvec size_nseq.
  by apply: unvec_inj; rewrite e -zerof_unvec nn.
by split=> // _; exists (length T); rewrite zerof_unvec.
Qed.
Lemma run_flow_size pow10 randn solver (flow snr : seq R) c num order mu r i j :
  denoise_l1 pow10 randn solver sc flow c num snr order mu = Ok r -> (i < size snr)%N -> (j < Z.to_nat num)%N ->
  size flow = length E.
Proof.
move=> e li lj.
have e' : trend_call pow10 randn solver (fun _ _ _ _ => Raise NonFinite) (fun _ => Z0) (fun _ _ _ _ => [::]) sc
  (TL1 flow c num snr order mu) = Ok r by [].
by have [_ [_ [_ [_ [_ /(_ i li)[_ [/(_ j lj)[_ ->]]]]]]]] := C76_history_entries H e'.
Qed.

Lemma shift_some c k : Z.le Z0 k -> exists A, get_shift_operator sc c k = Ok (Csr A).
Proof. by move=> k0; have [_ [_ [_ /(_ k k0)[A [A' [e _]]]]]] := C46_orders R H c; exists A. Qed.
Lemma shift_order c k A : get_shift_operator sc c k = Ok (Csr A) -> Z.le Z0 k.
Proof. by rewrite /get_shift_operator; case: Z.ltb_spec. Qed.
End Runs.

(** The component that a large weight removes. *)
Definition removed (c : string) : string := if String.eqb c "divergence" then "gradient"%string else "curl"%string.

(** Beyond a certain weight, which depends on the network, the component and the order but not on the flow or the noise,
    the l1 filter removes the whole gradient (or curl) component and changes nothing else. *)
Theorem C97_l1_large_weight :
  forall (R : rcfType) (pow10 : R -> R) randn solver, (forall i j n, size (randn i j n) = n) ->
    solver_contract solver ->
  forall lstsq rint, lstsq_contract lstsq ->
  forall nodes E T nf ef sc, make_sc nodes E T nf ef = Ok sc ->
  forall c order, exists C, 0 <= C /\
  forall (flow snr : seq R) num mu r, C < mu ->
    denoise_l1 pow10 randn solver sc flow c num snr order mu = Ok r ->
    forall i j, (i < size snr)%N -> (j < Z.to_nat num)%N ->
      let y := noisy_flow pow10 flow (length E) snr`_i (randn i j (length E)) in
      let x := nth [::] (nth [::] (trend_responses r) i) j in
      vanishes sc c x /\
      exists g, get_component_flow lstsq rint sc y (removed c) false 2 = Ok g /\ x = subf y g.
Proof.
move=> R pow10 randn solver sr SC0 lstsq rint LC nodes E T nf ef sc H c order.
case: (Z.leb_spec0 Z0 order) => [k0|k0]; last first.
  exists 0; split=> // flow snr num mu r mu0 e i j li lj.
  by have [A [eA _]] := C49_l1_estimates sr SC0 H (ltW mu0) e; case: k0; exact: shift_order eA.
have [A eA] := shift_some R H c k0; have dA := shift_dims H eA.
have [C [C0 h]] := @penalty_flows R A (length E) [::] dA.
exists C; split=> // flow snr num mu r cm e i j li lj y x.
have mu0 : 0 <= mu by apply: le_trans C0 _; exact: ltW.
have [A' [eA' [_ hr]]] := C49_l1_estimates sr SC0 H mu0 e.
have AE : A' = A by move: eA'; rewrite eA => -[->].
have [sx [mn _]] := hr i j li lj; rewrite AE -/y -/x in sx mn.
have z0 : mv A (zerof R (length E)) = zerof R (sh0 A).
  by rewrite (mvE _ erefl (esym dA)) !zerof_unvec unvecK mulmx0.
have sy : size y = length E by rewrite /y /noisy_flow size_addf; exact: (run_flow_size H e li lj).
have [||h1 h2] := h mu y x (zerof R (length E)) cm sy sx (size_nseq _ _) _ z0; first by [].
  by move=> z sz _; exact: mn.
have vx : vanishes sc c x by apply/(vanishesP H eA sx).
split=> //.
have nz (z : 'cV[R]_(length E)) : vanishes sc c (unvec z) ->
    len (vec (length E) y - vec (length E) x) <= len (vec (length E) y - z).
  move=> vz; have sz : size (unvec z) = length E by rewrite size_unvec.
  by rewrite -(dist_len sy sx) -[X in _ - X]unvecK -(dist_len sy sz); apply: h2 => //; exact/(vanishesP H eA sz).
have su (z : 'cV[R]_(length E)) : size (unvec z) = length E by rewrite size_unvec.
rewrite /removed; case: String.eqb_spec => hc.
  rewrite (compG H LC) //; eexists; split; first reflexivity.
  rewrite /maybe_round -{1}(vecK sx) -{1}(vecK sy) subf_unvec; congr unvec.
  rewrite hc in vx nz; apply: nearest_kernel => [|z]; rewrite trmxK; first exact/(vanishes_B1 H sx).
  by move=> dz; apply: nz; apply/(vanishes_B1 H (su z)); rewrite unvecK.
rewrite (compC H LC) //; eexists; split; first reflexivity.
rewrite /maybe_round -{1}(vecK sx) -{1}(vecK sy) subf_unvec; congr unvec.
apply: nearest_kernel => [|z]; first exact/(vanishes_B2 H hc sx).
by move=> dz; apply: nz; apply/(vanishes_B2 H hc (su z)); rewrite unvecK.
Qed.
Print Assumptions C97_l1_large_weight.

(** Two runs of the l1 filter on the same noise. *)
Theorem C97_l1_more_weight :
  forall (R : rcfType) (pow10 : R -> R) randn solver, (forall i j n, size (randn i j n) = n) ->
    solver_contract solver ->
  forall nodes E T nf ef sc, make_sc nodes E T nf ef = Ok sc ->
  forall (flow snr : seq R) c num order mu mu' r r', 0 <= mu -> mu < mu' ->
    denoise_l1 pow10 randn solver sc flow c num snr order mu = Ok r ->
    denoise_l1 pow10 randn solver sc flow c num snr order mu' = Ok r' ->
  exists A, get_shift_operator sc c order = Ok (Csr A) /\
    forall i j, (i < size snr)%N -> (j < Z.to_nat num)%N ->
      let y := noisy_flow pow10 flow (length E) snr`_i (randn i j (length E)) in
      let x := nth [::] (nth [::] (trend_responses r) i) j in
      let x' := nth [::] (nth [::] (trend_responses r') i) j in
      l1 (mv A x') <= l1 (mv A x) /\ dist y x <= dist y x'.
Proof.
move=> R pow10 randn solver sr SC0 nodes E T nf ef sc H flow snr c num order mu mu' r r' mu0 lt e e'.
have [A [eA [_ h]]] := C49_l1_estimates sr SC0 H mu0 e.
have [A' [eA' [_ h']]] := C49_l1_estimates sr SC0 H (le_trans mu0 (ltW lt)) e'.
have AE : A' = A by move: eA'; rewrite eA => -[->].
exists A; split=> // i j li lj y x x'.
have [sx [mn _]] := h i j li lj; have [sx' [mn' _]] := h' i j li lj; rewrite AE -/x -/x' -/y in sx mn sx' mn'.
exact: exchange mu0 lt (mn _ sx') (mn' _ sx).
Qed.
Print Assumptions C97_l1_more_weight.

(** Flows with the same values at the observed edges, compared with the flow that is zero elsewhere. *)
Lemma unobserved_energy (R : rcfType) n (S : seq nat) (flow y x x' : seq R) :
  size y = n -> size x' = n ->
  (forall k, (k < n)%N -> k \in S -> y`_k = flow`_k) -> (forall k, (k < n)%N -> k \notin S -> y`_k = 0) ->
  (forall k, (k < n)%N -> k \in S -> x'`_k = flow`_k) -> size x = n ->
  (forall k, (k < n)%N -> k \in S -> x`_k = flow`_k) ->
  energy x = energy y + dist y x ^+ 2 /\ (dist y x <= dist y x' <-> energy x <= energy x').
Proof.
move=> sy sx' yo yn xo' sx xo.
have e (z : seq R) : size z = n -> (forall k, (k < n)%N -> k \in S -> z`_k = flow`_k) ->
    energy z = energy y + dist y z ^+ 2.
  move=> sz zo; rewrite /dist sqr_sqrtr ?energy_ge0 //.
  have eE (w : seq R) : size w = n -> energy w = nrm2 (vec n w) by move=> sw; rewrite -{1}(vecK sw) energy_unvec.
  have -> : subf y z = unvec (vec n y - vec n z) by rewrite -subf_unvec !vecK.
  rewrite energy_unvec !eE // /nrm2 /dot -big_split /=.
  apply: eq_bigr => k _; rewrite !mxE; have [ks|ks] := boolP ((k : nat) \in S).
    by rewrite yo // zo // subrr mulr0 addr0.
  by rewrite yn // mul0r add0r sub0r mulrNN.
split; first exact: e.
by rewrite (e x) // (e x') // ler_add2l ler_sqr ?nnegrE ?dist_ge0.
Qed.

(** Two interpolations of the same sample. *)
Theorem C97_interpolation_more_weight :
  forall (R : rcfType) solver_eq (floor : R -> Z) choice, solver_eq_contract solver_eq ->
  forall nodes E T nf ef sc, make_sc nodes E T nf ef = Ok sc ->
  forall (flow ratio : seq R) c num order mu mu' r r', 0 <= mu -> mu < mu' ->
    interpolate_l1 solver_eq floor choice sc flow c ratio num order mu = Ok r ->
    interpolate_l1 solver_eq floor choice sc flow c ratio num order mu' = Ok r' ->
  exists A, get_shift_operator sc c order = Ok (Csr A) /\
    forall i j, (i < size ratio)%N -> (j < Z.to_nat num)%N ->
      let x := nth [::] (nth [::] (trend_responses r) i) j in
      let x' := nth [::] (nth [::] (trend_responses r') i) j in
      l1 (mv A x') <= l1 (mv A x) /\ energy x <= energy x'.
Proof.
move=> R solver_eq floor choice [FC MC] nodes E T nf ef sc H flow ratio c num order mu mu' r r' mu0 lt e e'.
have mu0' : 0 <= mu' by apply: le_trans mu0 (ltW lt).
have [A [eA [dA [_ h]]]] := interp_cells H e; have [A' [eA' [_ [_ h']]]] := interp_cells H e'.
have AE : A' = A by move: eA'; rewrite eA => -[->].
rewrite AE in h'; exists A; split=> // i j li lj x x'.
have [m0 [m1 [sf [sx ex]]]] := h i j li lj; have [_ [_ [_ [sx' ex']]]] := h' i j li lj.
move: ex ex'; set S := choice _ _ _ _; set rws := sampling_matrix _; set y := mkseq _ _ => ex ex'.
have sy : size y = sh1 A by rewrite size_mkseq dA.
have [sxy ag] := FC _ _ _ _ _ sy mu0 ex; have mn := MC _ _ _ _ _ sy mu0 ex.
have [sxy' ag'] := FC _ _ _ _ _ sy mu0' ex'; have mn' := MC _ _ _ _ _ sy mu0' ex'.
have [l d] := exchange mu0 lt (mn _ sxy' ag') (mn' _ sxy ag); split=> //.
have sE : size y = length E by rewrite size_mkseq.
have obs (z : seq R) : agrees rws z y -> forall k, (k < length E)%N -> k \in S -> z`_k = flow`_k.
  by move=> az k lk ks; have := proj1 (agreesP _ _ _ _) az k lk ks; rewrite nth_mkseq // ks.
have sup k : (k < length E)%N -> k \notin S -> y`_k = 0 by move=> lk /negbTE ks; rewrite nth_mkseq // ks.
have yo k : (k < length E)%N -> k \in S -> y`_k = flow`_k by move=> lk ks; rewrite nth_mkseq // ks.
have [_ sm] := unobserved_energy sE sx' yo sup (obs _ ag') sx (obs _ ag).
exact/sm.
Qed.
Print Assumptions C97_interpolation_more_weight.

(** Beyond a certain weight, if the observed values can be completed to a flow without divergence (curl), the
    interpolation is the smallest such flow. *)
Theorem C97_interpolation_large_weight :
  forall (R : rcfType) solver_eq (floor : R -> Z) choice, solver_eq_contract solver_eq ->
    floor_contract floor -> choice_contract choice ->
  forall nodes E T nf ef sc, make_sc nodes E T nf ef = Ok sc ->
  forall (flow ratio : seq R) c num order i j, (i < size ratio)%N -> (j < Z.to_nat num)%N ->
  exists (observed : seq nat) C, 0 <= C /\
  forall mu r, C < mu -> interpolate_l1 solver_eq floor choice sc flow c ratio num order mu = Ok r ->
    let x := nth [::] (nth [::] (trend_responses r) i) j in
    let completes z := size z = length E /\ (forall k, k \in observed -> z`_k = flow`_k) in
    completes x /\ uniq observed /\ (forall k, k \in observed -> (k < length E)%N) /\
    ((size observed)%:R <= (length E)%:R * ratio`_i < (size observed)%:R + 1) /\
    ((exists z, completes z /\ vanishes sc c z) ->
      vanishes sc c x /\ forall z, completes z -> vanishes sc c z -> energy x <= energy z).
Proof.
move=> R solver_eq floor choice [FC MC] FL CC nodes E T nf ef sc H flow ratio c num order i j li lj.
pose m := floor ((length E)%:R * ratio`_i); exists (choice i j (length E) (Z.to_nat m)).
case: (Z.leb_spec0 Z0 order) => [k0|k0]; last first.
  by exists 0; split=> // mu r mu0 e; have [A [eA _]] := interp_cells H e; case: k0; exact: shift_order eA.
have [A eA] := shift_some R H c k0; have dA := shift_dims H eA.
have [C [C0 h]] := @penalty_flows R A (length E) (choice i j (length E) (Z.to_nat m)) dA.
exists C; split=> // mu r cm e x.
have mu0 : 0 <= mu by apply: le_trans C0 _; exact: ltW.
have [A' [eA' [_ [_ hr]]]] := interp_cells H e.
have AE : A' = A by move: eA'; rewrite eA => -[->].
have [m0 [m1 [sf [sx ex]]]] := hr i j li lj; rewrite AE -/x -/m in m0 m1 sx ex.
move: h ex; set S := choice _ _ _ _; set rws := sampling_matrix _; set y := mkseq _ _ => h ex completes.
have sy : size y = sh1 A by rewrite size_mkseq dA.
have [sxy ag] := FC _ _ _ _ _ sy mu0 ex; have mn := MC _ _ _ _ _ sy mu0 ex.
have [|us [ss /allP al]] := CC i j (length E) (Z.to_nat m); first by lia.
have sE : size y = length E by rewrite size_mkseq.
have yo k : (k < length E)%N -> k \in S -> y`_k = flow`_k by move=> lk ks; rewrite nth_mkseq // ks.
have sup k : (k < length E)%N -> k \notin S -> y`_k = 0 by move=> lk /negbTE ks; rewrite nth_mkseq // ks.
have xo k : k \in S -> x`_k = flow`_k.
  move=> ks; have lk := al _ ks; rewrite -yo //.
  exact: (proj1 (agreesP _ _ _ _) ag k lk ks).
have mE : zmul m 1 = (size S)%:R :> R.
  by rewrite ss /zmul -[X in _ = X]/((Posz (Z.to_nat m))%:~R); congr (_ *~ _); lia.
split; first by split. split; first exact: us. split; first exact: al.
split; first by rewrite -mE; exact: FL.
move=> [z0 [[sz0 zo] vz0]].
have [||h1 h2] := h mu y x z0 cm sE sx sz0 _ (proj2 (vanishesP H eA sz0) vz0).
- by move=> k lk ks; rewrite xo // zo.
- move=> z sz az; apply: mn; first by rewrite sz sE.
  apply/agreesP => k lk ks; rewrite az // zo // yo //.
split; first exact/(vanishesP H eA sx).
move=> z [sz oz] vz; have [_ [em _]] := unobserved_energy sE sz yo sup (fun k _ => oz k) sx (fun k _ => xo k).
apply: em; apply: h2 => //; last exact/(vanishesP H eA sz).
by move=> k lk ks; rewrite oz // zo.
Qed.
Print Assumptions C97_interpolation_large_weight.

(** The l2 filter: more weight, less divergence, but never none. *)
Theorem C97_l2_weight :
  forall (R : rcfType) (pow10 : R -> R) randn, (forall i j n, size (randn i j n) = n) ->
  forall nodes E T nf ef sc, make_sc nodes E T nf ef = Ok sc -> (0 < length E)%N ->
  forall (flow snr : seq R) c c' num mu mu' r r', 0 <= mu -> mu <= mu' ->
    denoise_l2 pow10 randn sc flow c num snr mu = Ok r -> denoise_l2 pow10 randn sc flow c' num snr mu' = Ok r' ->
  forall i j, (i < size snr)%N -> (j < Z.to_nat num)%N ->
    let y := noisy_flow pow10 flow (length E) snr`_i (randn i j (length E)) in
    let x := nth [::] (nth [::] (trend_responses r) i) j in
    let x' := nth [::] (nth [::] (trend_responses r') i) j in
    exists d d' dy, get_divergence sc x = Ok d /\ get_divergence sc x' = Ok d' /\ get_divergence sc y = Ok dy /\
      energy d' <= energy d /\ energy x' <= energy x /\ dist y x <= dist y x' /\
      2%:R * mu * energy d <= energy y /\
      (d = zerof R (length nodes) <-> dy = zerof R (length nodes)).
Proof.
move=> R pow10 randn sr nodes E T nf ef sc H M0 flow snr c c' num mu mu' r r' mu0 le e e' i j li lj y.
have mu1 : 0 <= mu' := le_trans mu0 le.
have run k m q : 0 <= m -> denoise_l2 pow10 randn sc flow k num snr m = Ok q ->
    size flow = length E /\ nth [::] (nth [::] (trend_responses q) i) j =
      unvec (invmx (1%:M + m *: p_mat R nodes E T sc "L1L") *m vec (length E) y).
  move=> m0 eq; have eq' : trend_call pow10 randn (fun _ _ _ => Raise NonFinite) (fun _ _ _ _ => Raise NonFinite)
    (fun _ => Z0) (fun _ _ _ _ => [::]) sc (TL2 flow k num snr m) = Ok q by [].
  have [_ [_ [_ [_ [_ /(_ i li)[_ [/(_ j lj)[_ sf]]]]]]]] := C76_history_entries H eq'.
  split=> //; case ec : (components R sc k) => [comp|]; last by move: eq; rewrite /denoise_l2 ec.
  have n0 : Z.lt Z0 num by lia.
  have s0 : snr <> [::] by move=> sn; rewrite sn in li.
  by move: eq; rewrite (l2_run pow10 sr H M0 sf m0 ec n0 s0) => -[<-]; rewrite l2_entry.
have [sf xE] := run _ _ _ mu0 e; have [_ xE'] := run _ _ _ mu1 e'.
have sy : size y = length E by rewrite size_addf.
move=> x x'; rewrite /x /x' xE xE'; set P := p_mat _ _ _ _ _ _.
have PE : P = (B1m R nodes E sc)^T *m B1m R nodes E sc by [].
have sP : P^T = P := p_sym R nodes E T sc "L1L".
have pP : forall x : 'cV[R]_(length E), 0 <= dot x (P *m x) := p_psd nodes T sc "L1L".
have qE (v : 'cV[R]_(length E)) : dot v (P *m v) = nrm2 (B1m R nodes E sc *m v) by rewrite PE -mulmxA dot_mulmxr trmxK.
have [m1 [m2 m3]] := shift_mono sP pP (vec (length E) y) mu0 le; rewrite !qE in m2.
have bal := shift_balance pP (vec (length E) y) mu0; rewrite qE in bal.
exists (unvec (B1m R nodes E sc *m (invmx (1%:M + mu *: P) *m vec (length E) y))).
exists (unvec (B1m R nodes E sc *m (invmx (1%:M + mu' *: P) *m vec (length E) y))).
exists (unvec (B1m R nodes E sc *m vec (length E) y)).
split; first by rewrite (divergence_Ok H) ?size_unvec // unvecK.
split; first by rewrite (divergence_Ok H) ?size_unvec // unvecK.
split; first by rewrite (divergence_Ok H).
rewrite !energy_unvec; split; first exact: m2. split; first exact: m1.
split; first by rewrite /dist -{1 3}(vecK sy) !subf_unvec !energy_unvec; apply: ler_wsqrtr.
split.
  rewrite -{2}(vecK sy) energy_unvec bal -addrA addrCA ler_addl addr_ge0 ?nrm2_ge0 // mulr_ge0 ?nrm2_ge0 //.
  exact: sqr_ge0.
rewrite zerof_unvec; split=> /unvec_inj z; congr unvec; apply/eqP; rewrite -nrm2_eq0.
  rewrite -(shift_sol pP mu0 (vec (length E) y)) mulmxDr z add0r -scalemxAr PE -!mulmxA z !mulmx0 scaler0.
  by rewrite nrm2_0.
have [h _] := @l2_div R nodes E T sc mu mu0 (vec (length E) y).
by rewrite eq_le nrm2_ge0 andbT; apply: le_trans h _; rewrite z nrm2_0.
Qed.
Print Assumptions C97_l2_weight.
