(** * Properties of build_matern_kernel *)

From Coq Require Import ZArith String List.
From mathcomp Require Import all_ssreflect all_algebra all_real_closed ssrZ zify.
From Coq Require Import Ring Field.
From Verif Require Import RingTac Py PyFacts ReaderFacts Complex ComplexSpec ComplexFacts ExampleData
  LinAlg Spectral Signal SignalSpec Bridge Eigen EigenSpec IntEigen EigenFacts FilterSpec Gp GpSpec GpFacts
  Compute Props_Signal Props_Hodge Props_Eigen Props_Gp.

Set Implicit Arguments.
Unset Strict Implicit.
Unset Printing Implicit Defensive.

Import GRing.Theory Num.Theory Order.Theory.
Local Open Scope ring_scope.
Delimit Scope Z_scope with zz.

Lemma bindOk A B (x : A) (f : A -> res B) : (let! y := Ok x in f y) = f x.
Proof. by []. Qed.

Section Orthonormal.
Variable R : rcfType.

Lemma orthonormalP (l : seq (seq R)) : orthonormal l <->
  uniq l /\ forall x y, x \in l -> y \in l -> dotp x y = (x == y)%:R.
Proof.
split=> [on|[u h] i j hi hj]; last by rewrite h ?mem_nth // nth_uniq.
have U : uniq l.
  apply/(uniqP [::]) => i j hi hj e; have := on i i hi hi; have := on i j hi hj; rewrite e.
  rewrite (on j j) // eqxx; case: eqP => // _ /eqP; by rewrite oner_eq0.
split=> // x y hx hy; rewrite -{1}(nth_index [::] hx) -{1}(nth_index [::] hy) on ?index_mem //.
congr (_%:R); congr nat_of_bool; apply/eqP/eqP => [e|->//].
by rewrite -(nth_index [::] hx) e nth_index.
Qed.

Lemma orthonormal_perm (l l' : seq (seq R)) : perm_eq l l' -> orthonormal l -> orthonormal l'.
Proof.
move=> p /orthonormalP[u h]; apply/orthonormalP; rewrite -(perm_uniq p); split=> // x y.
by rewrite -!(perm_mem p); exact: h.
Qed.

Lemma foldl_min_le (l : seq R) a : foldl Num.min a l <= a /\ (forall x, x \in l -> foldl Num.min a l <= x) /\
  foldl Num.min a l \in a :: l.
Proof.
elim: l a => [|b l IH] a /=; first by rewrite mem_head; split.
case: (IH (Num.min a b)) => h1 [h2 h3]; split; first by apply: le_trans h1 _; rewrite le_minl lexx.
split=> [x|].
  by rewrite inE => /predU1P[->|/h2 //]; apply: le_trans h1 _; rewrite le_minl lexx orbT.
move: h3; rewrite !inE => /predU1P[->|->]; last by rewrite !orbT.
by rewrite /Num.min /Order.min; case: ifP; rewrite eqxx ?orbT.
Qed.

Lemma foldl_max_ge (l : seq R) a : a <= foldl Num.max a l /\ (forall x, x \in l -> x <= foldl Num.max a l) /\
  foldl Num.max a l \in a :: l.
Proof.
elim: l a => [|b l IH] a /=; first by rewrite mem_head; split.
case: (IH (Num.max a b)) => h1 [h2 h3]; split; first by apply: le_trans _ h1; rewrite le_maxr lexx.
split=> [x|].
  by rewrite inE => /predU1P[->|/h2 //]; apply: le_trans _ h1; rewrite le_maxr lexx orbT.
move: h3; rewrite !inE => /predU1P[->|->]; last by rewrite !orbT.
by rewrite /Num.max /Order.max; case: ifP; rewrite eqxx ?orbT.
Qed.

(** A flow orthogonal to a list of flows that represents it is zero. *)
Lemma lincomb_zero n w (us : seq (seq R)) f : (forall u, u \in us -> size u = n) ->
  f = lincomb n w us -> (forall u, u \in us -> dotp u f = 0) -> f = zerof R n.
Proof.
move=> su e z; have sf : size f = n by rewrite e size_mkseq.
have ff : \sum_(k < n) f`_k * f`_k = 0.
  transitivity (\sum_(k < n) \sum_(i < size us) w`_i * ((nth [::] us i)`_k * f`_k)).
    apply: eq_bigr => k _; rewrite {1}e nth_mkseq // big_distrl /=.
    by apply: eq_bigr => i _; rewrite mulrA.
  rewrite exchange_big /= big1 // => i _; rewrite -big_distrr /=.
  have m : nth [::] us i \in us by apply: mem_nth.
  by have := z _ m; rewrite /dotp (su _ m) => ->; rewrite mulr0.
apply: (@eq_from_nth _ 0); rewrite ?size_nseq // sf => k hk; rewrite nth_nseq hk.
have nn : forall j : 'I_n, true -> 0 <= f`_j * f`_j by move=> j _; rewrite -expr2 sqr_ge0.
have := @psumr_eq0P _ _ _ _ nn ff (Ordinal hk) isT => /= h.
by apply/eqP; rewrite -[_ == 0]orbb -mulf_eq0; apply/eqP.
Qed.

End Orthonormal.

Section Matern.
Variable R : rcfType.
Variable exp : R -> R.
Variable pow : R -> R -> R.
Variables softplus inv_softplus : R -> R.
Variable eigsh : forall n, 'M[R]_n -> seq (R * 'cV[R]_n).
Hypothesis XC : exp_contract exp.
Hypothesis PC : pow_contract pow.
Hypothesis SC : positive_contract softplus inv_softplus.
Hypothesis EC : eigsh_contract eigsh.
Add Field R_field3 : (mc_field R).

(** Factor of an eigenvector with eigenvalue [x]: the Matern factor times the output scale. *)
Definition scaled (m : gpmodel R) (v : string -> R) (c : comp) (x : R) : R :=
  softplus (m_raw_scale m) * multiplier exp pow Matern v c x.

Section Complex.
Variables (nodes : list Z) (E : list (Z * Z)) (T : list (list Z)) (nf : dict Z fdict) (ef : dict (Z * Z) fdict) (sc : Complex.SC).
Hypothesis H : make_sc nodes E T nf ef = Ok sc.
Hypothesis M0 : (0 < length E)%N.
Hypothesis O : oriented (length nodes) E T.
Variables hs cs gs : eigpairs R.
Hypothesis eh : get_component_eigenpair eigsh sc "harmonic" (milli R) = Ok hs.
Hypothesis ec : get_component_eigenpair eigsh sc "curl" (milli R) = Ok cs.
Hypothesis eg : get_component_eigenpair eigsh sc "gradient" (milli R) = Ok gs.

Lemma n_edges : sh1 (sc_B1 sc) = length E. Proof. by case: (B1_dims H). Qed.

Lemma pairs_facts : (forall p, p \in hs ++ gs ++ cs -> size p.2 = length E /\ 0 <= p.1) /\
  orthonormal (vectors (hs ++ gs ++ cs)) /\
  forall f, size f = length E -> (forall p, p \in hs ++ gs ++ cs -> dotp p.2 f = 0) -> f = zerof R (length E).
Proof.
have et := eps64_milli R.
have m0 : 0 <= milli R by rewrite invr_ge0 ler0n.
have S : forall p, p \in hs ++ gs ++ cs -> size p.2 = length E /\ 0 <= p.1.
  have [LL eLL] : exists LL, lower_laplacian_matrix sc 1 = Ok (Csr LL) by eexists.
  have [LU eLU] : exists LU, upper_laplacian_matrix sc 1 = Ok (Csr LU) by eexists.
  have [LH eLH] : exists LH, hodge_laplacian_matrix sc 1 = Ok (Csr LH) by eexists.
  case: (C25_gradient_eigenpairs EC H M0 eLL eLH et) => ps; rewrite eg => -[[<-] [hg _]].
  case: (C25_curl_eigenpairs EC H M0 eLU eLH et) => ps'; rewrite ec => -[[<-] [hc _]].
  case: (C25_harmonic_eigenpairs EC H M0 eLH et) => ps''; rewrite eh => -[[<-] [hh _]].
  move=> [x u]; rewrite !mem_cat => /or3P[] /=.
  - move=> /hh[-> [_ [[lam [_ [/andP[l0 _] ->]]] _]]]; split=> //; by case: ifP.
  - by move=> /hg[-> [_ [/ltW/(le_trans m0) -> _]]].
  - by move=> /hc[-> [_ [/(le_trans m0) -> _]]].
split=> //; split.
  have := C26_orthonormal_all EC H M0 O erefl et (or_intror (milli_fraction R)) eh ec eg.
  apply: orthonormal_perm; rewrite /vectors !map_cat perm_cat2l.
  by rewrite perm_catC.
move=> f sf z.
case: (proj1 (C28_embeddings EC H M0 O eh ec eg f) sf) => fh [fc [fg [_ [_ [_ [_ [_ ef']]]]]]].
have up : forall u, u \in vectors hs ++ vectors cs ++ vectors gs -> exists2 p, p \in hs ++ gs ++ cs & p.2 = u.
  by move=> u; rewrite !mem_cat => /or3P[] /mapP[p hp ->]; exists p => //; rewrite !mem_cat hp ?orbT.
apply: (lincomb_zero _ ef') => u /up[p hp <-]; last exact: z.
by case: (S p hp).
Qed.

(** The kernel computed. *)
Lemma matern_matrixE m v : (k_type (m_kernel m) = Matern \/ k_type (m_kernel m) = MaternNonHC) ->
  reads softplus (m_kernel m) v -> positive (m_kernel m) v ->
  let n := length E in
  let G := covariance (scaled m v) hs gs cs in
  exists lo hi, matern_matrix pow softplus eigsh sc m =
    Ok (mkseq (fun i => mkseq (G i) n) n,
        if isclose lo hi then VScalar 0 else VArray (mkseq (fun i => G i i) n)) /\
    (lo \in mkseq (fun i => G i i) n) /\ (hi \in mkseq (fun i => G i i) n) /\
    forall i, (i < n)%N -> lo <= G i i <= hi.
Proof.
move=> T0 r p n G.
have N : param_names (k_type (m_kernel m)) = param_names Matern by case: T0 => ->.
have nz : forall s, List.In s (param_names Matern) -> (v s == 0) = false.
  by move=> s hs'; apply/negbTE; rewrite gt_eqF // p // N.
rewrite /matern_matrix /model_parameters !r ?N /=; try tauto.
rewrite eh eg ec /= !nz /=; try tauto.
rewrite n_edges -/n.
set k0 := [seq v "mu"%string | _ <- hs]; set k1 := [seq _ | q <- gs]; set k2 := [seq _ | q <- cs].
pose K i j := softplus (m_raw_scale m) * (v "h"%string * weighted_product hs k0 i j
  + v "h_down"%string * weighted_product gs k1 i j + v "h_up"%string * weighted_product cs k2 i j).
have KG : forall i j, K i j = G i j.
  move=> i j; rewrite /K /G /covariance !mulrDr !mulrA.
  have -> : k0 = [seq (fun _ : R => v "mu"%string) x | x <- [seq q.1 | q <- hs]] by rewrite -map_comp.
  have -> : k1 = [seq matern_weight pow (v "mu_down"%string) (v "kappa_down"%string) x | x <- [seq q.1 | q <- gs]] by rewrite -map_comp.
  have -> : k2 = [seq matern_weight pow (v "mu_up"%string) (v "kappa_up"%string) x | x <- [seq q.1 | q <- cs]] by rewrite -map_comp.
  congr (_ + _ + _); apply: scale_mix => q _; rewrite /scaled /= ?mulrA //; by rewrite /matern_weight div2.
have e1 : mkseq (fun i => K i i) n = mkseq (fun i => G i i) n by apply: eq_map => i; exact: KG.
have e2 : mkseq (fun i => mkseq (K i) n) n = mkseq (fun i => mkseq (G i) n) n.
  by apply: eq_map => i; apply: eq_map => j; exact: KG.
rewrite e1 e2.
case eV: (mkseq (fun i => G i i) n) => [|a V].
  by move: M0; rewrite -/n -(size_mkseq (fun i => G i i) n) eV.
rewrite /=; exists (foldl Num.min a V), (foldl Num.max a V).
case: (foldl_min_le V a) => l1 [l2 l3]; case: (foldl_max_ge V a) => h1 [h2 h3].
split; first by []. split; first by []. split; first by []. move=> i hi.
have : G i i \in a :: V by rewrite -eV; apply: map_f; rewrite mem_iota.
by rewrite inE => /predU1P[->|h]; rewrite ?l1 ?h1 // l2 // h2.
Qed.

(** ** C67 *)

(** For a trained Matern model on an oriented complex, the matrix is symmetric and positive definite; it multiplies every
    harmonic, gradient and curl eigenvector by its factor; the second result is the diagonal, or the number 0 if its
    smallest and largest entries are close in the sense of np.isclose. *)
Theorem C67_matern_matrix :
  forall m v, (k_type (m_kernel m) = Matern \/ k_type (m_kernel m) = MaternNonHC) ->
  reads softplus (m_kernel m) v -> positive (m_kernel m) v ->
  let n := length E in
  exists K var, matern_matrix pow softplus eigsh sc m = Ok (K, var) /\ shaped K n n /\
    (forall i j, (i < n)%N -> (j < n)%N -> (nth [::] K i)`_j = (nth [::] K j)`_i) /\
    (forall w, size w = n -> w <> zerof R n -> 0 < quad K w) /\
    (forall p, p \in hs -> rmv K p.2 = scalef (scaled m v Harmonic p.1) p.2) /\
    (forall p, p \in gs -> rmv K p.2 = scalef (scaled m v Gradient p.1) p.2) /\
    (forall p, p \in cs -> rmv K p.2 = scalef (scaled m v Curl p.1) p.2) /\
    let d := mkseq (fun i => (nth [::] K i)`_i) n in
    exists lo hi, lo \in d /\ hi \in d /\ (forall x, x \in d -> lo <= x <= hi) /\
      var = if `|lo - hi| <= (10%:R ^+ 8)^-1 + (10%:R ^+ 5)^-1 * `|hi| then VScalar 0 else VArray d.
Proof.
move=> m v T0 r p n; case: (matern_matrixE T0 r p) => lo [hi [-> [lm [hm b]]]].
case: pairs_facts => F [on full].
set G := covariance (scaled m v) hs gs cs.
case: (covariance_spectrum (scaled m v) (fun q hq => proj1 (F q hq)) on) => sh [ah [ag [ac _]]].
have Ke : forall i j, (i < n)%N -> (j < n)%N -> (nth [::] (mkseq (fun i => mkseq (G i) n) n) i)`_j = G i j.
  by move=> i j a b'; rewrite nth_mkseq // nth_mkseq.
have N : param_names (k_type (m_kernel m)) = param_names Matern by case: T0 => ->.
have pos : forall c q, 0 <= q -> 0 < scaled m v c q.
  move=> c q q0; rewrite /scaled mulr_gt0 ?(proj1 SC) //.
  pose k' := mkKernel Matern 0 [::] [::] [::] (k_raw (m_kernel m)).
  by apply: (@mult_gt0 R exp pow softplus softplus k' v c q) => // s hs'; apply: p; rewrite N.
do 2 eexists; split; first by reflexivity.
split; first exact: sh.
split; first by move=> i j a b'; rewrite !Ke // /G covarianceC.
split; last first.
  split; first exact: ah. split; first exact: ag. split; first exact: ac.
  have -> : mkseq (fun i => (nth [::] (mkseq (fun i => mkseq (covariance (scaled m v) hs gs cs i) (length E)) (length E)) i)`_i) n
    = mkseq (fun i => G i i) n.
    by apply/eq_in_map => i; rewrite mem_iota => /andP[_ a]; rewrite Ke.
  exists lo, hi; split=> //; split=> //; split=> //.
  move=> x hx; have := hx; rewrite -index_mem size_mkseq => a.
  by rewrite -(nth_index 0 hx) nth_mkseq //; exact: b.
move=> w sw wn.
have -> : quad (mkseq (fun i => mkseq (covariance (scaled m v) hs gs cs i) (length E)) (length E)) w =
  \sum_(q <- hs) scaled m v Harmonic q.1 * dotp q.2 w ^+ 2 + \sum_(q <- gs) scaled m v Gradient q.1 * dotp q.2 w ^+ 2
  + \sum_(q <- cs) scaled m v Curl q.1 * dotp q.2 w ^+ 2.
  rewrite /quad.
  transitivity (\sum_(i < size w) \sum_(j < size w) w`_i * w`_j * G (nth 0%N (iota 0 n) i) (nth 0%N (iota 0 n) j)).
    apply: eq_bigr => i _; apply: eq_bigr => j _.
    by rewrite Ke -?sw // !nth_iota -?sw.
  have dd : forall q, q \in hs ++ gs ++ cs -> \sum_(i < size w) w`_i * q.2`_(nth 0%N (iota 0 n) i) = dotp q.2 w.
    move=> q hq; rewrite /dotp (proj1 (F q hq)) sw; apply: eq_bigr => i _.
    by rewrite nth_iota // mulrC.
  rewrite covariance_quad.
  congr (_ + _ + _); rewrite big_seq [RHS]big_seq; apply: eq_bigr => q hq; rewrite dd //;
    by rewrite !mem_cat hq ?orbT.
have nn : forall c (ps : eigpairs R), (forall q, q \in ps -> q \in hs ++ gs ++ cs) ->
    0 <= \sum_(q <- ps) scaled m v c q.1 * dotp q.2 w ^+ 2.
  move=> c ps sub; rewrite big_seq; apply: sumr_ge0 => q /sub /F[_ q0].
  by rewrite mulr_ge0 ?sqr_ge0 // ltW // pos.
have zz : forall c (ps : eigpairs R), (forall q, q \in ps -> q \in hs ++ gs ++ cs) ->
    \sum_(q <- ps) scaled m v c q.1 * dotp q.2 w ^+ 2 = 0 -> forall q, q \in ps -> dotp q.2 w = 0.
  move=> c ps sub e q hq; move: e => /eqP; rewrite big_seq psumr_eq0; last first.
    by move=> q' /sub /F[_ q0]; rewrite mulr_ge0 ?sqr_ge0 // ltW // pos.
  move=> /allP /(_ q hq); rewrite hq /= mulf_eq0 sqrf_eq0 gt_eqF //=; first by move/eqP.
  by apply: pos; case: (F q (sub q hq)).
have [s1 [s2 s3]] : (forall q, q \in hs -> q \in hs ++ gs ++ cs) /\ (forall q, q \in gs -> q \in hs ++ gs ++ cs) /\
   (forall q, q \in cs -> q \in hs ++ gs ++ cs) by split; [|split] => q hq; rewrite !mem_cat hq ?orbT.
rewrite lt_neqAle !addr_ge0 ?nn // andbT eq_sym; apply/negP.
rewrite paddr_eq0 ?addr_ge0 ?nn // paddr_eq0 ?nn // => /andP[/andP[/eqP z1 /eqP z2] /eqP z3].
apply: wn; apply: full => // q; rewrite !mem_cat => /or3P[] hq.
- exact: (zz Harmonic hs).
- exact: (zz Gradient gs).
- exact: (zz Curl cs).
Qed.

(** For a model with the Matern kernel built from the eigenpairs of the same complex, the matrix is the covariance matrix
    of the prior on all edges. *)
Theorem C67_prior_covariance :
  forall m v, k_type (m_kernel m) = Matern -> reads softplus (m_kernel m) v -> positive (m_kernel m) v ->
  k_rows (m_kernel m) = length E ->
  get_eigenpairs eigsh sc 1000%:R^-1 = Ok (k_harm (m_kernel m), k_grad (m_kernel m), k_curl (m_kernel m)) ->
  exists K mean var, matern_matrix pow softplus eigsh sc m = Ok (K, var) /\
    model_forward exp pow softplus m [seq Z.of_nat i | i <- iota 0 (length E)] = Ok (mean, K).
Proof.
move=> m v T0 r p nE; rewrite /get_eigenpairs eh eg ec /= => -[eqh eqg eqc].
case: (matern_matrixE (or_introl T0) r p) => lo [hi [-> _]].
case: pairs_facts => F _.
have ft : fit (m_kernel m).
  rewrite /fit -eqh -eqg -eqc; split; [|split] => [q hq|q hq|]; last by rewrite T0.
    by case: (F q) => //; rewrite mem_cat hq.
  by case: (F q) => //; rewrite mem_cat hq orbT.
have a : List.Forall (in_range (k_rows (m_kernel m))) [seq Z.of_nat i | i <- iota 0 (length E)].
  have L : forall (l : seq nat), (forall i, i \in l -> (i < length E)%N) -> List.Forall (in_range (length E)) [seq Z.of_nat i | i <- l].
    elim=> [|i l IH] h /=; constructor; first by have := h i (mem_head _ _); rewrite /in_range; lia.
    by apply: IH => j hj; apply: h; rewrite inE hj orbT.
  by rewrite nE; apply: L => i; rewrite mem_iota.
rewrite /model_forward (forwardE exp pow false r p ft a a) /= nE -eqh -eqg -eqc T0.
do 3 eexists; split; first by reflexivity.
congr (Ok (_, _)); rewrite -!map_comp; apply/eq_in_map => i; rewrite mem_iota => /andP[_ hi'] /=.
rewrite -!map_comp; apply/eq_in_map => j; rewrite mem_iota => /andP[_ hj] /=.
have w : forall i, (i < length E)%N -> wrap (length E) (Z.of_nat i) = i.
  by move=> i0 h; rewrite /wrap Z.mod_small; lia.
rewrite !w // /covariance !mulrDr /mixture !big_distrr /=.
by congr (_ + _ + _); apply: eq_bigr => q _; rewrite /scaled !mulrA.
Qed.

End Complex.
End Matern.
Print Assumptions C67_matern_matrix.
Print Assumptions C67_prior_covariance.

(** ** The class without Hodge composition *)

(** The model on the filled triangle used below: scale 1, noise 1, h_down = 2, other hyperparameters 1. *)
Section Example.
Let R := realalg_rcfType.

Definition tri_pairs : eigpairs R * eigpairs R * eigpairs R :=
  match get_eigenpairs (@eigsh_ref R) tri_sc (milli R) with Ok p => p | Raise _ => ([::], [::], [::]) end.
Definition tri_kernel (name : string) : kernel R :=
  match (let! k := serialize 3 tri_pairs name "forex" in set_param (@grow_inv R) k "h_down" 2%:R) with
  | Ok k => k
  | Raise _ => new_kernel Matern 0 [::] [::] [::]
  end.
Definition tri_model (name : string) : gpmodel R := new_model (tri_kernel name) 1 (Some "zero"%string).
Definition tri_values (s : string) : R := if String.eqb s "h_down" then 2%:R else 1.

Lemma tri_pairs_ok : exists hs gs cs, tri_pairs = (hs, gs, cs) /\
  get_eigenpairs (@eigsh_ref R) tri_sc (milli R) = Ok tri_pairs /\
  get_component_eigenpair (@eigsh_ref R) tri_sc "harmonic" (milli R) = Ok hs /\
  get_component_eigenpair (@eigsh_ref R) tri_sc "curl" (milli R) = Ok cs /\
  get_component_eigenpair (@eigsh_ref R) tri_sc "gradient" (milli R) = Ok gs /\ size gs = 2%N.
Proof.
case: (proj2 (proj2 (proj2 (proj2 (proj2 (proj2 (proj2 (proj2 (proj2 C25_C29_example)))))))) R _ (@eigsh_ref_ok R)) => hs [cs [gs [eh [_ [ec [_ [eg sg]]]]]]].
have e : get_eigenpairs (@eigsh_ref R) tri_sc (milli R) = Ok (hs, gs, cs).
  by rewrite /get_eigenpairs eh bindOk eg bindOk ec bindOk.
have e' : tri_pairs = (hs, gs, cs) by rewrite /tri_pairs e.
by exists hs, gs, cs; rewrite e'.
Qed.

Lemma tri_kernel_ok name t : name = "matern"%string /\ t = Matern \/ name = "matern_non_hc"%string /\ t = MaternNonHC ->
  reads (@grow R) (tri_kernel name) tri_values /\ positive (tri_kernel name) tri_values /\
  k_type (tri_kernel name) = t /\ k_rows (tri_kernel name) = 3%N /\
  (k_harm (tri_kernel name), k_grad (tri_kernel name), k_curl (tri_kernel name)) = tri_pairs /\
  (let! k := serialize 3 tri_pairs name "forex" in set_param (@grow_inv R) k "h_down" 2%:R) = Ok (tri_kernel name).
Proof.
move=> N.
have Sr : serialize 3 tri_pairs name "forex" = Ok (new_kernel t 3 tri_pairs.1.1 tri_pairs.1.2 tri_pairs.2).
  by case: N => -[-> ->].
have g0 : @grow R 0 = 1 by rewrite /grow lexx addr0.
case: (C77_hyperparameters (@grow_contract R)) => [n0 [st _]].
have I : List.In "h_down"%string (param_names t) by case: N => -[_ ->] /=; tauto.
have t2 : 0 < 2%:R :> R by rewrite ltr0n.
case: (st _ _ _ _ (proj1 (n0 t 3%N tri_pairs.1.1 tri_pairs.1.2 tri_pairs.2)) I t2) => k [es [r [kt [kr [kh [kg kc]]]]]].
have E : tri_kernel name = k by rewrite /tri_kernel Sr /= es.
rewrite Sr bindOk es E; split.
  by move=> s hs; rewrite r // g0.
split; first by move=> s _; rewrite /tri_values; case: ifP; rewrite ?ltr01 ?ltr0n.
by rewrite kt kr kh kg kc; case: tri_pairs => [[a b] c].
Qed.

Theorem C67_non_hc_refuted :
  exists (R : rcfType) exp pow softplus inv_softplus (eigsh : forall n, 'M[R]_n -> seq (R * 'cV[R]_n)),
  exp_contract exp /\ pow_contract pow /\ positive_contract softplus inv_softplus /\ eigsh_contract eigsh /\
  exists nodes E T sc, make_sc nodes E T nil nil = Ok sc /\ oriented (length nodes) E T /\
  exists m pairs v, get_eigenpairs eigsh sc 1000%:R^-1 = Ok pairs /\
    (let! k := serialize (length E) pairs "matern_non_hc" "forex" in set_param inv_softplus k "h_down" v) = Ok (m_kernel m) /\
    exists K var mean K', matern_matrix pow softplus eigsh sc m = Ok (K, var) /\
      model_forward exp pow softplus m [seq Z.of_nat i | i <- iota 0 (length E)] = Ok (mean, K') /\ K <> K'.
Proof.
exists R, (@grow R), (@pow_ex R), (@grow R), (@grow_inv R), (@eigsh_ref R).
have [XC PC] := (@grow_gt0 R, @pow_ex_contract R); have SC := @grow_contract R; have EC := @eigsh_ref_ok R.
do 4 (split; first by []).
exists tri_nodes, tri_edges, tri_triangles, tri_sc; split; first exact: tri_ok. split; first exact: tri_oriented.
case: tri_pairs_ok => hs [gs [cs [ep [ep' [eh [ec [eg sg]]]]]]].
case: (@tri_kernel_ok "matern_non_hc"%string MaternNonHC) => [|r [p [kt [kr [kp ks]]]]]; first by right.
exists (tri_model "matern_non_hc"), tri_pairs, 2%:R; split; first exact: ep'. split; first exact: ks.
have E0 : (0 < length tri_edges)%N by [].
case: (C67_matern_matrix XC PC SC EC tri_ok E0 tri_oriented eh ec eg (m := tri_model "matern_non_hc") (or_intror kt) r p)
  => K [var [eK [_ [_ [_ [_ [aG _]]]]]]].
rewrite ep in kp; case: kp => kh kg kc.
case: (pairs_facts EC tri_ok E0 tri_oriented eh ec eg) => F [on _].
have ft : fit (tri_kernel "matern_non_hc").
  rewrite /fit kh kg kc; split; [|split] => [q hq|q hq|]; last by rewrite kt.
    by case: (F q) => //; rewrite mem_cat hq.
  by case: (F q) => //; rewrite mem_cat hq orbT.
case: (C61_spectrum (@grow R) (@pow_ex R) r p ft); rewrite ?kh ?kg ?kc ?kr //.
  by move=> q /F[].
move=> K2 [ef [[sK2 rK2] [_ [aG2 _]]]].
exists K, var, (nseq 3 0), [seq [seq grow 0 * y | y <- r0] | r0 <- K2].
split; first by [].
split; first by rewrite /model_forward [length _]/= ef /= .
have g0 : @grow R 0 = 1 by rewrite /grow lexx addr0.
have -> : [seq [seq grow 0 * y | y <- r0] | r0 <- K2] = K2.
  rewrite -{2}(map_id K2); apply: eq_map => r0; rewrite -{2}(map_id r0); apply: eq_map => y; by rewrite g0 mul1r.
case: gs sg eg aG aG2 F ep kg on => // q gs sg eg aG aG2 F ep kg on eKK.
have mq : q \in q :: gs by rewrite mem_head.
have := aG2 q mq; rewrite -eKK (aG q mq) kt.
case: (F q) => [|sq q0]; first by rewrite !mem_cat mem_head !orbT.
have nrm : dotp q.2 q.2 = 1.
  move/orthonormalP: on => [_ on]; rewrite on ?eqxx //; by rewrite /vectors !map_cat mem_cat /= mem_head orbT.
move=> /(congr1 (fun x => dotp q.2 x)).
have ds : forall c, dotp q.2 (scalef c q.2) = c.
  move=> c; rewrite -[RHS]mulr1 -nrm /dotp big_distrr /=; apply: eq_bigr => i _.
  by rewrite /scalef (nth_map 0) // mulrCA.
rewrite !ds /scaled /= g0 mul1r.
set y := pow_ex _ _.
have y0 : 0 < y.
  by apply: PC; rewrite ltr_paddr // divr_gt0 ?exprn_gt0 ?mulr_gt0 ?ltr0n // /tri_values /= ltr01.
move=> /eqP; rewrite /tri_values /= -subr_eq0 mulr_natl mulr2n addrK gt_eqF //.
Qed.

(** The Matern class on the filled triangle meets the hypotheses of the theorems. *)
Example C67_example :
  exp_contract (@grow R) /\ pow_contract (@pow_ex R) /\ positive_contract (@grow R) (@grow_inv R) /\
  eigsh_contract (@eigsh_ref R) /\ make_sc tri_nodes tri_edges tri_triangles nil nil = Ok tri_sc /\
  oriented (length tri_nodes) tri_edges tri_triangles /\
  let m := tri_model "matern" in
  k_type (m_kernel m) = Matern /\ reads (@grow R) (m_kernel m) tri_values /\ positive (m_kernel m) tri_values /\
  k_rows (m_kernel m) = length tri_edges /\
  get_eigenpairs (@eigsh_ref R) tri_sc (milli R) = Ok (k_harm (m_kernel m), k_grad (m_kernel m), k_curl (m_kernel m)) /\
  exists K var, matern_matrix (@pow_ex R) (@grow R) (@eigsh_ref R) tri_sc m = Ok (K, var) /\ size K = 3%N.
Proof.
have [XC PC] := (@grow_gt0 R, @pow_ex_contract R); have SC := @grow_contract R; have EC := @eigsh_ref_ok R.
do 4 (split; first by []). split; first exact: tri_ok. split; first exact: tri_oriented.
case: tri_pairs_ok => hs [gs [cs [ep [ep' [eh [ec [eg sg]]]]]]].
case: (@tri_kernel_ok "matern"%string Matern) => [|r [p [kt [kr [kp ks]]]]]; first by left.
split; first exact: kt. split; first exact: r. split; first exact: p. split; first exact: kr.
split; first by rewrite ep' -kp.
have E0 : (0 < length tri_edges)%N by [].
case: (C67_matern_matrix XC PC SC EC tri_ok E0 tri_oriented eh ec eg (m := tri_model "matern") (or_introl kt) r p)
  => K [var [eK [[sK _] _]]].
by exists K, var.
Qed.

End Example.
Print Assumptions C67_non_hc_refuted.
