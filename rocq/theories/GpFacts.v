(** * Lemmas about the Gaussian-process model *)

From Coq Require Import ZArith String List.
From mathcomp Require Import all_ssreflect all_algebra ssrZ zify.
From Coq Require Import Ring Field.
From Verif Require Import RingTac Py PyFacts Complex Signal SignalSpec Eigen EigenSpec FilterSpec Gp GpSpec.

Set Implicit Arguments.
Unset Strict Implicit.
Unset Printing Implicit Defensive.

Import GRing.Theory Num.Theory Order.Theory.
Local Open Scope ring_scope.
Delimit Scope Z_scope with zz.

Lemma np_index_wrap n z : in_range n z -> np_index n z = Ok (wrap n z).
Proof.
rewrite /in_range /np_index /wrap => -[a b].
case: (Z.leb_spec 0 z) => h /=.
  have -> : (z <? Z.of_nat n)%zz = true by apply/Z.ltb_lt.
  by rewrite Z.mod_small.
rewrite (proj2 (Z.leb_le _ _) a) (proj2 (Z.ltb_lt _ _) h) /=; congr (Ok (Z.to_nat _)).
by apply: (Z.mod_unique _ _ (-1)%zz); [left|]; lia.
Qed.

Lemma np_index_out n z : ~ in_range n z -> np_index n z = Raise IndexError.
Proof.
rewrite /in_range /np_index => h.
case: (Z.leb_spec 0 z) => a /=.
  case: (Z.ltb_spec z (Z.of_nat n)) => b /=; first by case: h; lia.
  by rewrite (proj2 (Z.ltb_ge z 0)) ?Bool.andb_false_r.
case: (Z.leb_spec (- Z.of_nat n) z) => b //=.
by case: h; lia.
Qed.

Lemma wrap_lt n z : in_range n z -> (wrap n z < n)%N.
Proof.
rewrite /in_range /wrap => h; have n0 : (0 < Z.of_nat n)%zz by lia.
have := Z.mod_pos_bound z _ n0. lia.
Qed.

Lemma rows_of n x : List.Forall (in_range n) x -> mapM (np_index n) x = Ok [seq wrap n z | z <- x].
Proof. by elim=> // z l h _ IH /=; rewrite (np_index_wrap h) /= IH. Qed.

Lemma rows_out n x : ~ List.Forall (in_range n) x -> mapM (np_index n) x = Raise IndexError.
Proof.
elim: x => [|z l IH] h /=; first by case: h; constructor.
case: (Z_le_dec (- Z.of_nat n) z) => a; last by rewrite np_index_out // => -[].
case: (Z_lt_dec z (Z.of_nat n)) => b; last by rewrite np_index_out // => -[].
rewrite (np_index_wrap (conj a b)) /= IH // => hl; apply: h; constructor => //.
Qed.

Lemma uniq_map_inj (A B : eqType) (f : A -> B) (l : seq A) : uniq [seq f x | x <- l] ->
  forall x y, x \in l -> y \in l -> f x = f y -> x = y.
Proof.
elim: l => //= a l IH /andP[na u] x y; rewrite !inE.
case/predU1P => [->|hx] /predU1P[->|hy] // e.
- by case/negP: na; rewrite e map_f.
- by case/negP: na; rewrite -e map_f.
- exact: IH.
Qed.

Section Gp.
Variable R : rcfType.
Variable exp : R -> R.
Variable pow : R -> R -> R.
Variables softplus inv_softplus : R -> R.
Add Field R_field : (mc_field R).

Lemma wp_big (ps : eigpairs R) (g : R -> R) i j :
  weighted_product ps [seq g x | x <- [seq p.1 | p <- ps]] i j = \sum_(p <- ps) p.2`_i * g p.1 * p.2`_j.
Proof.
rewrite /weighted_product (big_nth (0, [::])) big_mkord; apply: eq_bigr => q _.
by rewrite -map_comp (nth_map (0, [::])).
Qed.

(** The hyperparameters read from a kernel. *)
Definition reads (k : kernel R) (v : string -> R) : Prop :=
  forall s, List.In s (param_names (k_type k)) -> get_param softplus k s = Ok (v s).

Definition positive (k : kernel R) (v : string -> R) : Prop :=
  forall s, List.In s (param_names (k_type k)) -> 0 < v s.

(** Eigenvalues a kernel class can deal with. *)
Definition fit (k : kernel R) : Prop :=
  (forall p, p \in k_harm k -> 0 <= p.1) /\ (forall p, p \in k_grad k ++ k_curl k -> 0 <= p.1) /\
  (k_type k = Laplacian -> forall p, p \in k_grad k ++ k_curl k -> 0 < p.1).

Local Notation mult k v := (multiplier exp pow (k_type k) v).

Lemma scale_mix (f : R) (ps : eigpairs R) (g g' : R -> R) i j : (forall p, p \in ps -> f * g p.1 = g' p.1) ->
  f * weighted_product ps [seq g x | x <- [seq p.1 | p <- ps]] i j = mixture g' ps i j.
Proof.
move=> h; rewrite wp_big /mixture big_distrr /= big_seq [RHS]big_seq; apply: eq_bigr => p hp.
by rewrite -(h _ hp) mulrA mulrA -!mulrA (mulrCA (p.2`_i)) !mulrA.
Qed.

Lemma div2 (a b : R) : a / b / b = a / b ^+ 2.
Proof. by rewrite expr2 invfM mulrA. Qed.

Lemma mapK (A : eqType) (ps : seq (R * A)) (c : R) : [seq c | _ <- [seq p.1 | p <- ps]] = [seq (fun _ => c) x | x <- [seq p.1 | p <- ps]].
Proof. by []. Qed.


(** What the computation amounts to. *)
Lemma covar_factors k v : reads k v -> positive k v -> fit k ->
  exists k0 k1 k2 f0 f1 f2, eval_covar_matrix exp pow softplus k = Ok (k0, k1, k2) /\
    factors softplus k = Ok (f0, f1, f2) /\
    forall i j, f0 * weighted_product (k_harm k) k0 i j + f1 * weighted_product (k_grad k) k1 i j
      + f2 * weighted_product (k_curl k) k2 i j = covariance (mult k v) (k_harm k) (k_grad k) (k_curl k) i j.
Proof.
case: k => t n hp gp cp raw; rewrite /reads /positive /fit /eval_covar_matrix /factors /=.
move=> r pv [h0 [h1 h2]].
have g : forall s, List.In s (param_names t) -> get_param softplus (mkKernel t n hp gp cp raw) s = Ok (v s) by exact: r.
have nz : forall s, List.In s (param_names t) -> (v s == 0) = false.
  by move=> s /pv h; apply/negbTE; rewrite gt_eqF.
move: g nz h2 => {r}; case: t pv => /= pv g nz h2.
- rewrite !g /=; try tauto.
  do 6 eexists; split; first by reflexivity. split; first by reflexivity.
  move=> i j; rewrite /covariance; congr (_ + _ + _); apply: scale_mix => p _ //=; by rewrite mulNr.
- rewrite !g /=; try tauto.
  do 6 eexists; split; first by reflexivity. split; first by reflexivity.
  move=> i j; rewrite /covariance; congr (_ + _ + _); apply: scale_mix => p _ //=; by rewrite mul1r ?mulNr.
- rewrite !g /=; try tauto. rewrite !nz /=; try tauto.
  do 6 eexists; split; first by reflexivity. split; first by reflexivity.
  move=> i j; rewrite /covariance; congr (_ + _ + _); apply: scale_mix => p _ //=; by rewrite /matern_weight div2.
- rewrite !g /=; try tauto. rewrite !nz /=; try tauto.
  do 6 eexists; split; first by reflexivity. split; first by reflexivity.
  move=> i j; rewrite /covariance; congr (_ + _ + _); apply: scale_mix => p _ //=; by rewrite mul1r /matern_weight div2.
- rewrite !g /=; try tauto.
  have m0 : 0 < milli R by rewrite invr_gt0 ltr0n.
  have -> : (- milli R \in [seq p.1 | p <- hp]) = false.
    apply/negP => /mapP[p /h0 q e]; move: q; rewrite -e oppr_ge0 leNgt m0 //.
  have -> : (0 \in [seq p.1 | p <- gp]) = false.
    apply/negP => /mapP[p q e]; have := h2 erefl p; rewrite mem_cat q -e ltxx => /(_ isT) //.
  have -> : (0 \in [seq p.1 | p <- cp]) = false.
    apply/negP => /mapP[p q e]; have := h2 erefl p; rewrite mem_cat q orbT -e ltxx => /(_ isT) //.
  do 6 eexists; split; first by reflexivity. split; first by reflexivity.
  by move=> i j; rewrite /covariance; congr (_ + _ + _); apply: scale_mix => p _ //=; rewrite div1r.
Qed.

Lemma forwardE k v x1 x2 diag : reads k v -> positive k v -> fit k ->
  List.Forall (in_range (k_rows k)) x1 -> List.Forall (in_range (k_rows k)) x2 ->
  let G := covariance (mult k v) (k_harm k) (k_grad k) (k_curl k) in
  forward exp pow softplus k x1 (Some x2) diag =
  Ok (if diag then Diag (mkseq (fun a => G (wrap (k_rows k) (nth 0%zz x1 a)) (wrap (k_rows k) (nth 0%zz x2 a)))
                               (minn (size x1) (size x2)))
      else Mat [seq [seq G (wrap (k_rows k) i) (wrap (k_rows k) j) | j <- x2] | i <- x1]).
Proof.
move=> r p f a1 a2 G; case: (covar_factors r p f) => k0 [k1 [k2 [f0 [f1 [f2 [e1 [e2 e3]]]]]]].
rewrite /forward e1 /= (rows_of a1) /= (rows_of a2) /= e2 /=.
case: diag; congr (Ok _).
  congr Diag; rewrite !size_map; apply/eq_in_map => a; rewrite mem_iota /= add0n leq_min => /andP[l1 l2].
  by rewrite e3 (nth_map 0%zz) // (nth_map 0%zz).
congr Mat; rewrite -map_comp; apply: eq_map => i /=; rewrite -map_comp; apply: eq_map => j /=; exact: e3.
Qed.

Lemma mult_gt0 k v c x : exp_contract exp -> pow_contract pow -> positive k v ->
  0 <= x -> (k_type k = Laplacian -> c <> Harmonic -> 0 < x) -> 0 < mult k v c x.
Proof.
move=> E P; rewrite /positive; case: (k_type k) => /= pv x0 xl.
- by case: c {xl}; rewrite mulr_gt0 ?E //; apply: pv; tauto.
- by case: c {xl}.
- have m : forall mu ka, 0 < mu -> 0 < ka -> 0 < pow (2%:R * mu / ka ^+ 2 + x) (- mu).
    by move=> mu ka m0 k0; apply: P; rewrite ltr_paddr // divr_gt0 ?exprn_gt0 // mulr_gt0 ?ltr0n.
  by case: c {xl}; rewrite mulr_gt0 ?m //; apply: pv; tauto.
- have m : forall mu ka, 0 < mu -> 0 < ka -> 0 < pow (2%:R * mu / ka ^+ 2 + x) (- mu).
    by move=> mu ka m0 k0; apply: P; rewrite ltr_paddr // divr_gt0 ?exprn_gt0 // mulr_gt0 ?ltr0n.
  by case: c {xl}; rewrite m //; apply: pv; tauto.
- case: c xl => xl; rewrite divr_gt0 //; try (by apply: pv; tauto); try exact: xl.
  by rewrite ltr_paddr // invr_gt0 ltr0n.
Qed.

Lemma mixtureC (g : R -> R) ps i j : mixture g ps i j = mixture g ps j i.
Proof. by apply: eq_bigr => p _; rewrite mulrAC. Qed.
Lemma covarianceC (g : comp -> R -> R) hp gp cp i j : covariance g hp gp cp i j = covariance g hp gp cp j i.
Proof. by rewrite /covariance; congr (_ + _ + _); apply: mixtureC. Qed.

Lemma mixture_quad (g : R -> R) ps (r : seq nat) (w : seq R) :
  \sum_(a < size w) \sum_(b < size w) w`_a * w`_b * mixture g ps (nth 0%N r a) (nth 0%N r b)
  = \sum_(p <- ps) g p.1 * (\sum_(a < size w) w`_a * p.2`_(nth 0%N r a)) ^+ 2.
Proof.
transitivity (\sum_(a < size w) \sum_(p <- ps) \sum_(b < size w)
    w`_a * w`_b * (g p.1 * p.2`_(nth 0%N r a) * p.2`_(nth 0%N r b))).
  apply: eq_bigr => a _; rewrite exchange_big /=; apply: eq_bigr => b _.
  by rewrite /mixture big_distrr.
rewrite exchange_big /=; apply: eq_bigr => p _.
rewrite expr2 big_distrl /= big_distrr /=; apply: eq_bigr => a _.
rewrite big_distrr big_distrr /=; apply: eq_bigr => b _.
by to_r R; ring.
Qed.

Lemma mixture_psd (g : R -> R) ps r w : (forall p, p \in ps -> 0 <= g p.1) ->
  0 <= \sum_(a < size w) \sum_(b < size w) w`_a * w`_b * mixture g ps (nth 0%N r a) (nth 0%N r b).
Proof.
move=> h; rewrite mixture_quad big_seq; apply: sumr_ge0 => p /h q.
by rewrite mulr_ge0 // sqr_ge0.
Qed.

Lemma covariance_quad (g : comp -> R -> R) hp gp cp (r : seq nat) (w : seq R) :
  \sum_(a < size w) \sum_(b < size w) w`_a * w`_b * covariance g hp gp cp (nth 0%N r a) (nth 0%N r b)
  = \sum_(p <- hp) g Harmonic p.1 * (\sum_(a < size w) w`_a * p.2`_(nth 0%N r a)) ^+ 2
  + \sum_(p <- gp) g Gradient p.1 * (\sum_(a < size w) w`_a * p.2`_(nth 0%N r a)) ^+ 2
  + \sum_(p <- cp) g Curl p.1 * (\sum_(a < size w) w`_a * p.2`_(nth 0%N r a)) ^+ 2.
Proof.
rewrite /covariance -!mixture_quad.
under eq_bigr => i _ do under eq_bigr => j _ do rewrite !mulrDr.
under eq_bigr => i _ do rewrite !big_split /=.
by rewrite !big_split.
Qed.

Lemma covariance_psd (g : comp -> R -> R) hp gp cp r w :
  (forall p, p \in hp -> 0 <= g Harmonic p.1) -> (forall p, p \in gp -> 0 <= g Gradient p.1) ->
  (forall p, p \in cp -> 0 <= g Curl p.1) ->
  0 <= \sum_(a < size w) \sum_(b < size w) w`_a * w`_b * covariance g hp gp cp (nth 0%N r a) (nth 0%N r b).
Proof.
move=> a b c; rewrite /covariance.
under eq_bigr => i _ do under eq_bigr => j _ do rewrite !mulrDr.
under eq_bigr => i _ do rewrite !big_split /=.
by rewrite !big_split /= !addr_ge0 ?mixture_psd.
Qed.

(** Action on a vector. *)
Lemma mixture_mul (g : R -> R) ps n (x : seq R) i : size x = n ->
  (forall p, p \in ps -> size p.2 = n) ->
  \sum_(j < n) mixture g ps i j * x`_j = \sum_(p <- ps) g p.1 * dotp p.2 x * p.2`_i.
Proof.
move=> sx sp.
transitivity (\sum_(p <- ps) \sum_(j < n) g p.1 * p.2`_i * p.2`_j * x`_j).
  by rewrite exchange_big /=; apply: eq_bigr => j _; rewrite /mixture big_distrl.
rewrite big_seq [RHS]big_seq; apply: eq_bigr => p hp.
rewrite /dotp (sp _ hp) big_distrr /= big_distrl /=; apply: eq_bigr => j _.
by to_r R; ring.
Qed.

(** Spectrum of the covariance. *)
Lemma covariance_spectrum (g : comp -> R -> R) (hp gp cp : eigpairs R) n :
  (forall p, p \in hp ++ gp ++ cp -> size p.2 = n) ->
  orthonormal (vectors (hp ++ gp ++ cp)) ->
  let K := mkseq (fun i => mkseq (covariance g hp gp cp i) n) n in
  shaped K n n /\
  (forall p, p \in hp -> rmv K p.2 = scalef (g Harmonic p.1) p.2) /\
  (forall p, p \in gp -> rmv K p.2 = scalef (g Gradient p.1) p.2) /\
  (forall p, p \in cp -> rmv K p.2 = scalef (g Curl p.1) p.2) /\
  (forall f, size f = n -> (forall p, p \in hp ++ gp ++ cp -> dotp p.2 f = 0) -> rmv K f = zerof R n).
Proof.
move=> sz on; set G := covariance _ _ _ _.
have sh : shaped (mkseq (fun i => mkseq (G i) n) n) n n.
  by split; [rewrite size_mkseq|move=> _ /mapP[i _ ->]; rewrite size_mkseq].
split=> //=.
have act : forall x, size x = n -> rmv (mkseq (fun i => mkseq (G i) n) n) x =
    mkseq (fun i => \sum_(q <- hp) g Harmonic q.1 * dotp q.2 x * q.2`_i
      + \sum_(q <- gp) g Gradient q.1 * dotp q.2 x * q.2`_i
      + \sum_(q <- cp) g Curl q.1 * dotp q.2 x * q.2`_i) n.
  move=> x sx; rewrite /rmv -map_comp; apply: eq_map => i /=; rewrite /dotp size_mkseq.
  rewrite -!(mixture_mul _ _ sx) -?big_split /=; try (by move=> q hq; apply: sz; rewrite !mem_cat hq ?orbT).
  by apply: eq_bigr => j _; rewrite nth_mkseq // /G /covariance !mulrDl.
have U : uniq (vectors (hp ++ gp ++ cp)).
  apply/(uniqP [::]) => i j hi hj e; have := on i i hi hi; have := on i j hi hj; rewrite e.
  rewrite (on j j) // eqxx; case: eqP => // _ /eqP; by rewrite oner_eq0.
have K : forall p q, p \in hp ++ gp ++ cp -> q \in hp ++ gp ++ cp ->
    dotp q.2 p.2 = (q == p)%:R.
  move=> p' q ip hq; have [ip' hq'] : (p'.2 \in vectors (hp ++ gp ++ cp)) /\
      (q.2 \in vectors (hp ++ gp ++ cp)) by split; apply: map_f.
  rewrite -(nth_index [::] ip') -(nth_index [::] hq') on ?index_mem //.
  congr (_%:R); congr nat_of_bool; apply/eqP/eqP => [e|->//].
  apply: (uniq_map_inj U) => //. by rewrite -(nth_index [::] ip') -e nth_index.
have Z : forall (ps : eigpairs R) (h : R -> R) x i, (forall q, q \in ps -> dotp q.2 x = 0) ->
    \sum_(q <- ps) h q.1 * dotp q.2 x * q.2`_i = 0.
  move=> ps h x i e; rewrite big_seq big1 // => q /e ->; by rewrite mulr0 mul0r.
have O : forall (ps : eigpairs R) (h : R -> R) p i, p \in ps -> uniq ps -> (forall q, q \in ps -> dotp q.2 p.2 = (q == p)%:R) ->
    \sum_(q <- ps) h q.1 * dotp q.2 p.2 * q.2`_i = h p.1 * p.2`_i.
  move=> ps h q i hq u e; rewrite (bigD1_seq q) //= e // eqxx mulr1 big_seq_cond big1 ?addr0 //.
  by move=> q' /andP[hq' /negbTE ne]; rewrite e // ne mulr0 mul0r.
have u : uniq (hp ++ gp ++ cp) := map_uniq U.
move: (u); rewrite !cat_uniq => /and3P[uh d1 /and3P[ug d2 uc]].
have rhs : forall c p', p' \in hp ++ gp ++ cp -> scalef c p'.2 = mkseq (fun i => c * p'.2`_i) n.
  move=> c p' ip; rewrite -{1}(mkseq_nth 0 p'.2) sz // /scalef -map_comp. by apply: eq_map.
have D : forall p' q, p' \in hp -> q \in gp ++ cp -> (q == p') = false /\ (p' == q) = false.
  move=> p' q ip hq; have ne : q != p'.
    by apply: contraNneq d1 => e; apply/hasP; exists q => //; rewrite e.
  by split; [exact: negbTE|apply/negbTE; rewrite eq_sym].
have D' : forall p' q, p' \in gp -> q \in cp -> (q == p') = false /\ (p' == q) = false.
  move=> p' q ip hq; have ne : q != p'.
    by apply: contraNneq d2 => e; apply/hasP; exists q => //; rewrite e.
  by split; [exact: negbTE|apply/negbTE; rewrite eq_sym].
split; [|split; [|split]].
- move=> p' ip; have m : p' \in hp ++ gp ++ cp by rewrite mem_cat ip.
  rewrite act ?sz // rhs //; apply: eq_map => i /=.
  rewrite O // => [|q hq]; last by apply: K => //; rewrite mem_cat hq.
  rewrite !Z ?addr0 // => q hq.
    by rewrite K ?(proj1 (D p' q ip _)) // !mem_cat hq ?orbT.
  by rewrite K ?(proj1 (D p' q ip _)) // !mem_cat hq ?orbT.
- move=> p' ip; have m : p' \in hp ++ gp ++ cp by rewrite !mem_cat ip orbT.
  rewrite act ?sz // rhs //; apply: eq_map => i /=.
  rewrite [X in _ + X + _]O // => [|q hq]; last by apply: K => //; rewrite !mem_cat hq orbT.
  rewrite !Z ?addr0 ?add0r // => q hq.
    by rewrite K ?(proj1 (D' p' q ip hq)) // !mem_cat hq ?orbT.
  by rewrite K ?(proj2 (D q p' hq _)) // !mem_cat ?ip ?hq ?orbT.
- move=> p' ip; have m : p' \in hp ++ gp ++ cp by rewrite !mem_cat ip !orbT.
  rewrite act ?sz // rhs //; apply: eq_map => i /=.
  rewrite [X in _ + X]O // => [|q hq]; last by apply: K => //; rewrite !mem_cat hq !orbT.
  rewrite !Z ?addr0 ?add0r // => q hq.
    by rewrite K ?(proj2 (D' q p' hq ip)) // !mem_cat hq ?orbT.
  by rewrite K ?(proj2 (D q p' hq _)) // !mem_cat ?ip ?hq ?orbT.
- move=> x sx ox; rewrite act //; apply: (@eq_from_nth _ 0); rewrite size_mkseq ?size_nseq // => i hi.
  rewrite nth_mkseq // nth_nseq hi !Z ?addr0 // => q hq; apply: ox; rewrite !mem_cat hq ?orbT //.
Qed.


End Gp.
