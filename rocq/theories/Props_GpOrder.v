(** * C94: Gaussian processes and the way a network is written down *)

From Coq Require Import ZArith String List.
From mathcomp Require Import all_ssreflect all_algebra all_real_closed ssrZ zify.
From Verif Require Import Py PyFacts ExampleData Complex ComplexSpec ComplexFacts ComplexFacts2 LinAlg Spectral
  Signal SignalSpec Bridge SignalFacts Compute Props_Complex Props_Signal Props_Hodge Eigen EigenSpec IntEigen
  EigenFacts Props_Eigen Filter FilterSpec FilterFacts FilterFacts2 PolyFacts Props_Masks Props_LowPass
  Props_Poly Props_Power Props_Grid Props_Linear Props_Topology Props_Reorder Props_FilterOrder Gp GpSpec GpFacts
  GpPredict Props_Gp Props_GpPredict Props_GpObs Props_Solver.

Set Implicit Arguments.
Unset Strict Implicit.
Unset Printing Implicit Defensive.

Import GRing.Theory Num.Theory Order.Theory.
Local Open Scope ring_scope.
Delimit Scope Z_scope with zz.

(** ** Specification *)

(** Two edge numbers stand for the same edge. *)
Definition same_edge (E E' : list (Z * Z)) (z z' : Z) : Prop :=
  in_range (length E) z /\ in_range (length E') z' /\
  nth (Z0, Z0) E (wrap (length E) z) = nth (Z0, Z0) E' (wrap (length E') z').

(** ** Families of eigenvectors of two matrices *)
Section Families.
Variable R : rcfType.
Variables (n n' : nat) (q : 'I_n' -> 'I_n) (sg : nat -> R).
Hypotheses (bq : bijective q) (sgg : forall k, sg k * sg k = 1).

(** The same values; sums of weighted products of entries are moved. *)
Definition turned (ps ps' : eigpairs R) : Prop :=
  [seq p.1 | p <- ps] = [seq p.1 | p <- ps'] /\
  forall g (i j : 'I_n'), mixture g ps' i j = sg i * sg j * mixture g ps (q i) (q j).

Lemma families_turned (A : 'M[R]_n) (A' : 'M[R]_n') l l' (P : pred R) : A^T = A -> A' = ssel sg q *m A *m (ssel sg q)^T ->
  eigfam A l -> eigfam A' l' -> [seq p.1 | p <- l'] = [seq p.1 | p <- l] ->
  turned [seq p <- up (zeroed l) | P p.1] [seq p <- up (zeroed l') | P p.1].
Proof.
move=> sA eA f1 f2 vl; split=> [|g i j].
  have vals m (k : seq (R * 'cV[R]_m)) : [seq p.1 | p <- [seq p <- up (zeroed k) | P p.1]] =
      [seq x <- [seq zs x | x <- [seq p.1 | p <- k]] | P x].
    by rewrite -(filter_map fst) /up /zeroed -!map_comp.
  by rewrite !vals vl.
pose h x := if P (zs x) then g (zs x) else 0.
have ent m (k : seq (R * 'cV[R]_m)) (a b : 'I_m) : mixture g [seq p <- up (zeroed k) | P p.1] a b = calc h k a b.
  rewrite /mixture big_filter /up /zeroed -map_comp big_map big_mkcond /calc summxE; apply: eq_bigr => p _ /=.
  rewrite !mxE big_ord1 !mxE mulrA !nth_unvec /h.
  by case: ifP => // _; rewrite !mul0r.
have sA' : A'^T = A' by rewrite eA !trmx_mul trmxK sA mulmxA.
have f3 : eigfam A' [seq (x.1, ssel sg q *m x.2) | x <- l] by rewrite eA; exact: conj_eigfam.
rewrite !ent (calc_same sA' f2 f3).
have -> : calc h [seq (x.1, ssel sg q *m x.2) | x <- l] = ssel sg q *m calc h l *m (ssel sg q)^T.
  rewrite /calc big_map mulmx_sumr mulmx_suml; apply: eq_bigr => x _ /=.
  by rewrite trmx_mul -!scalemxAr -!scalemxAl !mulmxA.
by rewrite Mssel sselM mulrCA mulrA.
Qed.
End Families.

(** ** Two complexes *)
Section Pair.
Variable R : rcfType.
Variables (eigsh : forall n, 'M[R]_n -> seq (R * 'cV[R]_n)).
Hypotheses (EC : eigsh_contract eigsh).
Variables (nodes : list Z) (E : list (Z * Z)) (T : list (list Z)) (nf : dict Z fdict)
          (ef : dict (Z * Z) fdict) (sc : SC).
Hypothesis H : make_sc nodes E T nf ef = Ok sc.
Variables (nodes' : list Z) (E' : list (Z * Z)) (T' : list (list Z)) (nf' : dict Z fdict)
          (ef' : dict (Z * Z) fdict) (sc' : SC).
Hypothesis H' : make_sc nodes' E' T' nf' ef' = Ok sc'.
Variables (p : 'I_(length E') -> 'I_(length E)) (sg : nat -> R).
Hypotheses (bp : bijective p) (sgg : forall k, sg k * sg k = 1).
Hypothesis PS : forall s, p_same nodes T sc nodes' T' sc' p sg s.

Lemma component_turned c t ps : get_component_eigenpair eigsh sc c t = Ok ps ->
  exists ps', get_component_eigenpair eigsh sc' c t = Ok ps' /\ turned p sg ps ps'.
Proof.
have gen s (P : pred R) :
  (let! ps := get_eigendecomposition eigsh (Dense (p_array sc s)) (eps64 R) in Ok [seq p <- ps | P p.1]) = Ok ps ->
  exists ps', (let! ps := get_eigendecomposition eigsh (Dense (p_array sc' s)) (eps64 R) in Ok [seq p <- ps | P p.1]) = Ok ps' /\
    turned p sg ps ps'.
  move=> e0; have [U eU eps] := bind_Ok e0; case: eps => <-; have M0 := decomp_pos H eU.
  have [q [bq hq cj [l [l' [e1 e2 f1 f2 vl]]]]] := p_pair EC H H' bp sgg (PS s) M0.
  move: eU; rewrite e1 => -[<-]; eexists; split; first by rewrite e2.
  have [_ [_ [sA _]]] := p_side H EC M0 s.
  have [v m] := families_turned bq sgg P sA cj f1 f2 vl; split=> // g i j.
  have d0' := proj1 (p_dims H' s).
  by have := m g (cast_ord d0' i) (cast_ord d0' j); rewrite (hq _ i) // (hq _ j).
rewrite /get_component_eigenpair; case: ifP => _; first exact: (gen "L1"%string (fun x => x <= t)).
case: ifP => _; first exact: (gen "L1U"%string (fun x => t <= x)).
by case: ifP => // _; exact: (gen "L1L"%string (fun x => t < x)).
Qed.

Lemma eigenpairs_turned t hp gp cp : get_eigenpairs eigsh sc t = Ok (hp, gp, cp) ->
  exists hp' gp' cp', [/\ get_eigenpairs eigsh sc' t = Ok (hp', gp', cp'), turned p sg hp hp', turned p sg gp gp' & turned p sg cp cp'].
Proof.
move=> e0; have [a ea e1] := bind_Ok e0; have [b eb e2] := bind_Ok e1; have [c ec [e3 e4 e5]] := bind_Ok e2; subst.
have [a' [ea' ta]] := component_turned ea; have [b' [eb' tb]] := component_turned eb.
have [c' [ec' tc]] := component_turned ec.
by exists a', b', c'; split=> //; rewrite /get_eigenpairs ea' eb' ec'.
Qed.
End Pair.

(** ** Kernels with moved eigenvectors, without signs *)
Section Kernels.
Variable R : rcfType.
Variables (exp : R -> R) (pow : R -> R -> R) (softplus : R -> R).
Variables (n n' : nat) (q : 'I_n' -> 'I_n) (hp gp cp hp' gp' cp' : eigpairs R).
Notation one := (fun _ : nat => 1 : R).
Hypotheses (en : n' = n) (ah : turned q one hp hp') (ag : turned q one gp gp') (ac : turned q one cp cp').

(** The numbers [z] and [z'] stand for corresponding edges. *)
Definition partner (z z' : Z) : Prop :=
  in_range n z /\ in_range n' z' /\ forall i : 'I_n', wrap n' z' = i -> wrap n z = q i.

Lemma wp_turned ps ps' g z z' y y' : turned q one ps ps' -> partner z z' -> partner y y' ->
  weighted_product ps' [seq g x | x <- [seq p.1 | p <- ps']] (wrap n' z') (wrap n' y') =
  weighted_product ps [seq g x | x <- [seq p.1 | p <- ps]] (wrap n z) (wrap n y).
Proof.
move=> [_ h] [_ [rz hz]] [_ [ry hy]]; rewrite !wp_big.
have m (qs : eigpairs R) a b : \sum_(p <- qs) p.2`_a * g p.1 * p.2`_b = mixture g qs a b.
  by apply: eq_bigr => p _; rewrite [p.2`_a * _]mulrC.
rewrite !m; have := h g (Ordinal (wrap_lt rz)) (Ordinal (wrap_lt ry)); rewrite !mul1r /= => ->.
by rewrite (hz (Ordinal (wrap_lt rz))) // (hy (Ordinal (wrap_lt ry))).
Qed.

Lemma partner_rows x x' : List.Forall2 partner x x' ->
  mapM (np_index n) x = Ok [seq wrap n z | z <- x] /\ mapM (np_index n') x' = Ok [seq wrap n' z | z <- x'].
Proof.
move=> h; split; apply: rows_of.
  by elim: h => // z z' l l' [hz _] _ IH; constructor.
by elim: h => // z z' l l' [_ [hz _]] _ IH; constructor.
Qed.

Lemma map_partner (X : Type) (F F' : Z -> X) x x' : List.Forall2 partner x x' ->
  (forall z z', partner z z' -> F' z' = F z) -> [seq F' z | z <- x'] = [seq F z | z <- x].
Proof. by move=> h hF; elim: h => // z z' l l' hz _ /= ->; rewrite (hF _ _ hz). Qed.

Lemma partner_size x x' : List.Forall2 partner x x' -> size x' = size x.
Proof. by elim=> //= ? ? ? ? _ _ ->. Qed.

Lemma partner_nth x x' a : List.Forall2 partner x x' -> (a < size x)%N -> partner (nth 0%zz x a) (nth 0%zz x' a).
Proof. by move=> h; elim: h a => // z z' l l' hz _ IH [|a] //=; exact: IH. Qed.

Lemma forward_turned k x1 x2 x1' x2' diag : k_rows k = n -> List.Forall2 partner x1 x1' -> List.Forall2 partner x2 x2' ->
  forward exp pow softplus (with_pairs k (hp', gp', cp')) x1' (Some x2') diag =
  forward exp pow softplus (with_pairs k (hp, gp, cp)) x1 (Some x2) diag.
Proof.
move=> kn h1 h2; rewrite /forward.
have [[e [-> ->]]|[g0 [g1 [g2 [-> ->]]]]] := covar_alike exp pow softplus k (proj1 ah) (proj1 ag) (proj1 ac); first by [].
rewrite !bindOk /=.
have kn' : k_rows k = n' by rewrite kn en.
have [r1 r1'] := partner_rows h1; have [r2 r2'] := partner_rows h2.
rewrite {1 2}kn' r1' r2' kn r1 r2 !bindOk.
have -> : factors softplus (with_pairs k (hp', gp', cp')) = factors softplus (with_pairs k (hp, gp, cp)) by [].
case: factors => // -[[f0 f1] f2]; rewrite !bindOk.
case: diag; congr (Ok _); last first.
  have mc (X : Type) (F : nat -> X) m (x : seq Z) : [seq F i | i <- [seq wrap m z | z <- x]] = [seq F (wrap m z) | z <- x].
    by rewrite -map_comp.
  congr Mat; rewrite !mc; apply: (map_partner h1) => z z' hz; rewrite !mc.
  by apply: (map_partner h2) => y y' hy; congr (_ * _ + _ * _ + _ * _); apply: wp_turned.
congr Diag; rewrite !size_map (partner_size h1) (partner_size h2).
apply/eq_in_map => a; rewrite mem_iota add0n leq_min => /andP[_ /andP[a1 a2]].
rewrite !(nth_map 0%zz) ?(partner_size h1) ?(partner_size h2) //.
have hz := partner_nth h1 a1; have hy := partner_nth h2 a2.
by congr (_ * _ + _ * _ + _ * _); apply: wp_turned.
Qed.

Lemma predict_turned m xs xs' ts ts' : k_rows (m_kernel m) = n -> List.Forall2 partner xs xs' -> List.Forall2 partner ts ts' ->
  let m1 := with_kernel m (with_pairs (m_kernel m) (hp, gp, cp)) in
  let m2 := with_kernel m (with_pairs (m_kernel m) (hp', gp', cp')) in
  forall ys yt, posterior exp pow softplus m2 xs' ys ts' = posterior exp pow softplus m1 xs ys ts /\
    predict exp pow softplus m2 xs' ys ts' yt = predict exp pow softplus m1 xs ys ts yt.
Proof.
move=> kn h1 h2 m1 m2 ys yt.
have h : List.Forall2 partner (xs ++ ts) (xs' ++ ts') by exact: List.Forall2_app.
have mf : model_forward exp pow softplus m2 (xs' ++ ts') = model_forward exp pow softplus m1 (xs ++ ts).
  by rewrite /model_forward (forward_turned _ kn h h) !size_cat (partner_size h1) (partner_size h2).
have po : posterior exp pow softplus m2 xs' ys ts' = posterior exp pow softplus m1 xs ys ts.
  by rewrite /posterior mf (partner_size h1) (partner_size h2).
by split=> //; rewrite /predict po.
Qed.
End Kernels.

(** ** The order of edges and triangles *)

(** Two complexes that list the same edges and the same triangles: kernels built from their eigenpairs assign the same
    covariances to the same edges, and models make the same predictions for them, with the same errors. *)
Theorem C94_order :
  forall (R : rcfType) exp pow softplus eigsh, eigsh_contract eigsh ->
  forall nodes E T nf ef sc, make_sc nodes E T nf ef = Ok sc ->
  proper_edges (length nodes) E -> simple_edges E -> proper_triangles T ->
  forall E' T' nf' ef' sc', make_sc nodes E' T' nf' ef' = Ok sc' -> perm_eq E E' -> perm_eq T T' ->
  forall (t : R) ps, get_eigenpairs eigsh sc t = Ok ps -> exists ps', get_eigenpairs eigsh sc' t = Ok ps' /\
  (forall (k : kernel R) x1 x2 x1' x2' diag, k_rows k = length E ->
     List.Forall2 (same_edge E E') x1 x1' -> List.Forall2 (same_edge E E') x2 x2' ->
     forward exp pow softplus (with_pairs k ps') x1' (Some x2') diag =
     forward exp pow softplus (with_pairs k ps) x1 (Some x2) diag) /\
  forall m xs ys ts yt xs' ts', k_rows (m_kernel m) = length E ->
    List.Forall2 (same_edge E E') xs xs' -> List.Forall2 (same_edge E E') ts ts' ->
    let m1 := with_kernel m (with_pairs (m_kernel m) ps) in
    let m2 := with_kernel m (with_pairs (m_kernel m) ps') in
    posterior exp pow softplus m2 xs' ys ts' = posterior exp pow softplus m1 xs ys ts /\
    predict exp pow softplus m2 xs' ys ts' yt = predict exp pow softplus m1 xs ys ts yt.
Proof.
move=> R exp pow softplus eigsh EC nodes E T nf ef sc H PE SE PT E' T' nf' ef' sc' H' hE hT t [[hp gp] cp] ep.
have [p [V [bp VV hp' e1 e2]]] := order_setup R H PE SE PT H' hE hT.
have QQ : (1%:M : 'M[R]_(length nodes))^T *m 1%:M = 1%:M by rewrite trmx1 mulmx1.
have sgg (k : nat) : (1 : R) * 1 = 1 by rewrite mulr1.
have [h' [g' [c' [ep' th tg tc]]]] := eigenpairs_turned EC H H' bp sgg (p_conj QQ VV e1 e2) ep.
have pa z z' : same_edge E E' z z' -> partner p z z'.
  case=> rz [rz' e]; split=> //; split=> // i ei; move: e; rewrite ei hp' => e.
  have /NoDupE uE : NoDup E by case: SE.
  by apply/eqP; rewrite -(nth_uniq (Z0, Z0) _ _ uE) ?e //; exact: wrap_lt.
have pas x x' : List.Forall2 (same_edge E E') x x' -> List.Forall2 (partner p) x x'.
  by elim=> *; constructor=> //; exact: pa.
exists (h', g', c'); split=> //; split=> [k x1 x2 x1' x2' diag kn /pas h1 /pas h2|m xs ys ts yt xs' ts' kn /pas h1 /pas h2].
  exact: (forward_turned _ _ _ (nn bp) th tg tc).
exact: (predict_turned _ _ _ (nn bp) th tg tc).
Qed.
Print Assumptions C94_order.

(** The numbering of the nodes is irrelevant. *)
Theorem C94_renumbering :
  forall (R : rcfType) exp pow softplus eigsh, eigsh_contract eigsh ->
  forall nodes E T nf ef sc, make_sc nodes E T nf ef = Ok sc ->
  proper_edges (length nodes) E -> simple_edges E -> proper_triangles T ->
  forall pi, injective pi ->
  (forall i, (0 <= i < Z.of_nat (length nodes))%zz -> (0 <= pi i < Z.of_nat (length nodes))%zz) ->
  forall nodes' nf' ef' sc', length nodes' = length nodes ->
  make_sc nodes' (List.map (renumber pi) E) (List.map (List.map pi) T) nf' ef' = Ok sc' ->
  forall (t : R) ps, get_eigenpairs eigsh sc t = Ok ps -> exists ps', get_eigenpairs eigsh sc' t = Ok ps' /\
  forall m xs ys ts yt, k_rows (m_kernel m) = length E -> List.Forall (in_range (length E)) (xs ++ ts) ->
    let m1 := with_kernel m (with_pairs (m_kernel m) ps) in
    let m2 := with_kernel m (with_pairs (m_kernel m) ps') in
    posterior exp pow softplus m2 xs ys ts = posterior exp pow softplus m1 xs ys ts /\
    predict exp pow softplus m2 xs ys ts yt = predict exp pow softplus m1 xs ys ts yt.
Proof.
move=> R exp pow softplus eigsh EC nodes E T nf ef sc H PE SE PT pi inj range nodes' nf' ef' sc' hN H' t [[hp gp] cp] ep.
have [sE [Q [V [bc QQ VV e1 e2]]]] := renumber_setup R H PE SE PT inj range hN H'.
have sgg (k : nat) : (1 : R) * 1 = 1 by rewrite mulr1.
have [h' [g' [c' [ep' th tg tc]]]] := eigenpairs_turned EC H H' bc sgg (p_conj QQ VV e1 e2) ep.
exists (h', g', c'); split=> // m xs ys ts yt kn /List.Forall_app[hx ht].
have pa x : List.Forall (in_range (length E)) x -> List.Forall2 (partner (cast_ord sE)) x x.
  elim=> [|z l hz _ IH]; constructor=> //; split=> //; split; first by rewrite sE.
  by move=> i e; rewrite /= -e sE.
exact: (predict_turned _ _ _ sE th tg tc kn (pa _ hx) (pa _ ht)).
Qed.
Print Assumptions C94_renumbering.

(** ** The direction of the edges *)

(** Values at the edges [xs] of [n] edges, with the opposite sign at the marked ones. *)
Definition turn (R : realFieldType) (marks : seq bool) (n : nat) (xs : seq Z) (ys : seq R) : seq R :=
  [seq (if nth false marks (wrap n x.1) then - x.2 else x.2) | x <- zip xs ys].

Section Signs.
Variable R : rcfType.
Variables (marks : seq bool) (n : nat).
Definition sgz (z : Z) : R := if nth false marks (wrap n z) then - 1 else 1.
Lemma sgz2 z : sgz z * sgz z = 1. Proof. by rewrite /sgz; case: nth; rewrite ?mulrNN mulr1. Qed.
Lemma size_turn xs (ys : seq R) : size ys = size xs -> size (turn marks n xs ys) = size xs.
Proof. by move=> sy; rewrite size_map size_zip sy minnn. Qed.
Lemma nth_turn xs (ys : seq R) i : size ys = size xs -> (i < size xs)%N -> (turn marks n xs ys)`_i = sgz (nth 0%zz xs i) * ys`_i.
Proof.
move=> sy hi; rewrite (nth_map (0%zz, 0)) ?size_zip ?sy ?minnn // nth_zip //= /sgz.
by case: nth; rewrite ?mulN1r ?mul1r.
Qed.

Variables (k k' : Z -> Z -> R) (xs : seq Z).
Hypothesis kk : forall i j, (i < size xs)%N -> (j < size xs)%N ->
  k' (nth 0%zz xs i) (nth 0%zz xs j) = sgz (nth 0%zz xs i) * sgz (nth 0%zz xs j) * k (nth 0%zz xs i) (nth 0%zz xs j).

Lemma combine_turn z a : size a = size xs -> (forall j, (j < size xs)%N -> k' z (nth 0%zz xs j) = sgz z * sgz (nth 0%zz xs j) * k z (nth 0%zz xs j)) ->
  combine k' xs (turn marks n xs a) z = sgz z * combine k xs a z.
Proof.
move=> sa h; rewrite /combine big_distrr /=; apply: eq_bigr => j _; rewrite h // nth_turn //.
have := sgz2 (nth 0%zz xs j); set s := sgz (nth _ _ _) => e.
by rewrite -!mulrA; congr (_ * _); rewrite mulrCA [s * (s * _)]mulrA e mul1r.
Qed.

Lemma solves_turn s b a : size b = size xs -> solves k s xs b a -> solves k' s xs (turn marks n xs b) (turn marks n xs a).
Proof.
move=> sb [sa h]; split=> [|i hi]; first exact: size_turn.
have := @combine_turn (nth 0%zz xs i) a sa (fun j => @kk i j hi); rewrite {1}/combine => ->.
by rewrite !nth_turn // -h // mulrDr [s * (_ * _)]mulrCA.
Qed.

Lemma solves_scale (g : Z -> Z -> R) s b a c : solves g s xs b a -> size b = size xs ->
  solves g s xs [seq c * x | x <- b] [seq c * x | x <- a].
Proof.
move=> [sa h] sb; split=> [|i hi]; first by rewrite size_map.
rewrite !(nth_map 0) ?sa ?sb // -h // mulrDr big_distrr /= mulrCA; congr (_ + _).
by apply: eq_bigr => j _; rewrite (nth_map 0) ?sa // mulrCA.
Qed.
Lemma combine_scale (g : Z -> Z -> R) a c z : size a = size xs -> combine g xs [seq c * x | x <- a] z = c * combine g xs a z.
Proof.
by move=> sa; rewrite /combine big_distrr /=; apply: eq_bigr => j _; rewrite (nth_map 0) ?sa // mulrCA.
Qed.
End Signs.

Lemma fit_turned (R : rcfType) (k : kernel R) hp gp cp hp' gp' cp' : [seq p.1 | p <- hp] = [seq p.1 | p <- hp'] ->
  [seq p.1 | p <- gp] = [seq p.1 | p <- gp'] -> [seq p.1 | p <- cp] = [seq p.1 | p <- cp'] ->
  fit (with_pairs k (hp, gp, cp)) -> fit (with_pairs k (hp', gp', cp')).
Proof.
have all_of (ps ps' : eigpairs R) (P : R -> Prop) : [seq p.1 | p <- ps] = [seq p.1 | p <- ps'] ->
    (forall p, p \in ps -> P p.1) -> forall p, p \in ps' -> P p.1.
  move=> e h p hp0; have : p.1 \in [seq p.1 | p <- ps] by rewrite e map_f.
  by case/mapP => r hr ->; exact: h.
move=> eh eg ec [f0 [f1 f2]].
have egc : [seq p.1 | p <- gp ++ cp] = [seq p.1 | p <- gp' ++ cp'] by rewrite !map_cat eg ec.
split; [|split].
- exact: (all_of _ _ (fun x => 0 <= x) eh f0).
- exact: (all_of _ _ (fun x => 0 <= x) egc f1).
by move=> t; exact: (all_of _ _ (fun x => 0 < x) egc (f2 t)).
Qed.

Lemma reversal_setup (R : rcfType) nodes E T nf ef sc : make_sc nodes E T nf ef = Ok sc -> proper_edges (length nodes) E ->
  forall marks, size marks = length E -> forall T' nf' ef' sc', make_sc nodes (reversed marks E) T' nf' ef' = Ok sc' ->
  exists sE : length (reversed marks E) = length E,
    B1m R nodes (reversed marks E) sc' =
    1%:M *m B1m R nodes E sc *m (ssel (fun k => if nth false marks k then - 1 else 1) (cast_ord sE))^T.
Proof.
move=> H PE marks sm T' nf' ef' sc' H'; set E' := reversed marks E in H' *.
have sE : length E' = length E by rewrite -[length E']/(size E') size_map size_zip sm minnn.
have nE k : (k < length E)%N ->
    nth (Z0, Z0) E' k = if nth false marks k then ((nth (Z0, Z0) E k).2, (nth (Z0, Z0) E k).1) else nth (Z0, Z0) E k.
  by move=> lk; rewrite (nth_map (false, (Z0, Z0))) ?size_zip ?sm ?minnn // nth_zip ?sm.
have PE' : proper_edges (length nodes) E'.
  move=> u v /InE /(nthP (Z0, Z0)) [k lk]; rewrite nE -?[length E]sE // => e.
  have hk : List.In (nth (Z0, Z0) E k) E by apply/InE/mem_nth; rewrite -[size E]sE.
  case: (nth (Z0, Z0) E k) hk e => a b /PE [h1 [h2 h3]] /=.
  by case: (nth false marks k) => -[<- <-]; split=> //; split=> // h; apply: h3.
exists sE; apply/matrixP => i k; rewrite mul1mx Mssel (B1m_entry _ H') // (B1m_entry _ H) //.
have lk : (k < length E)%N by rewrite -sE.
rewrite nE //=; case: (nth false marks k); last by rewrite mul1r.
by rewrite /= mulN1r opprB.
Qed.

(** Without triangles and with mean zero, reversing stored edges and the labels there negates the predicted mean there and
    the covariances between a reversed and an unreversed edge; MAE and MSE stay the same. *)
Theorem C94_reversal :
  forall (R : rcfType) exp pow softplus eigsh, exp_contract exp -> pow_contract pow -> (forall x, 0 < softplus x) ->
  eigsh_contract eigsh ->
  forall nodes E nf ef sc, make_sc nodes E nil nf ef = Ok sc -> proper_edges (length nodes) E ->
  forall marks, size marks = length E ->
  forall nf' ef' sc', make_sc nodes (reversed marks E) nil nf' ef' = Ok sc' ->
  forall (t : R) ps, get_eigenpairs eigsh sc t = Ok ps -> exists ps', get_eigenpairs eigsh sc' t = Ok ps' /\
  forall m v xs ys ts, k_rows (m_kernel m) = length E -> constant m = 0 ->
    let m1 := with_kernel m (with_pairs (m_kernel m) ps) in
    let m2 := with_kernel m (with_pairs (m_kernel m) ps') in
    let tr := turn marks (length E) in
    sound softplus m1 v -> List.Forall (in_range (length E)) (xs ++ ts) -> size ys = size xs ->
    sound softplus m2 v /\
    (forall P, posterior exp pow softplus m1 xs ys ts = Ok P ->
       exists P', posterior exp pow softplus m2 xs (tr xs ys) ts = Ok P' /\ p_mean P' = tr ts (p_mean P) /\
         forall i j, (i < size ts)%N -> (j < size ts)%N -> (nth [::] (p_covar P') i)`_j =
           (if nth false marks (wrap (length E) (nth 0%zz ts i)) == nth false marks (wrap (length E) (nth 0%zz ts j))
            then (nth [::] (p_covar P) i)`_j else - (nth [::] (p_covar P) i)`_j)) /\
    forall yt Q M, predict exp pow softplus m1 xs ys ts yt = Ok (Q, M) ->
      exists Q' M', predict exp pow softplus m2 xs (tr xs ys) ts (tr ts yt) = Ok (Q', M') /\
        p_mean Q' = tr ts (p_mean Q) /\ r_mae M' = r_mae M /\ r_mse M' = r_mse M.
Proof.
move=> R exp pow softplus eigsh XC PC SP EC nodes E nf ef sc H PE marks sm nf' ef' sc' H' t [[hp gp] cp] ep.
have [sE e1] := reversal_setup R H PE sm H'.
set E' := reversed marks E in sE e1 H'; set sg : nat -> R := fun k => _ in e1.
have QQ : (1%:M : 'M[R]_(length nodes))^T *m 1%:M = 1%:M by rewrite trmx1 mulmx1.
have sgg k : sg k * sg k = 1 by rewrite /sg; case: nth; rewrite ?mulrNN mulr1.
have bc : bijective (cast_ord sE) by exists (cast_ord (esym sE)); [exact: cast_ordK|exact: cast_ordKV].
have U0 (F : list (Z * Z)) (s : SC) : L1Um R F nil s = 0 by apply/matrixP => i j; rewrite !mxE big_ord0.
have PS s : p_same nodes nil sc nodes nil sc' (cast_ord sE) sg s.
  rewrite /p_same /p_mat !U0 !addr0 (L1L_conj QQ e1).
  by case: ifP => _ //; case: ifP => _ //; rewrite mulmx0 mul0mx.
have [h' [g' [c' [ep' th tg tc]]]] := eigenpairs_turned EC H H' bc sgg PS ep.
exists (h', g', c'); split=> // m v xs ys ts kn m0 m1 m2 tr S h sy.
have S2 : sound softplus m2 v.
  case: S => rd [ps [f s0]]; split=> //; split=> //; split=> //; exact: fit_turned (proj1 th) (proj1 tg) (proj1 tc) f.
have kE z y : in_range (length E) z -> in_range (length E) y -> prior exp pow softplus m2 v z y =
    sgz R marks (length E) z * sgz R marks (length E) y * prior exp pow softplus m1 v z y.
  move=> rz ry; rewrite /prior /= kn /covariance.
  have mixE ps ps' g : turned (cast_ord sE) sg ps ps' -> mixture g ps' (wrap (length E) z) (wrap (length E) y) =
     sgz R marks (length E) z * sgz R marks (length E) y * mixture g ps (wrap (length E) z) (wrap (length E) y).
    case=> _ tm; have lz := wrap_lt rz; have ly := wrap_lt ry.
    have := tm g (cast_ord (esym sE) (Ordinal lz)) (cast_ord (esym sE) (Ordinal ly)).
    by rewrite /= => ->.
  by rewrite (mixE _ _ _ th) (mixE _ _ _ tg) (mixE _ _ _ tc) -!mulrDr mulrCA.
have k1 : k_rows (m_kernel m1) = length E by []; have k2 : k_rows (m_kernel m2) = length E by [].
have d1 : List.Forall (in_range (k_rows (m_kernel m1))) (xs ++ ts) by rewrite k1.
have d2 : List.Forall (in_range (k_rows (m_kernel m2))) (xs ++ ts) by rewrite k2.
have [hx ht] := proj1 (List.Forall_app _ _ _) h.
have at_ l i : List.Forall (in_range (length E)) l -> (i < size l)%N -> in_range (length E) (nth 0%zz l i).
  by move=> /List.Forall_forall hl hi; apply: hl; apply/InE/mem_nth.
have sy' : size (tr xs ys) = size xs by exact: size_turn.
have post P : posterior exp pow softplus m1 xs ys ts = Ok P ->
       exists P', posterior exp pow softplus m2 xs (tr xs ys) ts = Ok P' /\ p_mean P' = tr ts (p_mean P) /\
         forall i j, (i < size ts)%N -> (j < size ts)%N -> (nth [::] (p_covar P') i)`_j =
           (if nth false marks (wrap (length E) (nth 0%zz ts i)) == nth false marks (wrap (length E) (nth 0%zz ts j))
            then (nth [::] (p_covar P) i)`_j else - (nth [::] (p_covar P) i)`_j).
  move=> eP; have [P' eP'] := posterior_exists XC PC SP S2 d2 sy'; exists P'; split=> //.
  have [s1 s2 hm hc] := posterior_by XC PC SP S d1 sy eP; have [s1' s2' hm' hc'] := posterior_by XC PC SP S2 d2 sy' eP'.
  have [P0 [_ [_ [_ [[a [ha _]] hw]]]]] := C87_predictive XC PC SP S d1 sy.
  have kk i j : (i < size xs)%N -> (j < size xs)%N -> prior exp pow softplus m2 v (nth 0%zz xs i) (nth 0%zz xs j) =
     sgz R marks (length E) (nth 0%zz xs i) * sgz R marks (length E) (nth 0%zz xs j) * prior exp pow softplus m1 v (nth 0%zz xs i) (nth 0%zz xs j).
    by move=> hi hj; apply: kE; exact: at_.
  have c1 : constant m1 = 0 by []; have c2 : constant m2 = 0 by [].
  have sub0 (l : seq R) : [seq y - 0 | y <- l] = l by rewrite -[RHS]map_id; apply: eq_map => y; rewrite subr0.
  rewrite c1 sub0 in ha hm; rewrite c2 sub0 in hm'.
  split.
    apply: (@eq_from_nth _ 0); rewrite s1' ?size_turn // => j hj.
    have sa := proj1 ha.
    rewrite (hm' (tr xs a)) //; last exact: solves_turn ha.
    rewrite nth_turn // (hm a) // !add0r; apply: combine_turn => // i hi; apply: kE; exact: at_.
  move=> i j hi hj; have [w [sw _]] := hw j hj; set z := nth 0%zz ts j in sw *.
  have e : [seq prior exp pow softplus m2 v x z | x <- xs] =
      [seq sgz R marks (length E) z * y | y <- tr xs [seq prior exp pow softplus m1 v x z | x <- xs]].
    apply: (@eq_from_nth _ 0); rewrite !size_map ?size_zip ?size_map ?minnn // => b hb.
    rewrite (nth_map 0%zz) // (nth_map 0) ?size_turn ?size_map // nth_turn ?size_map // (nth_map 0%zz) //.
    by rewrite kE; [rewrite -mulrA mulrCA|exact: at_|exact: at_].
  rewrite (hc w) // (hc' [seq sgz R marks (length E) z * y | y <- tr xs w]) //; last first.
    rewrite -/z e; apply: solves_scale; last by rewrite size_turn ?size_map.
    by apply: (solves_turn kk _ sw); rewrite size_map.
  have sw' := proj1 sw.
  rewrite combine_scale ?size_turn // (@combine_turn _ marks (length E) (prior exp pow softplus m1 v)) //; last by move=> b hb; apply: kE; exact: at_.
  rewrite -/z kE; [|exact: at_|exact: at_].
  by rewrite mulrA [sgz _ _ _ z * _]mulrC -mulrBr /sgz; do 2 case: nth; rewrite ?mulrNN ?mulr1 ?mul1r ?mulN1r.
split=> //; split=> // yt Q M e.
have [_ [_ [st l2]]] := proj1 (proj1 (C87_accepts XC PC SP _ _ _ _ S)) (ex_intro _ _ e).
have st' : size (tr ts yt) = size ts by exact: size_turn.
have [[Q' M'] e'] := proj2 (proj1 (C87_accepts XC PC SP _ _ _ _ S2)) (conj d2 (conj sy' (conj st' l2))).
exists Q', M'; split=> //.
have [P [eP [eQ [s1 [mae [mse _]]]]]] := C87_metrics e.
have [P' [eP' [eQ' [s1' [mae' [mse' _]]]]]] := C87_metrics e'.
have [P0 [eP0 [mP _]]] := post _ eP; move: eP0; rewrite eP' => -[eP0]; rewrite -eP0 in mP.
have mQ : p_mean Q' = tr ts (p_mean Q) by rewrite eQ eQ'.
split=> //; rewrite mae mae' mse mse' mQ.
have sQ : size (p_mean Q) = size ts by rewrite s1.
have zE (g : R * R -> R) : (forall s a b, s * s = 1 -> g (s * a, s * b) = g (a, b)) ->
    [seq g d | d <- zip (tr ts (p_mean Q)) (tr ts yt)] = [seq g d | d <- zip (p_mean Q) yt].
  move=> hg; apply: (@eq_from_nth _ 0); rewrite !size_map !size_zip !size_turn ?sQ ?st ?minnn // => i hi.
  rewrite !(nth_map (0, 0)) ?size_zip ?size_turn ?sQ ?st ?minnn // !nth_zip ?size_turn ?sQ ?st //.
  by rewrite !nth_turn // hg //; exact: sgz2.
split; congr average; apply: zE => s a b s2 /=; rewrite -mulrBr.
  rewrite normrM (_ : `|s| = 1) ?mul1r //; apply/eqP.
  by rewrite -(@eqr_expn2 _ 2) ?normr_ge0 ?ler01 // -normrX expr2 s2 normr1 expr1n.
by rewrite exprMn [s ^+ 2]expr2 s2 mul1r.
Qed.
Print Assumptions C94_reversal.

(** ** What does depend on the direction: the constant mean and R2 *)
Section Scalar.
Variable R : rcfType.
Variables (eigsh : forall n, 'M[R]_n -> seq (R * 'cV[R]_n)).
Hypotheses (EC : eigsh_contract eigsh).
Variables (nodes : list Z) (E : list (Z * Z)) (nf : dict Z fdict) (ef : dict (Z * Z) fdict) (sc : SC).
Hypothesis H : make_sc nodes E nil nf ef = Ok sc.
Hypothesis M0 : (0 < length E)%N.
Hypothesis L2 : L1Lm R nodes E sc = 2%:R%:M.

Lemma scalar_pairs : exists gp, get_eigenpairs eigsh sc (milli R) = Ok ([::], gp, [::]) /\
  (forall p, p \in gp -> p.1 = 2%:R) /\
  forall (g : R -> R) i j, (i < length E)%N -> (j < length E)%N -> mixture g gp i j = if i == j then g 2%:R else 0.
Proof.
have m2 : milli R < 2%:R by apply: lt_trans (_ : 1 < _); rewrite ?ltr1n // invf_lt1 ?ltr1n ?ltr0n.
have m0 : 0 < milli R by rewrite invr_gt0 ltr0n.
have U0 : L1Um R E nil sc = 0 by apply/matrixP => i j; rewrite !mxE big_ord0.
have fL := famL EC nodes sc M0; have fU := famU EC nil sc M0; have fS := famS EC nodes nil sc M0.
have val n (A : 'M[R]_n) l a p : A = a%:M -> eigfam A l -> p \in l -> p.1 = a.
  move=> eA f pl; have := eigfam_eq f pl; rewrite eA mul_scalar_mx => e.
  by have := congr1 (fun u => dot p.2 u) e; rewrite !dotZr (eigfam_unit f pl) !mulr1.
have vL p (h : p \in eigsh (L1Lm R nodes E sc)) : p.1 = 2%:R by exact: (val _ _ _ _ _ L2 fL h).
have vS p (h : p \in eigsh (L1Lm R nodes E sc + L1Um R E nil sc)) : p.1 = 2%:R.
  by apply: (val _ _ _ _ _ _ fS h); rewrite U0 addr0.
have vU p (h : p \in eigsh (L1Um R E nil sc)) : p.1 = 0.
  by apply: (val _ _ _ _ _ _ fU h); rewrite U0 scalemx0 || rewrite U0 raddf0.
exists (up (eigsh (L1Lm R nodes E sc))); split; [|split].
- rewrite /get_eigenpairs !(component_eigE eigsh H) ?eps64_milli // !bindOk /=.
  congr (Ok (_, _, _)).
  + rewrite /harml (eq_in_filter (a2 := pred0)) ?filter_pred0 // => p /vS ->; by rewrite /= leNgt m2.
  + rewrite /gradl (eq_in_filter (a2 := predT)) ?filter_predT // => p /vL ->; by rewrite /= m2.
  rewrite /curll (eq_in_filter (a2 := pred0)) ?filter_pred0 // => p /vU ->; by rewrite /= leNgt m0.
- by move=> p /mapP[q /vL h ->].
move=> g i j li lj.
transitivity ((g 2%:R *: outer [seq p.2 | p <- eigsh (L1Lm R nodes E sc)]) (Ordinal li) (Ordinal lj)); last first.
  by rewrite (eigfam_outer fL) !mxE -val_eqE /=; case: eqP => _; rewrite ?mulr1 ?mulr0.
rewrite /mixture /up big_map /outer big_map scaler_sumr summxE big_seq [RHS]big_seq; apply: eq_bigr => p pl /=.
rewrite (vL _ pl) !mxE big_ord1 !mxE -mulrA.
by rewrite -(nth_unvec p.2 (Ordinal li)) -(nth_unvec p.2 (Ordinal lj)).
Qed.
End Scalar.

Definition turned_edges : list (Z * Z) := [:: (1, 0); (2, 3)]%zz.
Definition turned_sc : SC := get_sc (make_sc two_nodes turned_edges nil nil nil).
Lemma turned_ok : make_sc two_nodes turned_edges nil nil nil = Ok turned_sc. Proof. by vm_compute. Qed.
Lemma turned_L1L (R : rcfType) : L1Lm R two_nodes turned_edges turned_sc = 2%:R%:M.
Proof.
rewrite -(toM_L1L R turned_ok); apply/matrixP => i j.
have e : forall i j, (i < 2)%N -> (j < 2)%N -> at2 (amul (atr (sc_B1 turned_sc)) (sc_B1 turned_sc)) i j = if i == j then Zpos 2 else Z0.
  by case=> [|[|//]] [|[|//]] _ _; vm_compute.
by rewrite /toM !mxE e ?ltn_ord // -val_eqE /=; case: eqP.
Qed.

Section Two.
Variable R : rcfType.
Variables (gp : eigpairs R) (c : option R).
Hypothesis v2 : forall p, p \in gp -> p.1 = 2%:R.
Hypothesis mg : forall (g : R -> R) i j, (i < 2)%N -> (j < 2)%N -> mixture g gp i j = if i == j then g 2%:R else 0.

(** Two edges that are independent. *)
Definition base : gpmodel R := mkModel (new_kernel DiffusionNonHC 2 [::] [::] [::]) c 0 1 false.
Definition indep : gpmodel R := with_kernel base (with_pairs (m_kernel base) ([::], gp, [::])).
Notation pr := (prior (@grow R) (@pow_ex R) (@grow R) indep (fun _ => 1)).

Lemma indep_sound : sound (@grow R) indep (fun _ => 1).
Proof.
split; [|split; [|split]].
- by move=> s h; rewrite -(grow0 R); apply: (proj1 (proj1 (C77_hyperparameters (@grow_contract R)) DiffusionNonHC 2%N [::] [::] [::])).
- by move=> s _; exact: ltr01.
- by split=> //; split=> [p|//]; rewrite cats0 => /v2 ->; exact: ler0n.
- exact: ltr01.
Qed.

Lemma indep_prior : pr 0%zz 0%zz = grow (- 2%:R) /\ pr 1%zz 1%zz = grow (- 2%:R) /\ pr 0%zz 1%zz = 0 /\ pr 1%zz 0%zz = 0.
Proof.
have [w0 w1] : wrap 2 0 = 0%N /\ wrap 2 1 = 1%N by [].
by rewrite /prior /= w0 w1 /covariance /= !mg // /mixture !big_nil /= !grow0 !mul1r !add0r !addr0 ?mulr0 ?mul1r.
Qed.

Lemma indep_range l : all (fun z => (Z.leb 0 z) && (Z.leb z 1)) l -> List.Forall (in_range (k_rows (m_kernel indep))) l.
Proof.
elim: l => [|z l IH] /=; first by constructor.
by case/andP=> /andP[/Z.leb_le h1 /Z.leb_le h2] /IH; constructor=> //; rewrite /in_range /=; lia.
Qed.

(** Trained on both edges, it predicts the labels times a number between 0 and 1. *)
Lemma indep_mean a b P : constant indep = 0 -> 
  posterior (@grow R) (@pow_ex R) (@grow R) indep [:: 0; 1]%zz [:: a; b] [:: 0; 1]%zz = Ok P ->
  p_mean P = [:: grow (- 2%:R) * a / (grow (- 2%:R) + 1); grow (- 2%:R) * b / (grow (- 2%:R) + 1)].
Proof.
move=> c0 e; have [k00 [k11 [k01 k10]]] := indep_prior.
have D : List.Forall (in_range (k_rows (m_kernel indep))) ([:: 0; 1]%zz ++ [:: 0; 1]%zz) by exact: indep_range.
have [s1 _ hm _] := posterior_by (@grow_gt0 R) (@pow_ex_contract R) (@grow_gt0 R) indep_sound D (erefl : size [:: a; b] = size [:: 0; 1]%zz) e.
set w := grow _ in k00 k11 *.
have w0 : 0 < w + 1 by rewrite ltr_paddl ?ltr01 // ltW // grow_gt0.
have sl : solves pr (m_noise indep) [:: 0; 1]%zz [seq y - constant indep | y <- [:: a; b]] [:: a / (w + 1); b / (w + 1)].
  split=> // -[|[|//]] _; rewrite !big_ord_recl big_ord0 /= ?k00 ?k11 ?k01 ?k10 c0 !mul0r !addr0 ?add0r mul1r subr0.
    by rewrite -[X in _ + X]mul1r -mulrDl mulrCA divff ?mulr1 // gt_eqF.
  by rewrite -[X in _ + X]mul1r -mulrDl mulrCA divff ?mulr1 // gt_eqF.
apply: (@eq_from_nth _ 0); rewrite s1 // => -[|[|//]] _; rewrite (hm _ _ sl) // c0 add0r /combine !big_ord_recl big_ord0 /=;
  by rewrite ?k00 ?k11 ?k01 ?k10 !mul0r ?addr0 ?add0r mulrA.
Qed.
End Two.

(** False: that reversing edges and their labels leaves R2 as it is.  Two separate edges with label 1 each; R2 is
    undefined, because the predictions are equal, and after reversing the first edge it is a number. *)
Theorem C94_r2_refuted :
  exists (R : rcfType) (exp : R -> R) (pow : R -> R -> R) (softplus : R -> R) eigsh nodes E marks sc sc' t ps ps' m v xs ys ts yt Q M Q' M',
  exp_contract exp /\ pow_contract pow /\ (forall x, 0 < softplus x) /\ eigsh_contract eigsh /\
  make_sc nodes E nil nil nil = Ok sc /\ proper_edges (length nodes) E /\ size marks = length E /\
  make_sc nodes (reversed marks E) nil nil nil = Ok sc' /\
  get_eigenpairs eigsh sc t = Ok ps /\ get_eigenpairs eigsh sc' t = Ok ps' /\
  k_rows (m_kernel m) = length E /\ constant m = 0 /\
  let m1 := with_kernel m (with_pairs (m_kernel m) ps) in
  let m2 := with_kernel m (with_pairs (m_kernel m) ps') in
  let tr := turn marks (length E) in
  sound softplus m1 v /\ predict exp pow softplus m1 xs ys ts yt = Ok (Q, M) /\
  predict exp pow softplus m2 xs (tr xs ys) ts (tr ts yt) = Ok (Q', M') /\ r_r2 M = None /\ r_r2 M' <> None.
Proof.
pose R := realalg_rcfType; have EC := @eigsh_std_ok R.
have [gp [e1 [v1 g1]]] := scalar_pairs EC two_ok isT (two_L1L R).
have [gp' [e2 [v2 g2]]] := scalar_pairs EC turned_ok isT (turned_L1L R).
exists R, (@grow R), (@pow_ex R), (@grow R), (@eigsh_std R), two_nodes, two_edges, [:: true; false], two_sc, turned_sc, (milli R).
exists ([::], gp, [::]), ([::], gp', [::]), (base (None : option R)), (fun _ => 1), [:: 0; 1]%zz, [:: 1; 1], [:: 0; 1]%zz, [:: 1; 1].
have ok gp0 (h : forall p, p \in gp0 -> p.1 = 2%:R) a b : exists r, predict (@grow R) (@pow_ex R) (@grow R) (indep gp0 None) [:: 0; 1]%zz [:: a; b] [:: 0; 1]%zz [:: a; b] = Ok r.
  apply: (proj2 (proj1 (C87_accepts (@grow_gt0 R) (@pow_ex_contract R) (@grow_gt0 R) _ _ _ _ (indep_sound None h)))).
  by split; first exact: indep_range.
have [[Q M] p1] := ok gp v1 1 1; have [[Q' M'] p2] := ok gp' v2 (- 1) 1.
exists Q, M, Q', M'; do 3 (split; first by [exact: grow_gt0|exact: pow_ex_contract]).
split; first exact: EC. split; first exact: two_ok. split; first exact: two_proper. split; first by [].
split; first exact: turned_ok. do 4 (split; first by []). move=> m1 m2 tr.
split; first exact: indep_sound. split; first exact: p1. split; first exact: p2.
set w := grow (- 2%:R : R); have w0 : 0 < w by exact: grow_gt0.
have w1 : 0 < w + 1 by rewrite addr_gt0 ?ltr01.
split.
  have [P [eP [eQ [_ [_ [_ [_ [_ [r0 _]]]]]]]]] := C87_metrics p1; apply: r0.
  have := indep_mean v1 g1 (erefl : constant (indep gp None) = 0) eP; rewrite eQ /= -/w => -> x.
  rewrite /average !big_cons big_nil addr0 /= !inE orbb => /eqP ->.
  set z := w * 1 / (w + 1); have -> : z + z = z * 2%:R by rewrite mulr_natr mulr2n.
  by rewrite mulfK // pnatr_eq0.
have [P [eP [eQ [_ [_ [_ [_ [_ [_ r1]]]]]]]]] := C87_metrics p2; rewrite r1 //.
exists (w * 1 / (w + 1)); have := indep_mean v2 g2 (erefl : constant (indep gp' None) = 0) eP; rewrite eQ /= -/w => ->.
  by rewrite !inE eqxx orbT.
rewrite /average !big_cons big_nil addr0 mulrN1 mulr1 mulNr addNr mul0r => /eqP.
by rewrite mulf_eq0 invr_eq0 !gt_eqF.
Qed.
Print Assumptions C94_r2_refuted.

(** False: the same with a constant mean instead of mean zero.  Without observations the mean is the constant at every
    edge, whatever its direction. *)
Theorem C94_constant_refuted :
  exists (R : rcfType) (exp : R -> R) (pow : R -> R -> R) (softplus : R -> R) eigsh nodes E marks sc sc' t ps ps' m v ts P P',
  exp_contract exp /\ pow_contract pow /\ (forall x, 0 < softplus x) /\ eigsh_contract eigsh /\
  make_sc nodes E nil nil nil = Ok sc /\ proper_edges (length nodes) E /\ size marks = length E /\
  make_sc nodes (reversed marks E) nil nil nil = Ok sc' /\
  get_eigenpairs eigsh sc t = Ok ps /\ get_eigenpairs eigsh sc' t = Ok ps' /\ k_rows (m_kernel m) = length E /\
  let m1 := with_kernel m (with_pairs (m_kernel m) ps) in
  let m2 := with_kernel m (with_pairs (m_kernel m) ps') in
  sound softplus m1 v /\ posterior exp pow softplus m1 [::] [::] ts = Ok P /\ posterior exp pow softplus m2 [::] [::] ts = Ok P' /\
  p_mean P' <> turn marks (length E) ts (p_mean P).
Proof.
pose R := realalg_rcfType; have EC := @eigsh_std_ok R.
have [gp [e1 [v1 g1]]] := scalar_pairs EC two_ok isT (two_L1L R).
have [gp' [e2 [v2 g2]]] := scalar_pairs EC turned_ok isT (turned_L1L R).
exists R, (@grow R), (@pow_ex R), (@grow R), (@eigsh_std R), two_nodes, two_edges, [:: true; false], two_sc, turned_sc, (milli R).
exists ([::], gp, [::]), ([::], gp', [::]), (base (Some (1 : R))), (fun _ => 1), [:: 0]%zz.
have one gp0 (h : forall p, p \in gp0 -> p.1 = 2%:R) : exists P,
    posterior (@grow R) (@pow_ex R) (@grow R) (indep gp0 (Some 1)) [::] [::] [:: 0]%zz = Ok P /\ p_mean P = [:: 1].
  have S := indep_sound (Some 1) h.
  have D : List.Forall (in_range (k_rows (m_kernel (indep gp0 (Some 1))))) ([::] ++ [:: 0]%zz) by exact: indep_range.
  have [P [e [s1 [_ [[a [_ hm]] _]]]]] := C87_predictive (@grow_gt0 R) (@pow_ex_contract R) (@grow_gt0 R) S D (erefl : size [::] = size [::]).
  exists P; split=> //; apply: (@eq_from_nth _ 0); rewrite s1 // => -[|//] _.
  by rewrite hm // /combine big_ord0 addr0.
have [P [p1 q1]] := one gp v1; have [P' [p2 q2]] := one gp' v2.
exists P, P'; do 3 (split; first by [exact: grow_gt0|exact: pow_ex_contract]).
split; first exact: EC. split; first exact: two_ok. split; first exact: two_proper. split; first by [].
split; first exact: turned_ok. do 3 (split; first by []). move=> m1 m2.
split; first exact: indep_sound. split; first exact: p1. split; first exact: p2.
rewrite q1 q2 => -[] /eqP; rewrite -subr_eq0 opprK -[1 + 1]/(2%:R) pnatr_eq0 //.
Qed.
Print Assumptions C94_constant_refuted.

(** ** Examples *)

Lemma trained_fit (R : rcfType) eigsh nodes E T nf ef sc (k : kernel R) ps : eigsh_contract eigsh ->
  make_sc nodes E T nf ef = Ok sc -> (0 < length E)%N -> get_eigenpairs eigsh sc (milli R) = Ok ps -> fit (with_pairs k ps).
Proof.
move=> EC H M0; rewrite /get_eigenpairs !(component_eigE eigsh H) ?eps64_milli //= => -[<-].
have m0 : 0 < milli R by rewrite invr_gt0 ltr0n.
have gc p : p \in up (gradl eigsh nodes E sc (milli R)) ++ up (curll eigsh E T sc (milli R)) -> 0 < p.1.
  rewrite mem_cat => /orP[] /mapP[q]; rewrite mem_filter => /andP[h _] ->; first exact: lt_trans m0 h.
  exact: lt_le_trans m0 h.
split; [|split].
- move=> p /mapP[q /mapP[r]]; rewrite mem_filter => /andP[_ h] -> ->; apply: zs_ge0; exact: (valS EC M0 h).
- by move=> p /gc /ltW.
by move=> _ p /gc.
Qed.

(** A filled triangle with its edges in another order and with nodes 0 and 2 exchanged. *)
Example C94_order_example :
  let R := realalg_rcfType in
  let E' := [:: (1, 2); (0, 1); (0, 2)]%zz in
  let m : gpmodel R := new_model (new_kernel Diffusion 3 [::] [::] [::]) 1 None in
  perm_eq tri_edges E' /\ List.Forall2 (same_edge tri_edges E') [:: 0]%zz [:: 1]%zz /\
  List.Forall2 (same_edge tri_edges E') [:: 1; 2]%zz [:: 2; 0]%zz /\
  exists ps r, get_eigenpairs (@eigsh_std R) tri_sc (milli R) = Ok ps /\
    predict (@grow R) (@pow_ex R) (@grow R) (with_kernel m (with_pairs (m_kernel m) ps)) [:: 0]%zz [:: 5%:R] [:: 1; 2]%zz [:: 3%:R; 4%:R] = Ok r /\
    (forall sc', make_sc tri_nodes E' tri_triangles nil nil = Ok sc' ->
       exists ps', get_eigenpairs (@eigsh_std R) sc' (milli R) = Ok ps' /\
       predict (@grow R) (@pow_ex R) (@grow R) (with_kernel m (with_pairs (m_kernel m) ps')) [:: 1]%zz [:: 5%:R] [:: 2; 0]%zz [:: 3%:R; 4%:R] = Ok r) /\
    (forall sc', make_sc tri_nodes (List.map (renumber swap02) tri_edges) (List.map (List.map swap02) tri_triangles) nil nil = Ok sc' ->
       exists ps', get_eigenpairs (@eigsh_std R) sc' (milli R) = Ok ps' /\
       predict (@grow R) (@pow_ex R) (@grow R) (with_kernel m (with_pairs (m_kernel m) ps')) [:: 0]%zz [:: 5%:R] [:: 1; 2]%zz [:: 3%:R; 4%:R] = Ok r).
Proof.
move=> R E' m; have EC := @eigsh_std_ok R.
have [pe [se [pt [_ [_ [inj [range _]]]]]]] := C86_example.
have hE : perm_eq tri_edges E' by [].
have h1 : List.Forall2 (same_edge tri_edges E') [:: 0]%zz [:: 1]%zz by repeat constructor.
have h2 : List.Forall2 (same_edge tri_edges E') [:: 1; 2]%zz [:: 2; 0]%zz by repeat constructor.
have ep : exists ps, get_eigenpairs (@eigsh_std R) tri_sc (milli R) = Ok ps.
  by rewrite /get_eigenpairs !(component_eigE (@eigsh_std R) tri_ok) ?eps64_milli // !bindOk; eexists.
have [ps e] := ep.
have S : sound (@grow R) (with_kernel m (with_pairs (m_kernel m) ps)) (fun _ => 1).
  split; [|split; [|split]].
  - by move=> s h; rewrite -(grow0 R); apply: (proj1 (proj1 (C77_hyperparameters (@grow_contract R)) Diffusion 3%N [::] [::] [::])).
  - by move=> s _; exact: ltr01.
  - exact: (trained_fit _ EC tri_ok _ e).
  - exact: ltr01.
have inr : List.Forall (in_range 3) ([:: 0] ++ [:: 1; 2])%zz by repeat constructor.
have [r er] := proj2 (proj1 (C87_accepts (@grow_gt0 R) (@pow_ex_contract R) (@grow_gt0 R) [:: 0]%zz [:: 5%:R] [:: 1; 2]%zz [:: 3%:R; 4%:R] S))
  (conj inr (conj erefl (conj erefl erefl))).
do 3 (split=> //); exists ps, r; do 2 (split=> //); split=> sc' H'.
  have [ps' [e' [_ h]]] := C94_order (@grow R) (@pow_ex R) (@grow R) EC tri_ok pe se pt H' hE (perm_refl _) e.
  by exists ps'; split=> //; rewrite (proj2 (h m _ _ _ _ _ _ erefl h1 h2)).
have [ps' [e' h]] := C94_renumbering (@grow R) (@pow_ex R) (@grow R) EC tri_ok pe se pt inj range erefl H' e.
by exists ps'; split=> //; rewrite (proj2 (h m _ _ _ _ erefl inr)).
Qed.

(** Two separate edges, the first of them reversed. *)
Example C94_reversal_example :
  let R := realalg_rcfType in
  let w := grow (- 2%:R : R) in
  size [:: true; false] = length two_edges /\ reversed [:: true; false] two_edges = turned_edges /\
  constant (base (None : option R)) = 0 /\ turn [:: true; false] 2 [:: 0; 1]%zz [:: 1; 1 : R] = [:: - 1; 1] /\
  exists gp gp' P P', get_eigenpairs (@eigsh_std R) two_sc (milli R) = Ok ([::], gp, [::]) /\
    get_eigenpairs (@eigsh_std R) turned_sc (milli R) = Ok ([::], gp', [::]) /\
    sound (@grow R) (indep gp (None : option R)) (fun _ => 1) /\
    posterior (@grow R) (@pow_ex R) (@grow R) (indep gp None) [:: 0; 1]%zz [:: 1; 1] [:: 0; 1]%zz = Ok P /\
    posterior (@grow R) (@pow_ex R) (@grow R) (indep gp' None) [:: 0; 1]%zz [:: - 1; 1] [:: 0; 1]%zz = Ok P' /\
    p_mean P = [:: w / (w + 1); w / (w + 1)] /\ p_mean P' = [:: - (w / (w + 1)); w / (w + 1)] /\ 0 < w / (w + 1).
Proof.
move=> R w; have EC := @eigsh_std_ok R.
have [gp [e1 [v1 g1]]] := scalar_pairs EC two_ok isT (two_L1L R).
have [gp' [e2 [v2 g2]]] := scalar_pairs EC turned_ok isT (turned_L1L R).
have D gp0 : List.Forall (in_range (k_rows (m_kernel (indep gp0 (None : option R))))) ([:: 0; 1]%zz ++ [:: 0; 1]%zz) by exact: indep_range.
have S1 := indep_sound (None : option R) v1; have S2 := indep_sound (None : option R) v2.
have [P p1] := posterior_exists (@grow_gt0 R) (@pow_ex_contract R) (@grow_gt0 R) S1 (D _) (erefl : size [:: 1; 1] = size [:: 0; 1]%zz).
have [P' p2] := posterior_exists (@grow_gt0 R) (@pow_ex_contract R) (@grow_gt0 R) S2 (D _) (erefl : size [:: - 1; 1] = size [:: 0; 1]%zz).
have w0 : 0 < w by exact: grow_gt0.
do 4 (split=> //); exists gp, gp', P, P'; do 5 (split=> //).
rewrite (indep_mean v1 g1 _ p1) // (indep_mean v2 g2 _ p2) // -/w mulrN1 mulr1 mulNr; do 2 (split=> //).
by rewrite divr_gt0 // addr_gt0 ?ltr01.
Qed.

(** ** Triangles *)

(** A matrix whose eigenvalues are 0 and 3: functions of its positive part are multiples of it. *)
Lemma triple_mixture (R : rcfType) n (A : 'M[R]_n) l (sel : R -> bool) (g : R -> R) (i j : 'I_n) : eigfam A l ->
  A *m A = 3%:R *: A -> sel 3%:R -> ~~ sel 0 ->
  mixture g (up [seq p <- l | sel p.1]) i j = g 3%:R / 3%:R * A i j.
Proof.
move=> f e s3 s0; have n3 : 3%:R != 0 :> R by rewrite pnatr_eq0.
have val p : p \in l -> p.1 = 0 \/ p.1 = 3%:R.
  move=> pl; have a := eigfam_eq f pl; have u := eigfam_unit f pl.
  have : A *m (A *m p.2) = 3%:R *: (A *m p.2) by rewrite mulmxA e scalemxAl.
  rewrite a -scalemxAr a !scalerA => /(congr1 (fun x => dot p.2 x)); rewrite !dotZr u !mulr1 => /eqP.
  by rewrite -subr_eq0 -mulrBl mulf_eq0 subr_eq0 => /orP[] /eqP; [right|left].
have -> : A = \sum_(p <- l) p.1 *: (p.2 *m p.2^T).
  rewrite -[LHS]mulmx1 -(eigfam_outer f) /outer big_map mulmx_sumr big_seq [RHS]big_seq; apply: eq_bigr => p pl.
  by rewrite mulmxA (eigfam_eq f pl) scalemxAl.
rewrite /mixture /up big_map big_filter big_mkcond /= summxE mulr_sumr big_seq [RHS]big_seq; apply: eq_bigr => p pl.
rewrite !mxE big_ord1 !mxE -(nth_unvec p.2 i) -(nth_unvec p.2 j).
case: (val _ pl) => ->; first by rewrite (negbTE s0) mul0r mulr0.
by rewrite s3 [RHS]mulrA divfK // mulrA.
Qed.

(** Covariances when both Laplacians are of this kind and their sum has no small eigenvalue. *)
Lemma triple_covariance (R : rcfType) eigsh nodes E T nf ef sc (g : comp -> R -> R) : eigsh_contract eigsh ->
  make_sc nodes E T nf ef = Ok sc -> (0 < length E)%N ->
  L1Lm R nodes E sc *m L1Lm R nodes E sc = 3%:R *: L1Lm R nodes E sc ->
  L1Um R E T sc *m L1Um R E T sc = 3%:R *: L1Um R E T sc ->
  (forall (u : 'cV[R]_(length E)) a, (L1Lm R nodes E sc + L1Um R E T sc) *m u = a *: u -> dot u u = 1 -> milli R < a) ->
  exists ps, get_eigenpairs eigsh sc (milli R) = Ok ps /\
  forall i j, covariance g ps.1.1 ps.1.2 ps.2 (val i) (val j) =
    g Gradient 3%:R / 3%:R * L1Lm R nodes E sc i j + g Curl 3%:R / 3%:R * L1Um R E T sc i j.
Proof.
move=> EC H M0 eL eU h.
have m0 : 0 < milli R by rewrite invr_gt0 ltr0n.
have m3 : milli R < 3%:R by apply: lt_trans (_ : 1 < _); rewrite ?ltr1n // invf_lt1 ?ltr1n ?ltr0n.
eexists; split; first by rewrite /get_eigenpairs !(component_eigE eigsh H) ?eps64_milli //= .
move=> i j /=; have fS := famS EC nodes T sc M0.
have -> : harml eigsh nodes E T sc (milli R) = [::].
  rewrite /harml (eq_in_filter (a2 := pred0)) ?filter_pred0 // => p pl.
  by rewrite leNgt (h p.2) //; [exact: (eigfam_eq fS pl)|exact: (eigfam_unit fS pl)].
rewrite /covariance {1}/mixture big_nil add0r; congr (_ + _).
  by apply: (triple_mixture (sel := fun x => milli R < x)); rewrite ?(famL EC) // -leNgt ltW.
by apply: (triple_mixture (sel := fun x => milli R <= x)); rewrite ?(famU EC) ?(ltW m3) // -ltNge.
Qed.

Definition at3 (l : seq Z) (i j : nat) : Z := nth Z0 l (3 * i + j).
Lemma toM3 (R : rcfType) (A : arr2) l : (forall i j, (i < 3)%N -> (j < 3)%N -> at2 A i j = at3 l i j) ->
  toM R 3 3 A = \matrix_(i, j) ZR R (at3 l i j).
Proof. by move=> h; apply/matrixP => i j; rewrite !mxE h. Qed.
Lemma triple3 (R : rcfType) (A : arr2) : 3%N = sh1 A ->
  (forall i j, (i < 3)%N -> (j < 3)%N -> at2 (amul A A) i j = Z.mul 3 (at2 A i j)) ->
  toM R 3 3 A *m toM R 3 3 A = 3%:R *: toM R 3 3 A.
Proof.
by move=> s h; rewrite -(@toM_amul _ 3 3 3) //; apply/matrixP => i j; rewrite !mxE h // ZRM.
Qed.

(** The sum for the triangle with a reversed edge has no eigenvalue below 1/1000. *)
Lemma turned_values (R : rcfType) (a x y z : R) : 3%:R * x + 2%:R * z = a * x -> 3%:R * y - 2%:R * z = a * y ->
  2%:R * x - 2%:R * y + 3%:R * z = a * z -> x * x + y * y + z * z = 1 -> milli R < a.
Proof.
move=> e1 e2 e3 u; rewrite ltNge; apply/negP => la; set m := 3%:R - a.
have l29 : 29%:R <= 10%:R * m.
  have : 10%:R * a <= 1.
    apply: le_trans (_ : 10%:R * milli R <= _); first by rewrite ler_pmul2l ?ltr0n.
    by rewrite /milli ler_pdivr_mulr ?ltr0n // mul1r ler_nat.
  rewrite -subr_ge0 => h; rewrite -subr_ge0 /m mulrBr -natrM.
  by have -> : (10 * 3)%:R - 10%:R * a - 29%:R = 1 - 10%:R * a by rewrite addrAC -natrB.
have m0 : m != 0 by apply: contraTneq l29 => ->; rewrite mulr0 lern0.
have f1 : m * x = - (2%:R * z) by rewrite /m mulrBl -e1 opprD addrA subrr add0r.
have f2 : m * y = 2%:R * z by rewrite /m mulrBl -e2 opprB addrC subrK.
have f3 : m * z = 2%:R * y - 2%:R * x.
  by rewrite /m mulrBl -e3 opprD opprB [X in _ + X]addrC addrA subrr add0r.
have q : m * m * z = 8%:R * z.
  rewrite -mulrA f3 mulrBr !(mulrCA m) f1 f2 mulrN opprK !mulrA -!natrM -mulrDl -natrD //.
have z0 : z = 0.
  apply/eqP; apply/negPn/negP => nz; move/(mulIf nz): q => q.
  have : 29%:R * 29%:R <= (10%:R * m) * (10%:R * m) by rewrite ler_pmul ?ler0n.
  by rewrite mulrACA q -!natrM ler_nat.
move: f1 f2; rewrite z0 mulr0 oppr0 => /eqP; rewrite mulf_eq0 (negbTE m0) => /eqP x0 /eqP; rewrite mulf_eq0 (negbTE m0) => /eqP y0.
by move: u; rewrite x0 y0 z0 !mulr0 !addr0 => /esym /eqP; rewrite oner_eq0.
Qed.

(** False: the same for complexes with triangles.  In a filled triangle the covariance between the first and the third
    edge is 0; after reversing the third edge it is not. *)
Theorem C94_triangle_refuted :
  exists (R : rcfType) (exp : R -> R) (pow : R -> R -> R) (softplus : R -> R) eigsh nodes E T marks sc sc' t ps ps' k v c,
  exp_contract exp /\ pow_contract pow /\ (forall x, 0 < softplus x) /\ eigsh_contract eigsh /\
  make_sc nodes E T nil nil = Ok sc /\ proper_edges (length nodes) E /\ proper_triangles T /\ size marks = length E /\
  make_sc nodes (reversed marks E) T nil nil = Ok sc' /\
  get_eigenpairs eigsh sc t = Ok ps /\ get_eigenpairs eigsh sc' t = Ok ps' /\ k_rows k = length E /\
  reads softplus k v /\ positive k v /\
  forward exp pow softplus (with_pairs k ps) [:: 0]%zz (Some [:: 2]%zz) false = Ok (Mat [:: [:: 0]]) /\
  forward exp pow softplus (with_pairs k ps') [:: 0]%zz (Some [:: 2]%zz) false = Ok (Mat [:: [:: c]]) /\ 0 < c.
Proof.
pose R := realalg_rcfType; have EC := @eigsh_std_ok R.
have [pe [se [pt _]]] := C86_example.
pose AL := amul (atr (sc_B1 tri_sc)) (sc_B1 tri_sc); pose AU := amul (sc_B2 tri_sc) (atr (sc_B2 tri_sc)).
pose BL := amul (atr (sc_B1 twisted_sc)) (sc_B1 twisted_sc); pose BU := amul (sc_B2 twisted_sc) (atr (sc_B2 twisted_sc)).
have three A l : [seq at2 A i j | i <- [:: 0; 1; 2]%N, j <- [:: 0; 1; 2]%N] = l ->
    forall i j, (i < 3)%N -> (j < 3)%N -> at2 A i j = at3 l i j.
  by move=> <- [|[|[|//]]] [|[|[|//]]] _ _.
have eAL := toM3 R (three AL [:: 2; 1; -1; 1; 2; 1; -1; 1; 2]%zz erefl).
have eAU := toM3 R (three AU [:: 1; -1; 1; -1; 1; -1; 1; -1; 1]%zz erefl).
have eBL := toM3 R (three BL [:: 2; 1; 1; 1; 2; -1; 1; -1; 2]%zz erefl).
have eBU := toM3 R (three BU [:: 1; -1; 1; -1; 1; -1; 1; -1; 1]%zz erefl).
have sq A : 3%N = sh1 A -> [seq at2 (amul A A) i j | i <- [:: 0; 1; 2]%N, j <- [:: 0; 1; 2]%N] =
     [seq Z.mul 3 (at2 A i j) | i <- [:: 0; 1; 2]%N, j <- [:: 0; 1; 2]%N] -> toM R 3 3 A *m toM R 3 3 A = 3%:R *: toM R 3 3 A.
  move=> s; case=> *; apply: triple3 => // -[|[|[|//]]] [|[|[|//]]] _ _ //.
have qAL := sq AL erefl erefl; have qAU := sq AU erefl erefl; have qBL := sq BL erefl erefl; have qBU := sq BU erefl erefl.
have tL := toM_L1L R tri_ok; have tU := toM_L1U R tri_ok; have wL := toM_L1L R twisted_ok; have wU := toM_L1U R twisted_ok.
pose k : kernel R := new_kernel DiffusionNonHC 3 [::] [::] [::]; pose v (s : string) : R := 1.
have rd : reads (@grow R) k v.
  by move=> s h; rewrite /v -(grow0 R); apply: (proj1 (proj1 (C77_hyperparameters (@grow_contract R)) DiffusionNonHC 3%N [::] [::] [::])).
have ps : positive k v by move=> s _; exact: ltr01.
have small : milli R < 3%:R by apply: lt_trans (_ : 1 < _); rewrite ?ltr1n // invf_lt1 ?ltr1n ?ltr0n.
have o1 : lift ord0 ord0 = 1 :> 'I_3 by apply/val_inj.
have o2 : lift ord0 (lift ord0 ord0) = 2%:R :> 'I_3 by apply/val_inj.
have row (A B : 'M[R]_3) (u : 'cV[R]_3) a (i : 'I_3) : (A + B) *m u = a *: u ->
    (A i 0 + B i 0) * u 0 0 + (A i 1 + B i 1) * u 1 0 + (A i 2%:R + B i 2%:R) * u 2%:R 0 = a * u i 0.
  by move=> /matrixP /(_ i 0); rewrite !mxE !big_ord_recl big_ord0 !mxE addr0 addrA o1 o2.
have dot3 (u : 'cV[R]_3) : dot u u = u 0 0 * u 0 0 + u 1 0 * u 1 0 + u 2%:R 0 * u 2%:R 0.
  by rewrite /dot ?mxE !big_ord_recl big_ord0 ?mxE addr0 addrA o1 o2.
have v1 (u : 'cV[R]_3) a : (toM R 3 3 AL + toM R 3 3 AU) *m u = a *: u -> dot u u = 1 -> milli R < a.
  rewrite eAL eAU => e; rewrite dot3; set x := u 0 0; set y := u 1 0; set z := u 2%:R 0.
  have r0 : (2%:R + 1) * x + (1 - 1) * y + (- 1 + 1) * z = a * x by have := row _ _ _ _ 0 e; rewrite !mxE => h; exact: h.
  have r1 : (1 - 1) * x + (2%:R + 1) * y + (1 - 1) * z = a * y by have := row _ _ _ _ 1 e; rewrite !mxE => h; exact: h.
  have r2 : (- 1 + 1) * x + (1 - 1) * y + (2%:R + 1) * z = a * z by have := row _ _ _ _ 2%:R e; rewrite !mxE => h; exact: h.
  move: r0 r1 r2; rewrite -(natrD _ 2 1) !subrr !addNr !mul0r !addr0 !add0r => r0 r1 r2 u1.
  suff -> : a = (2 + 1)%:R by exact: small.
  transitivity (a * (x * x + y * y + z * z)); first by rewrite u1 mulr1.
  transitivity ((2 + 1)%:R * (x * x + y * y + z * z)); last by rewrite u1 mulr1.
  by rewrite !mulrDr !mulrA r0 r1 r2.
have v2 (u : 'cV[R]_3) a : (toM R 3 3 BL + toM R 3 3 BU) *m u = a *: u -> dot u u = 1 -> milli R < a.
  rewrite eBL eBU => e; rewrite dot3; set x := u 0 0; set y := u 1 0; set z := u 2%:R 0.
  have r0 : (2%:R + 1) * x + (1 - 1) * y + (1 + 1) * z = a * x by have := row _ _ _ _ 0 e; rewrite !mxE => h; exact: h.
  have r1 : (1 - 1) * x + (2%:R + 1) * y + (- 1 - 1) * z = a * y by have := row _ _ _ _ 1 e; rewrite !mxE => h; exact: h.
  have r2 : (1 + 1) * x + (- 1 - 1) * y + (2%:R + 1) * z = a * z by have := row _ _ _ _ 2%:R e; rewrite !mxE => h; exact: h.
  move: r0 r1 r2; rewrite -(natrD _ 2 1) -opprD -(natrD _ 1 1) !subrr !mul0r !addr0 !add0r !mulNr; exact: turned_values.
rewrite tL in eAL qAL v1; rewrite tU in eAU qAU v1; rewrite wL in eBL qBL v2; rewrite wU in eBU qBU v2.
have [p1 [g1 c1]] := triple_covariance (multiplier (@grow R) (@pow_ex R) DiffusionNonHC v) EC tri_ok isT qAL qAU v1.
have [p2 [g2 c2]] := triple_covariance (multiplier (@grow R) (@pow_ex R) DiffusionNonHC v) EC twisted_ok isT qBL qBU v2.
have inr z : (0 <= z < 3)%zz -> List.Forall (in_range 3) [:: z].
  by move=> h; constructor=> //; rewrite /in_range /=; lia.
have w0 : 0 < grow (- (1 * 3%:R) : R) by exact: grow_gt0.
exists R, (@grow R), (@pow_ex R), (@grow R), (@eigsh_std R), tri_nodes, tri_edges, tri_triangles, [:: false; false; true], tri_sc, twisted_sc, (milli R).
exists p1, p2, k, v, (grow (- (1 * 3%:R)) / 3%:R *+ 2).
do 3 (split; first by [exact: grow_gt0|exact: pow_ex_contract]).
split; first exact: EC. split; first exact: tri_ok. do 3 (split; first by []).
split; first exact: twisted_ok. do 5 (split; first by []).
have F1 := trained_fit k EC tri_ok isT g1; have F2 := trained_fit k EC twisted_ok isT g2.
rewrite !(@forwardE _ _ _ _ _ v) //; try exact: inr.
have [z1 zm] : ZR R 1%zz = 1 /\ ZR R (-1)%zz = - 1 by [].
set w := grow _ / 3%:R in w0 *.
split; [|split]; last by rewrite pmulrn_lgt0 // divr_gt0 ?ltr0n.
  congr (Ok (Mat [:: [:: _]])); rewrite -[LHS]/(covariance _ _ _ _ (val (0 : 'I_3)) (val (2%:R : 'I_3))).
  have h : w * ZR R (-1)%zz + w * ZR R 1%zz = 0 by rewrite z1 zm -mulrDr addNr mulr0.
  by rewrite c1 eAL eAU !mxE; exact: h.
congr (Ok (Mat [:: [:: _]])); rewrite -[LHS]/(covariance _ _ _ _ (val (0 : 'I_3)) (val (2%:R : 'I_3))).
have h : w * ZR R 1%zz + w * ZR R 1%zz = w *+ 2 by rewrite z1 mulr1 mulr2n.
by rewrite c2 eBL eBU !mxE; exact: h.
Qed.
Print Assumptions C94_triangle_refuted.
