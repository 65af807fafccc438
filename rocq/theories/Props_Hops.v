(** * C99: how far away the values are that an edge depends on *)

From Coq Require Import ZArith String List.
From mathcomp Require Import all_ssreflect all_algebra all_real_closed ssrZ zify.
From Verif Require Import Py PyFacts ExampleData Complex ComplexSpec ComplexFacts ComplexFacts2 LinAlg Spectral
  Signal SignalSpec Bridge SignalFacts Compute Props_Complex Props_Signal Props_Hodge Eigen EigenSpec
  EigenFacts Props_Eigen Filter FilterSpec FilterFacts FilterFacts2 PolyFacts Props_Masks Props_LowPass
  Props_Poly Props_Cheb Props_Linear Props_Topology ChebSeries Props_Logistic Props_Series.

Set Implicit Arguments.
Unset Strict Implicit.
Unset Printing Implicit Defensive.

Import GRing.Theory Num.Theory Order.Theory.
Local Open Scope ring_scope.
Delimit Scope Z_scope with zz.

(** Two edges with a common endpoint. *)
Definition share_node (e e' : Z * Z) : Prop := e.1 = e'.1 \/ e.1 = e'.2 \/ e.2 = e'.1 \/ e.2 = e'.2.
(** Two edges of a common triangle. *)
Definition share_triangle (T : list (list Z)) (e e' : Z * Z) : Prop :=
  exists t, List.In t T /\ edge_of_tri t e = true /\ edge_of_tri t e' = true.
(** The edges at positions k and l are neighbours: they share a node (for the lower Laplacian), a triangle (for the upper
    one), or one of these (for the Hodge Laplacian). *)
Definition near (p : string) (E : list (Z * Z)) (T : list (list Z)) (k l : nat) : Prop :=
  ((p = "L1L" \/ p = "L1")%string /\ share_node (nth (Z0, Z0) E k) (nth (Z0, Z0) E l)) \/
  ((p = "L1U" \/ p = "L1")%string /\ share_triangle T (nth (Z0, Z0) E k) (nth (Z0, Z0) E l)).
(** At most [d] steps from neighbour to neighbour lead from edge k to edge l. *)
Inductive hops (near : nat -> nat -> Prop) (M : nat) : nat -> nat -> nat -> Prop :=
| hops_here d k : hops near M d k k
| hops_step d k m l : (m < M)%N -> near k m -> hops near M d m l -> hops near M d.+1 k l.
(** Two flows agree on all edges at most [d] steps from edge k. *)
Definition agree_near (R : rcfType) near M d k (f f' : seq R) : Prop :=
  forall l, (l < M)%N -> hops near M d k l -> f`_l = f'`_l.

Lemma hops_mono nr M d d' k l : (d <= d')%N -> hops nr M d k l -> hops nr M d' k l.
Proof.
move=> le h; elim: h d' le => [d1 k1|d1 k1 m l1 lm n1 _ IH] [|d'] // le; try exact: hops_here.
by apply: (hops_step lm n1); exact: IH.
Qed.
Lemma hops_add nr M d d' k m l : hops nr M d k m -> hops nr M d' m l -> hops nr M (d + d') k l.
Proof.
elim=> [d1 k1|d1 k1 m1 l1 lm n1 _ IH] h; first by apply: hops_mono h; rewrite leq_addl.
by rewrite addSn; apply: (hops_step lm n1); exact: IH.
Qed.

Lemma hops0 nr M d k l : hops nr M d k l -> d = 0%N -> k = l.
Proof. by case. Qed.
Lemma hops1 nr M k l : hops nr M 1 k l -> k = l \/ nr k l.
Proof.
move=> h; have [d e] : exists d, d = 1%N by exists 1%N.
move: h; rewrite -e => h; case: h e => [d1 k1|d1 k1 m l1 _ n1 h] e; first by left.
by right; rewrite -(hops0 h) //; case: e.
Qed.

(** ** Matrices with entries near the diagonal only *)
Section Local.
Variables (R : rcfType) (n : nat) (nr : nat -> nat -> Prop).
Definition reaches d (Q : 'M[R]_n) : Prop := forall i j, Q i j != 0 -> hops nr n d i j.

Lemma reaches_mono d d' Q : (d <= d')%N -> reaches d Q -> reaches d' Q.
Proof. by move=> le h i j /h; exact: hops_mono. Qed.
Lemma reaches0 d : reaches d 0.
Proof. by move=> i j; rewrite mxE eqxx. Qed.
Lemma reaches1 d : reaches d 1%:M.
Proof. by move=> i j; rewrite mxE; case: (i =P j) => [->|_]; [move=> _; exact: hops_here|rewrite eqxx]. Qed.
Lemma reachesD d A B : reaches d A -> reaches d B -> reaches d (A + B).
Proof.
move=> hA hB i j; rewrite mxE; case: (A i j =P 0) => [->|/eqP a _]; last exact: hA.
by rewrite add0r; exact: hB.
Qed.
Lemma reachesZ d a A : reaches d A -> reaches d (a *: A).
Proof. by move=> hA i j; rewrite mxE mulf_eq0 negb_or => /andP[_]; exact: hA. Qed.
Lemma reachesN d A : reaches d A -> reaches d (- A).
Proof. by move=> hA; rewrite -scaleN1r; exact: reachesZ. Qed.
Lemma reachesM d d' A B : reaches d A -> reaches d' B -> reaches (d + d') (A *m B).
Proof.
move=> hA hB i j; rewrite mxE => nz.
have [k /andP[a b]] : exists k, (A i k != 0) && (B k j != 0).
  apply/existsP; apply: contra_neqT nz; rewrite negb_exists => /forallP h; apply: big1 => k _.
  by move: (h k); rewrite negb_and !negbK => /orP[/eqP->|/eqP->]; rewrite ?mul0r ?mulr0.
exact: hops_add (hA _ _ a) (hB _ _ b).
Qed.
Lemma reaches_sum d (I : Type) (s : seq I) (P : pred I) (F : I -> 'M[R]_n) : (forall i, P i -> reaches d (F i)) ->
  reaches d (\sum_(i <- s | P i) F i).
Proof. by move=> h; apply: (big_ind (reaches d)) => //; [exact: reaches0|move=> *; exact: reachesD]. Qed.
Lemma reaches_pow d A k : reaches d A -> reaches (k * d) (mpow A k).
Proof.
move=> h; elim: k => [|k IH]; first exact: reaches1.
by rewrite mulSn; exact: reachesM.
Qed.
Lemma reaches_poly P L (h : 'cV[R]_L) : reaches 1 P -> reaches L.-1 (poly_filter P h).
Proof.
move=> hP; apply: reaches_sum => k _; apply: reachesZ; apply: (@reaches_mono k); first by have := ltn_ord k; lia.
by rewrite -[X in reaches X _]muln1; exact: reaches_pow.
Qed.
Lemma reaches_stack P a k : reaches 1 P -> reaches k (cheb_stack P a k).
Proof.
move=> hP; have hS : reaches 1 (P - a *: 1%:M).
  by apply: reachesD => //; apply: reachesN; apply: reachesZ; exact: reaches1.
elim/ltn_ind: k => -[|[|k]] IH; first exact: reaches1; first exact: reachesZ.
rewrite -[cheb_stack _ _ _]/((2%:R / a) *: (P - a *: 1%:M) *m cheb_stack P a k.+1 - cheb_stack P a k).
apply: reachesD.
  by rewrite -scalemxAl; apply: reachesZ; rewrite -add1n; apply: reachesM => //; exact: IH.
by apply: reachesN; apply: (@reaches_mono k) => //; [lia|apply: IH; lia].
Qed.
Lemma reaches_approx P c a o Q : reaches 1 P -> chebyshev_filter_approximate P c a o = Ok Q -> reaches o.-1 Q.
Proof.
move=> hP; rewrite /chebyshev_filter_approximate; case: ifP => // _; case: ifP => // _ [<-].
apply: reaches_sum => k _; apply: reachesZ; apply: (@reaches_mono k); last exact: reaches_stack.
have lk : (k < size (take o c))%N by [].
have : (size (take o c) <= o)%N by rewrite size_take; case: ltnP.
by move: lk; lia.
Qed.
Lemma set_from_pos s N j k : (minn s N <= j)%N -> (j - minn s N < N - s)%N -> s = k.-1 -> (0 < k)%N -> (k <= j.+1)%N.
Proof. by rewrite /minn; case: ltnP; lia. Qed.
Lemma reaches_freq P c a o Qs : reaches 1 P -> chebyshev_frequency_approx P c a o = Ok Qs ->
  forall j, reaches (minn j.+1 o.-1) (nth 0 Qs j).
Proof.
move=> hP; rewrite /chebyshev_frequency_approx.
have : forall k, k \in iota 0 o -> (k < o)%N by move=> k; rewrite mem_iota.
have : forall j, reaches (minn j.+1 o.-1) (nth 0 (nseq o 0) j).
  by move=> j; rewrite nth_nseq if_same; exact: reaches0.
elim: (iota 0 o) (nseq o 0) => [|k ks IH] Hs h0 hk /=; first by case=> <-.
case eA : chebyshev_filter_approximate => [A|] //=.
have lk : (k < o)%N by apply: hk; rewrite inE eqxx.
have hA := reaches_approx hP eA.
apply: IH => [j|k' ik]; last by apply: hk; rewrite inE ik orbT.
rewrite /set_from; set s := if _ then _ else _; rewrite nth_cat size_take.
have side : (if (s < size Hs)%N then s else size Hs) = minn s (size Hs) by rewrite /minn.
rewrite side; case: ltnP => lj.
  by rewrite nth_take //; apply: leq_trans lj _; rewrite geq_minl.
rewrite nth_nseq; case: ifP => lt; last exact: reaches0.
apply: reaches_mono hA; rewrite /= leq_min; apply/andP; split; last by lia.
have sk : (0 < k)%N -> s = k.-1 by rewrite /s => k0; case: Z.ltb_spec => ?; lia.
case: (posnP k) => [->|k0] //; exact: (set_from_pos lj lt (sk k0) k0).
Qed.

Lemma reaches_agree d Q (k : 'I_n) f f' : reaches d Q -> agree_near nr n d k f f' ->
  (Q *m vec n f) k 0 = (Q *m vec n f') k 0.
Proof.
move=> hQ ag; rewrite !mxE; apply: eq_bigr => l _; rewrite !mxE.
by case: (Q k l =P 0) => [->|/eqP /hQ h]; [rewrite !mul0r|rewrite (ag l)].
Qed.
End Local.

(** ** The Laplacians *)
Section Laplacians.
Variable R : rcfType.
Variables (nodes : list Z) (E : list (Z * Z)) (T : list (list Z)) (nf : dict Z fdict)
          (ef : dict (Z * Z) fdict) (sc : SC).
Hypothesis H : make_sc nodes E T nf ef = Ok sc.
Hypotheses (PE : proper_edges (length nodes) E) (SE : simple_edges E) (PT : proper_triangles T).

Lemma nthE k : (k < length E)%N -> nth_error E k = Some (nth (Z0, Z0) E k).
Proof. by elim: E k => [|e E' IH] [|k] //= lk; exact: IH. Qed.

Lemma lower_near k l : (k < length E)%N -> (l < length E)%N -> at2 (amul (atr (sc_B1 sc)) (sc_B1 sc)) k l <> Z0 ->
  share_node (nth (Z0, Z0) E k) (nth (Z0, Z0) E l).
Proof.
move=> lk ll; have [L [[<-] [_ [_ [h _]]]]] := C12_lower_laplacian_entries _ _ _ _ _ _ H PE.
have := nthE lk; have := nthE ll; case: (nth _ E k) => u v; case: (nth _ E l) => u' v' e' e.
rewrite (h _ _ _ _ _ _ e e') /share_node /=.
case: (Z.eqb_spec v v') => [->|n1]; first by auto.
case: (Z.eqb_spec u u') => [->|n2]; first by auto.
case: (Z.eqb_spec v u') => [->|n3]; first by auto.
case: (Z.eqb_spec u v') => [->|n4]; first by auto.
by [].
Qed.
Lemma upper_near k l : (k < length E)%N -> (l < length E)%N -> at2 (amul (sc_B2 sc) (atr (sc_B2 sc))) k l <> Z0 ->
  share_triangle T (nth (Z0, Z0) E k) (nth (Z0, Z0) E l).
Proof.
move=> lk ll; have [L [[<-] [_ [_ [h _]]]]] := C13_upper_laplacian_entries _ _ _ _ _ _ H SE PT.
have [_ h0] := h _ _ _ _ (nthE lk) (nthE ll) => nz.
pose b t := edge_of_tri t (nth (Z0, Z0) E k) && edge_of_tri t (nth (Z0, Z0) E l).
case eb : (existsb b T).
  by move/existsb_exists: eb => [t [it /andP[h1 h2]]]; exists t.
case: nz; apply: h0 => t it h1 h2; have : existsb b T = true by apply/existsb_exists; exists t; rewrite /b h1 h2.
by rewrite eb.
Qed.

Lemma p_reaches p : p_valid p -> reaches (near p E T) 1 (p_mat R nodes E T sc p).
Proof.
move=> v i j nz; have li := ltn_ord i; have lj := ltn_ord j.
have Z0R (A : arr2) : toM R (length E) (length E) A i j != 0 -> at2 A i j <> Z0.
  by rewrite mxE => h e; move: h; rewrite e /ZR mulr0z eqxx.
have st : near p E T i j -> hops (near p E T) (length E) 1 i j by move=> h; apply: (hops_step lj h); exact: hops_here.
apply: st; move: nz v; rewrite -(toM_p R H) /p_valid /p_array /near.
case: String.eqb_spec => [->|_] /=.
  rewrite toM_aadd mxE => nz _.
  case: (toM R (length E) (length E) (amul (atr (sc_B1 sc)) (sc_B1 sc)) i j =P 0) => [z|/eqP /Z0R h].
    by rewrite z add0r in nz; right; split; [right|apply: upper_near => //; exact: Z0R].
  by left; split; [right|exact: lower_near].
case: String.eqb_spec => [->|_] /=.
  by move=> /Z0R h _; left; split; [left|exact: lower_near].
move=> /Z0R h /String.eqb_eq ->; right; split; [by left|exact: upper_near].
Qed.
End Laplacians.

(** ** Runs of polynomial filters *)
Section Runs.
Variable R : rcfType.
Variable eigsh : forall n, 'M[R]_n -> seq (R * 'cV[R]_n).
Variable lstsq : forall m n, 'M[R]_(m, n) -> 'cV[R]_m -> 'cV[R]_n.
Variable rint : R -> int.
Variable argsort : seq R -> seq nat.
Variable expf : R -> R.
Variable chebfun : (R -> R) -> R -> R -> Z -> res (seq R).
Variable norm_2 : forall n, 'M[R]_n -> R.
Variables (nodes : list Z) (E : list (Z * Z)) (T : list (list Z)) (nf : dict Z fdict)
          (ef : dict (Z * Z) fdict) (sc : SC).
Hypothesis H : make_sc nodes E T nf ef = Ok sc.
Hypotheses (PE : proper_edges (length nodes) E) (SE : simple_edges E) (PT : proper_triangles T).
Hypothesis LC : lstsq_contract lstsq.
Let M := length E.

Lemma local_nth nr n d (Q : 'M[R]_n) k (f f' : seq R) : n = M -> reaches nr d Q -> (k < M)%N ->
  agree_near nr M d k f f' -> (unvec (Q *m vec n f))`_k = (unvec (Q *m vec n f'))`_k.
Proof.
move=> e; move: Q; rewrite e => Q hQ kM ag; rewrite -[k]/(nat_of_ord (Ordinal kM)) !nth_unvec.
exact: (reaches_agree (k := Ordinal kM) hQ ag).
Qed.

Lemma array_reaches p n : p_valid p -> n = M -> reaches (near p E T) 1 (toM R n n (p_array sc p)).
Proof. by move=> v ->; rewrite (toM_p R H); exact: (p_reaches H PE SE PT v). Qed.

Lemma apply_local p U (f t : seq R) ev alpha L r : p_valid p -> size f = M ->
  apply_filter lstsq (p_array sc p) U f t ev alpha L = Ok r ->
  forall f' t', size f' = M -> size t' = size t -> exists r',
    apply_filter lstsq (p_array sc p) U f' t' ev alpha L = Ok r' /\
    forall k, (k < M)%N -> agree_near (near p E T) M (Z.to_nat L).-1 k f f' ->
      (run_estimated r)`_k = (run_estimated r')`_k.
Proof.
move=> pv sf; have [d0 _] := p_dims H p; rewrite -/M in d0.
rewrite /apply_filter; case: Z.ltb => //.
set m := Z.to_nat L; set A := p_array sc p in d0 *.
pose X l : res 'M[R]_(sh0 A) := let! h := (if size alpha == size ev
    then Ok (lstsq (system_mat ev m l) (vec (size ev) alpha)) else Raise LinAlgError) in
    Ok (poly_filter (toM R (sh0 A) (sh0 A) A) h).
have eX f1 t1 l : filter_step lstsq A U f1 t1 ev alpha m l = gstep X U f1 t1 l.
  by rewrite /filter_step /gstep /X; case: (_ == _).
have eM f1 t1 : mapM (filter_step lstsq A U f1 t1 ev alpha m) (iota 0 m) = mapM (gstep X U f1 t1) (iota 0 m).
  by apply: mapM_ext => l _; exact: eX.
rewrite eM => /grun[_ [Q [[l il Xl] [e1 [e2 e3]]]]] f' t' sf' st'.
have [||r' [e4 [_ [_ e5]]]] := e3 f' t' => //; first by rewrite sf' d0.
exists r'; rewrite eM; split=> // k kM ag; rewrite e2 e5; apply: local_nth ag => //.
move: Xl; rewrite /X; case: ifP => //= _ [<-]; apply: reaches_poly.
exact: array_reaches.
Qed.

Definition local_in (call : seq R -> res (run R)) p d f r : Prop :=
  forall f', size f' = M -> exists r', call f' = Ok r' /\
    forall k, (k < M)%N -> agree_near (near p E T) M d k f f' -> (run_estimated r)`_k = (run_estimated r')`_k.

Lemma true_local p U ev alpha L s (f : seq R) r : p_valid p -> size f = M ->
  (let! t := get_true_signal lstsq rint sc f s in apply_filter lstsq (p_array sc p) U f t ev alpha L) = Ok r ->
  local_in (fun f => let! t := get_true_signal lstsq rint sc f s in
                     apply_filter lstsq (p_array sc p) U f t ev alpha L) p (Z.to_nat L).-1 f r.
Proof.
move=> pv sf; case et : get_true_signal => [t|] //= e; have [st tt] := true_signal H LC et sf.
by move=> f' sf'; have [t' -> st'] := tt _ sf'; apply: (apply_local pv sf e); rewrite ?st.
Qed.
End Runs.

(** The methods that filter with a polynomial: the Laplacian, the number of coefficients, and the call as a function of
    the flow alone. *)
Inductive polynomial_call (R : rcfType) eigsh lstsq rint argsort expf (sc : SC) :
  string -> Z -> (seq R -> res (run R)) -> Prop :=
| PolyOne s L : polynomial_call eigsh lstsq rint argsort expf sc "L1" L
    (fun f => ls_type_one eigsh lstsq rint argsort sc f s L)
| PolyTwo s p L tol : type_two_laplacian s p -> polynomial_call eigsh lstsq rint argsort expf sc p L
    (fun f => ls_type_two eigsh lstsq rint sc f s L tol)
| PolyGrid t p L mu : polynomial_call eigsh lstsq rint argsort expf sc p L
    (fun f => grid_denoise eigsh lstsq sc f t p L mu)
| PolyExtract s p L num mu cut steep : polynomial_call eigsh lstsq rint argsort expf sc p L
    (fun f => grid_extraction eigsh lstsq rint expf sc f s p L num mu cut steep).

(** A filter with L coefficients computes its estimate on an edge from the flow on the edges at most L - 1 steps away:
    a second flow that agrees with the first one there has the same estimate on that edge, wherever else it differs. *)
Theorem C99_polynomial_filters :
  forall (R : rcfType) eigsh lstsq rint argsort expf, lstsq_contract lstsq ->
  forall nodes E T nf ef sc, make_sc nodes E T nf ef = Ok sc ->
  proper_edges (length nodes) E -> simple_edges E -> proper_triangles T ->
  forall p L call, polynomial_call eigsh lstsq rint argsort expf sc p L call ->
  forall (f : seq R) r, size f = length E -> call f = Ok r ->
  forall f', size f' = length E -> exists r', call f' = Ok r' /\
    forall k, (k < length E)%N -> agree_near (near p E T) (length E) (Z.to_nat L).-1 k f f' ->
      (run_estimated r)`_k = (run_estimated r')`_k.
Proof.
move=> R eigsh lstsq rint argsort expf LC nodes E T nf ef sc H PE SE PT p L call.
case=> [s {}L|s {}p {}L tol tp|t {}p {}L mu|s {}p {}L num mu cut steep] f r sf.
- have unf f' : ls_type_one eigsh lstsq rint argsort sc f' s L =
    let! U := get_eigendecomposition eigsh (Dense (p_array sc "L1")) (eps64 R) in
    let! t := get_true_signal lstsq rint sc f' s in
    let! al := get_component_coefficients eigsh argsort sc s in
    apply_filter lstsq (p_array sc "L1") U f' t [seq p.1 | p <- U] al L by [].
  rewrite unf; case eU : get_eigendecomposition => [U|] //; rewrite bindOk.
  case ea : get_component_coefficients => [al|]; last by case: get_true_signal.
  move=> h f' sf'; rewrite unf eU bindOk ea; exact: (true_local H PE SE PT LC (p := "L1"%string) _ sf h).
- have unf : forall f', ls_type_two eigsh lstsq rint sc f' s L tol =
    let! U := get_eigendecomposition eigsh (Dense (p_array sc p)) (eps64 R) in
    let! f_true := get_true_signal lstsq rint sc f' s in
    apply_filter lstsq (p_array sc p) U f' f_true (np_unique [seq if `|q.1| < tol then 0 else q.1 | q <- U])
      (0 :: nseq (size (np_unique [seq if `|q.1| < tol then 0 else q.1 | q <- U]) - 1) 1) L.
    by case: tp => [[-> ->]|[-> ->]].
  have pv : p_valid p by case: tp => [[_ ->]|[_ ->]].
  rewrite unf; case eU : get_eigendecomposition => [U|] //; rewrite bindOk => h f' sf'.
  by rewrite unf eU bindOk; exact: (true_local H PE SE PT LC pv sf h).
- rewrite /grid_denoise get_p_matrixE; case: ifP => // pv; rewrite bindOk to_arrC bindOk.
  case eU : get_eigendecomposition => [U|] //; rewrite bindOk.
  case eS : sampled_freq_response => [[g xs]|] //; rewrite bindOk => h f' sf'.
  rewrite bindOk to_arrC bindOk eU bindOk eS bindOk.
  exact: (apply_local H PE SE PT pv sf h).
rewrite /grid_extraction get_p_matrixE; case: ifP => // pv; rewrite bindOk to_arrC bindOk.
case eU : get_eigendecomposition => [U|] //; rewrite bindOk.
case eS : sampled_freq_response => [[g xs]|] //; rewrite bindOk => h f' sf'.
rewrite bindOk to_arrC bindOk eU bindOk eS bindOk.
exact: (true_local H PE SE PT LC pv sf h).
Qed.
Print Assumptions C99_polynomial_filters.

(** The Chebyshev filter computes one estimate for each number of coefficients: the estimate at position j depends on the
    flow on the edges at most j + 1 steps away, and never on more than L - 1 steps. *)
Theorem C99_chebyshev :
  forall (R : rcfType) eigsh lstsq rint argsort expf chebfun norm_2, lstsq_contract lstsq ->
  forall nodes E T nf ef sc, make_sc nodes E T nf ef = Ok sc ->
  proper_edges (length nodes) E -> simple_edges E -> proper_triangles T ->
  forall p comp L n cut steep (f : seq R) r, size f = length E ->
  let call f := cheb_apply eigsh lstsq rint argsort expf chebfun norm_2 sc f p comp L n cut steep in
  call f = Ok r ->
  forall f', size f' = length E -> exists r', call f' = Ok r' /\ size (cheb_estimated r') = size (cheb_estimated r) /\
    forall j k, (k < length E)%N -> agree_near (near p E T) (length E) (minn j.+1 (Z.to_nat L).-1) k f f' ->
      (nth [::] (cheb_estimated r) j)`_k = (nth [::] (cheb_estimated r') j)`_k.
Proof.
move=> R eigsh lstsq rint argsort expf chebfun norm_2 LC nodes E T nf ef sc H PE SE PT p s L n cut steep f r sf call.
rewrite /call => h; have v := cheb_p_valid h; have [d0 _] := p_dims H p.
move: h; rewrite cheb_unfold //; set N := match n with None => L | Some _ => _ end.
case eU : (get_eigendecomposition eigsh (Dense (p_array sc "L1"))) => [U|] //; rewrite bindOk.
case eUl : (get_eigendecomposition eigsh (Dense (p_array sc p))) => [Ul|] //; rewrite bindOk.
case et : get_true_signal => [t|] //; rewrite bindOk; have [st tt] := true_signal H LC et sf.
case eh : get_component_coefficients => [hi|] //; rewrite bindOk.
case ea : get_alpha => [al|] //; rewrite bindOk.
case ec : get_chebyshev_series => [c|] //; rewrite bindOk.
case er : get_ideal_frequency => [Hr|] //; rewrite bindOk.
case eL : Z.ltb => //.
case eQ : chebyshev_frequency_approx => [Qs|] //; rewrite bindOk.
case eM : mapM => [ys|] //; rewrite bindOk => -[<-] f' sf'.
have [t' et' st'] := tt _ sf'.
have [|//|e0 [ys' [eM' [e1 e2]]]] := cheb_loop eM (f' := f') (t' := t'); first by rewrite sf' d0.
  by rewrite st' st.
eexists; rewrite cheb_unfold // ?eU ?bindOk ?eUl ?bindOk et' ?bindOk ?eh ?bindOk ?ea ?bindOk ?ec ?bindOk ?er ?bindOk ?eL ?eQ ?bindOk eM' ?bindOk.
split; first by []; rewrite /= e1 e0 !size_map; split=> // j k kM ag.
have [lj|lj] := ltnP j (size Qs); last by rewrite !nth_default // size_map.
rewrite !(nth_map 0) //; apply: local_nth ag => //.
exact: (reaches_freq (array_reaches H PE SE PT v (esym d0)) eQ).
Qed.
Print Assumptions C99_chebyshev.

(** ** Shifting *)
Lemma hops_wider (nr nr' : nat -> nat -> Prop) M d k l : (forall a b, nr a b -> nr' a b) -> hops nr M d k l -> hops nr' M d k l.
Proof.
move=> w; elim=> [d1 k1|d1 k1 m l1 lm n1 _ IH]; first exact: hops_here.
exact: (hops_step lm (w _ _ n1) IH).
Qed.

(** A shift by one step depends on the neighbours of an edge; any other number of steps depends on their neighbours too
    and, as the code applies the matrix exactly twice, on nothing beyond. *)
Theorem C99_shifts :
  forall (R : rcfType) nodes E T nf ef sc, make_sc nodes E T nf ef = Ok sc ->
  proper_edges (length nodes) E -> simple_edges E -> proper_triangles T ->
  forall (f f' : seq R) steps k, size f = length E -> size f' = length E -> (k < length E)%N ->
  let d := if Z.eqb steps 1 then 1%N else 2%N in
  (agree_near (near "L1L" E T) (length E) d k f f' -> exists y y',
     apply_lower_shifting sc f steps = Ok y /\ apply_lower_shifting sc f' steps = Ok y' /\ y`_k = y'`_k) /\
  (agree_near (near "L1U" E T) (length E) d k f f' -> exists y y',
     apply_upper_shifting sc f steps = Ok y /\ apply_upper_shifting sc f' steps = Ok y' /\ y`_k = y'`_k) /\
  (agree_near (near "L1" E T) (length E) d k f f' -> exists y y',
     apply_k_step_shifting sc f steps = Ok y /\ apply_k_step_shifting sc f' steps = Ok y' /\ y`_k = y'`_k).
Proof.
move=> R nodes E T nf ef sc H PE SE PT f f' steps k sf sf' kM d.
have rL : reaches (near "L1L" E T) 1 (L1Lm R nodes E sc) := p_reaches H PE SE PT (p := "L1L"%string) isT.
have rU : reaches (near "L1U" E T) 1 (L1Um R E T sc) := p_reaches H PE SE PT (p := "L1U"%string) isT.
have wL a b : near "L1L" E T a b -> near "L1" E T a b.
  by case=> -[c h]; [left|right]; split=> //; right.
have wU a b : near "L1U" E T a b -> near "L1" E T a b.
  by case=> -[c h]; [left|right]; split=> //; right.
have rL1 : reaches (near "L1" E T) 1 (L1Lm R nodes E sc) by move=> i j /rL; exact: hops_wider.
have rU1 : reaches (near "L1" E T) 1 (L1Um R E T sc) by move=> i j /rU; exact: hops_wider.
have two (A : 'M[R]_(length E)) (v : 'cV[R]_(length E)) : A *m (A *m v) = (A *m A) *m v by exact: mulmxA.
split; [|split] => ag.
- rewrite !(lower_shift_Ok H) //; do 2 eexists; do 2 split=> //.
  move: ag; rewrite /d; case: ifP => _ ag; rewrite ?two; apply: local_nth ag => //.
  exact: (reachesM rL rL).
- rewrite !(upper_shift_Ok H) //; do 2 eexists; do 2 split=> //.
  move: ag; rewrite /d; case: ifP => _ ag; rewrite ?two; apply: local_nth ag => //.
  exact: (reachesM rU rU).
rewrite !(k_shift_Ok H) //; do 2 eexists; do 2 split=> //.
move: ag; rewrite /d; case: ifP => _ ag; rewrite ?two -?mulmxDl; apply: local_nth ag => //.
  exact: reachesD.
by apply: reachesD; [exact: (reachesM rL1 rL1)|exact: (reachesM rU1 rU1)].
Qed.
Print Assumptions C99_shifts.

(** ** The low-pass filter *)
Lemma path_hops m d k l : (k < m)%N -> hops (near "L1L" (path_edges m) nil) m d k l -> (l <= k + d)%N.
Proof.
move=> km h; elim: h km => [d1 k1|d1 k1 q l1 lq n1 _ IH] km; first exact: leq_addr.
have := IH lq; case: n1 => [[_]|[[]]] //; rewrite !path_nth // /share_node /=; lia.
Qed.

Section PathLaplacian.
Variables (R : rcfType) (m : nat) (sc : SC).
Hypothesis H : make_sc (path_nodes m) (path_edges m) nil nil nil = Ok sc.
Notation M := (length (path_edges m)).
Notation LL := (L1Lm R (path_nodes m) (path_edges m) sc).

Lemma path_entry (i j : 'I_M) : LL i j = ZR R (ind (Z.eqb (Z.of_nat i.+1) (Z.of_nat j.+1)) + ind (Z.eqb (Z.of_nat i) (Z.of_nat j))
  - ind (Z.eqb (Z.of_nat i.+1) (Z.of_nat j)) - ind (Z.eqb (Z.of_nat i) (Z.of_nat j.+1)))%zz.
Proof.
have [L [[<-] [_ [_ [h _]]]]] := C12_lower_laplacian_entries _ _ _ _ _ _ H (@path_proper m).
rewrite -(toM_L1L R H) mxE; congr (ZR R _).
have lt (a : 'I_M) : (a < m)%N by have := ltn_ord a; rewrite {2}path_m.
by apply: h; rewrite nthE ?ltn_ord // path_nth.
Qed.

Lemma shift_entry (mu : R) (i j : 'I_M) : (1%:M + mu *: LL) i j = (nat_of_ord i == j)%:R + mu * LL i j.
Proof. by rewrite mxE; congr (_ + _); rewrite mxE. Qed.

(** If the low-pass estimate of a flow that is 0 except on the last edge is 0 on the first edge, it is 0 everywhere. *)
Lemma path_zero (mu : R) (x : 'cV[R]_M) : mu != 0 ->
  (forall i : 'I_M, (i.+1 < M)%N -> ((1%:M + mu *: LL) *m x) i 0 = 0) ->
  (forall i : 'I_M, nat_of_ord i = 0%N -> x i 0 = 0) -> x = 0.
Proof.
move=> mu0 eqs x0; apply/colP => i; rewrite [RHS]mxE.
case: i; elim/ltn_ind => -[|k] IH kM; first exact: x0.
have kM' : (k < M)%N by exact: ltnW.
have := eqs (Ordinal kM') kM; rewrite mxE (bigD1 (Ordinal kM)) //= big1 => [|j nj].
  rewrite addr0 shift_entry path_entry /= => /eqP; rewrite mulf_eq0 => /orP[|/eqP //].
  have -> : (k == k.+1) = false by lia.
  have -> : (ind (Z.eqb (Z.of_nat k.+1) (Z.of_nat k.+2)) + ind (Z.eqb (Z.of_nat k) (Z.of_nat k.+1))
     - ind (Z.eqb (Z.of_nat k.+1) (Z.of_nat k.+1)) - ind (Z.eqb (Z.of_nat k) (Z.of_nat k.+2)))%zz = Zneg xH.
    rewrite /ind; case: Z.eqb_spec => e1; case: Z.eqb_spec => e2; case: Z.eqb_spec => e3; case: Z.eqb_spec => e4; lia.
  by rewrite add0r mulf_eq0 (negbTE mu0) /= /ZR /= oppr_eq0 oner_eq0.
have [jk|jk] := leqP j k; first by case: j nj jk => j lj /= _ jk; rewrite IH ?mulr0.
have jk2 : (k.+1 < j)%N.
  by rewrite ltn_neqAle jk andbT; apply: contra_neq nj => e; apply: val_inj.
rewrite shift_entry path_entry /=.
have -> : (k == j) = false by lia.
have -> : (ind (Z.eqb (Z.of_nat k.+1) (Z.of_nat j.+1)) + ind (Z.eqb (Z.of_nat k) (Z.of_nat j))
     - ind (Z.eqb (Z.of_nat k.+1) (Z.of_nat j)) - ind (Z.eqb (Z.of_nat k) (Z.of_nat j.+1)))%zz = Z0.
  rewrite /ind; case: Z.eqb_spec => e1; case: Z.eqb_spec => e2; case: Z.eqb_spec => e3; case: Z.eqb_spec => e4; lia.
by rewrite /ZR /= mulr0 addr0 mul0r.
Qed.
End PathLaplacian.

(** The estimate of EdgeFlowDenoising has no such bound: for every number of steps d and every weight mu > 0 there is a
    network with two flows that agree on all edges at most d steps from an edge and have different estimates there. *)
Theorem C99_lowpass_refuted :
  forall (R : rcfType) (eigsh : forall n, 'M[R]_n -> seq (R * 'cV[R]_n)) (d : nat) (mu : R), 0 < mu ->
  exists nodes E sc f f' f_true k r r', make_sc nodes E nil nil nil = Ok sc /\
    proper_edges (length nodes) E /\ simple_edges E /\
    size f = length E /\ size f' = length E /\ size f_true = length E /\ (k < length E)%N /\
    agree_near (near "L1L" E nil) (length E) d k f f' /\
    edge_flow_denoise eigsh sc f f_true "L1L" [:: mu] = Ok r /\
    edge_flow_denoise eigsh sc f' f_true "L1L" [:: mu] = Ok r' /\
    (run_estimated r)`_k <> (run_estimated r')`_k.
Proof.
move=> R eigsh d mu mu0; pose m := d.+2; have [sc H] := @path_make m.
pose f : seq R := nseq m 0; pose f' : seq R := rcons (nseq d.+1 0) 1.
have lM : length (path_edges m) = m := @path_m m.
have sf : size f = length (path_edges m) by rewrite lM size_nseq.
have sf' : size f' = length (path_edges m) by rewrite lM size_rcons size_nseq.
have M0 : (0 < length (path_edges m))%N by rewrite lM.
have gp : get_p_matrix sc "L1L" = Ok (Csr (p_array sc "L1L")) by rewrite get_p_matrixE.
have nn : forall q, q \in rcons [::] mu -> 0 <= q by move=> q; rewrite inE => /eqP ->; exact: ltW.
have [r [er e]] := denoise_run eigsh H M0 gp sf sf nn.
have [r' [er' e']] := denoise_run eigsh H M0 gp sf' sf nn.
exists (path_nodes m), (path_edges m), sc, f, f', f, 0%N, r, r'.
split=> //; split; first exact: path_proper.
split; first split.
- apply: (@FinFun.Injective_map_NoDup _ _ (fun i : nat => (Z.of_nat i, Z.of_nat i.+1)) (List.seq 0 m)); last exact: seq_NoDup.
  by move=> a b [h _]; lia.
- by move=> u v /path_in[i [_ [-> ->]]] /path_in[j [_ [h1 h2]]]; lia.
do 4 split=> //; split.
  move=> l; rewrite lM => lm /(path_hops (isT : (0 < m)%N)); rewrite add0n => ld.
  by rewrite nth_nseq nth_rcons size_nseq if_same ltnS ld nth_nseq if_same.
do 2 split=> //; rewrite e e'.
have z : vec (length (path_edges m)) f = 0 by apply/colP => i; rewrite !mxE nth_nseq if_same.
rewrite z mulmx0 -[0%N]/(nat_of_ord (Ordinal M0)) !nth_unvec [LHS]mxE => x0.
have u := shift_unit (p_psd (path_nodes m) nil sc "L1L" : forall x : 'cV[R]_(length (path_edges m)), _) (ltW mu0).
set x := invmx _ *m vec _ f' in x0.
have ex : (1%:M + mu *: p_mat R (path_nodes m) (path_edges m) nil sc "L1L") *m x = vec _ f'.
  by rewrite /x mulmxA mulmxV // mul1mx.
have xz : x = 0.
  apply: (path_zero H (mu := mu)); first by rewrite gt_eqF.
    move=> i; rewrite -/(p_mat R (path_nodes m) (path_edges m) nil sc "L1L") ex mxE [X in (_ < X)%N -> _]lM => im.
    by rewrite nth_rcons size_nseq (im : (i < d.+1)%N) nth_nseq if_same.
  by move=> i i0; rewrite x0; congr (x _ _); apply: val_inj.
have lt : (d.+1 < length (path_edges m))%N by rewrite lM.
have := congr1 (fun v : 'cV[R]_ _ => v (Ordinal lt) 0) ex; rewrite xz mulmx0 !mxE /= nth_rcons size_nseq ltnn eqxx.
by move/eqP; rewrite eq_sym oner_eq0.
Qed.
Print Assumptions C99_lowpass_refuted.

(** The cycle 0-2-1-3: the last edge shares no node with the first one.  The flows (3, 1, 1, -1) and (3, 1, 1, 7) differ
    on it only, so on the first edge they have the same shifts by one step, the same estimates with two coefficients and
    the same first Chebyshev estimate.  Two steps from the first edge they do differ. *)
Example C99_example : let R := realalg_rcfType in
  let f := [:: 3%:R; 1; 1; -1] : seq R in
  let f' := [:: 3%:R; 1; 1; 7%:R] : seq R in
  lstsq_contract (@ls_min R) /\ make_sc k22_nodes k22_edges nil nil nil = Ok k22_sc /\
  proper_edges (length k22_nodes) k22_edges /\ simple_edges k22_edges /\ proper_triangles nil /\
  size f = length k22_edges /\ size f' = length k22_edges /\ (0 < length k22_edges)%N /\
  agree_near (near "L1L" k22_edges nil) (length k22_edges) 1 0 f f' /\
  ~ agree_near (near "L1L" k22_edges nil) (length k22_edges) 2 0 f f' /\
  (exists y y', apply_lower_shifting k22_sc f 1 = Ok y /\ apply_lower_shifting k22_sc f' 1 = Ok y' /\ y`_0 = y'`_0) /\
  (forall rint tol, exists r r',
     ls_type_two (@eigsh_std R) (@ls_min R) rint k22_sc f "gradient" 2 tol = Ok r /\
     ls_type_two (@eigsh_std R) (@ls_min R) rint k22_sc f' "gradient" 2 tol = Ok r' /\
     (run_estimated r)`_0 = (run_estimated r')`_0) /\
  (forall rint norm_2, exists r r',
    cheb_apply (@eigsh_std R) (@ls_min R) rint (@argsort_ref R) (@exp_ref R) (@chebfun_ref R) norm_2 k22_sc
      f "L1L" "gradient" 3 None 1 1 = Ok r /\
    cheb_apply (@eigsh_std R) (@ls_min R) rint (@argsort_ref R) (@exp_ref R) (@chebfun_ref R) norm_2 k22_sc
      f' "L1L" "gradient" 3 None 1 1 = Ok r' /\
    (nth [::] (cheb_estimated r) 0)`_0 = (nth [::] (cheb_estimated r') 0)`_0).
Proof.
move=> R f f'.
have LC : lstsq_contract (@ls_min R) := proj1 (@ls_min_ok R).
have PE : proper_edges (length k22_nodes) k22_edges.
  by move=> u v /= h; repeat (case: h => [[<- <-]|h]; first by lia).
have SE : simple_edges k22_edges.
  split; last by move=> u v /= h; repeat (case: h => [[<- <-]|h]; first by move=> h'; repeat (case: h' => // h')).
  by repeat (constructor; first by move=> /= h; repeat (case: h => // h)); constructor.
have PT : proper_triangles nil by [].
have ag : agree_near (near "L1L" k22_edges nil) (length k22_edges) 1 0 f f'.
  move=> l lM /hops1[<- //|]; case: l lM => [|[|[|[|l]]]] // _ [[_ h0]|[[h0|h0] _]] //.
  by move: h0; rewrite /share_node /=; lia.
split=> //; split; first exact: k22_ok. do 7 split=> //; split.
  move=> a2; suff : f`_3 = f'`_3 by rewrite /= => /eqP; rewrite eq_sym -subr_eq0 opprK -(natrD _ 7 1) pnatr_eq0.
  apply: a2 => //; apply: (@hops_step _ _ _ _ 1) => //; first by left; split; [left|rewrite /share_node /=; lia].
  apply: (@hops_step _ _ _ _ 3) => //; last exact: hops_here.
  by left; split; [left|rewrite /share_node /=; lia].
split; first by have [h _] := C99_shifts k22_ok PE SE PT 1 (erefl : size f = _) (erefl : size f' = length k22_edges) (isT : (0 < length k22_edges)%N); exact: h.
split.
  move=> rint tol.
  have tp : type_two_laplacian "gradient" "L1L" by left.
  have [r [hs [t [U [ev [er _]]]]]] := C35_ls_type_two rint (@eigsh_std_ok R) (@ls_min_ok R) k22_ok (isT : (0 < length k22_edges)%N) tp
    (k22_p) (erefl : size f = length k22_edges) tol (erefl : Z.lt Z0 2).
  have pc := PolyTwo (@eigsh_std R) (@ls_min R) rint (@argsort_ref R) (@exp_ref R) k22_sc 2 tol tp.
  have [r' [er' h]] := C99_polynomial_filters LC k22_ok PE SE PT pc (erefl : size f = length k22_edges) er (erefl : size f' = length k22_edges).
  by exists r, r'; do 2 split=> //; exact: h.
move=> rint norm_2; have [_ [_ [_ [_ [_ [_ [_ [_ [_ [_ [_ [_ /(_ rint norm_2)[r [er _]]]]]]]]]]]]]] := C88_example.
have [r' [er' [_ h]]] := C99_chebyshev LC k22_ok PE SE PT (erefl : size f = length k22_edges) er (erefl : size f' = length k22_edges).
by exists r, r'; do 2 split=> //; exact: h.
Qed.
