(** * C91: the order of edges and triangles is irrelevant for filters; the direction of edges is not *)

From Coq Require Import ZArith String List.
From mathcomp Require Import all_ssreflect all_algebra all_real_closed ssrZ zify.
From Verif Require Import Py PyFacts ExampleData Complex ComplexSpec ComplexFacts ComplexFacts2 LinAlg Spectral
  Signal SignalSpec Bridge SignalFacts Compute Props_Complex Props_Signal Props_Hodge Eigen EigenSpec IntEigen
  EigenFacts Props_Eigen Filter FilterSpec FilterFacts FilterFacts2 PolyFacts Props_Masks Props_LowPass
  Props_Poly Props_Power Props_Grid Props_Linear Props_Reorder.

Set Implicit Arguments.
Unset Strict Implicit.
Unset Printing Implicit Defensive.

Import GRing.Theory Num.Theory Order.Theory.
Local Open Scope ring_scope.
Delimit Scope Z_scope with zz.

(** ** Two calls of the same method *)

(** The same method on two complexes with the same parameters; true signals given as arguments are related by
    [same]. *)
Inductive same_call (R : rcfType) eigsh lstsq rint argsort expf (sc sc' : SC) (same : seq R -> seq R -> Prop) :
  (seq R -> res (run R)) -> (seq R -> res (run R)) -> Prop :=
| SameDenoise t t' c mus : same t t' -> same_call eigsh lstsq rint argsort expf sc sc' same
    (fun f => edge_flow_denoise eigsh sc f t c mus) (fun f => edge_flow_denoise eigsh sc' f t' c mus)
| SameOne s L : same_call eigsh lstsq rint argsort expf sc sc' same
    (fun f => ls_type_one eigsh lstsq rint argsort sc f s L) (fun f => ls_type_one eigsh lstsq rint argsort sc' f s L)
| SameTwo s L tol : same_call eigsh lstsq rint argsort expf sc sc' same
    (fun f => ls_type_two eigsh lstsq rint sc f s L tol) (fun f => ls_type_two eigsh lstsq rint sc' f s L tol)
| SameGrid t t' c L mu : same t t' -> same_call eigsh lstsq rint argsort expf sc sc' same
    (fun f => grid_denoise eigsh lstsq sc f t c L mu) (fun f => grid_denoise eigsh lstsq sc' f t' c L mu)
| SameExtract s c L num mu cut steep : same_call eigsh lstsq rint argsort expf sc sc' same
    (fun f => grid_extraction eigsh lstsq rint expf sc f s c L num mu cut steep)
    (fun f => grid_extraction eigsh lstsq rint expf sc' f s c L num mu cut steep).

(** Two flows with the same value at every edge, each listed in the order of its own complex. *)
Definition same_at (R : rcfType) (E E' : list (Z * Z)) (x x' : seq R) : Prop :=
  size x = length E /\ size x' = length E' /\ perm_eq (zip E x) (zip E' x').

(** ** Matrices in another order and with other signs *)
Definition ssel (R : realFieldType) n m (sg : nat -> R) (p : 'I_n -> 'I_m) : 'M[R]_(n, m) :=
  \matrix_(i, j) (sg i * (j == p i)%:R).
Lemma sselM (R : realFieldType) n m k (sg : nat -> R) (p : 'I_n -> 'I_m) (A : 'M[R]_(m, k)) i j :
  (ssel sg p *m A) i j = sg i * A (p i) j.
Proof.
rewrite -(selM p) !mxE big_distrr /=; apply: eq_bigr => l _; by rewrite !mxE mulrA.
Qed.
Lemma Mssel (R : realFieldType) n m k (sg : nat -> R) (p : 'I_n -> 'I_m) (A : 'M[R]_(k, m)) i j :
  (A *m (ssel sg p)^T) i j = sg j * A i (p j).
Proof.
have -> : A *m (ssel sg p)^T = (ssel sg p *m A^T)^T by rewrite trmx_mul trmxK.
by rewrite mxE sselM mxE.
Qed.
Lemma ssel1 (R : realFieldType) n m (p : 'I_n -> 'I_m) : ssel (fun _ => 1 : R) p = sel R p.
Proof. by apply/matrixP => i j; rewrite !mxE mul1r. Qed.

Section Conj.
Variable R : rcfType.
Variables (n n' : nat) (p : 'I_n' -> 'I_n) (sg : nat -> R).
Hypotheses (bp : bijective p) (sgg : forall k, sg k * sg k = 1).
Notation S := (ssel sg p).
Notation conj A := (S *m A *m S^T).

Lemma SS : S *m S^T = 1%:M.
Proof.
apply/matrixP => i j; rewrite sselM !mxE; case: (i =P j) => [->|ne].
  by rewrite eqxx mulr1 sgg.
have -> : (p i == p j) = false by apply/negbTE/eqP => /(bij_inj bp).
by rewrite !mulr0.
Qed.
Lemma StS : S^T *m S = 1%:M.
Proof.
case: bp => q pq qp; apply/matrixP => i j; rewrite mxE (bigD1 (q i)) //= !mxE qp eqxx mulr1 mulrA sgg mul1r.
rewrite big1 ?addr0 1?eq_sym // => k nk; rewrite !mxE; case: eqP => [e|_]; last by rewrite mulr0 mul0r.
by case/eqP: nk; rewrite e pq.
Qed.
Lemma nn : n' = n. Proof. by have := bij_eq_card bp; rewrite !card_ord. Qed.

Lemma conjM (A B : 'M[R]_n) : conj (A *m B) = conj A *m conj B.
Proof. by rewrite -!mulmxA [S^T *m (S *m _)]mulmxA StS mul1mx. Qed.
Lemma conj_act (A : 'M[R]_n) m (x : 'M[R]_(n, m)) : conj A *m (S *m x) = S *m (A *m x).
Proof. by rewrite -!mulmxA [S^T *m (S *m _)]mulmxA StS mul1mx. Qed.
Lemma conj1 : conj (1%:M : 'M[R]_n) = 1%:M. Proof. by rewrite mulmx1 SS. Qed.
Lemma conjD (A B : 'M[R]_n) : conj (A + B) = conj A + conj B. Proof. by rewrite mulmxDr mulmxDl. Qed.
Lemma conjB (A B : 'M[R]_n) : conj (A - B) = conj A - conj B. Proof. by rewrite mulmxBr mulmxBl. Qed.
Lemma conjZ a (A : 'M[R]_n) : conj (a *: A) = a *: conj A. Proof. by rewrite -scalemxAr -scalemxAl. Qed.
Lemma conj0 : conj (0 : 'M[R]_n) = 0. Proof. by rewrite mulmx0 mul0mx. Qed.
Lemma conj_sum m (F : 'I_m -> 'M[R]_n) : conj (\sum_i F i) = \sum_i conj (F i).
Proof. by rewrite mulmx_sumr mulmx_suml. Qed.
Lemma conj_inj (A B : 'M[R]_n) : conj A = conj B -> A = B.
Proof.
move=> e; have h (C : 'M[R]_n) : S^T *m conj C *m S = C by rewrite !mulmxA StS mul1mx -mulmxA StS mulmx1.
by rewrite -(h A) e h.
Qed.
Lemma conj_pow (A : 'M[R]_n) k : mpow (conj A) k = conj (mpow A k).
Proof. by elim: k => [|k IH]; [rewrite conj1|rewrite !mpowS IH conjM]. Qed.
Lemma conj_poly (A : 'M[R]_n) L (h : 'cV[R]_L) : poly_filter (conj A) h = conj (poly_filter A h).
Proof. by rewrite conj_sum; apply: eq_bigr => i _; rewrite conj_pow conjZ. Qed.
Lemma conj_unit (A : 'M[R]_n) : (conj A \in unitmx) = (A \in unitmx).
Proof.
apply/idP/idP => u.
  have /mulmx1_unit[//] : A *m (S^T *m invmx (conj A) *m S) = 1%:M.
  apply: conj_inj; rewrite conjM conj1 -[RHS](mulmxV u); congr (_ *m _).
  by rewrite !mulmxA SS mul1mx -mulmxA SS mulmx1.
by have /mulmx1_unit[] : conj A *m conj (invmx A) = 1%:M by rewrite -conjM mulmxV // conj1.
Qed.
Lemma conj_inv (A : 'M[R]_n) : A \in unitmx -> invmx (conj A) = conj (invmx A).
Proof.
move=> u; have u' : conj A \in unitmx by rewrite conj_unit.
by rewrite -[RHS]mul1mx -(mulVmx u') -[RHS]mulmxA -conjM mulmxV // conj1 mulmx1.
Qed.
Lemma conj_np_inv (A : 'M[R]_n) : np_inv (conj A) = (let! B := np_inv A in Ok (conj B)).
Proof. by rewrite /np_inv conj_unit; case: ifP => // u; rewrite /= conj_inv. Qed.

Lemma nrm2_moved (v : 'cV[R]_n) : nrm2 (S *m v) = nrm2 v.
Proof. by rewrite /nrm2 dot_mulmx mulmxA StS mul1mx. Qed.
Lemma conj_stack (A : 'M[R]_n) al k : cheb_stack (conj A) al k = conj (cheb_stack A al k).
Proof.
suff : cheb_stack (conj A) al k = conj (cheb_stack A al k) /\ cheb_stack (conj A) al k.+1 = conj (cheb_stack A al k.+1) by case.
have sh : conj A - al *: 1%:M = conj (A - al *: 1%:M) by rewrite conjB conjZ conj1.
elim: k => [|k [IH1 IH2]]; first by rewrite /= conj1 sh conjZ.
split=> //; set B := cheb_stack A al k.+1 in IH2 *.
have -> : cheb_stack A al k.+2 = (2%:R / al) *: (A - al *: 1%:M) *m B - cheb_stack A al k by [].
by rewrite conjB conjM conjZ -sh -IH1 -IH2.
Qed.
Lemma conj_approx (A : 'M[R]_n) c al m :
  chebyshev_filter_approximate (conj A) c al m = (let! B := chebyshev_filter_approximate A c al m in Ok (conj B)).
Proof.
rewrite /chebyshev_filter_approximate; case: ifP => // _; case: ifP => // _ /=.
by rewrite conj_sum; congr Ok; apply: eq_bigr => i _; rewrite conj_stack conjZ.
Qed.
Lemma conj_freq (A : 'M[R]_n) c al m :
  chebyshev_frequency_approx (conj A) c al m = (let! Bs := chebyshev_frequency_approx A c al m in Ok [seq conj B | B <- Bs]).
Proof.
rewrite /chebyshev_frequency_approx.
have -> : nseq m (0 : 'M[R]_n') = [seq conj B | B <- nseq m (0 : 'M[R]_n)] by rewrite map_nseq conj0.
elim: (iota 0 m) (nseq m 0) => [|k ks IH] Bs //; rewrite [foldM _ _ _]/= [in RHS]/= conj_approx.
case: chebyshev_filter_approximate => //= B; rewrite -IH; congr (foldM _ _ _).
by rewrite /set_from !size_map -map_take map_cat map_nseq.
Qed.

(** Power iteration starts with ones: for it the signs have to be 1. *)
Section Plain.
Hypothesis sg1 : forall k, sg k = 1.
Lemma plainM m (A : 'M[R]_(n, m)) i j : (S *m A) i j = A (p i) j. Proof. by rewrite sselM sg1 mul1r. Qed.
Lemma sum_moved (F : 'I_n -> R) : \sum_i F (p i) = \sum_j F j.
Proof. by rewrite [RHS](reindex p) //; exact: onW_bij. Qed.
Lemma const_moved a : S *m const_mx a = const_mx a :> 'cV[R]_n'.
Proof. by apply/colP => i; rewrite plainM !mxE. Qed.

Lemma conj_power (A : 'M[R]_n) k (v : 'cV[R]_n) :
  power_loop (conj A) k (S *m v) = (let! w := power_loop A k v in Ok (S *m w)).
Proof.
elim: k v => [|k IH] v //=.
have -> : \sum_i (conj A *m (S *m v)) i 0 ^+ 2 = \sum_i (A *m v) i 0 ^+ 2.
  rewrite conj_act -(sum_moved (fun i => (A *m v) i 0 ^+ 2)); apply: eq_bigr => i _.
  by rewrite plainM.
by case: ifP => // _; rewrite conj_act -IH -scalemxAr.
Qed.
Lemma conj_power_iteration (A : 'M[R]_n) k :
  power_iteration (conj A) k = (let! w := power_iteration A k in Ok (S *m w)).
Proof.
rewrite /power_iteration -(const_moved 1) conj_power; case: power_loop => //= v.
by rewrite mulmxDr const_moved.
Qed.
Lemma conj_quotient (A : 'M[R]_n) (v : 'cV[R]_n) : mean_quotient (conj A) (S *m v) = mean_quotient A v.
Proof.
rewrite /mean_quotient conj_act.
have -> : [exists i, (S *m v) i 0 == 0] = [exists i, v i 0 == 0].
  case: bp => q pq qp; apply/existsP/existsP => -[i h]; first by exists (p i); rewrite plainM in h.
  by exists (q i); rewrite plainM qp.
case: ifP => // _; rewrite -(sum_moved (fun i => (A *m v) i 0 / v i 0)); congr (Ok (_ / _)).
  by apply: eq_bigr => i _; rewrite !plainM.
by rewrite nn.
Qed.
Lemma conj_sampled (A : 'M[R]_n) num mu : sampled_freq_response (conj A) num mu = sampled_freq_response A num mu.
Proof.
rewrite /sampled_freq_response /sample_grid_points conj_power_iteration.
by case: power_iteration => //= v; rewrite conj_quotient.
Qed.

End Plain.

(** Eigenvalues. *)
Lemma conj_eigfam (A : 'M[R]_n) l : eigfam A l -> eigfam (conj A) [seq (q.1, S *m q.2) | q <- l].
Proof.
case/eigfamP=> sl [/onfP[ul ol] eq]; apply/eigfamP; split; first by rewrite size_map sl nn.
have Sinj (x y : 'cV[R]_n) : S *m x = S *m y -> x = y.
  by move=> e; rewrite -[x]mul1mx -[y]mul1mx -StS -!mulmxA e.
split; last first.
  by move=> q /mapP[q' ql ->] /=; rewrite conj_act eq // scalemxAr.
apply/onfP; rewrite -map_comp.
have -> : [seq (snd \o (fun q : R * 'cV[R]_n => (q.1, S *m q.2))) q | q <- l] = [seq S *m v | v <- [seq q.2 | q <- l]].
  by rewrite -map_comp.
split; first by rewrite map_inj_uniq.
move=> x y /mapP[v vl ->] /mapP[w wl ->]; rewrite dot_mulmx mulmxA StS mul1mx ol //.
by congr (nat_of_bool _)%:R; apply/eqP/eqP => [->|/Sinj].
Qed.

Lemma conj_values (eigsh : forall n, 'M[R]_n -> seq (R * 'cV[R]_n)) (A : 'M[R]_n) : eigsh_contract eigsh ->
  (0 < n)%N -> A^T = A -> [seq q.1 | q <- eigsh n' (conj A)] = [seq q.1 | q <- eigsh n A].
Proof.
move=> EC n0 sA.
have n0' : (0 < n')%N by rewrite nn.
have sA' : (conj A)^T = conj A by rewrite !trmx_mul trmxK sA mulmxA.
have [_ [s1 _]] := EC _ _ n0 sA; have [_ [s2 _]] := EC _ _ n0' sA'.
apply: (sorted_eq le_trans le_anti) => //.
have f1 := conj_eigfam (contract_eigfam EC n0 sA); have f2 := contract_eigfam EC n0' sA'.
have := eigfam_char_poly f2; rewrite (eigfam_char_poly f1) big_map => e.
by apply: prod_XsubC_perm; rewrite !big_map -e.
Qed.

(** The loops. *)
Variables (P : 'M[R]_n) (l : seq (R * 'cV[R]_n)) (l' : seq (R * 'cV[R]_n')).
Hypotheses (fl : eigfam P l) (fl' : eigfam (conj P) l') (vl : [seq q.1 | q <- l'] = [seq q.1 | q <- l]).
Variables (K : Type) (X : K -> res 'M[R]_n) (X' : K -> res 'M[R]_n').
Hypothesis XX : forall k, X' k = (let! A := X k in Ok (conj A)).
Hypothesis XF : forall k A, X k = Ok A -> exists phi : R -> R, forall (u : 'cV_n) lam, P *m u = lam *: u -> A *m u = phi lam *: u.
Notation U := (up (zeroed l)).
Notation U' := (up (zeroed l')).
Variables (f t f' t' : seq R).
Hypotheses (sf : size f = n) (sf' : size f' = n') (st : size t = n) (st' : size t' = n').
Hypotheses (ff : vec n' f' = S *m vec n f) (tt : vec n' t' = S *m vec n t).

Lemma nrmse_moved (u : 'cV[R]_n) : calculate_error_NRMSE (unvec (S *m u)) t' = calculate_error_NRMSE (unvec u) t.
Proof.
rewrite !nrmseE ?size_unvec //.
have et : energy t' = energy t by rewrite -(vecK st) -(vecK st') !energy_unvec tt nrm2_moved.
have es : energy (subf (unvec (S *m u)) t') = energy (subf (unvec u) t).
  by rewrite -(vecK st) -(vecK st') !subf_unvec !energy_unvec tt -mulmxBr nrm2_moved.
by rewrite /nrmse !normE et es.
Qed.

Lemma response_moved k A : X k = Ok A -> diag_response (conj A) U' = diag_response A U.
Proof.
move=> /XF[phi h]; rewrite !diag_responseE.
have h' (u : 'cV_n') lam : conj P *m u = lam *: u -> conj A *m u = phi lam *: u.
  move=> e; have e1 : P *m (S^T *m u) = lam *: (S^T *m u).
    by rewrite scalemxAr -e !mulmxA StS mul1mx.
  by rewrite -mulmxA -mulmxA (h _ _ e1) -scalemxAr mulmxA SS mul1mx.
have one m (B : 'M[R]_m) (u : 'cV[R]_m) c : B *m u = c *: u -> dot u u = 1 -> (u^T *m B *m u) 0 0 = c.
  by move=> e d; rewrite -mulmxA e -scalemxAr mxE -dotE d mulr1.
transitivity [seq phi x | x <- [seq q.1 | q <- l']].
  rewrite -map_comp; apply/eq_in_map => q ql /=; apply: one; last exact: (eigfam_unit fl').
  by apply: h'; exact: (eigfam_eq fl').
rewrite vl -map_comp; apply/eq_in_map => q ql /=; apply/esym; apply: one; last exact: (eigfam_unit fl).
by apply: h; exact: (eigfam_eq fl).
Qed.

Definition moved_step (y : 'M[R]_n * seq R * seq R * Filter.fl R) : 'M[R]_n' * seq R * seq R * Filter.fl R :=
  (conj y.1.1.1, unvec (S *m vec n y.1.1.2), y.1.2, y.2).

Lemma gstep_moved k y : gstep X U f t k = Ok y -> gstep X' U' f' t' k = Ok (moved_step y).
Proof.
rewrite /gstep XX; case e : (X k) => [A|] //=; rewrite /mat_dot sf sf' !eqxx /= ff conj_act nrmse_moved.
case: calculate_error_NRMSE => [er|] //= [<-] /=; by rewrite /moved_step /= unvecK (response_moved e).
Qed.

Lemma gloop_moved ks ys : mapM (gstep X U f t) ks = Ok ys -> mapM (gstep X' U' f' t') ks = Ok (map moved_step ys).
Proof.
elim: ks ys => [|k ks IH] ys /=; first by case=> <-.
case e : (gstep X U f t k) => [y|] //=; case e' : mapM => [zs|] //= [<-].
by rewrite (gstep_moved e) (IH _ e').
Qed.

Lemma grun_moved ks r : (let! ys := mapM (gstep X U f t) ks in collect ys) = Ok r ->
  exists r', (let! ys := mapM (gstep X' U' f' t') ks in collect ys) = Ok r' /\
    size (run_estimated r) = n /\ run_estimated r' = unvec (S *m vec n (run_estimated r)) /\
    run_responses r' = run_responses r /\ run_errors r' = run_errors r.
Proof.
case e : mapM => [ys|] //=; case: ys e => [|y ys] e //=.
case el : (last y ys) => [[[A fe] g] er] [<-] /=.
have iy : List.In (A, fe, g, er) (y :: ys) by rewrite -el; exact: In_last.
have [k ik ek] := gloop_in e iy; have [_ [_ [/= fE _]]] := gstep_Ok ek.
rewrite (gloop_moved e) /= last_map el /moved_step /=; eexists; split; first by [].
rewrite /= fE size_unvec; do 2 split=> //.
by rewrite -!map_comp.
Qed.

(** The loop of the Chebyshev filter: only the number of eigenvectors matters for completion. *)
Variable norm_2 : forall n, 'M[R]_n -> R.
Lemma cheb_step_moved (V V' W W' : eigpairs R) Hi Hi' h B y : size V' = size V -> size W' = size W ->
  cheb_step norm_2 V W Hi f t h B = Ok y -> exists y', cheb_step norm_2 V' W' Hi' f' t' h (conj B) = Ok y' /\
    y'.1.1.1 = unvec (S *m vec n y.1.1.1) /\ size y.1.1.1 = n /\ y'.1.2 = y.1.2.
Proof.
move=> sV sW; rewrite /cheb_step {1}nn; case: ifP => // _.
case e0 : calculate_error_NRMSE => [x0|] //=.
have [x0' ->] := nrmse_sizes e0 (etrans (size_map _ _) (etrans sW (esym (size_map _ _))) : size (diag_response (conj B) W') = _) (erefl (size h)).
rewrite /= /mat_dot sf sf' !eqxx /= ff conj_act nrmse_moved.
case e1 : calculate_error_NRMSE => [x1|] //=.
case e2 : calculate_error_NRMSE => [x2|] //= [<-] /=.
have s1 x x' : size [seq ((vec n' p.2)^T *m vec n' x) 0 0 | p <- V'] = size [seq ((vec n p.2)^T *m vec n x') 0 0 | p <- V].
  by rewrite !size_map.
have [x2' /= ->] := nrmse_sizes e2 (s1 (unvec (S *m (B *m vec n f))) _) (s1 t' _).
by eexists; split; first by []; rewrite /= unvecK size_unvec.
Qed.

Lemma cheb_loop_moved (V V' W W' : eigpairs R) Hi Hi' h Bs ys : size V' = size V -> size W' = size W ->
  mapM (cheb_step norm_2 V W Hi f t h) Bs = Ok ys -> exists ys',
    mapM (cheb_step norm_2 V' W' Hi' f' t' h) [seq conj B | B <- Bs] = Ok ys' /\
    [seq y.1.1.1 | y <- ys'] = [seq unvec (S *m vec n y.1.1.1) | y <- ys] /\
    all (fun x => size x == n) [seq y.1.1.1 | y <- ys] /\
    [seq y.1.2 | y <- ys'] = [seq y.1.2 | y <- ys].
Proof.
move=> sV sW; elim: Bs ys => [|B Bs IH] ys /=; first by case=> <-; exists [::].
case e : cheb_step => [y|] //=; case e' : mapM => [zs|] //= [<-] /=.
have [y' [-> [h1 [h2 h3]]]] := cheb_step_moved Hi' sV sW e.
have [zs' [-> [h4 [h5 h6]]]] := IH _ e'; exists (y' :: zs'); rewrite /= h1 h3 h4 h6; split=> //; split=> //; split=> //.
by rewrite h2 eqxx.
Qed.
End Conj.

(** ** Two complexes *)
Section Pair.
Variable R : rcfType.
Variables (eigsh : forall n, 'M[R]_n -> seq (R * 'cV[R]_n)) (lstsq : forall m n, 'M[R]_(m, n) -> 'cV[R]_m -> 'cV[R]_n)
  (rint : R -> int) (argsort : seq R -> seq nat) (expf : R -> R).
Hypotheses (EC : eigsh_contract eigsh) (LC : lstsq_contract lstsq).
Variables (nodes : list Z) (E : list (Z * Z)) (T : list (list Z)) (nf : dict Z fdict)
          (ef : dict (Z * Z) fdict) (sc : SC).
Hypothesis H : make_sc nodes E T nf ef = Ok sc.
Variables (nodes' : list Z) (E' : list (Z * Z)) (T' : list (list Z)) (nf' : dict Z fdict)
          (ef' : dict (Z * Z) fdict) (sc' : SC).
Hypothesis H' : make_sc nodes' E' T' nf' ef' = Ok sc'.
Variables (p : 'I_(length E') -> 'I_(length E)) (sg : nat -> R).
Hypotheses (bp : bijective p) (sgg : forall k, sg k * sg k = 1).
Notation S := (ssel sg p).
Let PP := SS bp sgg.
Let PtP := StS bp sgg.
Let NN := nn bp.

(** The matrix called [s] is the same up to order and signs. *)
Definition p_same s : Prop := p_mat R nodes' E' T' sc' s = S *m p_mat R nodes E T sc s *m S^T.

(** Everything about one of the three matrices. *)
Lemma p_pair s : p_same s -> (0 < length E)%N -> let A := p_array sc s in let A' := p_array sc' s in
  exists q : 'I_(sh0 A') -> 'I_(sh0 A), [/\ bijective q,
    forall (k : 'I_(sh0 A')) (k' : 'I_(length E')), (k : nat) = k' -> (q k : nat) = p k',
    toM R (sh0 A') (sh0 A') A' = ssel sg q *m toM R (sh0 A) (sh0 A) A *m (ssel sg q)^T &
    exists l l', [/\ get_eigendecomposition eigsh (Dense A) (eps64 R) = Ok (up (zeroed l)),
      get_eigendecomposition eigsh (Dense A') (eps64 R) = Ok (up (zeroed l')),
      eigfam (toM R (sh0 A) (sh0 A) A) l, eigfam (toM R (sh0 A') (sh0 A') A') l' &
      [seq x.1 | x <- l'] = [seq x.1 | x <- l]]].
Proof.
move=> pc M0 A A'; have M0' : (0 < length E')%N by rewrite NN.
have [_ [_ [sA [fA dA]]]] := p_side H EC M0 s; have [_ [_ [sA' [fA' dA']]]] := p_side H' EC M0' s.
have TP := toM_p R H s; have TP' := toM_p R H' s; rewrite /p_same in pc.
rewrite -/A -/A' in sA fA dA sA' fA' dA' TP TP' *.
have d0 := proj1 (p_dims H s); have d0' := proj1 (p_dims H' s); rewrite -/A -/A' in d0 d0'.
have lt (k : 'I_(sh0 A')) : (p (cast_ord (esym d0') k) < sh0 A)%N by rewrite -d0.
pose q k := Ordinal (lt k).
have bq : bijective q.
  apply: inj_card_bij; last by rewrite !card_ord -d0 -d0' NN.
  by move=> i j /(congr1 val) /= /val_inj /(bij_inj bp) /cast_ord_inj.
have cj : toM R (sh0 A') (sh0 A') A' = ssel sg q *m toM R (sh0 A) (sh0 A) A *m (ssel sg q)^T.
  apply/matrixP => i j; rewrite Mssel sselM !mxE /=.
  have := congr1 (fun X : 'M__ => X (cast_ord (esym d0') i) (cast_ord (esym d0') j)) TP'.
  by rewrite pc -TP Mssel sselM !mxE.
exists q; split=> //.
  by move=> k k' e /=; congr (nat_of_ord (p _)); apply: val_inj.
exists (eigsh (toM R (sh0 A) (sh0 A) A)), (eigsh (toM R (sh0 A') (sh0 A') A')); split=> //.
by rewrite cj; apply: conj_values => //; rewrite -d0.
Qed.

Lemma decomp_pos s tol U : get_eigendecomposition eigsh (Dense (p_array sc s)) tol = Ok U -> (0 < length E)%N.
Proof.
by have [-> _] := p_dims H s; rewrite /get_eigendecomposition; case: ifP => // /andP[].
Qed.

(** The values of a flow in the other order, with the other signs. *)
Definition moved (x x' : seq R) : Prop :=
  size x = length E /\ size x' = length E' /\ forall k : 'I_(length E'), x'`_k = sg k * x`_(p k).

Lemma moved_vec x x' : moved x x' -> vec (length E') x' = S *m vec (length E) x.
Proof. by case=> _ [_ h]; apply/colP => k; rewrite sselM !mxE h. Qed.
Lemma vec_moved (x : 'cV[R]_(length E)) : moved (unvec x) (unvec (S *m x)).
Proof. by rewrite /moved !size_unvec; do 2 split=> //; move=> k; rewrite !nth_unvec sselM. Qed.

Section Array.
Variables (s : string) (l : seq (R * 'cV[R]_(sh0 (p_array sc s)))) (l' : seq (R * 'cV[R]_(sh0 (p_array sc' s)))).
Notation A := (p_array sc s).
Notation A' := (p_array sc' s).
Notation P := (toM R (sh0 A) (sh0 A) A).
Notation P' := (toM R (sh0 A') (sh0 A') A').
Variable q : 'I_(sh0 A') -> 'I_(sh0 A).
Hypotheses (bq : bijective q) (qp : forall (k : 'I_(sh0 A')) (k' : 'I_(length E')), (k : nat) = k' -> (q k : nat) = p k').
Hypotheses (cj : P' = ssel sg q *m P *m (ssel sg q)^T) (fA : eigfam P l) (fA' : eigfam P' l')
  (vl : [seq x.1 | x <- l'] = [seq x.1 | x <- l]).

Lemma q_vec x x' : moved x x' -> size x = sh0 A /\ size x' = sh0 A' /\ vec (sh0 A') x' = ssel sg q *m vec (sh0 A) x.
Proof.
have [d0 _] := p_dims H s; have [d0' _] := p_dims H' s.
case=> sx [sx' h]; rewrite sx sx'; do 2 split=> //; apply/colP => k; rewrite sselM !mxE.
by rewrite (@qp k (cast_ord (esym d0') k)) //; exact: (h (cast_ord (esym d0') k)).
Qed.
Lemma q_moved x : size x = sh0 A -> moved x (unvec (ssel sg q *m vec (sh0 A) x)).
Proof.
have [d0 _] := p_dims H s; have [d0' _] := p_dims H' s.
move=> sx; split; first by rewrite sx.
split; first by rewrite size_unvec.
move=> k; have -> : (k : nat) = cast_ord d0' k by [].
by rewrite nth_unvec sselM !mxE (@qp _ k).
Qed.

Variables (f f' t t' : seq R).
Hypotheses (mf : moved f f') (mt : moved t t').

Definition same_run (r r' : run R) : Prop :=
  moved (run_estimated r) (run_estimated r') /\ run_responses r' = run_responses r /\ run_errors r' = run_errors r.

Lemma apply_pair ev al L r : apply_filter lstsq A (up (zeroed l)) f t ev al L = Ok r ->
  exists r', apply_filter lstsq A' (up (zeroed l')) f' t' ev al L = Ok r' /\ same_run r r'.
Proof.
have [sf [sf' vf]] := q_vec mf; have [st [st' vt]] := q_vec mt.
rewrite /apply_filter; case: Z.ltb => //; set m := Z.to_nat L.
pose c k : res 'cV[R]_m := if size al == size ev then Ok (lstsq (system_mat ev m k) (vec (size ev) al)) else Raise LinAlgError.
pose X k : res 'M[R]_(sh0 A) := let! h := c k in Ok (poly_filter P h).
pose X' k : res 'M[R]_(sh0 A') := let! h := c k in Ok (poly_filter P' h).
have eX f1 t1 k : filter_step lstsq A (up (zeroed l)) f1 t1 ev al m k = gstep X (up (zeroed l)) f1 t1 k.
  by rewrite /filter_step /gstep /X /c; case: (_ == _).
have eX' f1 t1 k : filter_step lstsq A' (up (zeroed l')) f1 t1 ev al m k = gstep X' (up (zeroed l')) f1 t1 k.
  by rewrite /filter_step /gstep /X' /c; case: (_ == _).
have eM : mapM (filter_step lstsq A (up (zeroed l)) f t ev al m) (iota 0 m) = mapM (gstep X (up (zeroed l)) f t) (iota 0 m).
  by apply: mapM_ext => k _; exact: eX.
have eM' : mapM (filter_step lstsq A' (up (zeroed l')) f' t' ev al m) (iota 0 m) = mapM (gstep X' (up (zeroed l')) f' t') (iota 0 m).
  by apply: mapM_ext => k _; exact: eX'.
rewrite eM eM' => h.
have [|||r' [h1 [h2 [h3 h4]]]] := grun_moved (X' := X') bq sgg fA _ vl _ _ sf sf' st st' vf vt h.
- by rewrite -cj.
- by move=> k; rewrite /X' /X; case: (c k) => //= g; rewrite cj conj_poly.
- move=> k B; rewrite /X; case: (c k) => //= g [<-]; exists (fun x => \sum_(i < m) g i 0 * x ^+ i) => u lam e.
  by rewrite -poly_atE; exact: poly_filter_eigen.
by exists r'; split=> //; rewrite /same_run h3; split; first exact: q_moved.
Qed.

Lemma denoise_pair mus r :
  (let! steps := mapM (denoise_step P (up (zeroed l)) f t) mus in collect steps) = Ok r -> exists r',
  (let! steps := mapM (denoise_step P' (up (zeroed l')) f' t') mus in collect steps) = Ok r' /\ same_run r r'.
Proof.
have [sf [sf' vf]] := q_vec mf; have [st [st' vt]] := q_vec mt.
pose X mu : res 'M[R]_(sh0 A) := np_inv (1%:M + mu *: P).
pose X' mu : res 'M[R]_(sh0 A') := np_inv (1%:M + mu *: P').
move=> h; have [|||r' [h1 [h2 [h3 h4]]]] := grun_moved (X := X) (X' := X') bq sgg fA _ vl _ _ sf sf' st st' vf vt h.
- by rewrite -cj.
- move=> k; rewrite /X' /X -conj_np_inv // conjD conjZ conj1 // -cj //.
- move=> k B; rewrite /X /np_inv; case: ifP => // un [<-]; exists (fun x => (1 + k * x)^-1) => u lam e.
  have e3 : (1%:M + k *: P) *m u = (1 + k * lam) *: u by rewrite mulmxDl mul1mx -scalemxAl e scalerA scalerDl scale1r.
  have e4 : u = (1 + k * lam) *: (invmx (1%:M + k *: P) *m u) by rewrite scalemxAr -e3 mulmxA mulVmx // mul1mx.
  case: (eqVneq (1 + k * lam) 0) => [z|nz]; last by rewrite {2}e4 scalerA mulVf // scale1r.
  by rewrite e4 z scale0r mulmx0 scaler0.
by exists r'; split=> //; rewrite /same_run h3; split; first exact: q_moved.
Qed.
End Array.

Lemma true_pair f f' s t : comp_mx R nodes' E' T' sc' s = S *m comp_mx R nodes E T sc s *m S^T -> moved f f' -> get_true_signal lstsq rint sc f s = Ok t -> exists t',
  get_true_signal lstsq rint sc' f' s = Ok t' /\ moved t t'.
Proof.
move=> cc mf; have [sf [sf' _]] := mf; move=> e; have cn : component_name s.
  have [nn _] := C24_flow_component_names rint LC H f s false 2.
  case c : (c_valid s); first exact/c_validP.
  by move: e; rewrite /get_true_signal nn // => /c_validP; rewrite c.
move: e; rewrite /get_true_signal (component_Ok H LC) // (component_Ok H' LC) //= => -[<-].
eexists; split; first by [].
rewrite (moved_vec mf) cc.
by rewrite -!mulmxA [S^T *m (S *m _)]mulmxA PtP mul1mx; exact: vec_moved.
Qed.

Lemma coefficients_pair s : (forall c, p_same c) -> (0 < length E)%N ->
  get_component_coefficients eigsh argsort sc' s = get_component_coefficients eigsh argsort sc s.
Proof.
move=> pc M0; have M0' : (0 < length E')%N by rewrite NN.
have et := eps64_milli R.
have va s1 : [seq x.1 | x <- eigsh (p_mat R nodes' E' T' sc' s1)] = [seq x.1 | x <- eigsh (p_mat R nodes E T sc s1)].
  by rewrite pc; apply: conj_values => //; exact: p_sym.
have [h0 h1] := B1_dims H; have [h0' h1'] := B1_dims H'.
rewrite /get_component_coefficients /= !(component_eigE eigsh H) // !(component_eigE eigsh H') //=.
rewrite -h1 -h1' !size_map.
have vu n (l : seq (R * 'cV[R]_n)) : [seq x.1 | x <- up l] = [seq x.1 | x <- l] by rewrite /up -map_comp.
have vz n (l : seq (R * 'cV[R]_n)) : [seq x.1 | x <- zeroed l] = [seq zs x | x <- [seq x.1 | x <- l]].
  by rewrite /zeroed -!map_comp.
have vf n (P : pred R) (l : seq (R * 'cV[R]_n)) : [seq x.1 | x <- [seq y <- l | P y.1]] = [seq x <- [seq x.1 | x <- l] | P x].
  by rewrite filter_map.
have a1 := va "L1"%string; have a2 := va "L1L"%string; have a3 := va "L1U"%string.
rewrite /p_mat /= in a1 a2 a3.
have b1 : [seq x.1 | x <- harml eigsh nodes' E' T' sc' (milli R)] = [seq x.1 | x <- harml eigsh nodes E T sc (milli R)].
  by rewrite !(vf _ (fun x => x <= milli R)) a1.
have b2 : [seq x.1 | x <- curll eigsh E' T' sc' (milli R)] = [seq x.1 | x <- curll eigsh E T sc (milli R)].
  by rewrite !(vf _ (fun x => milli R <= x)) a3.
have b3 : [seq x.1 | x <- gradl eigsh nodes' E' sc' (milli R)] = [seq x.1 | x <- gradl eigsh nodes E sc (milli R)].
  by rewrite !(vf _ (fun x => milli R < x)) a2.
rewrite !vu !vz b1 b2 b3.
have c1 := congr1 size b1; have c2 := congr1 size b2; rewrite !size_map in c1 c2.
by rewrite c1 c2 NN.
Qed.

(** The methods that do not use power iteration, one matrix at a time. *)
Lemma denoise_call c t t' mus f f' r : p_same c -> moved t t' -> moved f f' ->
  edge_flow_denoise eigsh sc f t c mus = Ok r -> exists r', edge_flow_denoise eigsh sc' f' t' c mus = Ok r' /\ same_run r r'.
Proof.
move=> pc mt mf; rewrite /edge_flow_denoise !get_p_matrixE; case: ifP => // cv.
rewrite !bindOk; case eU : get_eigendecomposition => [U|] //; rewrite bindOk.
have M0 := decomp_pos eU; have [q [bq qp cj [l [l' [d1 d2 f1 f2 vl]]]]] := p_pair pc M0.
move: eU; rewrite d1 d2 bindOk => -[<-]; exact: (denoise_pair bq qp cj f1 f2 vl mf mt).
Qed.

Lemma two_call s L tol f f' r : (forall c, type_two_laplacian s c -> p_same c) ->
  comp_mx R nodes' E' T' sc' s = S *m comp_mx R nodes E T sc s *m S^T -> moved f f' ->
  ls_type_two eigsh lstsq rint sc f s L tol = Ok r -> exists r',
  ls_type_two eigsh lstsq rint sc' f' s L tol = Ok r' /\ same_run r r'.
Proof.
have vals2 n (l : seq (R * 'cV[R]_n)) : [seq x.1 | x <- up (zeroed l)] = [seq zs x | x <- [seq x.1 | x <- l]].
  by rewrite /up /zeroed -!map_comp.
move=> pc cc mf; have unf c sc0 f0 : type_two_laplacian s c -> ls_type_two eigsh lstsq rint sc0 f0 s L tol =
  let! U := get_eigendecomposition eigsh (Dense (p_array sc0 c)) (eps64 R) in
  let! f_true := get_true_signal lstsq rint sc0 f0 s in
  apply_filter lstsq (p_array sc0 c) U f0 f_true (np_unique [seq if `|q.1| < tol then 0 else q.1 | q <- U])
    (0 :: nseq (size (np_unique [seq if `|q.1| < tol then 0 else q.1 | q <- U]) - 1) 1) L.
  by case=> [[-> ->]|[-> ->]].
have uni (U : eigpairs R) : [seq if `|q.1| < tol then 0 else q.1 | q <- U] = [seq if `|x| < tol then 0 else x | x <- [seq x.1 | x <- U]].
  by rewrite -map_comp.
move=> h; have [c tp] : exists c, type_two_laplacian s c.
  move: h; rewrite /ls_type_two; case: String.eqb_spec => [->|_]; first by exists "L1L"%string; left.
  by case: String.eqb_spec => [->|_] //; exists "L1U"%string; right.
move: h; rewrite !(unf c) //; case eU : get_eigendecomposition => [U|] //; rewrite bindOk.
have M0 := decomp_pos eU; have [q [bq qp cj [l [l' [d1 d2 f1 f2 vl]]]]] := p_pair (pc c tp) M0.
move: eU; rewrite d1 d2 bindOk => -[<-].
case et : get_true_signal => [t|] //; rewrite bindOk; have [t' [-> mt]] := true_pair cc mf et.
rewrite bindOk !uni !vals2 vl; exact: (apply_pair bq qp cj f1 f2 vl mf mt).
Qed.
End Pair.

(** ** Two complexes that differ in order and numbering only *)
Section Both.
Variable R : rcfType.
Variables (eigsh : forall n, 'M[R]_n -> seq (R * 'cV[R]_n)) (lstsq : forall m n, 'M[R]_(m, n) -> 'cV[R]_m -> 'cV[R]_n)
  (rint : R -> int) (argsort : seq R -> seq nat) (expf : R -> R).
Hypotheses (EC : eigsh_contract eigsh) (LC : lstsq_contract lstsq).
Variables (nodes : list Z) (E : list (Z * Z)) (T : list (list Z)) (nf : dict Z fdict)
          (ef : dict (Z * Z) fdict) (sc : SC).
Hypothesis H : make_sc nodes E T nf ef = Ok sc.
Variables (nodes' : list Z) (E' : list (Z * Z)) (T' : list (list Z)) (nf' : dict Z fdict)
          (ef' : dict (Z * Z) fdict) (sc' : SC).
Hypothesis H' : make_sc nodes' E' T' nf' ef' = Ok sc'.
Variables (Q : 'M[R]_(length nodes', length nodes)) (p : 'I_(length E') -> 'I_(length E)) (V : 'M[R]_(length T', length T)).
Hypotheses (bp : bijective p) (QQ : Q^T *m Q = 1%:M) (VV : V^T *m V = 1%:M).
Notation one := (fun _ : nat => 1 : R).
Notation S := (ssel one p).
Hypothesis e1 : B1m R nodes' E' sc' = Q *m B1m R nodes E sc *m S^T.
Hypothesis e2 : B2m R E' T' sc' = S *m B2m R E T sc *m V^T.
Let oo k : one k * one k = 1 := mulr1 1.
Let PP := SS bp oo.
Let PtP := StS bp oo.
Let NN := nn bp.
Notation moved := (moved p one).
Notation same_run := (same_run p one).
Notation decomp_pos := (decomp_pos H).

Lemma p_conj s : p_same nodes T sc nodes' T' sc' p one s.
Proof.
rewrite /p_same /p_mat (L1L_conj QQ e1) (L1U_conj VV e2).
by case: ifP => _; [rewrite mulmxDr mulmxDl|case: ifP].
Qed.
Notation p_pair s := (p_pair EC H H' bp oo (p_conj s)).

Lemma true_both f f' s t : moved f f' -> get_true_signal lstsq rint sc f s = Ok t -> exists t',
  get_true_signal lstsq rint sc' f' s = Ok t' /\ moved t t'.
Proof. by apply: (true_pair LC H H' bp oo); exact: (comp_conj QQ PP PtP VV e1 e2). Qed.

(** The methods. *)
Lemma call_pair call call' : same_call eigsh lstsq rint argsort expf sc sc' moved call call' -> forall f f' r, moved f f' -> call f = Ok r ->
  exists r', call' f' = Ok r' /\ same_run r r'.
Proof.
have vals2 n (l : seq (R * 'cV[R]_n)) : [seq x.1 | x <- up (zeroed l)] = [seq zs x | x <- [seq x.1 | x <- l]].
  by rewrite /up /zeroed -!map_comp.
case=> [t t' c mus mt|s L|s L tol|t t' c L mu mt|s c L num mu cut steep] f f' r mf.
- by move=> e; exact: (denoise_call EC H H' bp oo (p_conj c) mt mf e).
- have unf sc0 f0 : ls_type_one eigsh lstsq rint argsort sc0 f0 s L =
    let! U := get_eigendecomposition eigsh (Dense (p_array sc0 "L1")) (eps64 R) in
    let! t := get_true_signal lstsq rint sc0 f0 s in
    let! al := get_component_coefficients eigsh argsort sc0 s in
    apply_filter lstsq (p_array sc0 "L1") U f0 t [seq x.1 | x <- U] al L by [].
  rewrite !unf; case eU : get_eigendecomposition => [U|] //; rewrite bindOk.
  have M0 := decomp_pos eU; have [q [bq qp cj [l [l' [d1 d2 f1 f2 vl]]]]] := p_pair "L1" M0.
  move: eU; rewrite d1 d2 bindOk => -[<-].
  case et : get_true_signal => [t|] //; rewrite bindOk; have [t' [-> mt]] := true_both mf et.
  rewrite bindOk (coefficients_pair argsort EC H H' bp oo _ p_conj M0); case: get_component_coefficients => [al|] //; rewrite !bindOk.
  rewrite !vals2 vl; exact: (apply_pair H H' (sg := one) oo bq qp cj f1 f2 vl mf mt).
- by move=> e; apply: (two_call EC LC H H' bp oo _ _ mf e) => *; [exact: p_conj|exact: (comp_conj QQ PP PtP VV e1 e2)].
- rewrite /grid_denoise !get_p_matrixE; case: ifP => // cv.
  rewrite !bindOk; case eU : get_eigendecomposition => [U|] //; rewrite bindOk.
  have M0 := decomp_pos eU; have [q [bq qp cj [l [l' [d1 d2 f1 f2 vl]]]]] := p_pair c M0.
  move: eU; rewrite d1 d2 bindOk => -[<-].
  have [st [st' _]] := mt; rewrite cj conj_sampled // st' NN -st.
  case: sampled_freq_response => [[g ev]|] //; rewrite !bindOk; exact: (apply_pair H H' (sg := one) oo bq qp cj f1 f2 vl mf mt).
rewrite /grid_extraction !get_p_matrixE; case: ifP => // cv.
rewrite !bindOk; case eU : get_eigendecomposition => [U|] //; rewrite bindOk.
have M0 := decomp_pos eU; have [q [bq qp cj [l [l' [d1 d2 f1 f2 vl]]]]] := p_pair c M0.
move: eU; rewrite d1 d2 bindOk => -[<-].
rewrite cj conj_sampled //; case: sampled_freq_response => [[g ev]|] //; rewrite !bindOk.
case et : get_true_signal => [t|] //; rewrite bindOk; have [t' [-> mt]] := true_both mf et.
rewrite bindOk; exact: (apply_pair H H' (sg := one) oo bq qp cj f1 f2 vl mf mt).
Qed.

Variable chebfun : (R -> R) -> R -> R -> Z -> res (seq R).
Variable norm_2 : forall n, 'M[R]_n -> R.

Lemma alpha_pair c : (0 < length E)%N -> get_alpha R sc' c = get_alpha R sc c.
Proof.
move=> M0; rewrite /get_alpha !get_p_matrixE; case: ifP => // cv; rewrite !bindOk.
have [q [bq qp cj _]] := p_pair c M0; rewrite cj conj_power_iteration //.
by case: power_iteration => // v; rewrite !bindOk conj_quotient.
Qed.

Lemma decomp_size s U U' : get_eigendecomposition eigsh (Dense (p_array sc s)) (eps64 R) = Ok U ->
  get_eigendecomposition eigsh (Dense (p_array sc' s)) (eps64 R) = Ok U' -> size U' = size U.
Proof.
move=> h; have [q [bq qp cj [l [l' [d1 d2 f1 f2 vl]]]]] := p_pair s (decomp_pos h).
move: h; rewrite d1 d2 => -[<-] [<-]; rewrite !size_map.
by have := congr1 size vl; rewrite !size_map.
Qed.

Lemma ideal_pair U h Hr : get_eigendecomposition eigsh (Dense (p_array sc "L1")) (eps64 R) = Ok U ->
  get_ideal_frequency eigsh sc h = Ok Hr -> exists Hr', get_ideal_frequency eigsh sc' h = Ok Hr'.
Proof.
move=> eU; have M0 := decomp_pos eU; have [q [bq qp cj [l [l' [d1 d2 f1 f2 vl]]]]] := p_pair "L1" M0.
have unf sc0 : get_ideal_frequency eigsh sc0 h =
  let! U := get_eigendecomposition eigsh (Dense (p_array sc0 "L1")) (eps64 R) in
  if size h == size U then
    Ok (rows (\sum_(i < size U) h`_i *: (vec (sh0 (p_array sc0 "L1")) (nth (0, [::]) U i).2 *m
        (vec (sh0 (p_array sc0 "L1")) (nth (0, [::]) U i).2)^T)))
  else Raise ValueError by [].
rewrite !unf eU d2 !bindOk (decomp_size eU d2); case: ifP => // _ _; by eexists.
Qed.

Lemma cheb_pair c s L n cut steep f f' r : moved f f' ->
  cheb_apply eigsh lstsq rint argsort expf chebfun norm_2 sc f c s L n cut steep = Ok r -> exists r',
  cheb_apply eigsh lstsq rint argsort expf chebfun norm_2 sc' f' c s L n cut steep = Ok r' /\
  size (cheb_estimated r') = size (cheb_estimated r) /\
  (forall i, (i < size (cheb_estimated r))%N -> moved (nth [::] (cheb_estimated r) i) (nth [::] (cheb_estimated r') i)) /\
  cheb_errors r' = cheb_errors r.
Proof.
move=> mf h; have v := cheb_p_valid h; move: h; rewrite !cheb_unfold //; set N := match n with None => L | Some _ => _ end.
case eU : (get_eigendecomposition eigsh (Dense (p_array sc "L1"))) => [U|] //; rewrite bindOk.
have M0 := decomp_pos eU.
case eUl : (get_eigendecomposition eigsh (Dense (p_array sc c))) => [Ul|] //; rewrite bindOk.
have [q0 [_ _ _ [_ [l0' [_ d0 _ _ _]]]]] := p_pair "L1" M0.
have [q [bq qp cj [l [l' [d1 d2 f1 f2 vl]]]]] := p_pair c M0.
rewrite d0 d2 !bindOk.
case et : get_true_signal => [t|] //; rewrite bindOk; have [t' [-> mt]] := true_both mf et; rewrite bindOk.
rewrite (coefficients_pair argsort EC H H' bp oo _ p_conj M0); case eh : get_component_coefficients => [hi|] //; rewrite !bindOk.
rewrite alpha_pair //; case ea : get_alpha => [al|] //; rewrite !bindOk.
case ec : get_chebyshev_series => [cf|] //; rewrite !bindOk.
case er : get_ideal_frequency => [Hr|] //; rewrite bindOk; have [Hr' ->] := ideal_pair eU er; rewrite bindOk.
case eL : Z.ltb => //; rewrite cj conj_freq //.
case eQ : chebyshev_frequency_approx => [Qs|] //; rewrite !bindOk.
case eM : mapM => [ys|] //; rewrite bindOk => -[<-].
have [sf [sf' vf]] := q_vec H H' qp mf; have [st [st' vt]] := q_vec H H' qp mt.
set Hi' := \matrix_(i, j) _.
have [ys' [-> [h1 [h2 h3]]]] := cheb_loop_moved (p := q) bq oo sf sf' st st' vf vt Hi' (decomp_size eU d0) (decomp_size eUl d2) eM.
rewrite bindOk; eexists; split; first by []; rewrite /= h1 h3 !size_map; split=> //; split=> //.
move=> i li; rewrite !(nth_map (([::], [::]), Fin (0 : R), 0)) //.
have li' : (i < size [seq y.1.1.1 | y <- ys])%N by rewrite size_map.
have /eqP := all_nthP [::] h2 _ li'; rewrite (nth_map (([::], [::]), Fin (0 : R), 0)) //.
exact: (q_moved H H' one qp).
Qed.
End Both.

(** ** Two listings, two numberings *)
Section Setup.
Variable R : rcfType.
Variables (nodes : list Z) (E : list (Z * Z)) (T : list (list Z)) (nf : dict Z fdict)
          (ef : dict (Z * Z) fdict) (sc : SC).
Hypothesis H : make_sc nodes E T nf ef = Ok sc.
Hypotheses (PE : proper_edges (length nodes) E) (SE : simple_edges E) (PT : proper_triangles T).

Lemma order_setup E' T' nf' ef' sc' : make_sc nodes E' T' nf' ef' = Ok sc' -> perm_eq E E' -> perm_eq T T' ->
  exists (p : 'I_(length E') -> 'I_(length E)) (V : 'M[R]_(length T', length T)),
    [/\ bijective p, V^T *m V = 1%:M, forall k : 'I_(length E'), nth (Z0, Z0) E' k = nth (Z0, Z0) E (p k),
      B1m R nodes E' sc' = 1%:M *m B1m R nodes E sc *m (ssel (fun _ => 1) p)^T &
      B2m R E' T' sc' = ssel (fun _ => 1) p *m B2m R E T sc *m V^T].
Proof.
move=> H' pE hT.
have [p [bp hE]] := perm_bij (Z0, Z0) (erefl (size E)) (erefl (size E')) pE.
have [q [bq hq]] := perm_bij [::] (erefl (size T)) (erefl (size T')) hT.
have PE' : proper_edges (length nodes) E' by move=> u v /InE h; apply: PE; apply/InE; rewrite (perm_mem pE).
have SE' : simple_edges E'.
  case: SE => nd sy; split; first by apply/NoDupE; rewrite -(perm_uniq pE); apply/NoDupE.
  move=> u v /InE h /InE h'; apply: (sy u v); apply/InE; by rewrite (perm_mem pE).
have PT' : proper_triangles T' by move=> a b c /InE h; apply: PT; apply/InE; rewrite (perm_mem hT).
exists p, (sel R q); rewrite ssel1; split=> //; first exact: sel_r.
  apply/matrixP => i k; rewrite mul1mx Msel (B1m_entry _ H') // (B1m_entry _ H) //.
  by rewrite hE.
apply/matrixP => k j; rewrite Msel selM (B2m_entry _ H') // (B2m_entry _ H) //.
by rewrite hE hq.
Qed.

(** Edges occur once, so the order of the edges determines the order of the values. *)
Lemma same_at_moved E' (p : 'I_(length E') -> 'I_(length E)) : bijective p ->
  (forall k : 'I_(length E'), nth (Z0, Z0) E' k = nth (Z0, Z0) E (p k)) ->
  forall x x' : seq R, same_at E E' x x' <-> moved p (fun _ => 1) x x'.
Proof.
move=> bp hE x x'; split=> -[sx [sx' h]]; do 2 split=> //; last first.
  by apply: (@zip_moved R _ (Z0, Z0) _ _ _ _ _ _ p) => // k; rewrite h mul1r.
move=> k; rewrite mul1r; have lk := ltn_ord k.
have : nth ((Z0, Z0), 0) (zip E' x') k \in zip E x.
  by rewrite (perm_mem h) mem_nth // size_zip sx' minnn.
case/(nthP ((Z0, Z0), 0)) => j; rewrite size_zip sx minnn => lj.
rewrite !nth_zip // => -[e1 <-]; congr (nth _ _ _); apply/eqP.
have /NoDupE uE : NoDup E by case: SE.
by rewrite -(nth_uniq (Z0, Z0) _ _ uE) ?e1 ?hE //.
Qed.
End Setup.

(** The order in which edges and triangles are listed is irrelevant for filtering: on two complexes that list the same
    edges and the same triangles, each filter method gives estimates with the same value at every edge, the same
    responses and the same errors. *)
Theorem C91_order :
  forall (R : rcfType) eigsh lstsq rint argsort expf, eigsh_contract eigsh -> lstsq_contract lstsq ->
  forall nodes E T nf ef sc, make_sc nodes E T nf ef = Ok sc ->
  proper_edges (length nodes) E -> simple_edges E -> proper_triangles T ->
  forall E' T' nf' ef' sc', make_sc nodes E' T' nf' ef' = Ok sc' -> perm_eq E E' -> perm_eq T T' ->
  forall call call', same_call eigsh lstsq rint argsort expf sc sc' (@same_at R E E') call call' ->
  forall (f f' : seq R) r, same_at E E' f f' -> call f = Ok r ->
  exists r', call' f' = Ok r' /\ same_at E E' (run_estimated r) (run_estimated r') /\
    run_responses r' = run_responses r /\ run_errors r' = run_errors r.
Proof.
move=> R eigsh lstsq rint argsort expf EC LC nodes E T nf ef sc H PE SE PT E' T' nf' ef' sc' H' hE hT call call' sc1.
have [p [V [bp VV hp e1 e2]]] := order_setup R H PE SE PT H' hE hT.
have eqv := @same_at_moved R _ SE _ _ bp hp.
have sc2 : same_call eigsh lstsq rint argsort expf sc sc' (moved p (fun _ => 1)) call call'.
  by case: sc1 => *; constructor; apply/eqv.
move=> f f' r /eqv mf e.
have QQ : (1%:M : 'M[R]_(length nodes))^T *m 1%:M = 1%:M by rewrite trmx1 mulmx1.
have [r' [c1 [m1 [m2 m3]]]] := call_pair EC LC H H' bp QQ VV e1 e2 sc2 mf e.
by exists r'; do 2 split=> //; apply/eqv.
Qed.
Print Assumptions C91_order.

(** The same for the Chebyshev filter: every estimate has the same value at every edge, and the errors of the
    estimates are the same. *)
Theorem C91_chebyshev_order :
  forall (R : rcfType) eigsh lstsq rint argsort expf chebfun norm_2, eigsh_contract eigsh -> lstsq_contract lstsq ->
  forall nodes E T nf ef sc, make_sc nodes E T nf ef = Ok sc ->
  proper_edges (length nodes) E -> simple_edges E -> proper_triangles T ->
  forall E' T' nf' ef' sc', make_sc nodes E' T' nf' ef' = Ok sc' -> perm_eq E E' -> perm_eq T T' ->
  forall c s L n cut steep (f f' : seq R) r, same_at E E' f f' ->
  cheb_apply eigsh lstsq rint argsort expf chebfun norm_2 sc f c s L n cut steep = Ok r ->
  exists r', cheb_apply eigsh lstsq rint argsort expf chebfun norm_2 sc' f' c s L n cut steep = Ok r' /\
    size (cheb_estimated r') = size (cheb_estimated r) /\
    (forall i, (i < size (cheb_estimated r))%N ->
       same_at E E' (nth [::] (cheb_estimated r) i) (nth [::] (cheb_estimated r') i)) /\
    cheb_errors r' = cheb_errors r.
Proof.
move=> R eigsh lstsq rint argsort expf chebfun norm_2 EC LC nodes E T nf ef sc H PE SE PT E' T' nf' ef' sc' H' hE hT.
have [p [V [bp VV hp e1 e2]]] := order_setup R H PE SE PT H' hE hT.
have eqv := @same_at_moved R _ SE _ _ bp hp.
move=> c s L n cut steep f f' r /eqv mf e.
have QQ : (1%:M : 'M[R]_(length nodes))^T *m 1%:M = 1%:M by rewrite trmx1 mulmx1.
have [r' [c1 [m1 [m2 m3]]]] := cheb_pair EC LC H H' bp QQ VV e1 e2 mf e.
by exists r'; do 3 split=> //; move=> i li; apply/eqv; exact: m2.
Qed.
Print Assumptions C91_chebyshev_order.

(** Two complexes that differ in the numbers of the nodes. *)
Lemma renumber_setup (R : rcfType) nodes E T nf ef sc : make_sc nodes E T nf ef = Ok sc ->
  proper_edges (length nodes) E -> simple_edges E -> proper_triangles T ->
  forall pi, injective pi ->
  (forall i, (0 <= i < Z.of_nat (length nodes))%zz -> (0 <= pi i < Z.of_nat (length nodes))%zz) ->
  forall nodes' nf' ef' sc', length nodes' = length nodes ->
  make_sc nodes' (List.map (renumber pi) E) (List.map (List.map pi) T) nf' ef' = Ok sc' ->
  exists (sE : length (List.map (renumber pi) E) = length E)
    (Q : 'M[R]_(length nodes', length nodes)) (V : 'M[R]_(length (List.map (List.map pi) T), length T)),
    [/\ bijective (cast_ord sE), Q^T *m Q = 1%:M, V^T *m V = 1%:M,
      B1m R nodes' (List.map (renumber pi) E) sc' = Q *m B1m R nodes E sc *m (ssel (fun _ => 1) (cast_ord sE))^T &
      B2m R (List.map (renumber pi) E) (List.map (List.map pi) T) sc' = ssel (fun _ => 1) (cast_ord sE) *m B2m R E T sc *m V^T].
Proof.
move=> H PE SE PT pi inj range nodes' nf' ef' sc' hN H'.
set E' := List.map _ E in H' *; set T' := List.map _ T in H' *.
have sE : length E' = length E by exact: List.map_length.
have sT : length T' = length T by exact: List.map_length.
have mapE (A B : Type) (g : A -> B) l : List.map g l = [seq g x | x <- l] by [].
have PE' : proper_edges (length nodes') E'.
  move=> u v h0; have [[a b] h [-> ->]] := InM h0; have [h1 [h2 h3]] := PE _ _ h; rewrite hN.
  by split; [exact: range|split; [exact: range|move=> /inj]].
have SE' : simple_edges E'.
  case: SE => nd sy; split.
    by apply/NoDupE; rewrite /E' mapE map_inj_uniq; [apply/NoDupE|move=> [a b] [c d] [/inj -> /inj ->]].
  move=> u v h0 h0'; have [[a b] h [e1 e2]] := InM h0; have [[c d] h' [e3 e4]] := InM h0'.
  have ea : d = a by apply: inj; rewrite -e4.
  have eb : c = b by apply: inj; rewrite -e3.
  by apply: (sy a b h); rewrite -ea -eb.
have PT' : proper_triangles T'.
  move=> a b c h0; have [[|x [|y [|z [|w t]]]] h] //= := InM h0; move=> [-> -> ->].
  by have [n1 [n2 n3]] := PT _ _ _ h; split; [move=> /inj|split; move=> /inj].
have lt (i : 'I_(length nodes)) : (Z.to_nat (pi (Z.of_nat i)) < length nodes')%N.
  have li := ltn_ord i; have := range (Z.of_nat i); rewrite hN; lia.
pose p (i : 'I_(length nodes)) := Ordinal (lt i).
have pz i : Z.of_nat (p i) = pi (Z.of_nat i).
  have li := ltn_ord i; have := range (Z.of_nat i); rewrite /=; lia.
have bp : bijective p.
  apply: inj_card_bij; last by rewrite !card_ord hN.
  move=> i j e; apply: val_inj => /=.
  have : pi (Z.of_nat i) = pi (Z.of_nat j) by rewrite -!pz e.
  by move/inj; lia.
pose P : 'M[R]_(length E', length E) := ssel (fun _ => 1) (cast_ord sE).
pose V : 'M[R]_(length T', length T) := sel R (cast_ord sT).
pose Q : 'M[R]_(length nodes', length nodes) := (sel R p)^T.
have QQ : Q^T *m Q = 1%:M by rewrite trmxK; apply: sel_l; exact: bij_inj.
have cb m n (e : m = n) : bijective (cast_ord e) by exists (cast_ord (esym e)); [exact: cast_ordK|exact: cast_ordKV].
have VV : V^T *m V = 1%:M by apply: sel_r; exact: cb.
have zinj a b : Z.eqb (pi a) (pi b) = Z.eqb a b.
  by case: (Z.eqb_spec a b) => [->|n]; [exact: Z.eqb_refl|apply/Z.eqb_spec => /inj].
have nE (k : 'I_(length E')) : nth (Z0, Z0) E' k = renumber pi (nth (Z0, Z0) E (cast_ord sE k)).
  by apply: (@nth_map _ (Z0, Z0) _ (Z0, Z0) (renumber pi)); rewrite -[size E]sE.
have nT (k : 'I_(length T')) : nth [::] T' k = [seq pi x | x <- nth [::] T (cast_ord sT k)].
  by apply: (@nth_map _ [::] _ [::] (List.map pi)); rewrite -[size T]sT.
have e1 : B1m R nodes' E' sc' = Q *m B1m R nodes E sc *m P^T.
  have : sel R p *m B1m R nodes' E' sc' = B1m R nodes E sc *m P^T.
    apply/matrixP => i k; rewrite selM /P ssel1 Msel (B1m_entry _ H') // (B1m_entry _ H) //.
    by rewrite nE pz /= !zinj.
  by move=> h; rewrite -mulmxA -h mulmxA /Q sel_r // mul1mx.
have e2 : B2m R E' T' sc' = P *m B2m R E T sc *m V^T.
  apply/matrixP => k j; rewrite /P ssel1 Msel selM (B2m_entry _ H') // (B2m_entry _ H) // nE nT.
  case: (nth (Z0, Z0) E _) => u v; case: (nth [::] T _) => [|a [|b [|c [|w t]]]] //=.
  by rewrite /joinsb /= !zinj.
by exists sE, Q, V; split=> //; exact: cb.
Qed.

(** The numbering of the nodes is irrelevant too: the results are the same. *)
Theorem C91_renumbering :
  forall (R : rcfType) eigsh lstsq rint argsort expf, eigsh_contract eigsh -> lstsq_contract lstsq ->
  forall nodes E T nf ef sc, make_sc nodes E T nf ef = Ok sc ->
  proper_edges (length nodes) E -> simple_edges E -> proper_triangles T ->
  forall pi, injective pi ->
  (forall i, (0 <= i < Z.of_nat (length nodes))%zz -> (0 <= pi i < Z.of_nat (length nodes))%zz) ->
  forall nodes' nf' ef' sc', length nodes' = length nodes ->
  make_sc nodes' (List.map (renumber pi) E) (List.map (List.map pi) T) nf' ef' = Ok sc' ->
  forall call call', same_call eigsh lstsq rint argsort expf sc sc' (fun t t' : seq R => t' = t /\ size t = length E)
    call call' ->
  forall (f : seq R) r, size f = length E -> call f = Ok r ->
  exists r', call' f = Ok r' /\ run_estimated r' = run_estimated r /\
    run_responses r' = run_responses r /\ run_errors r' = run_errors r.
Proof.
move=> R eigsh lstsq rint argsort expf EC LC nodes E T nf ef sc H PE SE PT pi inj range nodes' nf' ef' sc' hN H'.
have [sE [Q [V [bc QQ VV e1 e2]]]] := renumber_setup R H PE SE PT inj range hN H'.
have mv (x : seq R) : size x = length E -> moved (cast_ord sE) (fun _ => 1) x x.
  by move=> sx; split; [|split; [rewrite sE|move=> k; rewrite mul1r]].
have vm (x x' : seq R) : moved (cast_ord sE) (fun _ => 1) x x' -> x' = x.
  move=> [sx [sx' h]]; apply: (@eq_from_nth _ 0); first by rewrite sx sx' sE.
  by move=> i; rewrite sx' => li; rewrite (h (Ordinal li)) mul1r.
move=> call call' sc1 f r sf e.
have sc2 : same_call eigsh lstsq rint argsort expf sc sc' (moved (cast_ord sE) (fun _ => 1)) call call'.
  by case: sc1 => *; constructor; match goal with h : _ = _ /\ _ |- _ => case: h => -> h; exact: mv end.
have [r' [c1 [m1 [m2 m3]]]] := call_pair EC LC H H' bc QQ VV e1 e2 sc2 (mv _ sf) e.
by exists r'; do 2 split=> //; exact: vm.
Qed.
Print Assumptions C91_renumbering.

(** ** The direction of the edges *)

(** Reversing stored edges and the flow on them changes the sign of the estimates there, and nothing else, for denoising
    with the lower Laplacian and for the extraction of the gradient component by least squares. *)
Theorem C91_reversal :
  forall (R : rcfType) eigsh lstsq rint, eigsh_contract eigsh -> lstsq_contract lstsq ->
  forall nodes E T nf ef sc, make_sc nodes E T nf ef = Ok sc -> proper_edges (length nodes) E ->
  forall marks, size marks = length E ->
  forall T' nf' ef' sc', make_sc nodes (reversed marks E) T' nf' ef' = Ok sc' ->
  forall f : seq R, size f = length E ->
  (forall t mus r, size t = length E -> edge_flow_denoise eigsh sc f t "L1L" mus = Ok r ->
     exists r', edge_flow_denoise eigsh sc' (negated marks f) (negated marks t) "L1L" mus = Ok r' /\
       run_estimated r' = negated marks (run_estimated r) /\
       run_responses r' = run_responses r /\ run_errors r' = run_errors r) /\
  (forall L tol r, ls_type_two eigsh lstsq rint sc f "gradient" L tol = Ok r ->
     exists r', ls_type_two eigsh lstsq rint sc' (negated marks f) "gradient" L tol = Ok r' /\
       run_estimated r' = negated marks (run_estimated r) /\
       run_responses r' = run_responses r /\ run_errors r' = run_errors r).
Proof.
move=> R eigsh lstsq rint EC LC nodes E T nf ef sc H PE marks sm T' nf' ef' sc' H' f sf.
set E' := reversed marks E in H' *.
have sE : length E' = length E by rewrite -[length E']/(size E') size_map size_zip sm minnn.
have sneg (x : seq R) : size x = length E -> size (negated marks x) = length E.
  by move=> sx; rewrite size_map size_zip sm sx minnn.
have nneg (x : seq R) k : size x = length E -> (k < length E)%N ->
    (negated marks x)`_k = if nth false marks k then - x`_k else x`_k.
  move=> sx lk; rewrite (nth_map (false, 0)) ?size_zip ?sm ?sx ?minnn // nth_zip ?sm ?sx //.
have nE k : (k < length E)%N ->
    nth (Z0, Z0) E' k = if nth false marks k then ((nth (Z0, Z0) E k).2, (nth (Z0, Z0) E k).1) else nth (Z0, Z0) E k.
  by move=> lk; rewrite (nth_map (false, (Z0, Z0))) ?size_zip ?sm ?minnn // nth_zip ?sm.
have PE' : proper_edges (length nodes) E'.
  move=> u v /InE /(nthP (Z0, Z0)) [k lk]; rewrite nE -?[length E]sE // => e.
  have hk : List.In (nth (Z0, Z0) E k) E by apply/InE/mem_nth; rewrite -[size E]sE.
  case: (nth (Z0, Z0) E k) hk e => a b /PE [h1 [h2 h3]] /=.
  by case: (nth false marks k) => -[<- <-]; split=> //; split=> // h; apply: h3.
pose sg (k : nat) : R := if nth false marks k then - 1 else 1.
have sgg k : sg k * sg k = 1 by rewrite /sg; case: nth; rewrite ?mulrNN mulr1.
have cb m n (e : m = n) : bijective (cast_ord e) by exists (cast_ord (esym e)); [exact: cast_ordK|exact: cast_ordKV].
pose P : 'M[R]_(length E', length E) := ssel sg (cast_ord sE).
have PP : P *m P^T = 1%:M by exact: SS (cb _ _ sE) sgg.
have PtP : P^T *m P = 1%:M by exact: StS (cb _ _ sE) sgg.
have QQ : (1%:M : 'M[R]_(length nodes))^T *m 1%:M = 1%:M by rewrite trmx1 mulmx1.
have e1 : B1m R nodes E' sc' = 1%:M *m B1m R nodes E sc *m P^T.
  apply/matrixP => i k; rewrite mul1mx Mssel (B1m_entry _ H') // (B1m_entry _ H) //.
  have lk : (k < length E)%N by rewrite -sE.
  rewrite nE //= /sg; case: (nth false marks k); last by rewrite mul1r.
  by rewrite /= mulN1r opprB.
have mv (x : seq R) : size x = length E -> moved (cast_ord sE) sg x (negated marks x).
  move=> sx; split=> //; split; first by rewrite sneg // sE.
  by move=> k; rewrite nneg // -?sE // /sg; case: nth; rewrite ?mulN1r ?mul1r.
have vm (x x' : seq R) : moved (cast_ord sE) sg x x' -> x' = negated marks x.
  move=> [sx [sx' h]]; apply: (@eq_from_nth _ 0); first by rewrite sx' sneg // sE.
  by move=> i; rewrite sx' => li; have [_ [_ h']] := mv _ sx; rewrite (h (Ordinal li)) (h' (Ordinal li)).
have pL : p_same nodes T sc nodes T' sc' (cast_ord sE) sg "L1L" by exact: (L1L_conj QQ e1).
split.
  move=> t mus r st e; have [r' [c1 [m1 m2]]] := denoise_call EC H H' (cb _ _ sE) sgg pL (mv _ st) (mv _ sf) e.
  by exists r'; do 2 split=> //; exact: vm.
move=> L tol r e.
have [|//|r' [c1 [m1 m2]]] := two_call EC LC H H' (cb _ _ sE) sgg _ _ (mv _ sf) e.
- by move=> c [[_ ->]|[]].
- exact: (Gm_conj QQ PP PtP e1).
by exists r'; do 2 split=> //; exact: vm.
Qed.
Print Assumptions C91_reversal.

(** *** The grid-based filter depends on the direction *)

(** Two edges, row sums s: the constant fitted to 1 / (1 + x) at 0 and s is the mean of the two values. *)
Lemma grid_two (R : rcfType) eigsh lstsq : lstsq_contract lstsq ->
  forall nodes (e1 e2 : Z * Z) T nf ef sc, make_sc nodes [:: e1; e2] T nf ef = Ok sc ->
  forall c A, get_p_matrix sc c = Ok (Csr A) ->
  forall s : R, 0 < s -> mv A (nseq 2 1) = nseq 2 s ->
  forall f t : seq R, size f = 2%N -> size t = 2%N ->
  exists r, grid_denoise eigsh lstsq sc f t c 1 1 = Ok r /\
    run_estimated r = scalef ((1 + (1 + s)^-1) / 2%:R) f.
Proof.
move=> LC nodes e1 e2 T nf ef sc H c A gp s s0 hA f t sf st.
have [_ sg] := C41_equal_row_sums H isT gp s0 hA.
have [pv eA] := p_of gp; have [h0 h1] := p_dims H c; rewrite -eA in h0 h1.
rewrite /grid_denoise gp !bindOk eA (p_decomp eigsh H c isT) !bindOk -eA st.
have -> : sampled_freq_response (toM R (sh0 A) (sh0 A) A) (Z.of_nat 2) 1 = Ok ([:: 1; (1 + s)^-1], [:: 0; s]).
  rewrite -h0 /sampled_freq_response sg // bindOk /even_grid /mkseq /=.
  rewrite mulr0 mul0r mulr1 divr1 /frequency_response_hp !mul1r addr0 oner_eq0 invr1 /=.
  by rewrite gt_eqF ?addr_gt0 ?ltr01.
rewrite bindOk /apply_filter /= /filter_step /=.
set h := lstsq _ _ _ _.
have hv : h 0 0 = (1 + (1 + s)^-1) / 2%:R.
  have : is_ls (system_mat [:: 0; s] 1 0) (vec 2 [:: 1; (1 + s)^-1]) h by exact: (contract_is_ls LC).
  rewrite /is_ls; move: h => h; move/matrixP/(_ 0 0).
  rewrite !mxE !big_ord_recl !big_ord0 !mxE !big_ord_recl !big_ord0 !mxE /= !expr0 !mul1r !addr0 => e.
  by rewrite -e -mulr2n -[h 0 0 *+ 2]mulr_natr mulfK ?pnatr_eq0.
have -> : poly_filter (toM R (sh0 A) (sh0 A) A) h = (h 0 0)%:M.
  by rewrite /poly_filter big_ord1 /mpow /= scalemx1.
rewrite {h}hv; move: (_ / _) => k.
have -> : mat_dot (k%:M : 'M[R]_(sh0 A)) f = Ok (scalef k f).
  have sf' : size f = sh0 A by rewrite -h0.
  by rewrite /mat_dot sf' eqxx mul_scalar_mx -scalef_unvec vecK.
rewrite bindOk nrmseE ?size_scalef ?sf ?st // bindOk /=.
by eexists; split.
Qed.

Definition path_turned : list (Z * Z) := ((1, 0) :: (1, 2) :: nil)%zz.
Definition path_turned_sc := get_sc (make_sc path_nodes path_turned nil nil nil).
Lemma path_turned_ok : make_sc path_nodes path_turned nil nil nil = Ok path_turned_sc. Proof. by vm_compute. Qed.
Definition pLL := amul (atr (sc_B1 path_sc)) (sc_B1 path_sc).
Definition tuLL := amul (atr (sc_B1 path_turned_sc)) (sc_B1 path_turned_sc).

Lemma eighth (R : rcfType) : (1 + (1 + 1)^-1) / 2%:R - (1 + (1 + 3%:R)^-1) / 2%:R = 8%:R^-1 :> R.
Proof.
rewrite -(natrD _ 1 1) -(natrD _ 1 3) (natrM _ 2 2) (natrM _ 2 4) (natrM _ 2 2) !invfM -[(1 + 1)%N]/2%N.
have : 2%:R^-1 + 2%:R^-1 = 1 :> R by rewrite -mulr2n -[_ *+ 2]mulr_natr mulVf ?pnatr_eq0.
move: (2%:R^-1) => h hh; rewrite -mulrBl opprD addrACA subrr add0r -{1}[h]mulr1 -mulrBr -hh addrK.
by rewrite mulrA.
Qed.

(** For the path with three nodes the lower Laplacian has row sums 1; with the first edge reversed they are 3.  Fitted
    constants are 3/4 and 5/8, so the flow is multiplied by different numbers. *)
Theorem C91_grid_reversal_refuted :
  exists nodes E sc marks sc', make_sc nodes E nil nil nil = Ok sc /\ proper_edges (length nodes) E /\
  size marks = length E /\ make_sc nodes (reversed marks E) nil nil nil = Ok sc' /\
  forall (R : rcfType) eigsh lstsq, lstsq_contract lstsq ->
  forall f t : seq R, size f = length E -> size t = length E -> f <> zerof R (length E) ->
  exists r r', grid_denoise eigsh lstsq sc f t "L1L" 1 1 = Ok r /\
    grid_denoise eigsh lstsq sc' (negated marks f) (negated marks t) "L1L" 1 1 = Ok r' /\
    run_estimated r' <> negated marks (run_estimated r).
Proof.
exists path_nodes, path_edges, path_sc, [:: true; false], path_turned_sc.
split; first exact: path_ok. split; first exact: (proj1 path_oriented). split; first by [].
split; first exact: path_turned_ok.
move=> R eigsh lstsq LC f t sf st nz.
have e1 : mv pLL (nseq 2 1) = nseq 2 (1 : R).
  have v : [seq at2 pLL i.1 i.2 | i <- [:: (0, 0); (0, 1); (1, 0); (1, 1)]%N] = (2 :: -1 :: -1 :: 2 :: nil)%zz by vm_compute.
  have [s0 s1] : 2%N = sh0 pLL /\ 2%N = sh1 pLL by vm_compute.
  rewrite mvCE /mvC -s0 -s1; move: v; move: pLL => A; rewrite /mkseq /=; case=> -> -> -> ->.
  by rewrite !addr0 /=; have -> : zmul 2 1 = 1 + 1 :> R by []; rewrite addrK addKr.
have e3 : mv tuLL (nseq 2 1) = nseq 2 (3%:R : R).
  have v : [seq at2 tuLL i.1 i.2 | i <- [:: (0, 0); (0, 1); (1, 0); (1, 1)]%N] = (2 :: 1 :: 1 :: 2 :: nil)%zz by vm_compute.
  have [s0 s1] : 2%N = sh0 tuLL /\ 2%N = sh1 tuLL by vm_compute.
  rewrite mvCE /mvC -s0 -s1; move: v; move: tuLL => A; rewrite /mkseq /=; case=> -> -> -> ->.
  by rewrite !addr0 /=; have -> : zmul 2 1 = 1 + 1 :> R by []; rewrite -(natrD _ 1 1) -(natrD _ 2 1) -(natrD _ 1 2).
have g1 : get_p_matrix path_sc "L1L" = Ok (Csr pLL) by [].
have g3 : get_p_matrix path_turned_sc "L1L" = Ok (Csr tuLL) by [].
have [r [c1 x1]] := grid_two eigsh LC path_ok g1 ltr01 e1 sf st.
have sneg (x : seq R) : size x = 2%N -> size (negated [:: true; false] x) = 2%N.
  by move=> sx; rewrite size_map size_zip sx.
have [r' [c2 x2]] := grid_two eigsh LC path_turned_ok g3 (ltr0n _ 3) e3 (sneg _ sf) (sneg _ st).
exists r, r'; do 2 split=> //; rewrite x1 x2.
case: f sf nz {c1 c2 x1 x2} => [|a [|b [|? ?]]] // _ nz; rewrite /negated /scalef /=.
set k1 := (1 + (1 + 1)^-1) / _; set k3 := (1 + (1 + 3%:R)^-1) / _.
have d : k1 - k3 != 0.
  have -> : k1 - k3 = 8%:R^-1.
    exact: eighth.
  by rewrite invr_eq0 pnatr_eq0.
case=> h1 h2; apply: nz; rewrite /zerof /=.
have z x : k3 * x = k1 * x -> x = 0.
  by move/esym/eqP; rewrite -subr_eq0 -mulrBl mulf_eq0 (negbTE d) => /eqP.
by congr [:: _; _]; apply: z => //; move/eqP: h1; rewrite mulrN eqr_opp => /eqP.
Qed.
Print Assumptions C91_grid_reversal_refuted.

(** The hypotheses hold for the filled triangle: the denoised flow of [C89_C90_example] appears in the new order when the
    edges are listed as (1, 2), (0, 1), (0, 2), unchanged when the nodes 0 and 2 change their numbers, and with another
    sign on the third edge when that edge is reversed. *)
Example C91_example :
  let R := realalg_rcfType in
  let f := [:: 4%:R; 8%:R; - 4%:R] : seq R in
  let t := [:: 1; 2%:R; - 1] : seq R in
  let f' := [:: - 4%:R; 4%:R; 8%:R] : seq R in
  let t' := [:: - 1; 1; 2%:R] : seq R in
  let E' := [:: (1, 2); (0, 1); (0, 2)]%zz in
  let marks := [:: false; false; true] in
  eigsh_contract (@eigsh_std R) /\ lstsq_contract (@ls_min R) /\
  perm_eq tri_edges E' /\ same_at tri_edges E' f f' /\ same_at tri_edges E' t t' /\
  (exists r, edge_flow_denoise (@eigsh_std R) tri_sc f t "L1L" [:: 1] = Ok r) /\
  (forall sc', make_sc tri_nodes E' tri_triangles nil nil = Ok sc' ->
     exists r', edge_flow_denoise (@eigsh_std R) sc' f' t' "L1L" [:: 1] = Ok r' /\
       same_at tri_edges E' [:: - 1; 4%:R; - 3%:R] (run_estimated r')) /\
  (forall sc', make_sc tri_nodes (List.map (renumber swap02) tri_edges) (List.map (List.map swap02) tri_triangles)
       nil nil = Ok sc' ->
     exists r', edge_flow_denoise (@eigsh_std R) sc' f t "L1L" [:: 1] = Ok r' /\
       run_estimated r' = [:: - 1; 4%:R; - 3%:R]) /\
  (forall sc', make_sc tri_nodes (reversed marks tri_edges) tri_triangles nil nil = Ok sc' ->
     exists r', edge_flow_denoise (@eigsh_std R) sc' (negated marks f) (negated marks t) "L1L" [:: 1] = Ok r' /\
       run_estimated r' = [:: - 1; 4%:R; 3%:R]).
Proof.
move=> R f t f' t' E' marks.
have EC : eigsh_contract (@eigsh_std R) by exact: eigsh_std_ok.
have LC : lstsq_contract (@ls_min R) by exact: (proj1 (@ls_min_ok R)).
have [pe [se [pt [_ [_ [inj [range _]]]]]]] := C86_example.
have [_ [_ [_ [_ [_ [_ [_ [_ [_ [_ ex]]]]]]]]]] := C89_C90_example.
have [_ [r [c1 [es _]]]] := ex (@eigsh_std R) (fun _ => 0) (@argsort_ref R) id.
have hE : perm_eq tri_edges E' by [].
have rot (a b c : R) : same_at tri_edges E' [:: a; b; c] [:: c; a; b].
  by split=> //; split=> //; rewrite -(perm_rot 2) /=; exact: perm_refl.
split=> //; split=> //; split=> //; split; first exact: rot. split; first exact: rot.
split; first by exists r.
split.
  move=> sc' H'.
  have sm := SameDenoise (@eigsh_std R) (@ls_min R) (fun _ => 0) (@argsort_ref R) id tri_sc sc' "L1L" [:: 1]
    (rot 1 2%:R (- 1)).
  have [r' [c2 [m _]]] := C91_order EC LC tri_ok pe se pt H' hE (perm_refl _) sm (rot _ _ _) c1.
  by exists r'; split=> //; move: m; rewrite es.
split.
  move=> sc' H'.
  have sm := @SameDenoise R (@eigsh_std R) (@ls_min R) (fun _ => 0) (@argsort_ref R) id tri_sc sc'
    (fun t t' : seq R => t' = t /\ size t = length tri_edges) t t "L1L" [:: 1] (conj erefl erefl).
  have [r' [c2 [m _]]] := C91_renumbering EC LC tri_ok pe se pt inj range erefl H' sm (erefl : size f = length tri_edges) c1.
  by exists r'; split=> //; rewrite m es.
move=> sc' H'.
have [h _] := C91_reversal (fun _ => 0) EC LC tri_ok pe (erefl : size marks = length tri_edges) H'
  (erefl : size f = length tri_edges).
have [r' [c2 [m _]]] := h _ _ _ (erefl : size t = length tri_edges) c1.
by exists r'; split=> //; rewrite m es /negated /= opprK.
Qed.
