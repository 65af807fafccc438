(** * C93: how predictions depend on the data *)

From Coq Require Import ZArith String List.
From mathcomp Require Import all_ssreflect all_algebra ssrZ zify.
From Coq Require Import Ring Field.
From Verif Require Import RingTac Py PyFacts ReaderFacts Complex Signal SignalSpec Eigen EigenSpec FilterSpec LinAlg Bridge
  Gp GpSpec GpFacts GpPredict GpPredictFacts Props_Gp Props_GpPredict PlotFacts.

Set Implicit Arguments.
Unset Strict Implicit.
Unset Printing Implicit Defensive.

Import GRing.Theory Num.Theory Order.Theory.
Local Open Scope ring_scope.
Delimit Scope Z_scope with zz.

Section Data.
Variable R : rcfType.
Variable exp : R -> R.
Variable pow : R -> R -> R.
Variable softplus : R -> R.
Hypothesis EC : exp_contract exp.
Hypothesis PC : pow_contract pow.
Hypothesis SP : forall x, 0 < softplus x.
Add Field R_field93 : (mc_field R).

Local Notation sound := (sound softplus).
Local Notation prior := (prior exp pow softplus).
Local Notation posterior := (posterior exp pow softplus).
Local Notation predict := (predict exp pow softplus).

(** The observations of two lists of edges and labels are the same, up to their order. *)
Definition same_pairs (xs : seq Z) (ys : seq R) (xs' : seq Z) (ys' : seq R) : Prop :=
  size ys = size xs /\ size ys' = size xs' /\ perm_eq (zip xs ys) (zip xs' ys').

Lemma iota_sum n (f : nat -> R) : \sum_(i < n) f i = \sum_(i <- iota 0 n) f i.
Proof. by rewrite -(big_mkord xpredT f) /index_iota subn0. Qed.

Lemma same_pairsP xs ys xs' ys' : same_pairs xs ys xs' ys' ->
  exists Is, [/\ perm_eq Is (iota 0 (size xs)), xs' = [seq nth 0%zz xs i | i <- Is] & ys' = [seq ys`_i | i <- Is]].
Proof.
case=> sy [sy' h]; have h' : perm_eq (zip xs' ys') (zip xs ys) by rewrite perm_sym.
have [Is pI e] := perm_iotaP (0%zz, 0) h'.
rewrite size_zip sy minnn in pI; exists Is; split=> //.
  by rewrite -(unzip1_zip (s := xs') (t := ys')) ?sy' // e /unzip1 -map_comp; apply: eq_map => i /=; rewrite nth_zip.
by rewrite -(unzip2_zip (s := xs') (t := ys')) ?sy' // e /unzip2 -map_comp; apply: eq_map => i /=; rewrite nth_zip.
Qed.

Lemma combine_perm (k : Z -> Z -> R) xs a Is z : perm_eq Is (iota 0 (size xs)) ->
  combine k [seq nth 0%zz xs i | i <- Is] [seq a`_i | i <- Is] z = combine k xs a z.
Proof.
move=> pI; rewrite /combine size_map.
transitivity (\sum_(j < size Is) k z (nth 0%zz xs (nth 0%N Is j)) * a`_(nth 0%N Is j)).
  by apply: eq_bigr => j _; rewrite !(nth_map 0%N).
rewrite -(big_mkord xpredT (fun j => k z (nth 0%zz xs (nth 0%N Is j)) * a`_(nth 0%N Is j))).
rewrite -(big_nth 0%N xpredT (fun i => k z (nth 0%zz xs i) * a`_i)) (perm_big _ pI).
by rewrite (iota_sum (size xs) (fun i => k z (nth 0%zz xs i) * a`_i)).
Qed.

Lemma solves_perm (k : Z -> Z -> R) s xs b a Is : perm_eq Is (iota 0 (size xs)) -> solves k s xs b a ->
  solves k s [seq nth 0%zz xs i | i <- Is] [seq b`_i | i <- Is] [seq a`_i | i <- Is].
Proof.
move=> pI [sa h]; split=> [|i]; first by rewrite !size_map.
rewrite size_map => hi.
have hI : (nth 0%N Is i < size xs)%N.
  by have := mem_nth 0%N hi; rewrite (perm_mem pI) mem_iota.
have := h _ hI; rewrite -/(combine k xs a _) => e.
have := combine_perm k a (nth 0%zz xs (nth 0%N Is i)) pI; rewrite {1}/combine size_map => e'.
by rewrite !(nth_map 0%N) // -e -e'; congr (_ + _).
Qed.

(** The distribution is determined by what solutions of the linear systems say. *)
Lemma posterior_by m v xs ys ts P : sound m v -> List.Forall (in_range (k_rows (m_kernel m))) (xs ++ ts) ->
  size ys = size xs -> posterior m xs ys ts = Ok P ->
  let k := prior m v in
  [/\ size (p_mean P) = size ts, shaped (p_covar P) (size ts) (size ts),
    forall a j, solves k (m_noise m) xs [seq y - constant m | y <- ys] a -> (j < size ts)%N ->
      (p_mean P)`_j = constant m + combine k xs a (nth 0%zz ts j) &
    forall w i j, (i < size ts)%N -> (j < size ts)%N -> solves k (m_noise m) xs [seq k x (nth 0%zz ts j) | x <- xs] w ->
      (nth [::] (p_covar P) i)`_j = k (nth 0%zz ts i) (nth 0%zz ts j) - combine k xs w (nth 0%zz ts i)].
Proof.
move=> S h sy e k; have [P' []] := C87_predictive EC PC SP S h sy.
rewrite e => -[<-] [s1 [s2 [[a [ha ma]] hc]]]; split=> // [a' j ha' hj|w i j hi hj hw].
  by rewrite ma // (C87_determined EC PC SP S ha' ha).
by have [w' [hw' ->]] := hc j hj => //; rewrite (C87_determined EC PC SP S hw hw').
Qed.

Lemma shaped_eq (A B : seq (seq R)) n : shaped A n n -> shaped B n n ->
  (forall i j, (i < n)%N -> (j < n)%N -> (nth [::] A i)`_j = (nth [::] B i)`_j) -> A = B.
Proof.
move=> [sA hA] [sB hB] h; apply: (@eq_from_nth _ [::]); rewrite sA ?sB // => i hi.
have rA : size (nth [::] A i) = n by apply: hA; rewrite mem_nth ?sA.
have rB : size (nth [::] B i) = n by apply: hB; rewrite mem_nth ?sB.
by apply: (@eq_from_nth _ 0); rewrite rA ?rB // => j hj; apply: h.
Qed.

Lemma posterior_exists m v xs ys ts : sound m v -> List.Forall (in_range (k_rows (m_kernel m))) (xs ++ ts) ->
  size ys = size xs -> exists P, posterior m xs ys ts = Ok P.
Proof. by move=> S h sy; have [P [e _]] := C87_predictive EC PC SP S h sy; exists P. Qed.

Lemma Forall_mem (T : eqType) (p : T -> Prop) (l l' : seq T) : l =i l' -> List.Forall p l -> List.Forall p l'.
Proof.
move=> e /List.Forall_forall h; apply/List.Forall_forall => x hx; apply: h; apply/in_mem.
by rewrite e; apply/in_mem.
Qed.

(** The training data may come in any order. *)
Lemma posterior_order m v xs ys xs' ys' ts : sound m v -> same_pairs xs ys xs' ys' ->
  List.Forall (in_range (k_rows (m_kernel m))) (xs ++ ts) -> posterior m xs' ys' ts = posterior m xs ys ts.
Proof.
move=> S sp h; have [sy [sy' _]] := sp; have [Is [pI ex ey]] := same_pairsP sp.
have h' : List.Forall (in_range (k_rows (m_kernel m))) (xs' ++ ts).
  apply: Forall_mem h => z; rewrite !mem_cat ex; congr (_ || _); apply/(nthP 0%zz)/mapP.
    by case=> i hi <-; exists i => //; rewrite (perm_mem pI) mem_iota.
  by case=> i hi ->; exists i => //; move: hi; rewrite (perm_mem pI) mem_iota.
have [P eP] := posterior_exists S h sy; have [P' eP'] := posterior_exists S h' sy'.
rewrite eP eP'.
have [s1 s2 hm hc] := posterior_by S h sy eP; have [s1' s2' hm' hc'] := posterior_by S h' sy' eP'.
have [P0 [e0 [_ [_ [[a [ha _]] hw]]]]] := C87_predictive EC PC SP S h sy.
have bE (f : R -> R) : [seq f y | y <- ys'] = [seq [seq f y | y <- ys]`_i | i <- Is].
  rewrite ey -map_comp; apply/eq_in_map => i; rewrite (perm_mem pI) mem_iota add0n /= => hi.
  by rewrite (nth_map 0) ?sy.
have kE (f : Z -> R) : [seq f x | x <- xs'] = [seq [seq f x | x <- xs]`_i | i <- Is].
  rewrite ex -map_comp; apply/eq_in_map => i; rewrite (perm_mem pI) mem_iota add0n /= => hi.
  by rewrite (nth_map 0%zz).
congr Ok; case: P P' {eP eP'} s1 s2 hm hc s1' s2' hm' hc' => mu K [mu' K'] /= s1 s2 hm hc s1' s2' hm' hc'.
congr mkPrediction.
  apply: (@eq_from_nth _ 0); rewrite s1' ?s1 // => j hj.
  rewrite (hm a) // (hm' [seq a`_i | i <- Is]) //; first by rewrite ex combine_perm.
  by rewrite bE {1}ex; apply: solves_perm.
apply: (shaped_eq s2' s2) => i j hi hj.
have [w [sw _]] := hw j hj.
rewrite (hc w) // (hc' [seq w`_i | i <- Is]) //; first by rewrite ex combine_perm.
by rewrite kE {1}ex; apply: solves_perm.
Qed.

Theorem C93_training_order :
  forall m v xs ys xs' ys' ts yt, sound m v -> same_pairs xs ys xs' ys' ->
  predict m xs' ys' ts yt = predict m xs ys ts yt.
Proof.
move=> m v xs ys xs' ys' ts yt S sp.
case: (List.Forall_dec (in_range (k_rows (m_kernel m))) _ (xs ++ ts)) => [z|h|h].
- by rewrite /in_range; case: (Z_le_dec (- Z.of_nat (k_rows (m_kernel m))) z) => h1; [case: (Z_lt_dec z (Z.of_nat (k_rows (m_kernel m)))) => h2|];
      [left|right=> -[]|right=> -[]].
- by rewrite /GpPredict.predict (posterior_order S sp h).
rewrite (proj1 (proj2 (C87_accepts EC PC SP xs ys ts yt S)) h).
rewrite (proj1 (proj2 (C87_accepts EC PC SP xs' ys' ts yt S))) // => h'.
 apply: h; apply: Forall_mem h' => z.
have [Is [pI ex _]] := same_pairsP sp.
rewrite !mem_cat ex; congr (_ || _); symmetry; apply/(nthP 0%zz)/mapP.
  by case=> i hi <-; exists i => //; rewrite (perm_mem pI) mem_iota.
by case=> i hi ->; exists i => //; move: hi; rewrite (perm_mem pI) mem_iota.
Qed.

(** What is predicted for an edge, and for a pair of edges, does not depend on which edges are tested with it. *)
Theorem C93_test_edges :
  forall m v xs ys ts ts' P P', sound m v -> List.Forall (in_range (k_rows (m_kernel m))) (xs ++ ts ++ ts') ->
  size ys = size xs -> posterior m xs ys ts = Ok P -> posterior m xs ys ts' = Ok P' ->
  forall i i', (i < size ts)%N -> (i' < size ts')%N -> nth 0%zz ts i = nth 0%zz ts' i' ->
  (p_mean P)`_i = (p_mean P')`_i' /\
  forall j j', (j < size ts)%N -> (j' < size ts')%N -> nth 0%zz ts j = nth 0%zz ts' j' ->
    (nth [::] (p_covar P) i)`_j = (nth [::] (p_covar P') i')`_j'.
Proof.
move=> m v xs ys ts ts' P P' S hh sy e e' i i' hi hi' ei.
have [hx /List.Forall_app[ht ht']] := proj1 (List.Forall_app _ _ _) hh.
have h : List.Forall (in_range (k_rows (m_kernel m))) (xs ++ ts) by apply/List.Forall_app.
have h' : List.Forall (in_range (k_rows (m_kernel m))) (xs ++ ts') by apply/List.Forall_app.
have [s1 s2 hm hc] := posterior_by S h sy e; have [s1' s2' hm' hc'] := posterior_by S h' sy e'.
have [P0 [e0 [_ [_ [[a [ha _]] hw]]]]] := C87_predictive EC PC SP S h sy.
split=> [|j j' hj hj' ej]; first by rewrite (hm a) // (hm' a) // ei.
by have [w [sw _]] := hw j hj; rewrite (hc w) // (hc' w) // -?ej // ei.
Qed.

(** The test data may come in any order: the errors stay the same. *)
Lemma perm_average (l l' : seq R) : perm_eq l l' -> average l = average l'.
Proof. by move=> h; rewrite /average (perm_size h) (perm_big _ h). Qed.

Theorem C93_test_order :
  forall m v xs ys ts yt ts' yt' Q M Q' M', sound m v -> same_pairs ts yt ts' yt' ->
  predict m xs ys ts yt = Ok (Q, M) -> predict m xs ys ts' yt' = Ok (Q', M') ->
  r_mae M' = r_mae M /\ r_mse M' = r_mse M /\ r_r2 M' = r_r2 M.
Proof.
move=> m v xs ys ts yt ts' yt' Q M Q' M' S sp e e'.
have [st [st' _]] := sp; have [Is [pI ex ey]] := same_pairsP sp.
have [h [sy _]] := proj1 (proj1 (C87_accepts EC PC SP xs ys ts yt S)) (ex_intro _ _ e).
have [h' _] := proj1 (proj1 (C87_accepts EC PC SP xs ys ts' yt' S)) (ex_intro _ _ e').
have [P [eP [eQ [s1 [mae [mse [_ [_ [r0 r1]]]]]]]]] := C87_metrics e.
have [P' [eP' [eQ' [s1' [mae' [mse' [_ [_ [r0' r1']]]]]]]]] := C87_metrics e'.
have [sm _ _ _] := posterior_by S h sy eP; have [sm' _ _ _] := posterior_by S h' sy eP'.
have hh : List.Forall (in_range (k_rows (m_kernel m))) (xs ++ ts ++ ts').
  by move/List.Forall_app: h => [hx ht]; move/List.Forall_app: h' => [_ ht']; apply/List.Forall_app; split=> //; apply/List.Forall_app.
have pE : p_mean Q' = [seq (p_mean Q)`_i | i <- Is].
  rewrite eQ eQ' /=; apply: (@eq_from_nth _ 0); rewrite sm' ?ex ?size_map // => j hj.
  have hI : (nth 0%N Is j < size ts)%N by have := mem_nth 0%N hj; rewrite (perm_mem pI) mem_iota.
  rewrite (nth_map 0%N) //; symmetry.
  apply: (proj1 (C93_test_edges S hh sy eP eP' hI _ _)); first by rewrite ex size_map.
  by rewrite ex (nth_map 0%N).
have pp : perm_eq (p_mean Q') (p_mean Q).
  rewrite pE eQ /= in sm *; rewrite -{2}(mkseq_nth 0 (p_mean P)) sm /mkseq; exact: perm_map.
have pz : perm_eq (zip (p_mean Q') yt') (zip (p_mean Q) yt).
  have sq : size (p_mean Q) = size ts by rewrite eQ.
  have -> : zip (p_mean Q') yt' = [seq nth (0, 0) (zip (p_mean Q) yt) i | i <- Is].
    rewrite pE ey; elim: (Is) => //= i l ->; congr (_ :: _).
    by rewrite nth_zip // sq st.
  rewrite -{2}(mkseq_nth (0, 0) (zip (p_mean Q) yt)) size_zip sq st minnn /mkseq; exact: perm_map.
have av : average (p_mean Q') = average (p_mean Q) by exact: perm_average.
have dE : determination (p_mean Q') yt' = determination (p_mean Q) yt.
  rewrite /determination av (perm_big _ pp); congr (1 - _ / _).
  have zs (p y : seq R) : size p = size y -> \sum_(i < size p) (p`_i - y`_i) ^+ 2 = \sum_(d <- zip p y) (d.1 - d.2) ^+ 2.
    move=> sz; rewrite (big_nth (0, 0)) big_mkord size_zip sz minnn; apply: eq_bigr => i _.
    by rewrite nth_zip.
  by rewrite !zs // (perm_big _ pz).
split; first by rewrite mae mae'; apply/perm_average/perm_map.
split; first by rewrite mse mse'; apply/perm_average/perm_map.
case: (boolP (all (fun x => x == average (p_mean Q)) (p_mean Q))) => [/allP c|/allPn[x hx /eqP nx]].
  have c1 x : x \in p_mean Q -> x = average (p_mean Q) by move=> hx; exact/eqP/c.
  by rewrite (r0 c1) r0' // => x hx; rewrite av; apply: c1; rewrite -(perm_mem pp).
rewrite r1; last by exists x.
by rewrite r1' ?dE //; exists x; [rewrite (perm_mem pp)|rewrite av].
Qed.

(** The mean is affine in the labels, linear for a zero mean function; the covariance ignores them. *)
Theorem C93_labels :
  forall m v xs ts y1 y2 al be P1 P2 P, sound m v -> List.Forall (in_range (k_rows (m_kernel m))) (xs ++ ts) ->
  size y1 = size xs -> size y2 = size xs -> al + be = 1 \/ constant m = 0 ->
  posterior m xs y1 ts = Ok P1 -> posterior m xs y2 ts = Ok P2 ->
  posterior m xs [seq al * y.1 + be * y.2 | y <- zip y1 y2] ts = Ok P ->
  p_mean P = [seq al * y.1 + be * y.2 | y <- zip (p_mean P1) (p_mean P2)] /\
  p_covar P = p_covar P1.
Proof.
move=> m v xs ts y1 y2 al be P1 P2 P S h s1 s2 hab e1 e2 e.
have sy : size [seq al * y.1 + be * y.2 | y <- zip y1 y2] = size xs by rewrite size_map size_zip s1 s2 minnn.
have [t1 u1 hm1 hc1] := posterior_by S h s1 e1; have [t2 u2 hm2 hc2] := posterior_by S h s2 e2.
have [t u hm hc] := posterior_by S h sy e.
have [Q1 [_ [_ [_ [[a1 [ha1 _]] hw]]]]] := C87_predictive EC PC SP S h s1.
have [Q2 [_ [_ [_ [[a2 [ha2 _]] _]]]]] := C87_predictive EC PC SP S h s2.
have z1 := proj1 ha1; have z2 := proj1 ha2.
pose a := [seq al * x.1 + be * x.2 | x <- zip a1 a2].
have nz (l1 l2 : seq R) n i : size l1 = n -> size l2 = n -> (i < n)%N ->
    [seq al * x.1 + be * x.2 | x <- zip l1 l2]`_i = al * l1`_i + be * l2`_i.
  by move=> g1 g2 hi; rewrite (nth_map (0, 0)) ?size_zip ?g1 ?g2 ?minnn // nth_zip ?g1 ?g2.
have cE z : combine (prior m v) xs a z = al * combine (prior m v) xs a1 z + be * combine (prior m v) xs a2 z.
  rewrite /combine !big_distrr -big_split; apply: eq_bigr => j _ /=.
  rewrite (nz _ _ (size xs)) //; set q := prior _ _ _ _.
  by rewrite mulrDr mulrCA [q * (be * _)]mulrCA.
have ha : solves (prior m v) (m_noise m) xs [seq y - constant m | y <- [seq al * y.1 + be * y.2 | y <- zip y1 y2]] a.
  split=> [|i hi]; first by rewrite size_map size_zip z1 z2 minnn.
  rewrite -/(combine (prior m v) xs a _) cE (nz _ _ (size xs)) // (nth_map 0) ?sy // (nz _ _ (size xs)) //.
  have := proj2 ha1 i hi; rewrite -/(combine (prior m v) xs a1 _) (nth_map 0) ?s1 // => q1.
  have := proj2 ha2 i hi; rewrite -/(combine (prior m v) xs a2 _) (nth_map 0) ?s2 // => q2.
  set b1 := combine _ _ a1 _ in q1 *; set b2 := combine _ _ a2 _ in q2 *.
  have -> : al * b1 + be * b2 + m_noise m * (al * a1`_i + be * a2`_i)
    = al * (b1 + m_noise m * a1`_i) + be * (b2 + m_noise m * a2`_i) by to_r R; ring.
  rewrite q1 q2; case: hab => hab; last by rewrite hab !subr0.
  have -> : al * (y1`_i - constant m) + be * (y2`_i - constant m) = al * y1`_i + be * y2`_i - (al + be) * constant m.
    by to_r R; ring.
  by rewrite hab mul1r.
split.
  apply: (@eq_from_nth _ 0); first by rewrite size_map size_zip t1 t2 minnn.
  rewrite t => j hj; rewrite (nz _ _ (size ts)) // (hm a) // (hm1 a1) // (hm2 a2) // cE.
  set b1 := combine _ _ a1 _; set b2 := combine _ _ a2 _; set c := constant m in hab *.
  have -> : al * (c + b1) + be * (c + b2) = (al + be) * c + (al * b1 + be * b2) by to_r R; ring.
  by case: hab => ->; rewrite ?mul1r ?mulr0.
apply: (shaped_eq u u1) => i j hi hj.
by have [w [sw _]] := hw j hj; rewrite (hc w) // (hc1 w).
Qed.

(** More observations never make a prediction less certain. *)
Lemma dot_pad (k : Z -> Z -> R) (xs ts : seq Z) (z : seq R) (u : 'cV[R]_(size ts)) :
  dot (vec (size xs) z) (gram k xs ts *m u) =
  \sum_(a < size xs) \sum_(b < size ts) z`_a * u b 0 * k (nth 0%zz xs a) (nth 0%zz ts b).
Proof. by rewrite dot_gram; apply: eq_bigr => a _; apply: eq_bigr => b _; rewrite mxE. Qed.

Lemma gram_vec (k : Z -> Z -> R) (xs : seq Z) (z : seq R) :
  dot (vec (size xs) z) (gram k xs xs *m vec (size xs) z) =
  \sum_(a < size xs) \sum_(b < size xs) z`_a * z`_b * k (nth 0%zz xs a) (nth 0%zz xs b).
Proof. by rewrite dot_pad; apply: eq_bigr => a _; apply: eq_bigr => b _; rewrite mxE. Qed.

Lemma nrm2_vec n (z : seq R) : nrm2 (vec n z) = \sum_(a < n) z`_a * z`_a.
Proof. by apply: eq_bigr => a _; rewrite !mxE. Qed.

Lemma cov_more (k : Z -> Z -> R) s (xs xs' ts : seq Z) (u : 'cV[R]_(size ts)) :
  (forall a b, k a b = k b a) ->
  (forall (r : seq Z) (w : seq R), 0 <= \sum_(a < size w) \sum_(b < size w) w`_a * w`_b * k (nth 0%zz r a) (nth 0%zz r b)) ->
  0 < s -> dot u (cov k s (xs ++ xs') ts *m u) <= dot u (cov k s xs ts *m u).
Proof.
move=> kC kP s0; pose w : 'cV[R]_(size xs) := (gain k s xs ts)^T *m u.
have := cov_square kC kP s0 u w; rewrite subrr mulmx0 dot0r addr0 => <-.
pose z := unvec w ++ nseq (size xs') 0.
have := cov_min kC kP s0 u (vec (size (xs ++ xs')) z) => le; apply: le_trans le _; rewrite le_eqVlt; apply/orP; left; apply/eqP.
have zl (i : 'I_(size xs)) : z`_i = w i 0 by rewrite nth_cat size_unvec ltn_ord nth_unvec.
have zr (i : 'I_(size xs')) : z`_(size xs + i) = 0 by rewrite nth_cat size_unvec ltnNge leq_addr /= addKn nth_nseq ltn_ord.
have xl (i : 'I_(size xs)) : nth 0%zz (xs ++ xs') i = nth 0%zz xs i by rewrite nth_cat ltn_ord.
rewrite !dot_noisy dot_pad gram_vec nrm2_vec size_cat !big_split_ord /= !dot_gram.
have -> : \sum_(i < size xs') \sum_(b < size ts) z`_(size xs + i) * u b 0 * k (nth 0%zz (xs ++ xs') (size xs + i)) (nth 0%zz ts b) = 0.
  by rewrite big1 // => i _; rewrite big1 // => b _; rewrite zr !mul0r.
have -> : \sum_(i < size xs') \sum_(b < size xs + size xs')
    z`_(size xs + i) * z`_b * k (nth 0%zz (xs ++ xs') (size xs + i)) (nth 0%zz (xs ++ xs') b) = 0.
  by rewrite big1 // => i _; rewrite big1 // => b _; rewrite zr !mul0r.
have -> : \sum_(i < size xs') z`_(size xs + i) * z`_(size xs + i) = 0 by rewrite big1 // => i _; rewrite zr mul0r.
rewrite !addr0; congr (_ - _ * _ + (_ + _ * _)).
- by apply: eq_bigr => a _; apply: eq_bigr => b _; rewrite zl xl.
- apply: eq_bigr => a _; rewrite big_split_ord /= [X in _ + X]big1 ?addr0 => [|b _]; last by rewrite zr mulr0 mul0r.
  by apply: eq_bigr => b _; rewrite !zl !xl.
by rewrite /nrm2 /dot; apply: eq_bigr => a _; rewrite zl.
Qed.

Theorem C93_more_data :
  forall m v xs ys xs' ys' ts P P', sound m v -> List.Forall (in_range (k_rows (m_kernel m))) ((xs ++ xs') ++ ts) ->
  size ys = size xs -> size ys' = size xs' ->
  posterior m xs ys ts = Ok P -> posterior m (xs ++ xs') (ys ++ ys') ts = Ok P' ->
  (forall w, size w = size ts -> quad (p_covar P') w <= quad (p_covar P) w) /\
  forall j, (j < size ts)%N -> (nth [::] (p_covar P') j)`_j <= (nth [::] (p_covar P) j)`_j.
Proof.
move=> m v xs ys xs' ys' ts P P' S h sy sy' e e'.
have h0 : List.Forall (in_range (k_rows (m_kernel m))) (xs ++ ts).
  move/List.Forall_app: (h) => [/List.Forall_app[hx _] ht]; exact/List.Forall_app.
have [_ [_ [_ s0]]] := S.
move: e; rewrite (posteriorE EC PC SP S h0 sy) -/(rows _) => -[<-] /=.
move: e'; rewrite (posteriorE EC PC SP S h) ?size_cat ?sy ?sy' // -/(rows _) => -[<-] /=.
have q := @cov_more (prior m v) (m_noise m) xs xs' ts _ (@priorC _ exp pow softplus m v) (priorP EC PC SP S) s0.
split=> [w sw|j hj]; first by rewrite !quad_rows //; exact: q.
rewrite -[j]/(nat_of_ord (Ordinal hj)) !rowsE.
by have := q (delta_mx (Ordinal hj) 0); rewrite !dot_delta.
Qed.

(** The variance at an observed edge is at most the noise. *)
Theorem C93_observed_edge :
  forall m v xs ys ts P i j, sound m v -> List.Forall (in_range (k_rows (m_kernel m))) (xs ++ ts) ->
  size ys = size xs -> posterior m xs ys ts = Ok P ->
  (i < size xs)%N -> (j < size ts)%N -> nth 0%zz ts j = nth 0%zz xs i ->
  (nth [::] (p_covar P) j)`_j <= m_noise m /\
  (nth [::] (p_covar (observed (m_noise m) P)) j)`_j <= 2%:R * m_noise m.
Proof.
move=> m v xs ys ts P i j S h sy e hi hj ej.
have [b _] := C87_best EC PC SP S h sy e.
have [_ [_ [_ [_ [o _]]]]] := C87_covariance EC PC SP S h sy e.
have le : (nth [::] (p_covar P) j)`_j <= m_noise m.
  have := b j (mkseq (fun a => (a == i)%:R) (size xs)) hj (size_mkseq _ _).
  set k := prior m v; have pick (f : nat -> R) : \sum_(a < size xs) (mkseq (fun a => (a == i)%:R) (size xs))`_a * f a = f i.
    rewrite (bigD1 (Ordinal hi)) //= nth_mkseq // eqxx mul1r big1 ?addr0 // => a na.
    rewrite nth_mkseq // (_ : (nat_of_ord a == i) = false) ?mul0r //.
    by apply/negbTE; apply: contra na => /eqP ai; apply/eqP/val_inj.
  have -> : \sum_(i0 < size xs) (mkseq (fun a => (a == i)%:R) (size xs))`_i0 * k (nth 0%zz xs i0) (nth 0%zz ts j)
     = k (nth 0%zz xs i) (nth 0%zz ts j) by rewrite (pick (fun a => k (nth 0%zz xs a) (nth 0%zz ts j))).
  have -> : form k xs (mkseq (fun a => (a == i)%:R) (size xs)) = k (nth 0%zz xs i) (nth 0%zz xs i).
    rewrite /form -(pick (fun a => k (nth 0%zz xs a) (nth 0%zz xs i))); apply: eq_bigr => a _.
    rewrite -(pick (fun b => k (nth 0%zz xs a) (nth 0%zz xs b))) big_distrr; apply: eq_bigr => c _ /=.
    by rewrite mulrA.
  have -> : energy (mkseq (fun a => (a == i)%:R : R) (size xs)) = 1.
    rewrite /energy /dotp size_mkseq.
    transitivity (\sum_(a < size xs) (mkseq (fun a => (a == i)%:R : R) (size xs))`_a * (mkseq (fun a => (a == i)%:R : R) (size xs))`_a).
      by apply: eq_bigr => a _; rewrite ?expr2.
    by rewrite (pick (fun a => (mkseq (fun a => (a == i)%:R : R) (size xs))`_a)) nth_mkseq // eqxx.
  rewrite ej mulr1; set q := k _ _.
  by have -> : q - 2%:R * q + q + m_noise m = m_noise m by to_r R; ring.
by split=> //; rewrite o // eqxx (_ : 2%:R = 1 + 1) // mulrDl mul1r ler_add2r.
Qed.

End Data.
Print Assumptions C93_training_order.
Print Assumptions C93_test_edges.
Print Assumptions C93_test_order.
Print Assumptions C93_labels.
Print Assumptions C93_more_data.
Print Assumptions C93_observed_edge.

(** ** Example: one observation of an edge halves the variance of an equal edge; observations in two orders *)

Section Example.
Variable R : rcfType.
Local Notation post := (GpPredict.posterior (@grow R) (@pow_ex R) (@grow R) (@model_ex R)).

Lemma model_ex_k11 : prior (@grow R) (@pow_ex R) (@grow R) (model_ex R) (fun _ => 1) 1%zz 1%zz = 1.
Proof.
rewrite /prior /=; have -> : wrap 3 1 = 1%N by [].
by rewrite /covariance /mixture !big_nil !big_cons !big_nil /= oppr0 grow0 !(mulr1, mulr0, mul0r, addr0).
Qed.

Example C93_example :
  sound (@grow R) (model_ex R) (fun _ => 1) /\
  same_pairs [:: 0; 1]%zz [:: 2%:R; 3%:R : R] [:: 1; 0]%zz [:: 3%:R; 2%:R] /\
  same_pairs [:: 1; 2]%zz [:: 3%:R; 0 : R] [:: 2; 1]%zz [:: 0; 3%:R] /\
  List.Forall (in_range (k_rows (m_kernel (model_ex R)))) (([:: 0; 1] ++ [:: 2]) ++ [:: 1; 2])%zz /\
  constant (model_ex R) = 0 /\
  (exists r r', predict (@grow R) (@pow_ex R) (@grow R) (model_ex R) [:: 0; 1]%zz [:: 2%:R; 3%:R] [:: 1; 2]%zz [:: 3%:R; 0] = Ok r /\
     predict (@grow R) (@pow_ex R) (@grow R) (model_ex R) [:: 0; 1]%zz [:: 2%:R; 3%:R] [:: 2; 1]%zz [:: 0; 3%:R] = Ok r') /\
  exists P P', post [::] [::] [:: 1]%zz = Ok P /\ post ([::] ++ [:: 0]%zz) ([::] ++ [:: 2%:R]) [:: 1]%zz = Ok P' /\
    (nth [::] (p_covar P) 0)`_0 = 1 /\ (nth [::] (p_covar P') 0)`_0 = 2%:R^-1.
Proof.
have S := model_ex_sound R.
have inr l : all (fun z => (Z.leb 0 z) && (Z.leb z 2)) l -> List.Forall (in_range (k_rows (m_kernel (model_ex R)))) l.
  elim: l => [|z l IH] /=; first by constructor.
  by case/andP=> /andP[/Z.leb_le h1 /Z.leb_le h2] /IH; constructor=> //; rewrite /in_range /=; lia.
split=> //; split; first by split=> //; split=> //; rewrite (perm_catC [:: (0%zz, 2%:R)] [:: (1%zz, 3%:R)]).
split; first by split=> //; split=> //; rewrite (perm_catC [:: (1%zz, 3%:R)] [:: (2%zz, 0)]).
split; first exact: inr. split; first by [].
split.
  have ok ts yt : size yt = 2%N -> size ts = 2%N -> all (fun z => (Z.leb 0 z) && (Z.leb z 2)) ts -> exists r,
    predict (@grow R) (@pow_ex R) (@grow R) (model_ex R) [:: 0; 1]%zz [:: 2%:R; 3%:R] ts yt = Ok r.
    move=> sy st hts; apply: (proj2 (proj1 (C87_accepts (@grow_gt0 R) (@pow_ex_contract R) (@grow_gt0 R) _ _ _ _ S))).
    by split; [apply: inr|rewrite sy st].
  have [//|//|//|r e] := ok [:: 1; 2]%zz [:: 3%:R; 0]; have [//|//|//|r' e'] := ok [:: 2; 1]%zz [:: 0; 3%:R].
  by exists r, r'.
have h1 : List.Forall (in_range (k_rows (m_kernel (model_ex R)))) ([::] ++ [:: 1]%zz) by exact: inr.
have h2 : List.Forall (in_range (k_rows (m_kernel (model_ex R)))) ([:: 0]%zz ++ [:: 1]%zz) by exact: inr.
have [k00 [k10 _]] := model_ex_prior R; have k11 := model_ex_k11.
have k01 : prior (@grow R) (@pow_ex R) (@grow R) (model_ex R) (fun _ => 1) 0%zz 1%zz = 1 by rewrite priorC.
have [P [e [_ [_ [_ hc]]]]] := C87_predictive (@grow_gt0 R) (@pow_ex_contract R) (@grow_gt0 R) S h1 (erefl : size [::] = size [::]).
have [P' [e' [_ [_ [_ hc']]]]] := C87_predictive (@grow_gt0 R) (@pow_ex_contract R) (@grow_gt0 R) S h2 (erefl : size [:: 2%:R : R] = size [:: 0]%zz).
exists P, P'; split=> //; split=> //; split.
  by have [w [_ ->]] := hc 0%N isT => //; rewrite /combine big_ord0 subr0.
have [w [[sw hw] ->]] := hc' 0%N isT => //; have := hw 0%N isT.
rewrite /combine !big_ord_recl !big_ord0 /= k00 k01 k10 k11 !mul1r !addr0 => e2.
have n2 : (2%:R : R) != 0 by rewrite pnatr_eq0.
have -> : w`_0 = 2%:R^-1 by apply: (mulfI n2); rewrite divff // -[RHS]e2 mulr_natl mulr2n.
by apply: (mulfI n2); rewrite mulrBr divff // mulr1 -[2%:R]/(1 + 1) addrK.
Qed.
End Example.
