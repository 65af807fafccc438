(** * Facts about the filters *)

From Coq Require Import ZArith String List.
From mathcomp Require Import all_ssreflect all_algebra ssrZ zify.
From Verif Require Import Py PyFacts Complex ComplexSpec ComplexFacts LinAlg Spectral Signal SignalSpec
  Bridge SignalFacts Eigen EigenSpec IntEigen EigenFacts Filter FilterSpec.

Set Implicit Arguments.
Unset Strict Implicit.
Unset Printing Implicit Defensive.

Import GRing.Theory Num.Theory Order.Theory.
Local Open Scope ring_scope.

Section Rows.
Variable R : realFieldType.

Lemma size_enumI n (f : 'I_n -> R) : size [seq f j | j <- enum 'I_n] = n.
Proof. by rewrite size_map size_enum_ord. Qed.

Lemma nth_enumI n (T : Type) (d : T) (f : 'I_n -> T) (j : 'I_n) : nth d [seq f j | j <- enum 'I_n] j = f j.
Proof. by rewrite (nth_map j) ?size_enum_ord // nth_ord_enum. Qed.
End Rows.

Section Rows2.
Variable R : rcfType.
Lemma size_rows m n (A : 'M[R]_(m, n)) : size (rows A) = m.
Proof. by rewrite size_map size_enum_ord. Qed.

Lemma nth_rows m n (A : 'M[R]_(m, n)) (i : 'I_m) (j : 'I_n) : (nth [::] (rows A) i)`_j = A i j.
Proof. by rewrite nth_enumI nth_enumI. Qed.

Lemma rows_shaped m n (A : 'M[R]_(m, n)) : shaped (rows A) m n.
Proof. by split; [exact: size_rows|move=> r /mapP[i _ ->]; exact: size_enumI]. Qed.

Lemma rmv_rows m n (A : 'M[R]_(m, n)) x : size x = n -> rmv (rows A) x = unvec (A *m vec n x).
Proof.
move=> sx; rewrite /rmv /rows /unvec -map_comp; apply: eq_map => i /=.
rewrite /dotp size_enumI mxE; apply: eq_bigr => j _.
by rewrite nth_enumI mxE.
Qed.

Lemma rows_sym n (A : 'M[R]_n) : A^T = A -> symmetric (rows A).
Proof.
move=> sA i j; rewrite size_rows => i_n jn.
by rewrite -[i]/(nat_of_ord (Ordinal i_n)) -[j]/(nat_of_ord (Ordinal jn)) !nth_rows -[in RHS]sA mxE.
Qed.

Lemma rows_inj m n (A B : 'M[R]_(m, n)) : rows A = rows B -> A = B.
Proof. by move=> e; apply/matrixP => i j; rewrite -!nth_rows e. Qed.

End Rows2.

(** ** Sorting *)
Section Sorting.
Variable R : realFieldType.

Lemma zs_mono (x y : R) : 0 <= x -> x <= y -> zs x <= zs y.
Proof.
move=> x0 xy; have y0 := le_trans x0 xy; rewrite /zs !ger0_norm //.
case: (ltP x) => xe; case: (ltP y) => ye //.
by move: (lt_le_trans ye (le_trans xe xy)); rewrite ltxx.
Qed.

Lemma zs_big (x : R) : eps64 R <= x -> zs x = x.
Proof.
move=> xe; rewrite /zs ger0_norm; last by apply: le_trans xe; rewrite ltW // eps64_gt0.
by rewrite ltNge xe.
Qed.

Lemma zs_ge0 (x : R) : 0 <= x -> 0 <= zs x.
Proof. by rewrite /zs; case: ifP. Qed.

Lemma argsort_sorted argsort (s t : seq R) : argsort_contract argsort -> perm_eq s t -> sorted <=%R t ->
  [seq s`_i | i <- argsort s] = t.
Proof.
move=> /(_ s)[p so] st ts; apply: (sorted_eq le_trans le_anti) => //.
apply: perm_trans st; rewrite -[X in perm_eq _ X](mkseq_nth 0) /mkseq.
exact: perm_map.
Qed.
End Sorting.

(** ** The P matrix *)
Section Cx.
Variable R : rcfType.
Variable eigsh : forall n, 'M[R]_n -> seq (R * 'cV[R]_n).
Variables (nodes : list Z) (E : list (Z * Z)) (T : list (list Z)) (nf : dict Z fdict)
          (ef : dict (Z * Z) fdict) (sc : SC).
Hypothesis H : make_sc nodes E T nf ef = Ok sc.
Let N := length nodes.
Let M := length E.
Let K := length T.
Notation B1 := (B1m R nodes E sc).
Notation B2 := (B2m R E T sc).
Notation L1L := (L1Lm R nodes E sc).
Notation L1U := (L1Um R E T sc).
Notation AL := (amul (atr (sc_B1 sc)) (sc_B1 sc)).
Notation AU := (amul (sc_B2 sc) (atr (sc_B2 sc))).
Notation AS := (aadd AL AU).

Definition p_array (s : string) : arr2 :=
  if String.eqb s "L1" then AS else if String.eqb s "L1L" then AL else AU.
Definition p_valid (s : string) : bool :=
  [|| String.eqb s "L1", String.eqb s "L1L" | String.eqb s "L1U"].
Definition p_mat (s : string) : 'M[R]_M :=
  if String.eqb s "L1" then L1L + L1U else if String.eqb s "L1L" then L1L else L1U.

Lemma get_p_matrixE s :
  get_p_matrix sc s = if p_valid s then Ok (Csr (p_array s)) else Raise ValueError.
Proof.
rewrite /get_p_matrix /p_valid /p_array /=; case: ifP => //= _; case: ifP => //= _.
Qed.

Lemma p_dims s : M = sh0 (p_array s) /\ M = sh1 (p_array s).
Proof.
have [h0 h1] := B1_dims H; have [h2 h3] := B2_dims H.
rewrite /p_array; case: ifP => _; first by rewrite /= -h1.
by case: ifP => _; [rewrite /= -h1|rewrite /= -h2].
Qed.

Lemma toM_p s : toM R M M (p_array s) = p_mat s.
Proof.
rewrite /p_array /p_mat; case: ifP => _; [|case: ifP => _].
- by rewrite toM_aadd (toM_L1L R H) (toM_L1U R H).
- by rewrite (toM_L1L R H).
by rewrite (toM_L1U R H).
Qed.

Lemma p_sym s : (p_mat s)^T = p_mat s.
Proof.
by rewrite /p_mat; case: ifP => _; [exact: L1_sym|case: ifP => _; [exact: L1L_sym|exact: L1U_sym]].
Qed.

Lemma p_gram s : exists k (B : 'M[R]_(k, M)), p_mat s = B^T *m B.
Proof.
rewrite /p_mat; case: ifP => _; [|case: ifP => _].
- by exists (N + K)%N, (row_mx B1^T B2)^T; rewrite L1_stack trmxK.
- by exists N, B1.
by exists K, B2^T; rewrite trmxK.
Qed.

Lemma p_psd s (x : 'cV[R]_M) : 0 <= dot x (p_mat s *m x).
Proof. by have [k [B ->]] := p_gram s; rewrite -mulmxA -dot_mulmx; exact: dot_ge0. Qed.

Lemma p_decomp s : (0 < M)%N ->
  get_eigendecomposition eigsh (Dense (p_array s)) (eps64 R) = Ok (up (zeroed (eigsh (p_mat s)))).
Proof. by move=> M0; have [h0 h1] := p_dims s; rewrite (decompE eigsh h0 h1 M0) toM_p. Qed.

Lemma ideal_frequency_sum (m : seq R) : (0 < M)%N -> size m = size (eigsh (L1L + L1U)) ->
  get_ideal_frequency eigsh sc m = Ok (rows (\sum_(i < size (eigsh (L1L + L1U)))
    m`_i *: ((nth (0, 0) (eigsh (L1L + L1U)) i).2 *m ((nth (0, 0) (eigsh (L1L + L1U)) i).2)^T))).
Proof.
move=> M0 sm; rewrite /get_ideal_frequency get_p_matrixE /=.
have := p_decomp "L1" M0; rewrite {1}/p_array /= => ->; rewrite [p_mat _]/(L1L + L1U) /=.
have [h0 h1] := B1_dims H; rewrite -h1 -/M !size_map sm eqxx; congr (Ok (rows _)).
by apply: eq_bigr => i _; rewrite /up /zeroed -map_comp !(nth_map (0, 0)) //= unvecK.
Qed.

(** ** Component masks *)
Variable argsort : seq R -> seq nat.
Hypothesis EC : eigsh_contract eigsh.
Hypothesis AC : argsort_contract argsort.
Hypothesis M0 : (0 < M)%N.
Hypothesis O : oriented N E T.

Notation t := (milli R).
Notation hl := (harml eigsh nodes E T sc t).
Notation cl := (curll eigsh E T sc t).
Notation gl := (gradl eigsh nodes E sc t).
Notation vals := (fun l : seq (R * 'cV[R]_M) => [seq p.1 | p <- l]).

Definition evals : seq R := vals (zeroed hl) ++ vals cl ++ vals gl.

Let t0 : 0 < t := lt_le_trans (eps64_gt0 R) (eps64_milli R).
Let B12 : B1 *m B2 = 0 := oriented_B1B2 R H O.
Let nt : forall p, p \in eigsh L1U -> p.1 != t :=
  not_eigenvalueU EC H M0 (fraction_not_eigenvalueU H (milli_fraction R)).

Lemma sizes3 : (size hl + size cl + size gl = M)%N.
Proof.
rewrite dim_sum //.
suff -> : seq.count (fun p => p.1 == t) (eigsh L1U) = 0%N by rewrite addn0.
by apply/eqP; rewrite -leqn0 leqNgt -has_count; apply/hasPn => p pU; exact: nt.
Qed.

Lemma size_evals : size evals = M.
Proof. by rewrite /evals !size_cat !size_map addnA sizes3. Qed.

(** Which positions of the concatenation belong to a component. *)
Definition block (c : string) (i : nat) : bool :=
  if String.eqb c "harmonic" then (i < size hl)%N
  else if String.eqb c "curl" then (size hl <= i < size hl + size cl)%N
  else (size hl + size cl <= i)%N.
Definition c_valid (c : string) : bool :=
  [|| String.eqb c "harmonic", String.eqb c "curl" | String.eqb c "gradient"].

Lemma size_argsort s : size (argsort s) = size s.
Proof. by have [p _] := AC s; rewrite (perm_size p) size_iota. Qed.
Lemma mem_argsort s i : i \in argsort s -> (i < size s)%N.
Proof. by have [p _] := AC s; rewrite (perm_mem p) mem_iota add0n => /andP[]. Qed.

Lemma mapM_get (m : seq R) l : (forall i, i \in l -> (i < size m)%N) ->
  mapM (fun i => if (i < size m)%N then Ok m`_i else Raise IndexError) l = Ok [seq m`_i | i <- l].
Proof.
elim: l => //= i l IH h; rewrite h ?mem_head //= IH //.
by move=> j jl; apply: h; rewrite inE jl orbT.
Qed.

Lemma coefficientsE c : get_component_coefficients eigsh argsort sc c =
  if c_valid c then Ok [seq (block c i)%:R | i <- argsort evals] else Raise ValueError.
Proof.
have [h0 h1] := B1_dims H; have et := eps64_milli R.
rewrite /get_component_coefficients /= !(component_eigE eigsh H) //=.
have vu (l : seq (R * 'cV[R]_M)) : [seq p.1 | p <- up l] = vals l by rewrite /up -map_comp.
rewrite !vu -/evals -h1 -/M !size_map.
have body (b : nat -> bool) (m : seq R) : m = mkseq (fun i => (b i)%:R) M ->
  mapM (fun i => if (i < size m)%N then Ok m`_i else Raise IndexError) (argsort evals) =
  Ok [seq (b i)%:R | i <- argsort evals].
  move=> ->; rewrite mapM_get => [|i /mem_argsort]; last by rewrite size_mkseq size_evals.
  congr Ok; apply/eq_in_map => i /mem_argsort; rewrite size_evals => iM.
  by rewrite nth_mkseq.
rewrite /c_valid /block; case: ifP => // _ /=.
  exact: (@body (fun i => i < size hl)%N).
case: ifP => // _ /=; first exact: (@body (fun i => size hl <= i < size hl + size cl)%N).
by case: ifP => // _ /=; exact: (@body (fun i => size hl + size cl <= i)%N).
Qed.

Lemma count_block b : seq.count b (argsort evals) = seq.count b (iota 0 M).
Proof. by have [/seq.permP p _] := AC evals; rewrite p size_evals. Qed.

Lemma ones_map (b : nat -> bool) l : ones [seq ((b i)%:R : R) | i <- l] = seq.count b l.
Proof.
rewrite /ones count_map; apply: eq_count => i /=.
by case: (b i); rewrite ?eqxx // eq_sym oner_eq0.
Qed.

Lemma count_lt a n : (a <= n)%N -> seq.count (fun i => (i < a)%N) (iota 0 n) = a.
Proof.
move=> an; rewrite -(subnKC an) iotaD count_cat add0n.
rewrite (eq_in_count (a2 := predT)) ?count_predT ?size_iota => [|i]; last first.
  by rewrite mem_iota add0n => /andP[_ ->].
rewrite (eq_in_count (a2 := pred0)) ?count_pred0 ?addn0 // => i.
by rewrite mem_iota => /andP[ai _]; rewrite ltnNge ai.
Qed.

Lemma count_block_size :
  seq.count (block "harmonic") (iota 0 M) = size hl /\
  seq.count (block "curl") (iota 0 M) = size cl /\
  seq.count (block "gradient") (iota 0 M) = size gl.
Proof.
have s3 := sizes3; have h := count_lt (_ : size hl <= M)%N.
have hc := count_lt (_ : size hl + size cl <= M)%N.
rewrite /block /=; move: h hc; rewrite -s3; set a := size hl; set b := size cl; set c := size gl.
move=> /(_ (leq_trans (leq_addr _ _) (leq_addr _ _))) e1 /(_ (leq_addr _ _)) e2.
split; first by rewrite e1.
have e3 : seq.count (fun i => (a <= i < a + b)%N) (iota 0 (a + b + c)) = b.
  have u := count_predUI (fun i => (i < a)%N) (fun i => (a <= i < a + b)%N) (iota 0 (a + b + c)).
  have eu : seq.count (predU (fun i => i < a)%N (fun i => a <= i < a + b)%N) (iota 0 (a + b + c)) = (a + b)%N.
    by rewrite -[in RHS]e2; apply: eq_count => i /=; lia.
  have ei : seq.count (predI (fun i => i < a)%N (fun i => a <= i < a + b)%N) (iota 0 (a + b + c)) = 0%N.
    by rewrite (eq_count (a2 := pred0)) ?count_pred0 // => i /=; lia.
  by move: u; rewrite eu ei addn0 e1 => /eqP; rewrite eqn_add2l => /eqP.
split; first exact: e3.
have := count_predC (fun i => (i < a + b)%N) (iota 0 (a + b + c)).
rewrite e2 size_iota => /eqP; rewrite eqn_add2l => /eqP e4.
by rewrite -[RHS]e4; apply: eq_count => i /=; lia.
Qed.

(** *** Alignment with the spectrum of L1 *)
Lemma evals_perm : perm_eq evals (vals (zeroed (eigsh (L1L + L1U)))).
Proof.
have sS := permEl (perm_filterC (fun p : R * 'cV[R]_M => p.1 <= t) (eigsh (L1L + L1U))).
have -> : vals (zeroed (eigsh (L1L + L1U))) = [seq zs p.1 | p <- eigsh (L1L + L1U)].
  by rewrite /zeroed -map_comp.
rewrite perm_sym; apply: perm_trans (perm_map (fun p => zs p.1) _) _; first by rewrite perm_sym; exact: sS.
rewrite perm_sym map_cat /evals.
have -> : vals (zeroed hl) = [seq zs p.1 | p <- hl] by rewrite /zeroed -map_comp.
apply: perm_cat; first by [].
set big := [seq p <- _ | predC _ p].
have -> : [seq zs p.1 | p <- big] = [seq x <- vals (eigsh (L1L + L1U)) | t < x].
  rewrite /big filter_map; set l := eigsh _; elim: l => //= p l IH.
  rewrite -ltNge; case: ifP => //= tp; rewrite IH zs_big //.
  by apply: le_trans (eps64_milli R) _; exact: ltW.
have /seq.permP P := eigenvalues_sum (LU0 B12) (famL EC nodes sc M0) (famU EC T sc M0) (famS EC nodes T sc M0).
rewrite perm_catC; apply/seq.permP => a.
have := P (fun x => a x && (t < x)); rewrite !count_cat -!count_filter.
have -> : seq.count a [seq x <- nseq M 0 | t < x] = 0%N.
  rewrite (eq_in_filter (a2 := pred0)) ?filter_pred0 // => x.
  by rewrite mem_nseq => /andP[_ /eqP ->]; rewrite ltNge ltW.
rewrite add0n => <-; congr addn.
  by congr seq.count; rewrite filter_map.
congr seq.count; rewrite filter_map; congr map; apply: eq_in_filter => p /nt /=.
by rewrite le_eqVlt eq_sym => /negbTE ->.
Qed.

Lemma evals_sorted_eq : [seq evals`_i | i <- argsort evals] = vals (zeroed (eigsh (L1L + L1U))).
Proof.
apply: argsort_sorted evals_perm _ => //.
have [_ [so _]] := EC M0 (L1_sym R nodes E T sc).
have nn : all (fun x => 0 <= x) (vals (eigsh (L1L + L1U))).
  by apply/allP => x /mapP[p pl ->]; exact: (valS EC M0 pl).
rewrite /zeroed -map_comp (map_comp (@zs R) fst).
apply: (homo_sorted_in _ nn so) => x y /= x0 y0 xy.
exact: zs_mono.
Qed.

(** A predicate on eigenvalues that recognises a component. *)
Lemma mask_spectral c (P : pred R) : (forall i, (i < M)%N -> block c i = P evals`_i) ->
  [seq ((block c i)%:R : R) | i <- argsort evals] =
  [seq ((P (zs p.1))%:R : R) | p <- eigsh (L1L + L1U)].
Proof.
move=> h; have := evals_sorted_eq.
move=> /(congr1 (map (fun x => ((P x)%:R : R)))); rewrite /zeroed -!map_comp => <-.
apply/eq_in_map => i /mem_argsort; rewrite size_evals => iM /=.
by rewrite h.
Qed.

Lemma ideal_sum (m : seq R) (l : seq (R * 'cV[R]_M)) (P : pred R) :
  m = [seq (P (zs p.1))%:R | p <- l] ->
  \sum_(i < size (up (zeroed l))) m`_i *: (vec M (nth (0, [::]) (up (zeroed l)) i).2 *m
     (vec M (nth (0, [::]) (up (zeroed l)) i).2)^T) = outer (sel (fun x => P (zs x)) l).
Proof.
move=> ->; rewrite /up /zeroed -map_comp !size_map /sel /outer big_map big_filter.
rewrite (big_nth (0, 0)) big_mkord [RHS]big_mkcond /=; apply: eq_bigr => i _.
rewrite !(nth_map (0, 0)) //= unvecK; case: (P _); rewrite ?scale1r ?scale0r //.
Qed.

Lemma ideal_frequencyE c (P : pred R) : (forall i, (i < M)%N -> block c i = P evals`_i) ->
  get_ideal_frequency eigsh sc [seq ((block c i)%:R : R) | i <- argsort evals] =
  Ok (rows (outer (sel (fun x => P (zs x)) (eigsh (L1L + L1U))))).
Proof.
move=> h; rewrite /get_ideal_frequency get_p_matrixE /=.
have := p_decomp "L1" M0; rewrite {1}/p_array /= => ->; rewrite [p_mat _]/(L1L + L1U) /=.
have [h0 h1] := B1_dims H; rewrite -h1 -/M !size_map size_argsort size_evals.
have [sz _] := EC M0 (L1_sym R nodes E T sc).
rewrite sz eqxx; congr (Ok (rows _)).
by rewrite (mask_spectral h) -(ideal_sum erefl) !size_map sz.
Qed.

Lemma nth_vals (l : seq (R * 'cV[R]_M)) i : (i < size l)%N -> exists2 p, p \in l & (vals l)`_i = p.1.
Proof. by move=> il; exists (nth (0, 0) l i); [exact: mem_nth|rewrite (nth_map (0, 0))]. Qed.

Lemma evals_at i : (i < M)%N ->
  (block "harmonic" i /\ exists2 p, p \in hl & evals`_i = zs p.1) \/
  (block "curl" i /\ exists2 p, p \in cl & evals`_i = p.1) \/
  (block "gradient" i /\ exists2 p, p \in gl & evals`_i = p.1).
Proof.
move=> iM; rewrite /block /evals /= !nth_cat !size_map.
case: ltnP => ih.
  left; split=> //; rewrite /zeroed -map_comp (nth_map (0, 0)) //=.
  by exists (nth (0, 0) hl i) => //; exact: mem_nth.
right; have s3 := sizes3; case: (ltnP (i - size hl) (size cl)) => ic.
  by left; split; [rewrite -(subnKC ih) ltn_add2l ic|exact: (nth_vals ic)].
right; have hc : (size hl + size cl <= i)%N by rewrite -(subnKC ih) leq_add2l.
split; first by [].
apply: (@nth_vals gl); rewrite -subnDA -(ltn_add2l (size hl + size cl)) subnKC //.
by rewrite s3.
Qed.

Lemma block_excl i : (block "harmonic" i + block "curl" i + block "gradient" i)%N = 1%N.
Proof.
rewrite /block /=; case: ltnP => /= a; case: ltnP => //= b.
by move: (leq_trans (leq_addr _ _) b); rewrite leqNgt a.
Qed.

(** An eigenspace selection of L1 that is constant on each component. *)
Lemma sel_act (P : pred R) (b : bool) (l : seq 'cV[R]_M) :
  (forall u, u \in l -> exists a, (L1L + L1U) *m u = a *: u /\ P (zs a) = b) ->
  outer (sel (fun x => P (zs x)) (eigsh (L1L + L1U))) *m outer l = b%:R *: outer l.
Proof.
move=> h; apply: mx_ext => x; rewrite -mulmxA -scalemxAl (outer_mulE l) mulmx_sumr scaler_sumr.
apply: eq_big_seq => u ul; have [a [ea Pa]] := h u ul.
rewrite -scalemxAr; have F := famS EC nodes T sc M0.
case: b Pa {h} => Pa.
  by rewrite (sel_span (L1_sym R nodes E T sc) F ea) // scale1r.
by rewrite (sel_kill (L1_sym R nodes E T sc) F ea) ?Pa // scaler0 scale0r.
Qed.

Lemma sel_component (P : pred R) (bh bc bg : bool) :
  (forall p, p \in hl -> P (zs p.1) = bh) ->
  (forall p, p \in cl -> P p.1 = bc) ->
  (forall p, p \in gl -> P p.1 = bg) ->
  outer (sel (fun x => P (zs x)) (eigsh (L1L + L1U))) =
  bh%:R *: outer [seq p.2 | p <- hl] + (bc%:R *: outer [seq p.2 | p <- cl]
    + bg%:R *: outer [seq p.2 | p <- gl]).
Proof.
move=> Ph Pc Pg; rewrite -[LHS]mulmx1 -(outer3 EC M0 B12 t0 nt) !mulmxDr.
have tz x : t <= x -> zs x = x /\ x != 0.
  move=> tx; split; first by rewrite zs_big //; apply: le_trans tx; exact: eps64_milli.
  by rewrite gt_eqF //; exact: lt_le_trans tx.
congr (_ + (_ + _)); apply: sel_act => u /mapP[p pl ->].
- have := pl; rewrite mem_filter => /andP[_ pS].
  by exists p.1; split; [case: (fam_unit (famS EC nodes T sc M0) pS)|exact: Ph].
- have := pl; rewrite mem_filter => /andP[/tz[z1 z2] pS]; have [e _] := fam_unit (famU EC T sc M0) pS.
  by exists p.1; split; [case: (U_to_S B12 z2 e)|rewrite z1; exact: Pc].
have := pl; rewrite mem_filter => /andP[/ltW/tz[z1 z2] pS].
have [e _] := fam_unit (famL EC nodes sc M0) pS.
by exists p.1; split; [case: (L_to_S B12 z2 e)|rewrite z1; exact: Pg].
Qed.
End Cx.
