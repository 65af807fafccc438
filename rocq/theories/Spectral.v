(** * Spectral theorem for symmetric matrices over a real closed field

    Pure linear algebra; nothing in this file models code.  It shows that the contract assumed of
    the eigensolver (EigenSpec.v) can be met, and provides orthonormal-family lemmas. *)

From Coq Require Import Ring Field.
From mathcomp Require Import all_ssreflect all_algebra complex.
From Verif Require Import LinAlg RingTac.

Set Implicit Arguments.
Unset Strict Implicit.
Unset Printing Implicit Defensive.

Import GRing.Theory Num.Theory Order.Theory.
Local Open Scope ring_scope.

Section RealEigen.
Variable R : rcfType.
Local Open Scope complex_scope.

Lemma Re_sum (I : finType) (F : I -> R[i]) :
  complex.Re (\sum_i F i) = \sum_i complex.Re (F i).
Proof. by apply: (big_morph (@complex.Re R)) => [[a b] [c d]|]. Qed.
Lemma Im_sum (I : finType) (F : I -> R[i]) :
  complex.Im (\sum_i F i) = \sum_i complex.Im (F i).
Proof. by apply: (big_morph (@complex.Im R)) => [[a b] [c d]|]. Qed.

Lemma sym_real_eigen n (A : 'M[R]_n.+1) : A^T = A ->
  exists (x : R) (u : 'cV[R]_n.+1), u != 0 /\ A *m u = x *: u.
Proof.
move=> sA; pose A' := map_mx (real_complex R) A.
have [l rl] : exists l, root (char_poly A') l.
  by apply/closed_rootP; rewrite size_char_poly.
have : eigenvalue A' l by rewrite eigenvalue_root_char.
case/eigenvalueP=> v vA vn0.
pose a := \col_j complex.Re (v 0 j) : 'cV[R]_n.+1.
pose b := \col_j complex.Im (v 0 j) : 'cV[R]_n.+1.
have Aa : A *m a = complex.Re l *: a - complex.Im l *: b.
  apply/matrixP=> j k; rewrite ord1 {k} !mxE; move/matrixP/(_ 0 j): vA; rewrite !mxE => vA.
  transitivity (complex.Re (\sum_k v 0 k * A' k j)).
    rewrite Re_sum; apply: eq_bigr => k _; rewrite !mxE -{1}sA !mxE.
    by case: (v 0 k) => p q /=; rewrite mulr0 subr0 mulrC.
  by rewrite vA; case: (l) (v 0 j) => [x y] [p q].
have Ab : A *m b = complex.Re l *: b + complex.Im l *: a.
  apply/matrixP=> j k; rewrite ord1 {k} !mxE; move/matrixP/(_ 0 j): vA; rewrite !mxE => vA.
  transitivity (complex.Im (\sum_k v 0 k * A' k j)).
    rewrite Im_sum; apply: eq_bigr => k _; rewrite !mxE -{1}sA !mxE.
    by case: (v 0 k) => p q /=; rewrite mulr0 add0r mulrC.
  by rewrite vA; case: (l) (v 0 j) => [x y] [p q].
have ab0 : (a != 0) || (b != 0).
  apply: contraR vn0; rewrite negb_or !negbK => /andP[/eqP a0 /eqP b0].
  apply/eqP/matrixP=> i j; rewrite ord1 mxE.
  move/matrixP/(_ j 0): a0; move/matrixP/(_ j 0): b0; rewrite !mxE.
  by case: (v 0 j) => p q /= -> ->.
have y0 : complex.Im l = 0.
  have E : dot (A *m a) b = dot a (A *m b) by rewrite dot_mulmx sA.
  move: E; rewrite Aa Ab dotBl !dotZl dotDr !dotZr => /eqP.
  rewrite (inj_eq (addrI _)) eq_sym -subr_eq0 opprK -mulrDr mulf_eq0.
  case/orP=> [/eqP //|]; rewrite paddr_eq0 ?dot_ge0 // !dot_eq0.
  by case/andP=> /eqP a0 /eqP b0; move: ab0; rewrite a0 b0 eqxx.
exists (complex.Re l); case/orP: ab0 => n0; [exists a|exists b]; split=> //.
  by rewrite Aa y0 scale0r subr0.
by rewrite Ab y0 scale0r addr0.
Qed.
End RealEigen.

Section Householder.
Variable R : realFieldType.
Add Field R_field : (mc_field R).

Definition reflection n (w : 'cV[R]_n) : 'M[R]_n := 1%:M - (2%:R / dot w w) *: (w *m w^T).

Lemma outerE n (w x : 'cV[R]_n) : w *m w^T *m x = dot w x *: w.
Proof. by rewrite -mulmxA [w^T *m x]mx11_scalar -dotE mul_mx_scalar. Qed.

Lemma reflection_sym n (w : 'cV[R]_n) : (reflection w)^T = reflection w.
Proof. by rewrite /reflection linearB /= linearZ /= trmx_mul trmxK trmx1. Qed.

Lemma reflectionE n (w x : 'cV[R]_n) :
  reflection w *m x = x - (2%:R * dot w x / dot w w) *: w.
Proof. by rewrite mulmxBl mul1mx -scalemxAl outerE scalerA mulrAC. Qed.

Lemma reflection_invol n (w : 'cV[R]_n) : w != 0 -> reflection w *m reflection w = 1%:M.
Proof.
move=> w0; apply: mx_ext => x; rewrite mul1mx -mulmxA !reflectionE.
have d0 : dot w w != 0 by rewrite dot_eq0.
rewrite dotBr dotZr.
have -> : 2%:R * (dot w x - 2%:R * dot w x / dot w w * dot w w) / dot w w
        = - (2%:R * dot w x / dot w w).
  by move/eqP: d0 => d0; to_r R; field.
by rewrite scaleNr opprK subrK.
Qed.

Lemma reflection_swap n (u e : 'cV[R]_n) : dot u u = dot e e -> u != e ->
  reflection (u - e) *m u = e.
Proof.
move=> ue n0; rewrite reflectionE.
have w0 : dot (u - e) (u - e) != 0 by rewrite dot_eq0 subr_eq0.
have -> : 2%:R * dot (u - e) u / dot (u - e) (u - e) = 1.
  have -> : 2%:R * dot (u - e) u = dot (u - e) (u - e).
    rewrite dotBl [RHS]dotBr !dotBl [dot u e]dotC -ue; to_r R; ring.
  exact: divff.
by rewrite scale1r opprB addrC subrK.
Qed.

(** An orthogonal symmetric matrix taking a unit vector to another one. *)
Lemma reflect_to n (u e : 'cV[R]_n) : dot u u = dot e e ->
  exists H : 'M[R]_n, H^T = H /\ H *m H = 1%:M /\ H *m u = e.
Proof.
move=> ue; have [<-|n0] := eqVneq u e.
  by exists 1%:M; rewrite trmx1 !mul1mx.
exists (reflection (u - e)); split; first exact: reflection_sym.
by split; [apply: reflection_invol; rewrite subr_eq0|apply: reflection_swap].
Qed.
End Householder.

Section SpectralTheorem.
Variable R : rcfType.

Lemma unit_eigen n (A : 'M[R]_n.+1) : A^T = A ->
  exists (x : R) (u : 'cV[R]_n.+1), dot u u = 1 /\ A *m u = x *: u.
Proof.
move=> /sym_real_eigen [x [u [u0 Au]]].
have d0 : 0 < dot u u by rewrite lt_def dot_eq0 u0 dot_ge0.
exists x, ((Num.sqrt (dot u u))^-1 *: u); split.
  rewrite dotZl dotZr mulrA -invfM -expr2 sqr_sqrtr ?ltW // mulVf //.
  by rewrite gt_eqF.
by rewrite -scalemxAr Au !scalerA mulrC.
Qed.

Lemma spectral_mx n (A : 'M[R]_n) : A^T = A ->
  exists (U : 'M[R]_n) (d : 'rV[R]_n), U^T *m U = 1%:M /\ A *m U = U *m diag_mx d.
Proof.
elim: n A => [|n IH] A sA.
  by exists 1%:M, 0; split; apply/matrixP=> -[].
have [x [u [u1 Au]]] := unit_eigen sA.
pose e : 'cV[R]_n.+1 := delta_mx 0 0.
have e1 : dot e e = 1 by rewrite dotE trmx_delta mul_delta_mx mxE !eqxx.
have [H [sH [HH Hu]]] := reflect_to (etrans u1 (esym e1)).
have He : H *m e = u by rewrite -Hu mulmxA HH mul1mx.
have [B BE] : exists B : 'M[R]_(1 + n), B = H *m A *m H by eexists.
have sB : B^T = B by rewrite BE !trmx_mul sH sA mulmxA.
have Be : B *m e = x *: e by rewrite BE -!mulmxA He Au -scalemxAr Hu.
have Bul : ulsubmx B = x%:M.
  rewrite [LHS]mx11_scalar; congr (_%:M).
  move/matrixP/(_ 0 0): Be; rewrite -colE !mxE !eqxx mulr1 => <-.
  by congr (B _ _); apply/val_inj.
have Bdl : dlsubmx B = 0.
  apply/matrixP=> i j; rewrite ord1 !mxE.
  move/matrixP/(_ (rshift 1 i) 0): Be; rewrite -colE !mxE /= mulr0 => <-.
  by congr (B _ _); apply/val_inj.
have Bur : ursubmx B = 0 by rewrite -[B]sB -trmx_dlsub Bdl trmx0.
pose A2 := drsubmx B.
have sA2 : A2^T = A2 by rewrite /A2 trmx_drsub sB.
have [V [d [VV AV]]] := IH A2 sA2.
have EB : B = block_mx x%:M 0 0 A2 by rewrite -[LHS]submxK Bul Bdl Bur.
have [W WE] : exists W : 'M[R]_(1 + n), W = block_mx 1%:M 0 0 V by eexists.
have WW : W^T *m W = 1%:M.
  rewrite WE tr_block_mx mulmx_block !trmx0 trmx1.
  by rewrite !mulmx0 !mul0mx mulmx1 addr0 !add0r VV -scalar_mx_block.
have BW : B *m W = W *m diag_mx (row_mx x%:M d).
  rewrite EB WE mulmx_block !mulmx0 !mul0mx !addr0 !add0r mulmx1 AV.
  rewrite diag_mx_row [diag_mx x%:M](_ : _ = x%:M); last first.
    by apply/matrixP=> i j; rewrite !ord1 !mxE.
  by rewrite mulmx_block !mulmx0 !mul0mx !addr0 !add0r mul1mx.
exists (H *m W), (row_mx x%:M d); split.
  by rewrite trmx_mul sH mulmxA -(mulmxA _ H H) HH mulmx1.
have -> : A *m (H *m W) = H *m (B *m W) by rewrite BE !mulmxA HH mul1mx.
by rewrite BW mulmxA.
Qed.
End SpectralTheorem.

(** ** Orthonormal families *)
Section Families.
Variable R : realFieldType.

(** Pairwise orthogonal vectors of length one, without repetition. *)
Definition onf n (l : seq 'cV[R]_n) : bool :=
  uniq l && all (fun x => all (fun y => dot x y == (x == y)%:R) l) l.

Lemma onfP n (l : seq 'cV[R]_n) :
  reflect (uniq l /\ {in l &, forall x y, dot x y = (x == y)%:R}) (onf l).
Proof.
apply: (iffP andP) => -[ul H]; split=> //.
  by move=> x y xl yl; move/allP/(_ x xl)/allP/(_ y yl)/eqP: H.
by apply/allP=> x xl; apply/allP=> y yl; apply/eqP; apply: H.
Qed.

Lemma onf_perm n (l l' : seq 'cV[R]_n) : perm_eq l l' -> onf l -> onf l'.
Proof.
move=> p /onfP[ul H]; apply/onfP; split; first by rewrite -(perm_uniq p).
by move=> x y; rewrite -!(perm_mem p); apply: H.
Qed.

Lemma onf_sub n (l l' : seq 'cV[R]_n) : uniq l' -> {subset l' <= l} -> onf l -> onf l'.
Proof. by move=> u s /onfP[_ H]; apply/onfP; split=> // x y /s xl /s yl; apply: H. Qed.

Lemma onf_filter n (p : pred 'cV[R]_n) l : onf l -> onf (filter p l).
Proof.
move=> o; apply: (onf_sub _ _ o); first by case/onfP: o => u _; rewrite filter_uniq.
by move=> x; rewrite mem_filter => /andP[].
Qed.

Lemma onf_cat n (l1 l2 : seq 'cV[R]_n) : onf l1 -> onf l2 ->
  {in l1 & l2, forall x y, dot x y = 0} -> onf (l1 ++ l2).
Proof.
move=> /onfP[u1 H1] /onfP[u2 H2] H.
have D x : x \in l1 -> x \in l2 -> False.
  by move=> a b; have := H _ _ a b; rewrite H1 // eqxx => /eqP; rewrite oner_eq0.
apply/onfP; split.
  rewrite cat_uniq u1 u2 andbT; apply/hasPn=> x x2; apply/negP=> x1; exact: D x1 x2.
move=> x y; rewrite !mem_cat => /orP[a|a] /orP[b|b].
- exact: H1.
- by rewrite H //; case: eqP => // E; case: (D x a); rewrite E.
- by rewrite dotC H //; case: eqP => // E; case: (D y b); rewrite -E.
- exact: H2.
Qed.

(** Matrix with the family as rows. *)
Definition rows_of n (l : seq 'cV[R]_n) : 'M[R]_(size l, n) := \matrix_(i, j) (l`_i) j 0.

Lemma rows_of_onf n (l : seq 'cV[R]_n) : onf l -> rows_of l *m (rows_of l)^T = 1%:M.
Proof.
move=> /onfP[ul H]; apply/matrixP=> i j; rewrite !mxE.
have -> : \sum_k rows_of l i k * (rows_of l)^T k j = dot l`_i l`_j.
  by rewrite /dot; apply: eq_bigr => k _; rewrite !mxE.
by rewrite H ?mem_nth // nth_uniq.
Qed.

Lemma onf_size n (l : seq 'cV[R]_n) : onf l -> (size l <= n)%N.
Proof.
move=> /rows_of_onf H; have := mulmx_max_rank (rows_of l) (rows_of l)^T.
by rewrite H mxrank1.
Qed.

(** Sum of the outer products: the orthogonal projector on the span. *)
Definition outer n (l : seq 'cV[R]_n) : 'M[R]_n := \sum_(u <- l) u *m u^T.

Lemma outer_rows n (l : seq 'cV[R]_n) : (rows_of l)^T *m rows_of l = outer l.
Proof.
apply/matrixP=> a b; rewrite !mxE /outer summxE (big_nth 0) big_mkord.
apply: eq_bigr => i _; rewrite !mxE big_ord_recl big_ord0 addr0 !mxE.
by [].
Qed.

Lemma outer_mulE n (l : seq 'cV[R]_n) x : outer l *m x = \sum_(u <- l) dot u x *: u.
Proof.
rewrite /outer mulmx_suml; apply: eq_bigr => u _; exact: outerE.
Qed.

Lemma outer_sym n (l : seq 'cV[R]_n) : (outer l)^T = outer l.
Proof. by rewrite -outer_rows trmx_mul trmxK. Qed.

Lemma outer_cat n (l1 l2 : seq 'cV[R]_n) : outer (l1 ++ l2) = outer l1 + outer l2.
Proof. exact: big_cat. Qed.

Lemma onf_complete n (l : seq 'cV[R]_n) : onf l -> size l = n -> outer l = 1%:M.
Proof.
move=> o sl; rewrite -outer_rows; have := rows_of_onf o.
by move: (rows_of l); rewrite sl => M MM; apply: mulmx1C.
Qed.

Lemma parseval n (l : seq 'cV[R]_n) x : onf l -> size l = n ->
  nrm2 x = \sum_(u <- l) (dot u x) ^+ 2.
Proof.
move=> o sl; rewrite /nrm2 -{2}[x]mul1mx -(onf_complete o sl) outer_mulE dot_sumr.
by apply: eq_bigr => u _; rewrite dotZr [dot x u]dotC expr2.
Qed.

(** ** Eigenfamilies *)
Definition eigfam n (A : 'M[R]_n) (l : seq (R * 'cV[R]_n)) : bool :=
  [&& size l == n, onf [seq p.2 | p <- l] & all (fun p => A *m p.2 == p.1 *: p.2) l].

Lemma eigfamP n (A : 'M[R]_n) l :
  reflect (size l = n /\ onf [seq p.2 | p <- l] /\ forall p, p \in l -> A *m p.2 = p.1 *: p.2)
          (eigfam A l).
Proof.
apply: (iffP and3P) => [[/eqP s o /allP H]|[s [o H]]].
  by split=> //; split=> // p pl; apply/eqP; apply: H.
by split=> //; [apply/eqP|apply/allP=> p pl; apply/eqP; apply: H].
Qed.

Lemma eigfam_perm n (A : 'M[R]_n) l l' : perm_eq l l' -> eigfam A l -> eigfam A l'.
Proof.
move=> p /eigfamP[s [o H]]; apply/eigfamP; split; first by rewrite -(perm_size p).
by split=> [|q]; [apply: onf_perm o; apply: perm_map|rewrite -(perm_mem p); apply: H].
Qed.

Lemma eigfam_outer n (A : 'M[R]_n) l : eigfam A l -> outer [seq p.2 | p <- l] = 1%:M.
Proof. by case/eigfamP=> s [o _]; apply: onf_complete o _; rewrite size_map. Qed.

Lemma eigfam_char_poly n (A : 'M[R]_n) l : eigfam A l ->
  char_poly A = \prod_(p <- l) ('X - p.1%:P).
Proof.
case/eigfamP=> s [o H].
pose l2 := [seq p.2 | p <- l].
have s2 : size l2 = n by rewrite size_map.
pose U : 'M[R]_n := \matrix_(i, j) (l2`_j) i 0.
pose d : 'rV[R]_n := \row_j (nth (0, 0) l j).1.
have AU : A *m U = U *m diag_mx d.
  apply/matrixP=> i j; rewrite mul_mx_diag !mxE.
  have jl : (j < size l)%N by rewrite s.
  have /H/matrixP/(_ i 0) := mem_nth (0, 0) jl; rewrite !mxE (nth_map (0, 0)) //.
  rewrite mulrC => <-; apply: eq_bigr => k _; rewrite !mxE (nth_map (0, 0)) //.
have Uu : U \in unitmx.
  have /mulmx1_unit[//] : U^T *m U = 1%:M.
  apply/matrixP=> i j; rewrite !mxE.
  have -> : \sum_k U^T i k * U k j = dot l2`_i l2`_j.
    by rewrite /dot; apply: eq_bigr => k _; rewrite !mxE.
  by case/onfP: o => ul o; rewrite o ?mem_nth ?s2 // nth_uniq ?s2.
have E : char_poly_mx A *m map_mx polyC U = map_mx polyC U *m char_poly_mx (diag_mx d).
  rewrite /char_poly_mx mulmxBl mulmxBr -!map_mxM AU.
  by rewrite mul_scalar_mx mul_mx_scalar.
have := congr1 determinant E; rewrite !det_mulmx mulrC => /mulfI DE.
rewrite /char_poly DE.
  rewrite -/(char_poly (diag_mx d)) char_poly_trig ?diag_mx_is_trig //.
  rewrite (big_nth (0, 0)) big_mkord; move: s => s.
  rewrite -[in RHS](big_mkord xpredT (fun i => 'X - (nth (0, 0) l i).1%:P)) s big_mkord.
  by apply: eq_bigr => i _; rewrite !mxE eqxx mulr1n.
rewrite det_map_mx polyC_eq0; move: Uu; rewrite unitmxE unitfE. by [].
Qed.

Lemma prod_XsubC_perm (s t : seq R) :
  \prod_(x <- s) ('X - x%:P) = \prod_(x <- t) ('X - x%:P) -> perm_eq s t.
Proof.
elim: s t => [|x s IH] t.
  rewrite big_nil => E; have := size_prod_XsubC t id; rewrite -E size_poly1.
  by case: t {E}.
move=> E; have xt : x \in t by rewrite -root_prod_XsubC -E root_prod_XsubC mem_head.
rewrite perm_sym; apply: (perm_trans (perm_to_rem xt)); rewrite perm_cons perm_sym.
apply: IH; apply: (@mulfI _ ('X - x%:P)); first by rewrite polyXsubC_eq0.
move: E; rewrite big_cons => ->; rewrite (perm_big _ (perm_to_rem xt)) big_cons //.
Qed.

Lemma charpoly_mul0 n (A B : 'M[R]_n) : A *m B = 0 ->
  char_poly A * char_poly B = 'X^n * char_poly (A + B).
Proof.
move=> AB; rewrite /char_poly -det_mulmx -detZ; congr (\det _).
rewrite /char_poly_mx mulmxBl !mulmxBr -map_mxM AB map_mx0 subr0 map_mxD.
rewrite !mul_scalar_mx mul_mx_scalar !scalerBr -addrA -opprD; congr (_ - _).
by rewrite scalerDr addrC.
Qed.

(** Eigenvalues of a sum of two matrices that annihilate each other. *)
Lemma eigenvalues_sum n (A B : 'M[R]_n) la lb ls : A *m B = 0 ->
  eigfam A la -> eigfam B lb -> eigfam (A + B) ls ->
  perm_eq ([seq p.1 | p <- la] ++ [seq p.1 | p <- lb]) (nseq n 0 ++ [seq p.1 | p <- ls]).
Proof.
move=> AB /eigfam_char_poly ca /eigfam_char_poly cb /eigfam_char_poly cs.
apply: prod_XsubC_perm; rewrite !big_cat /= !big_map -ca -cb -cs charpoly_mul0 //.
congr (_ * _); rewrite big_nseq subr0.
by elim: n {A B la lb ls AB ca cb cs} => [|n IH]; rewrite ?expr0 // exprS IH.
Qed.

End Families.

Section SpectralList.
Variable R : rcfType.

Lemma spectral_list n (A : 'M[R]_n) : A^T = A ->
  exists l : seq (R * 'cV[R]_n), eigfam A l && sorted <=%R [seq p.1 | p <- l].
Proof.
move=> /spectral_mx [U [d [UU AU]]].
pose l := [seq (d 0 i, col i U) | i <- enum 'I_n].
have inj : injective (fun i => col i U).
  move=> i j /= E; apply/eqP/negPn/negP=> ij; move: (congr1 (fun M : 'M[R]_n => M i j) UU).
  rewrite /= !mxE (negbTE ij) => Z; move: (congr1 (fun M : 'M[R]_n => M i i) UU).
  rewrite !mxE eqxx => O.
  have : \sum_k U^T i k * U k j = \sum_k U^T i k * U k i.
    by apply: eq_bigr => k _; move/colP/(_ k): E; rewrite !mxE => ->.
  by rewrite Z O => /eqP; rewrite eq_sym oner_eq0.
have el : eigfam A l.
  apply/eigfamP; split; first by rewrite size_map size_enum_ord.
  split.
    have -> : [seq p.2 | p <- l] = [seq col i U | i <- enum 'I_n] by rewrite -map_comp.
    apply/onfP; split; first by rewrite map_inj_uniq ?enum_uniq.
    move=> _ _ /mapP[i _ ->] /mapP[j _ ->]; rewrite (inj_eq inj).
    have := congr1 (fun M : 'M[R]_n => M i j) UU; rewrite !mxE => <-.
    by rewrite /dot; apply: eq_bigr => k _; rewrite !mxE.
  move=> _ /mapP[i _ ->] /=.
  have -> : A *m col i U = col i (A *m U) by rewrite !colE mulmxA.
  by rewrite AU mul_mx_diag; apply/matrixP=> a b; rewrite !mxE mulrC.
exists (sort (fun p q => p.1 <= q.1) l); apply/andP; split.
  by apply: eigfam_perm el; rewrite perm_sym perm_sort.
rewrite sorted_map; apply: sort_sorted => p q; exact: le_total.
Qed.
End SpectralList.
