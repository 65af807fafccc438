(** * Lemmas about the signal operations *)

From Coq Require Import ZArith String List.
From mathcomp Require Import all_ssreflect all_algebra ssrZ zify.
From Verif Require Import Py PyFacts Complex ComplexSpec ComplexFacts ComplexFacts2 LinAlg Signal
  SignalSpec Bridge.

Set Implicit Arguments.
Unset Strict Implicit.
Unset Printing Implicit Defensive.

Import GRing.Theory Num.Theory Order.Theory.
Local Open Scope ring_scope.

Lemma nth_error_nth (A : Type) (d : A) (l : seq A) k :
  (k < size l)%N -> nth_error l k = Some (nth d l k).
Proof. by elim: l k => [|a l IH] [|k] //= Hk; exact: IH. Qed.

Lemma nth_error_lt (A : Type) (l : seq A) k x : nth_error l k = Some x -> (k < size l)%N.
Proof. by elim: l k => [|a l IH] [|k] //= Hk; exact: IH. Qed.

Lemma nth_error_nthE (A : Type) (d : A) (l : seq A) k x :
  nth_error l k = Some x -> nth d l k = x.
Proof. by elim: l k => [|a l IH] [|k] //= Hk; [case: Hk|exact: IH]. Qed.

Section Facts.
Variable R : realFieldType.
Implicit Types (x y f p w : seq R).

Lemma mvE (A : arr2) n m x : n = sh0 A -> m = sh1 A -> mv A x = unvec (toM R n m A *m vec m x).
Proof.
move=> -> ->; apply: (@vecP _ (sh0 A)); rewrite ?size_mkseq ?size_unvec // => i Hi.
rewrite nth_mkseq // -[i in RHS]/(nat_of_ord (Ordinal Hi)) nth_unvec mxE.
by apply: eq_bigr => j _; rewrite !mxE zmulE.
Qed.

Lemma size_mv (A : arr2) x : size (mv A x) = sh0 A.
Proof. exact: size_mkseq. Qed.

Lemma qformE (A : arr2) n x : n = sh0 A -> n = sh1 A ->
  qform A x = dot (vec n x) (toM R n n A *m vec n x).
Proof.
move=> h0 h1; rewrite /qform -h0 -h1; apply: eq_bigr => i _.
rewrite !mxE mulr_sumr; apply: eq_bigr => j _.
by rewrite !mxE zmulE.
Qed.

Lemma qform_gram (A : arr2) n m x : n = sh0 A -> m = sh1 A ->
  qform (amul (atr A) A) x = nrm2 (toM R n m A *m vec m x).
Proof.
move=> h0 h1; rewrite (@qformE _ m) // (@toM_amul _ _ n) // toM_atr.
by rewrite /nrm2 dot_mulmx mulmxA.
Qed.
Lemma qform_gramT (A : arr2) n m x : n = sh0 A -> m = sh1 A ->
  qform (amul A (atr A)) x = nrm2 ((toM R n m A)^T *m vec n x).
Proof.
move=> h0 h1; rewrite (@qformE _ n) // (@toM_amul _ _ m) // toM_atr.
by rewrite /nrm2 dot_mulmx trmxK mulmxA.
Qed.

Lemma mv_gram0 (A : arr2) n m x : n = sh0 A -> m = sh1 A ->
  toM R n m A *m vec m x = 0 -> mv (amul (atr A) A) x = zerof R m.
Proof.
move=> h0 h1 Z; rewrite (@mvE _ m m) // (@toM_amul _ _ n) // -mulmxA Z mulmx0.
by rewrite zerof_unvec.
Qed.
Lemma mv_gramT0 (A : arr2) n m x : n = sh0 A -> m = sh1 A ->
  (toM R n m A)^T *m vec n x = 0 -> mv (amul A (atr A)) x = zerof R n.
Proof.
move=> h0 h1 Z; rewrite (@mvE _ n n) // (@toM_amul _ _ m) // toM_atr -mulmxA Z mulmx0.
by rewrite zerof_unvec.
Qed.

Section Cx.
Variables (nodes : list Z) (E : list (Z * Z)) (T : list (list Z)) (nf : dict Z fdict)
          (ef : dict (Z * Z) fdict) (sc : SC).
Hypothesis H : make_sc nodes E T nf ef = Ok sc.
Let N := length nodes.
Let M := length E.
Let K := length T.
Notation B1 := (B1m R nodes E sc).
Notation B2 := (B2m R E T sc).
Notation L1L := (L1Lm R nodes E sc).
Notation L1U := (L1Um R E T sc).

(** ** entries *)
Lemma B1m_entry : proper_edges N E -> forall (i : 'I_N) (k : 'I_M),
  B1 i k = (Z.eqb (nth (Z0, Z0) E k).2 (Z.of_nat i))%:R - (Z.eqb (nth (Z0, Z0) E k).1 (Z.of_nat i))%:R.
Proof.
move=> P i k; rewrite mxE.
have [_ [_ [_ [_ [_ [E1 _]]]]]] := make_sc_Ok _ _ _ _ _ _ H.
have Ek := nth_error_nth (Z0, Z0) (ltn_ord k).
case En: (nth (Z0, Z0) E k) Ek => [u v] Ek /=.
have /ssrnat.ltP Hi := ltn_ord i.
rewrite (B1_entry _ _ _ E1 P i k u v Hi Ek) ZRB.
by congr (_ - _); rewrite /ind; case: (Z.eqb _ _).
Qed.

Lemma size_potential_diff p : size (potential_diff E p) = M.
Proof. by rewrite size_map. Qed.

Lemma B1T_potential : proper_edges N E -> forall p,
  B1^T *m vec N p = vec M (potential_diff E p).
Proof.
move=> P p; apply/colP => k; rewrite !mxE (nth_map (Z0, Z0)) ?ltn_ord //.
under eq_bigr => i _ do rewrite mxE (B1m_entry P) !mxE mulrBl.
have := nth_error_In _ _ (nth_error_nth (Z0, Z0) (ltn_ord k)).
case: (nth _ E k) => u v /= /P; rewrite -/N => -[Hu [Hv _]].
rewrite sumrB.
have pick z : Z.le Z0 z -> Z.lt z (Z.of_nat N) ->
  \sum_(i < N) (Z.eqb z (Z.of_nat i))%:R * p`_i = p`_(Z.to_nat z).
  move=> z0 zN; have Hz : (Z.to_nat z < N)%N by lia.
  rewrite (bigD1 (Ordinal Hz)) //= big1 => [|i /eqP Ni].
    by rewrite addr0 Z2Nat.id // Z.eqb_refl mul1r.
  have -> : Z.eqb z (Z.of_nat i) = false; last by rewrite mul0r.
  apply/negbTE/negP => /Z.eqb_spec Ez; apply: Ni; apply: val_inj => /=; lia.
by rewrite !pick //; lia.
Qed.

Lemma B1_net_inflow : proper_edges N E -> forall f (i : 'I_N), (B1 *m vec M f) i 0 = net_inflow E f i.
Proof.
move=> P f i; rewrite mxE; apply: eq_bigr => k _.
by rewrite (B1m_entry P) mxE.
Qed.

Lemma B2m_entry : simple_edges E -> proper_triangles T -> forall (k : 'I_M) (j : 'I_K),
  B2 k j = ZR R (tri_sign (nth nil T j) (nth (Z0, Z0) E k)).
Proof.
move=> S P k j; rewrite mxE; congr (ZR R).
apply: (B2_entry_sign _ _ _ _ _ _ H S P); exact: nth_error_nth (ltn_ord _).
Qed.

Lemma B2_circulation : simple_edges E -> proper_triangles T -> forall w,
  B2 *m vec K w = vec M (circulation E T w).
Proof.
move=> S P w; apply/colP => k; rewrite !mxE (nth_map (Z0, Z0)) ?ltn_ord //.
by apply: eq_bigr => j _; rewrite (B2m_entry S P) mxE zmulE.
Qed.

Lemma B2T_around : simple_edges E -> proper_triangles T -> forall f (j : 'I_K),
  (B2^T *m vec M f) j 0 = around E (nth nil T j) f.
Proof.
move=> S P f j; rewrite mxE; apply: eq_bigr => k _.
by rewrite mxE (B2m_entry S P) mxE zmulE.
Qed.

Lemma B2T_stored : forall f (j : 'I_K) a b c ka kb kc, nth nil T j = [:: a; b; c] ->
  a <> b -> b <> c -> a <> c ->
  stored_at E a b ka -> stored_at E b c kb -> stored_at E a c kc ->
  (B2^T *m vec M f) j 0 = f`_ka + f`_kb - f`_kc.
Proof.
move=> f j a b c ka kb kc Et Nab Nbc Nac Ha Hb Hc.
have [N1 [N2 N3]] := three_positions _ _ _ _ _ _ _ Nab Nbc Nac Ha Hb Hc.
have [_ [_ S]] := sc_B2_spec _ _ _ _ _ _ H.
have Hj : nth_error T j = Some [:: a; b; c] by rewrite -Et; exact: nth_error_nth (ltn_ord _).
have [Qa Qb Qc] : [/\ (ka < M)%N, (kb < M)%N & (kc < M)%N].
  by split; apply/ssrnat.ltP; [exact: (stored_at_lt _ _ _ _ Ha)|exact: (stored_at_lt _ _ _ _ Hb)|exact: (stored_at_lt _ _ _ _ Hc)].
have X : forall k, at2 (sc_B2 sc) k j =
     if Nat.eqb k kb then (Zpos xH) else if Nat.eqb k kc then Zneg xH else if Nat.eqb k ka then Zpos xH else Z0.
  by move=> k; rewrite (S k j _ Hj); apply: (B2_col_st E).
rewrite mxE (bigD1 (Ordinal Qa)) //= (bigD1 (Ordinal Qb)) /=; last first.
  by apply/eqP => -[]; lia.
rewrite (bigD1 (Ordinal Qc)) /=; last first.
  by apply/andP; split; apply/eqP => -[]; lia.
rewrite big1 ?addr0 => [|i /andP [/andP [/eqP A /eqP B] /eqP C]].
  rewrite !mxE /= !X.
  have -> : Nat.eqb ka kb = false by lia.
  have -> : Nat.eqb ka kc = false by lia.
  have -> : Nat.eqb kc kb = false by lia.
  by rewrite !Nat.eqb_refl !mul1r mulN1r addrA.
rewrite !mxE X.
have -> : Nat.eqb i kb = false by apply/negbTE/negP => /Nat.eqb_spec Q; apply: B; exact: val_inj.
have -> : Nat.eqb i kc = false by apply/negbTE/negP => /Nat.eqb_spec Q; apply: C; exact: val_inj.
have -> : Nat.eqb i ka = false by apply/negbTE/negP => /Nat.eqb_spec Q; apply: A; exact: val_inj.
by rewrite mul0r.
Qed.

(** ** operations *)
Lemma lower_shift_Ok f s : size f = M -> apply_lower_shifting sc f s =
  Ok (unvec (if Z.eqb s (Zpos xH) then L1L *m vec M f else L1L *m (L1L *m vec M f))).
Proof.
move=> sf; rewrite /apply_lower_shifting /=.
case: ifP => _; first exact: (mdot_L1L H).
rewrite -/(mdot (Csr _) _) (mdot_L1L H) //= -/(mdot (Csr _) _) (mdot_L1L H) ?unvecK //.
by rewrite size_unvec.
Qed.

Lemma upper_shift_Ok f s : size f = M -> apply_upper_shifting sc f s =
  Ok (unvec (if Z.eqb s (Zpos xH) then L1U *m vec M f else L1U *m (L1U *m vec M f))).
Proof.
move=> sf; rewrite /apply_upper_shifting /=.
case: ifP => _; first exact: (mdot_L1U H).
rewrite -/(mdot (Csr _) _) (mdot_L1U H) //= -/(mdot (Csr _) _) (mdot_L1U H) ?unvecK //.
by rewrite size_unvec.
Qed.

Lemma k_shift_Ok f s : size f = M -> apply_k_step_shifting sc f s =
  Ok (unvec (if Z.eqb s (Zpos xH) then (L1L + L1U) *m vec M f
             else L1L *m (L1L *m vec M f) + L1U *m (L1U *m vec M f))).
Proof.
move=> sf; rewrite /apply_k_step_shifting lower_shift_Ok // upper_shift_Ok //=.
by case: ifP => _; rewrite np_add_unvec // mulmxDl.
Qed.

Lemma lower_shift_Raise f s : size f <> M -> apply_lower_shifting sc f s = Raise ValueError.
Proof.
have [_ h1] := B1_dims H; move=> sf; rewrite /apply_lower_shifting /=.
by rewrite !arr_dot_Raise //=; [case: ifP|rewrite -h1].
Qed.
Lemma upper_shift_Raise f s : size f <> M -> apply_upper_shifting sc f s = Raise ValueError.
Proof.
have [h1 _] := B2_dims H; move=> sf; rewrite /apply_upper_shifting /=.
by rewrite !arr_dot_Raise //=; [case: ifP|rewrite -h1].
Qed.

Lemma divergence_Ok f : size f = M -> get_divergence sc f = Ok (unvec (B1 *m vec M f)).
Proof. by move=> sf; exact: (arr_dot_B1 H). Qed.
Lemma curl_Ok f : size f = M -> get_curl sc f = Ok (unvec (B2^T *m vec M f)).
Proof. by move=> sf; exact: (arr_dot_B2T H). Qed.

(** ** Hodge components *)
Variable lstsq : forall m n, 'M[R]_(m, n) -> 'cV[R]_m -> 'cV[R]_n.
Hypothesis LS : lstsq_contract lstsq.
Variable rint : R -> int.

Lemma contract_is_ls m n (A : 'M[R]_(m, n)) b : is_ls A b (lstsq A b).
Proof. by apply: ls_min_normal => y; exact: LS. Qed.

Definition Gm : 'M[R]_M := proj B1^T.
Definition Cm : 'M[R]_M := proj B2.
Definition Hm : 'M[R]_M := 1%:M - Gm - Cm.

Definition maybe_round (rf : bool) (d : int) (x : seq R) := if rf then np_round rint x d else x.

Lemma gradient_Ok f rf d : size f = M ->
  get_gradient_flow lstsq rint (sc_B1 sc) f rf d = Ok (maybe_round rf d (unvec (Gm *m vec M f))).
Proof.
have [h0 h1] := B1_dims H; move=> sf; rewrite /get_gradient_flow /np_lstsq /= -h0 -h1 sf eqxx /=.
rewrite (arr_dot_B1T H) ?size_unvec // unvecK toM_atr /= (is_ls_proj (contract_is_ls _ _)) //.
Qed.

Lemma curl_flow_Ok f rf d : size f = M ->
  get_curl_flow lstsq rint (sc_B2 sc) f rf d = Ok (maybe_round rf d (unvec (Cm *m vec M f))).
Proof.
have [h0 h1] := B2_dims H; move=> sf; rewrite /get_curl_flow /np_lstsq /= -h0 -h1 sf eqxx /=.
by rewrite (arr_dot_B2 H) ?size_unvec // unvecK /= (is_ls_proj (contract_is_ls _ _)).
Qed.

Lemma harmonic_Ok f rf d : size f = M ->
  get_harmonic_flow lstsq rint (sc_B1 sc) (sc_B2 sc) f rf d =
  Ok (maybe_round rf d (unvec (Hm *m vec M f))).
Proof.
move=> sf; rewrite /get_harmonic_flow gradient_Ok // curl_flow_Ok //=.
rewrite -{1}(vecK sf) np_sub_unvec /= np_sub_unvec /=.
by rewrite !mulmxBl mul1mx.
Qed.

Lemma gradient_Raise f rf d : size f <> M ->
  get_gradient_flow lstsq rint (sc_B1 sc) f rf d = Raise LinAlgError.
Proof.
have [h0 h1] := B1_dims H; move=> sf; rewrite /get_gradient_flow /np_lstsq /= -h1.
by case: eqP.
Qed.
Lemma curl_flow_Raise f rf d : size f <> M ->
  get_curl_flow lstsq rint (sc_B2 sc) f rf d = Raise LinAlgError.
Proof.
have [h0 h1] := B2_dims H; move=> sf; rewrite /get_curl_flow /np_lstsq /= -h0.
by case: eqP.
Qed.
Lemma harmonic_Raise f rf d : size f <> M ->
  get_harmonic_flow lstsq rint (sc_B1 sc) (sc_B2 sc) f rf d = Raise LinAlgError.
Proof. by move=> sf; rewrite /get_harmonic_flow gradient_Raise. Qed.

Section Orth.
Hypothesis O : B1 *m B2 = 0.

Lemma GC0 : Gm *m Cm = 0.
Proof. by apply: proj_orth; rewrite trmxK. Qed.
Lemma CG0 : Cm *m Gm = 0.
Proof. by apply: proj_orth; rewrite -trmx_mul O trmx0. Qed.
Lemma GH0 : Gm *m Hm = 0.
Proof. by rewrite !mulmxBr mulmx1 GC0 subr0 proj_idem subrr. Qed.
Lemma CH0 : Cm *m Hm = 0.
Proof. by rewrite !mulmxBr mulmx1 CG0 subr0 proj_idem subrr. Qed.
Lemma HG0 : Hm *m Gm = 0.
Proof. by rewrite !mulmxBl mul1mx CG0 subr0 proj_idem subrr. Qed.
Lemma HC0 : Hm *m Cm = 0.
Proof. by rewrite !mulmxBl mul1mx GC0 subr0 proj_idem subrr. Qed.
Lemma HH : Hm *m Hm = Hm.
Proof. by rewrite {1}/Hm !mulmxBl mul1mx GH0 CH0 !subr0. Qed.
Lemma Hm_sym : Hm^T = Hm.
Proof. by rewrite /Hm !raddfB /= trmx1 !proj_sym. Qed.
Lemma B1H0 : B1 *m Hm = 0.
Proof.
apply: mx_ext => v; rewrite mul0mx -mulmxA.
have := @proj_perp_iff _ _ _ B1^T (Hm *m v); rewrite trmxK; apply.
by rewrite mulmxA -/Gm GH0 mul0mx.
Qed.
Lemma B2H0 : B2^T *m Hm = 0.
Proof.
apply: mx_ext => v; rewrite mul0mx -mulmxA.
apply: proj_perp_iff.
by rewrite mulmxA -/Cm CH0 mul0mx.
Qed.

(** symmetric A with A B = 0: images are orthogonal *)
Lemma sym_orth (A B : 'M[R]_M) u v : A^T = A -> A *m B = 0 -> dot (A *m u) (B *m v) = 0.
Proof. by move=> S AB; rewrite dot_mulmx S mulmxA AB mul0mx dot0r. Qed.

Lemma H_closest v z : B1 *m z = 0 -> B2^T *m z = 0 -> nrm2 (v - Hm *m v) <= nrm2 (v - z).
Proof.
move=> z1 z2.
have -> : v - z = (v - Hm *m v) + (Hm *m v - z) by rewrite addrA subrK.
rewrite [X in _ <= X]nrm2D.
have -> : v - Hm *m v = Gm *m v + Cm *m v.
  have E0 : Hm *m v = v - (Gm *m v + Cm *m v) by rewrite /Hm !mulmxBl mul1mx opprD addrA.
  by rewrite E0 subKr.
rewrite (_ : dot _ (_ - z) = 0) ?mulr0 ?addr0 ?ler_addl ?nrm2_ge0 //.
have Hz : Hm *m z = z.
  rewrite /Hm !mulmxBl mul1mx /Gm /Cm !proj_perp ?trmxK // !subr0 //.
rewrite -[X in _ - X]Hz -mulmxBr dotDl !sym_orth ?proj_sym ?addr0 ?GH0 ?CH0 //.
Qed.
End Orth.

End Cx.
End Facts.
