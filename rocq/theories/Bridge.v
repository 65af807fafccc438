(** * From integer arrays and lists to matrices (lemmas) *)

From Coq Require Import ZArith String List.
From mathcomp Require Import all_ssreflect all_algebra ssrZ zify.
From Verif Require Import Py PyFacts Complex ComplexSpec ComplexFacts ComplexFacts2 LinAlg Signal SignalSpec.

Set Implicit Arguments.
Unset Strict Implicit.
Unset Printing Implicit Defensive.

Import GRing.Theory Num.Theory Order.Theory.
Local Open Scope ring_scope.

Section Bridge.
Variable R : realFieldType.
Notation ZR := (ZR R).
Notation toM := (toM R).
Implicit Types (x y : seq R).

Lemma ZR0 : ZR Z0 = 0. Proof. by []. Qed.
Lemma ZR1 : ZR (Zpos xH) = 1. Proof. by []. Qed.
Lemma ZRD a b : ZR (Z.add a b) = ZR a + ZR b.
Proof. by rewrite /Signal.ZR -rmorphD /=; congr (_%:~R); lia. Qed.
Lemma ZRN a : ZR (Z.opp a) = - ZR a.
Proof. by rewrite /Signal.ZR -rmorphN /=; congr (_%:~R); lia. Qed.
Lemma ZRB a b : ZR (Z.sub a b) = ZR a - ZR b.
Proof. by rewrite -Z.add_opp_r ZRD ZRN. Qed.
Lemma ZRM a b : ZR (Z.mul a b) = ZR a * ZR b.
Proof. by rewrite /Signal.ZR -intrM; congr (_%:~R); lia. Qed.
Lemma ZR_inj a b : ZR a = ZR b -> a = b.
Proof. by move/eqP; rewrite /Signal.ZR eqr_int => /eqP; lia. Qed.
Lemma ZR_eq0 a : (ZR a == 0) = Z.eqb a Z0.
Proof.
apply/eqP/idP => [/(@ZR_inj a Z0) ->|/Z.eqb_spec ->] //.
Qed.
Lemma zmulE z (a : R) : zmul z a = ZR z * a.
Proof. by rewrite /zmul /Signal.ZR mulrzl. Qed.

Lemma zsumE n f : ZR (zsum n f) = \sum_(i < n) ZR (f i).
Proof.
elim: n => [|n IH]; first by rewrite big_ord0.
by rewrite big_ord_recr /= ZRD IH.
Qed.

Lemma toM_amul n m p (A B : arr2) : m = sh1 A -> toM n p (amul A B) = toM n m A *m toM m p B.
Proof.
move=> ->; apply/matrixP => i j; rewrite !mxE /= zsumE.
by apply: eq_bigr => k _; rewrite !mxE ZRM.
Qed.
Lemma toM_atr n m (A : arr2) : toM n m (atr A) = (toM m n A)^T.
Proof. by apply/matrixP => i j; rewrite !mxE. Qed.
Lemma toM_aadd n m (A B : arr2) : toM n m (aadd A B) = toM n m A + toM n m B.
Proof. by apply/matrixP => i j; rewrite !mxE /= ZRD. Qed.

(** ** vectors *)
Lemma size_unvec n (v : 'cV[R]_n) : size (unvec v) = n.
Proof. by rewrite size_map size_enum_ord. Qed.
Lemma nth_unvec n (v : 'cV[R]_n) (i : 'I_n) : (unvec v)`_i = v i 0.
Proof. by rewrite (nth_map i) ?size_enum_ord // nth_ord_enum. Qed.
Lemma unvecK n (v : 'cV[R]_n) : vec n (unvec v) = v.
Proof. by apply/colP => i; rewrite mxE nth_unvec. Qed.
Lemma vecK n x : size x = n -> unvec (vec n x) = x.
Proof.
move=> sx; apply: (@eq_from_nth _ 0); rewrite size_unvec // => i Hi.
by rewrite -[i]/(nat_of_ord (Ordinal Hi)) nth_unvec mxE.
Qed.
Lemma unvec_inj n (u v : 'cV[R]_n) : unvec u = unvec v -> u = v.
Proof. by move=> H; rewrite -(unvecK u) H unvecK. Qed.
Lemma vec_inj n x y : size x = n -> size y = n -> vec n x = vec n y -> x = y.
Proof. by move=> sx sy H; rewrite -(vecK sx) H vecK. Qed.

Lemma vecP n x y : size x = n -> size y = n -> (forall i, (i < n)%N -> x`_i = y`_i) -> x = y.
Proof. by move=> sx sy H; apply: (@eq_from_nth _ 0); rewrite sx ?sy. Qed.

Lemma arr_dot_Ok (A : arr2) x n m :
  n = sh0 A -> m = sh1 A -> size x = m -> arr_dot A x = Ok (unvec (toM n m A *m vec m x)).
Proof.
move=> -> -> sx; rewrite /arr_dot sx eqxx; congr Ok.
apply: (@vecP (sh0 A)); rewrite ?size_mkseq ?size_unvec // => i Hi.
rewrite nth_mkseq // -[i in RHS]/(nat_of_ord (Ordinal Hi)) nth_unvec mxE.
by apply: eq_bigr => j _; rewrite !mxE.
Qed.
Lemma arr_dot_Raise (A : arr2) x : size x <> sh1 A -> arr_dot A x = Raise ValueError.
Proof. by move=> H; rewrite /arr_dot; case: eqP. Qed.

Lemma np_zip_unvec op n (u v : 'cV[R]_n) :
  np_zip op (unvec u) (unvec v) = Ok (unvec (\col_i op (u i 0) (v i 0))).
Proof.
rewrite /np_zip !size_unvec eqxx; congr Ok.
apply: (@vecP n); rewrite ?size_unvec // ?size_map ?size_zip ?size_unvec ?minnn // => i Hi.
rewrite (nth_map (0,0)) ?size_zip ?size_unvec ?minnn // nth_zip ?size_unvec //=.
by rewrite -[i]/(nat_of_ord (Ordinal Hi)) !nth_unvec mxE.
Qed.
Lemma np_add_unvec n (u v : 'cV[R]_n) : np_add (unvec u) (unvec v) = Ok (unvec (u + v)).
Proof. by rewrite /np_add np_zip_unvec; congr (Ok (unvec _)); apply/colP => i; rewrite !mxE. Qed.
Lemma np_sub_unvec n (u v : 'cV[R]_n) : np_sub (unvec u) (unvec v) = Ok (unvec (u - v)).
Proof. by rewrite /np_sub np_zip_unvec; congr (Ok (unvec _)); apply/colP => i; rewrite !mxE. Qed.

Lemma addf_unvec n (u v : 'cV[R]_n) : addf (unvec u) (unvec v) = unvec (u + v).
Proof.
apply: (@vecP n); rewrite ?size_mkseq ?size_unvec // => i Hi.
by rewrite nth_mkseq ?size_unvec // -[i]/(nat_of_ord (Ordinal Hi)) !nth_unvec mxE.
Qed.
Lemma scalef_unvec n a (u : 'cV[R]_n) : scalef a (unvec u) = unvec (a *: u).
Proof. by rewrite /scalef /unvec -map_comp; apply: eq_map => i /=; rewrite mxE. Qed.
Lemma zerof_unvec n : zerof R n = unvec (0 : 'cV[R]_n).
Proof.
apply: (@vecP n); rewrite ?size_nseq ?size_unvec // => i Hi.
by rewrite nth_nseq Hi -[i]/(nat_of_ord (Ordinal Hi)) nth_unvec mxE.
Qed.
Lemma dotp_unvec n (u v : 'cV[R]_n) : dotp (unvec u) (unvec v) = dot u v.
Proof. by rewrite /dotp size_unvec; apply: eq_bigr => i _; rewrite !nth_unvec. Qed.
Lemma energy_unvec n (u : 'cV[R]_n) : energy (unvec u) = nrm2 u.
Proof. exact: dotp_unvec. Qed.

Lemma size_addf x y : size (addf x y) = size x. Proof. exact: size_mkseq. Qed.
Lemma size_scalef a x : size (scalef a x) = size x. Proof. exact: size_map. Qed.
Lemma vec_addf n x y : size x = n -> size y = n -> vec n (addf x y) = vec n x + vec n y.
Proof. by move=> sx sy; apply: unvec_inj; rewrite -addf_unvec !vecK // size_addf. Qed.
Lemma vec_scalef n a x : size x = n -> vec n (scalef a x) = a *: vec n x.
Proof. by move=> sx; apply: unvec_inj; rewrite -scalef_unvec !vecK // size_scalef. Qed.

(** ** complexes *)
Section Cx.
Variables (nodes : list Z) (E : list (Z * Z)) (T : list (list Z)) (nf : dict Z fdict)
          (ef : dict (Z * Z) fdict) (sc : SC).
Hypothesis H : make_sc nodes E T nf ef = Ok sc.
Let N := length nodes.
Let M := length E.
Let K := length T.

Lemma B1_dims : N = sh0 (sc_B1 sc) /\ M = sh1 (sc_B1 sc).
Proof. by have [-> [-> _]] := sc_B1_spec _ _ _ _ _ _ H. Qed.
Lemma B2_dims : M = sh0 (sc_B2 sc) /\ K = sh1 (sc_B2 sc).
Proof. by have [-> [-> _]] := sc_B2_spec _ _ _ _ _ _ H. Qed.

Definition B1m := toM N M (sc_B1 sc).
Definition B2m := toM M K (sc_B2 sc).

Lemma arr_dot_B1 x : size x = M -> arr_dot (sc_B1 sc) x = Ok (unvec (B1m *m vec M x)).
Proof. by have [h0 h1] := B1_dims; move=> sx; exact: arr_dot_Ok. Qed.
Lemma arr_dot_B1T x : size x = N -> arr_dot (atr (sc_B1 sc)) x = Ok (unvec (B1m^T *m vec N x)).
Proof.
have [h0 h1] := B1_dims; move=> sx; rewrite (@arr_dot_Ok _ _ M N) //.
by rewrite toM_atr.
Qed.
Lemma arr_dot_B2 x : size x = K -> arr_dot (sc_B2 sc) x = Ok (unvec (B2m *m vec K x)).
Proof. by have [h0 h1] := B2_dims; move=> sx; exact: arr_dot_Ok. Qed.
Lemma arr_dot_B2T x : size x = M -> arr_dot (atr (sc_B2 sc)) x = Ok (unvec (B2m^T *m vec M x)).
Proof.
have [h0 h1] := B2_dims; move=> sx; rewrite (@arr_dot_Ok _ _ K M) //.
by rewrite toM_atr.
Qed.

Definition L0m := B1m *m B1m^T.
Definition L1Lm := B1m^T *m B1m.
Definition L1Um := B2m *m B2m^T.
Definition L2m := B2m^T *m B2m.

Lemma toM_L0 : toM N N (amul (sc_B1 sc) (atr (sc_B1 sc))) = L0m.
Proof. by have [h0 h1] := B1_dims; rewrite (@toM_amul _ M) // toM_atr. Qed.
Lemma toM_L1L : toM M M (amul (atr (sc_B1 sc)) (sc_B1 sc)) = L1Lm.
Proof. by have [h0 h1] := B1_dims; rewrite (@toM_amul _ N) // toM_atr. Qed.
Lemma toM_L1U : toM M M (amul (sc_B2 sc) (atr (sc_B2 sc))) = L1Um.
Proof. by have [h0 h1] := B2_dims; rewrite (@toM_amul _ K) // toM_atr. Qed.
Lemma toM_L2 : toM K K (amul (atr (sc_B2 sc)) (sc_B2 sc)) = L2m.
Proof. by have [h0 h1] := B2_dims; rewrite (@toM_amul _ M) // toM_atr. Qed.

Lemma mdot_L1L x : size x = M ->
  mdot (Csr (amul (atr (sc_B1 sc)) (sc_B1 sc))) x = Ok (unvec (L1Lm *m vec M x)).
Proof.
have [h0 h1] := B1_dims; move=> sx; rewrite /mdot (@arr_dot_Ok _ _ M M) //.
by rewrite toM_L1L.
Qed.
Lemma mdot_L1U x : size x = M ->
  mdot (Csr (amul (sc_B2 sc) (atr (sc_B2 sc)))) x = Ok (unvec (L1Um *m vec M x)).
Proof.
have [h0 h1] := B2_dims; move=> sx; rewrite /mdot (@arr_dot_Ok _ _ M M) //.
by rewrite toM_L1U.
Qed.

Lemma oriented_B1B2 : oriented N E T -> B1m *m B2m = 0.
Proof.
move=> [P [PT C]]; have [h0 h1] := B1_dims; have [h2 h3] := B2_dims.
rewrite -(@toM_amul _ M) //; apply/matrixP => i j; rewrite !mxE.
have [_ [_ [_ [_ [_ [E1 [E2 [_ G]]]]]]]] := make_sc_Ok _ _ _ _ _ _ H.
case Ej: (nth_error T j) => [t|]; last first.
  by have := proj1 (nth_error_None T j) Ej; have := ltn_ord j; rewrite /K; lia.
have Ht := nth_error_In _ _ Ej.
have [a [b [c [Et _]]]] := G t Ht; subst t.
have [Nab [Nbc Nac]] := PT a b c Ht.
rewrite (proj2 (boundary_column _ _ _ _ _ E1 E2 P j a b c Nab Nbc Nac Ej) (C _ Ht) i) ?ZR0 //.
by have /ssrnat.ltP := ltn_ord i.
Qed.

Lemma B1B2_oriented : proper_edges N E -> proper_triangles T -> B1m *m B2m = 0 ->
  forall t, List.In t T -> coherent E t.
Proof.
move=> P PT Z0 t Ht; have [h0 h1] := B1_dims; have [h2 h3] := B2_dims.
have [_ [_ [_ [_ [_ [E1 [E2 [_ G]]]]]]]] := make_sc_Ok _ _ _ _ _ _ H.
have [a [b [c [Et _]]]] := G t Ht; subst t.
have [Nab [Nbc Nac]] := PT a b c Ht.
have [j Hj] := In_nth_error _ _ Ht.
apply: (proj1 (boundary_column _ _ _ _ _ E1 E2 P j a b c Nab Nbc Nac Hj)) => i Hi.
have Hi' : (i < N)%N by rewrite /N; lia.
have Hj' : (j < K)%N.
  have : (j < length T)%coq_nat by apply/nth_error_Some; rewrite Hj.
  by rewrite /K; lia.
have := congr1 (fun A : 'M_(N,K) => A (Ordinal Hi') (Ordinal Hj')) Z0.
rewrite -(@toM_amul _ M) // !mxE -ZR0; exact: ZR_inj.
Qed.

End Cx.
End Bridge.
