(** * Rank of the incidence matrix and connected components *)

From Coq Require Import ZArith List Lia.
From mathcomp Require Import all_ssreflect all_algebra ssrZ zify.
From Verif Require Import Py PyFacts Complex ComplexSpec ComplexFacts TopologySpec
  LinAlg Signal SignalSpec Bridge SignalFacts Spectral.

Set Implicit Arguments.
Unset Strict Implicit.
Unset Printing Implicit Defensive.

Import GRing.Theory Num.Theory Order.Theory.
Local Open Scope ring_scope.
Delimit Scope Z_scope with zz.

Section Ranks.
Variable R : realFieldType.

Lemma rank_proj m n (A : 'M[R]_(m, n)) : \rank (proj A) = \rank A.
Proof.
apply/eqP; rewrite eqn_leq; apply/andP; split.
  by rewrite /proj; apply: mxrankM_maxl.
by rewrite -{1}(projA A); apply: mxrankM_maxl.
Qed.

Lemma rank_outer n (l : seq 'cV[R]_n) : onf l -> \rank (outer l) = size l.
Proof.
move=> o; rewrite -outer_rows rank_gram.
by apply/eqP/row_freeP; exists (rows_of l)^T; exact: rows_of_onf.
Qed.

Lemma vec_mkseq n (F : nat -> R) : vec n (mkseq F n) = \col_(i < n) F i.
Proof. by apply/colP => i; rewrite !mxE nth_mkseq. Qed.

Section Cx.
Variables (nodes : list Z) (E : list (Z * Z)) (T : list (list Z)) (nf : dict Z fdict)
          (ef : dict (Z * Z) fdict) (sc : SC).
Hypothesis H : make_sc nodes E T nf ef = Ok sc.
Hypothesis P : proper_edges (length nodes) E.
Let N := length nodes.
Let M := length E.
Notation B1 := (B1m R nodes E sc).

(** Potentials without differences are constant on components. *)
Lemma kernel_connected (p : seq R) : B1^T *m vec N p = 0 ->
  forall u v, connected E u v -> p`_(Z.to_nat u) = p`_(Z.to_nat v).
Proof.
rewrite (B1T_potential H P) => Q u v; elim=> {u v} // u v w L _ <-.
have D e : List.In e E -> p`_(Z.to_nat e.2) = p`_(Z.to_nat e.1).
  move=> /(In_nth_error E) [k Ek]; have kM := nth_error_lt Ek.
  have := congr1 (fun x : 'cV[R]_M => x (Ordinal kM) 0) Q.
  rewrite !mxE (nth_map (Z0, Z0)) //= (nth_error_nthE (Z0, Z0) Ek) => /eqP.
  by rewrite subr_eq0 => /eqP.
by case: L => /D.
Qed.

Section Lab.
Variables (lab : nat -> nat) (k : nat).
Hypothesis C : components N E lab k.

Let L : 'M[R]_(k, N) := \matrix_(c, i) (lab i == c :> nat)%:R.

Lemma lab_rep (c : 'I_k) : {i : 'I_N | lab i = c}.
Proof.
case: (pickP (fun i : 'I_N => lab i == c :> nat)) => [i /eqP|Q]; first by exists i.
exfalso; case: C => _ [S _]; case: (S c); first by apply/ssrnat.ltP.
by move=> i [/ssrnat.ltP iN li]; have := Q (Ordinal iN); rewrite /= li eqxx.
Qed.

Lemma L_free : row_free L.
Proof.
apply/row_freeP; exists (\matrix_(i, c) (i == sval (lab_rep c))%:R).
apply/matrixP => c d; rewrite !mxE (bigD1 (sval (lab_rep d))) //= big1 ?addr0 => [|i /negbTE ne].
  by rewrite !mxE eqxx mulr1; case: (lab_rep d) => i /= ->; rewrite eq_sym.
by rewrite !mxE ne mulr0.
Qed.

Lemma L_kernel : L *m B1 = 0.
Proof.
apply/row_matrixP => c; rewrite row_mul row0.
apply: trmx_inj; rewrite trmx_mul trmx0.
have -> : (row c L)^T = vec N (mkseq (fun i => (lab i == c :> nat)%:R) N).
  by rewrite vec_mkseq; apply/colP => i; rewrite !mxE.
rewrite (B1T_potential H P); apply/colP => e; rewrite !mxE (nth_map (Z0, Z0)) ?ltn_ord //.
have Ie := nth_error_In _ _ (nth_error_nth (Z0, Z0) (ltn_ord e)).
case: (nth _ E e) Ie => u v Ie /=; have [Hu [Hv _]] := P Ie.
case: C => _ [_ S]; have [uN vN] : (Z.to_nat u < N)%coq_nat /\ (Z.to_nat v < N)%coq_nat.
  by rewrite /N; split; lia.
rewrite !nth_mkseq; try exact/ssrnat.ltP.
have -> : lab (Z.to_nat v) = lab (Z.to_nat u).
  apply/S => //; rewrite !Z2Nat.id; try lia.
  by apply: (@conn_step _ _ u); [right|constructor].
by rewrite subrr.
Qed.

Lemma kernel_L (x : 'rV[R]_N) : x *m B1 = 0 -> (x <= L)%MS.
Proof.
move=> xB; apply/submxP; exists (\row_c x 0 (sval (lab_rep c))).
have Q : B1^T *m vec N (unvec x^T) = 0 by rewrite unvecK -trmx_mul xB trmx0.
apply/rowP => i; rewrite mxE.
have li : (lab i < k)%N by apply/ssrnat.ltP; case: C => S _; apply: S; apply/ssrnat.ltP.
rewrite (bigD1 (Ordinal li)) //= big1 ?addr0 => [|c /eqP ne]; last first.
  by rewrite !mxE; case: eqP => [e|_]; rewrite ?mulr0 //; case: ne; apply: val_inj.
rewrite !mxE eqxx mulr1; case: (lab_rep _) => j /= lj.
case: C => _ [_ S].
have /(kernel_connected Q) : connected E (Z.of_nat i) (Z.of_nat j).
  by apply/S => //; apply/ssrnat.ltP.
rewrite !Nat2Z.id (nth_unvec _ i) (nth_unvec _ j) !mxE.
by [].
Qed.

Lemma rank_components : (\rank B1 + k = N)%N.
Proof.
have E1 : (kermx B1 == L)%MS.
  apply/andP; split; last by apply/sub_kermxP; exact: L_kernel.
  apply/row_subP => i; apply: kernel_L.
  by rewrite -row_mul mulmx_ker row0.
have := mxrank_ker B1; rewrite (eqmx_rank E1).
have := L_free; rewrite /row_free => /eqP -> ->.
have := rank_leq_row B1; lia.
Qed.
End Lab.
End Cx.
End Ranks.

(** ** Numbering of the components *)
Section Exists.
Variables (N : nat) (E : list (Z * Z)).
Hypothesis P : proper_edges N E.

Definition joined (i j : 'I_N) : bool :=
  py_in pair_eqb (Z.of_nat i, Z.of_nat j) E || py_in pair_eqb (Z.of_nat j, Z.of_nat i) E.

Lemma joinedP (i j : 'I_N) : reflect (linked E (Z.of_nat i) (Z.of_nat j)) (joined i j).
Proof.
rewrite /joined; apply: (iffP orP) => -[] Q; [left|right|left|right].
- by apply/(py_in_iff pair_eqb pair_eqb_spec).
- by apply/(py_in_iff pair_eqb pair_eqb_spec).
- by apply/(py_in_iff pair_eqb pair_eqb_spec).
by apply/(py_in_iff pair_eqb pair_eqb_spec).
Qed.

Lemma joined_sym : connect_sym joined.
Proof. by apply: sym_connect_sym => i j; rewrite /joined orbC. Qed.

Lemma connectE (i j : 'I_N) : connect joined i j <-> connected E (Z.of_nat i) (Z.of_nat j).
Proof.
split.
  case/connectP => p; elim: p i => [|x p IH] i /=; first by move=> _ ->; constructor.
  by case/andP => /joinedP ij pth e; apply: conn_step ij _; exact: IH.
move: {-1}(Z.of_nat i) (erefl (Z.of_nat i)) {-1}(Z.of_nat j) (erefl (Z.of_nat j)) => u Eu v Ev Q.
elim: Q i j Eu Ev => {u v} [u|u v w L _ IH] i j Eu Ev.
  by have -> : i = j by apply: val_inj => /=; lia.
have vN : (Z.to_nat v < N)%N /\ Z.of_nat (Z.to_nat v) = v.
  by case: L => /P [? [? ?]]; (split; first apply/ssrnat.ltP); lia.
case: vN => vN Ev'; apply: (connect_trans (y := Ordinal vN)); last exact: IH.
by apply: connect1; apply/joinedP; rewrite /= Ev' Eu.
Qed.

Lemma components_exist : exists lab k, components N E lab k.
Proof.
case: (posnP N) => [N0|N0].
  by exists id, 0%N; rewrite /components N0; split; [|split]; move=> *; lia.
pose rs := enum (roots joined).
pose o i : 'I_N := insubd (Ordinal N0) i.
have oK i : (i < N)%N -> val (o i) = i by move=> iN; rewrite /o insubdK.
exists (fun i => index (fingraph.root joined (o i)) rs), (size rs); split; [|split].
- by move=> i _; apply/ssrnat.ltP; rewrite index_mem mem_enum; apply: roots_root; exact: joined_sym.
- move=> c /ssrnat.ltP cs; pose r := nth (Ordinal N0) rs c.
  have rr : r \in rs by exact: mem_nth.
  exists (val r); split; first by apply/ssrnat.ltP; exact: ltn_ord.
  have -> : o (val r) = r by apply: val_inj; rewrite oK ?ltn_ord.
  have -> : fingraph.root joined r = r by move: rr; rewrite mem_enum => /eqP.
  by rewrite index_uniq ?enum_uniq.
move=> i j /ssrnat.ltP iN /ssrnat.ltP jN.
have mem x : fingraph.root joined x \in rs by rewrite mem_enum; apply: roots_root; exact: joined_sym.
have := connectE (o i) (o j); rewrite !oK // => <-.
rewrite -(root_connect joined_sym); split=> [e|/eqP -> //].
by rewrite -(nth_index (Ordinal N0) (mem (o i))) -(nth_index (Ordinal N0) (mem (o j))) e.
Qed.

(** The number of components does not depend on the numbering. *)
Lemma components_unique lab k lab' k' : components N E lab k -> components N E lab' k' -> k = k'.
Proof.
suff le lab1 k1 lab2 k2 : components N E lab1 k1 -> components N E lab2 k2 -> (k1 <= k2)%N.
  by move=> C C'; apply/eqP; rewrite eqn_leq (le _ _ _ _ C C') (le _ _ _ _ C' C).
case=> _ [S1 Q1] [L2 [_ Q2]].
have pick1 (c : 'I_k1) : {i : 'I_N | lab1 i = c}.
  case: (pickP (fun i : 'I_N => lab1 i == c :> nat)) => [i /eqP|Q]; first by exists i.
  exfalso; case: (S1 c); first by apply/ssrnat.ltP.
  by move=> i [/ssrnat.ltP iN li]; have := Q (Ordinal iN); rewrite /= li eqxx.
have lt2 (c : 'I_k1) : (lab2 (val (sval (pick1 c))) < k2)%N.
  by apply/ssrnat.ltP; apply: L2; apply/ssrnat.ltP; exact: ltn_ord.
have inj : injective (fun c : 'I_k1 => Ordinal (lt2 c)).
  move=> c d /(congr1 val) /= e; apply: val_inj.
  have [/ssrnat.ltP a /ssrnat.ltP b] := (ltn_ord (sval (pick1 c)), ltn_ord (sval (pick1 d))).
  have /(Q1 _ _ a b) : connected E (Z.of_nat (sval (pick1 c))) (Z.of_nat (sval (pick1 d))).
    by apply/Q2.
  by rewrite (svalP (pick1 c)) (svalP (pick1 d)).
by have := leq_card _ inj; rewrite !card_ord.
Qed.
End Exists.
