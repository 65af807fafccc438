(** * A lower bound for the positive eigenvalues of the lower Laplacian *)

From Coq Require Import ZArith List Lia Ring Field.
From mathcomp Require Import all_ssreflect all_algebra ssrZ zify.
From Verif Require Import Py PyFacts Complex ComplexSpec ComplexFacts TopologySpec
  LinAlg Signal SignalSpec Bridge SignalFacts Spectral TopologyFacts RingTac.

Set Implicit Arguments.
Unset Strict Implicit.
Unset Printing Implicit Defensive.

Import GRing.Theory Num.Theory Order.Theory.
Local Open Scope ring_scope.
Delimit Scope Z_scope with zz.

Section Gap.
Variable R : realFieldType.
Add Field R_fieldG : (mc_field R).

Lemma sum_sub (A : eqType) (s l : seq A) (F : A -> R) : uniq s -> {subset s <= l} -> (forall x, 0 <= F x) ->
  \sum_(x <- s) F x <= \sum_(x <- l) F x.
Proof.
move=> U S F0; elim: l s U S => [|y l IH] s U S.
  by have -> : s = [::] by case: s S {U} => // a s /(_ a); rewrite inE eqxx => /(_ isT).
rewrite big_cons; case: (boolP (y \in s)) => ys.
  rewrite (perm_big _ (perm_to_rem ys)) big_cons ler_add2l; apply: IH; first exact: rem_uniq.
  move=> z; rewrite (mem_rem_uniq _ U) inE => /andP[zy /S].
  by rewrite inE (negbTE zy).
apply: (@le_trans _ _ (\sum_(x <- l) F x)); last by rewrite ler_addr.
apply: IH => // z zs; have := S z zs; rewrite inE => /orP[/eqP e|//].
by rewrite -e zs in ys.
Qed.

Lemma step_bound (a b B : R) (l : nat) : 0 <= B -> b ^+ 2 <= l%:R * B -> (a + b) ^+ 2 <= l.+1%:R * (a ^+ 2 + B).
Proof.
move=> B0 bB; have K : a * b *+ 2 <= l%:R * a ^+ 2 + B.
  case: l bB => [|l] bB.
    have : b ^+ 2 == 0 by rewrite eq_le sqr_ge0 andbT; move: bB; rewrite mul0r.
    by rewrite expf_eq0 /= => /eqP ->; rewrite mulr0 mul0rn mul0r add0r.
  have l0 : 0 < l.+1%:R :> R by rewrite ltr0n.
  rewrite -(ler_pmul2l l0) [X in _ <= X]mulrDr.
  apply: (@le_trans _ _ (l.+1%:R * (l.+1%:R * a ^+ 2) + b ^+ 2)); last by rewrite ler_add2l.
  rewrite -subr_ge0; have -> : l.+1%:R * (l.+1%:R * a ^+ 2) + b ^+ 2 - l.+1%:R * (a * b *+ 2) =
    (l.+1%:R * a - b) ^+ 2.
    by rewrite -[a * b *+ 2]mulr_natl; move: (l.+1%:R) => L; to_r R; ring.
  exact: sqr_ge0.
have -> : (a + b) ^+ 2 = a * b *+ 2 + b ^+ 2 + a ^+ 2.
  by rewrite -[a * b *+ 2]mulr_natl; to_r R; ring.
have -> : l.+1%:R * (a ^+ 2 + B) = l%:R * a ^+ 2 + B + l%:R * B + a ^+ 2.
  by rewrite -[l.+1]addn1 natrD; move: (l%:R) => L; to_r R; ring.
by rewrite ler_add2r ler_add.
Qed.

Variables (nodes : list Z) (E : list (Z * Z)) (T : list (list Z)) (nf : dict Z fdict)
          (ef : dict (Z * Z) fdict) (sc : SC).
Hypothesis H : make_sc nodes E T nf ef = Ok sc.
Hypothesis P : proper_edges (length nodes) E.
Let N := length nodes.
Let M := length E.
Notation B1 := (B1m R nodes E sc).

(** The stored edge of a step. *)
Let edge_of (i j : 'I_N) : Z * Z :=
  if (Z.of_nat i, Z.of_nat j) \in E then (Z.of_nat i, Z.of_nat j) else (Z.of_nat j, Z.of_nat i).
Fixpoint steps (i : 'I_N) (p : seq 'I_N) : seq (Z * Z) :=
  if p is j :: q then edge_of i j :: steps j q else [::].

Lemma In_mem (A : eqType) (x : A) l : List.In x l -> x \in l.
Proof. by elim: l => //= y l IH [->|/IH]; rewrite inE ?eqxx // => ->; rewrite orbT. Qed.

Lemma edge_of_in (i j : 'I_N) : joined E i j -> edge_of i j \in E.
Proof.
move/joinedP => L; rewrite /edge_of; case: ifP => // ne.
by case: L => /In_mem //; rewrite ne.
Qed.

Lemma steps_sub i p : path (joined E) i p -> {subset steps i p <= E}.
Proof.
elim: p i => [|j p IH] i //= /andP[ij pth] e; rewrite inE => /orP[/eqP ->|]; first exact: edge_of_in.
exact: IH.
Qed.

Lemma steps_ends i p e : e \in steps i p ->
  exists u v : 'I_N, [/\ u \in i :: p, v \in i :: p & e = (Z.of_nat u, Z.of_nat v)].
Proof.
elim: p i => [|j p IH] i //=; rewrite inE => /orP[/eqP ->|/IH [u [v [ui vi ->]]]].
  rewrite /edge_of; case: ifP => _; [exists i, j|exists j, i]; split=> //; by rewrite !inE eqxx ?orbT.
by exists u, v; split=> //; rewrite inE ?ui ?vi orbT.
Qed.

Lemma steps_uniq i p : uniq (i :: p) -> uniq (steps i p).
Proof.
elim: p i => [|j p IH] i //= /andP[ni U]; rewrite IH ?andbT //.
apply/negP => /steps_ends[u [v [up vp]]].
have inj (a b : 'I_N) : Z.of_nat a = Z.of_nat b -> a = b by move=> e; apply: val_inj => /=; lia.
rewrite /edge_of; case: ifP => _ [/inj e1 /inj e2].
  by rewrite e1 up in ni.
by rewrite e2 vp in ni.
Qed.

Lemma path_bound (x : nat -> R) (i : 'I_N) (p : seq 'I_N) : path (joined E) i p -> uniq (i :: p) ->
  (x (last i p) - x i) ^+ 2 <=
  (size p)%:R * \sum_(e <- steps i p) (x (Z.to_nat e.2) - x (Z.to_nat e.1)) ^+ 2.
Proof.
elim: p i => [|j p IH] i /=; first by rewrite subrr expr0n /= mul0r.
case/andP=> ij pth /andP[ni U]; rewrite big_cons.
have -> : x (last j p) - x i = (x j - x i) + (x (last j p) - x j) by rewrite [RHS]addrC subrKA.
have -> : (x (Z.to_nat (edge_of i j).2) - x (Z.to_nat (edge_of i j).1)) ^+ 2 = (x j - x i) ^+ 2.
  by rewrite /edge_of; case: ifP => _ /=; rewrite !Nat2Z.id // -sqrrN opprB.
apply: step_bound; last exact: IH.
by apply: sumr_ge0 => e _; apply: sqr_ge0.
Qed.

Lemma connected_bound (x : nat -> R) (i j : 'I_N) : connected E (Z.of_nat i) (Z.of_nat j) ->
  (x j - x i) ^+ 2 <= N.-1%:R * \sum_(e <- E) (x (Z.to_nat e.2) - x (Z.to_nat e.1)) ^+ 2.
Proof.
move/(connectE P)/connectP => [p0 pth0 ->]; case/shortenP: pth0 => p pth U _.
apply: le_trans (path_bound x pth U) _; apply: ler_pmul; rewrite ?ler0n //.
- by apply: sumr_ge0 => e _; apply: sqr_ge0.
- rewrite ler_nat; have := card_uniqP U; have := max_card (mem (i :: p)); rewrite card_ord /= => a b.
  by rewrite -ltnS prednK -?b //; exact: leq_ltn_trans (ltn_ord i).
apply: sum_sub; [exact: steps_uniq|exact: steps_sub|by move=> e; apply: sqr_ge0].
Qed.

Lemma gap (u : 'cV[R]_M) lam : B1^T *m (B1 *m u) = lam *: u -> u != 0 -> lam != 0 ->
  1 <= (N * N.-1)%:R * lam.
Proof.
move=> e u0 l0; pose p := B1 *m u; have ep : B1^T *m p = lam *: u by [].
have p0 : p != 0.
  by apply/eqP => z; move: ep; rewrite z mulmx0 => /esym/eqP; rewrite scaler_eq0 (negbTE u0) (negbTE l0).
have q : nrm2 (B1^T *m p) = lam * nrm2 p.
  by rewrite {1}/nrm2 {1}ep dotZl dotC dot_mulmx trmxK.
have [i [Hi Mi]] : exists i : 'I_N, p i 0 != 0 /\ forall j, p j 0 ^+ 2 <= p i 0 ^+ 2.
  have [i0 Hi0] : exists i : 'I_N, p i 0 != 0.
    case: (pickP (fun i : 'I_N => p i 0 != 0)) => [i Hi|Z]; first by exists i.
    by case/eqP: p0; apply/colP => i; rewrite [RHS]mxE; apply/eqP; have /negbFE := Z i.
  have [i _ Mi] := arg_maxP (fun i : 'I_N => p i 0 ^+ 2) (erefl : xpredT i0).
  exists i; split=> [|j]; last exact: Mi.
  apply: contraNneq Hi0 => z; have := Mi i0 isT; rewrite z expr0n /= => le0.
  by have : p i0 0 ^+ 2 == 0; [rewrite eq_le le0 sqr_ge0|rewrite expf_eq0].
have [lab [k C]] := components_exist P.
have [j [cj sj]] : exists j : 'I_N, connected E (Z.of_nat i) (Z.of_nat j) /\ p i 0 * p j 0 <= 0.
  have li : (lab i < k)%N by apply/ssrnat.ltP; case: C => S _; apply: S; apply/ssrnat.ltP; exact: ltn_ord.
  have K := L_kernel R H P C.
  have : \sum_(j < N | lab j == lab i) p j 0 = 0.
    have := congr1 (fun X => (X *m u) (Ordinal li) 0) K.
    rewrite mul0mx -mulmxA -/p mxE [RHS]mxE => e0; rewrite -[RHS]e0.
    rewrite [LHS]big_mkcond /=; apply: eq_bigr => j _; rewrite !mxE /=.
    by case: eqP; rewrite ?mul1r ?mul0r.
  move=> s0; have [j] : exists j : 'I_N, (lab j == lab i) && (p i 0 * p j 0 <= 0).
    case: (pickP (fun j : 'I_N => (lab j == lab i) && (p i 0 * p j 0 <= 0))) => [j Hj|Z]; first by exists j.
    have : 0 < \sum_(j < N | lab j == lab i) p i 0 * p j 0.
      rewrite (bigD1 i) //=; apply: ltr_paddr.
        apply: sumr_ge0 => j /andP[lj _]; have := Z j; rewrite lj /= => /negbT; rewrite -ltNge.
        exact: ltW.
      by rewrite -expr2 exprn_even_gt0.
    by rewrite -mulr_sumr s0 mulr0 ltxx.
  case/andP=> /eqP lj sj; exists j; split=> //.
  by case: C => _ [_ S]; apply/S => //; apply/ssrnat.ltP; exact: ltn_ord.
have b1 : p i 0 ^+ 2 <= (p j 0 - p i 0) ^+ 2.
  rewrite sqrrB -subr_ge0 addrK addrC; apply: addr_ge0; rewrite ?sqr_ge0 //.
  by rewrite oppr_ge0 mulrC -mulr_natr pmulr_lle0 ?ltr0n.
have b2 := connected_bound (fun i => (unvec p)`_i) cj.
rewrite !nth_unvec in b2.
have b3 : \sum_(e <- E) ((unvec p)`_(Z.to_nat e.2) - (unvec p)`_(Z.to_nat e.1)) ^+ 2 = lam * nrm2 p.
  rewrite -q; have -> : B1^T *m p = vec M (potential_diff E (unvec p)) by rewrite -(B1T_potential H P) unvecK.
  rewrite /nrm2 /dot (big_nth (Z0, Z0)) big_mkord; apply: eq_bigr => m _.
  by rewrite !mxE (nth_map (Z0, Z0)) ?ltn_ord // expr2.
have b4 : nrm2 p <= N%:R * p i 0 ^+ 2.
  apply: (@le_trans _ _ (\sum_(m < N) p i 0 ^+ 2)).
    by apply: ler_sum => m _; rewrite -expr2; exact: Mi.
  by rewrite sumr_const card_ord mulr_natl.
have lam0 : 0 <= lam.
  have n0 : 0 < nrm2 p by rewrite lt_def nrm2_eq0 p0 nrm2_ge0.
  by rewrite -(pmulr_lge0 _ n0) -q nrm2_ge0.
have i0 : 0 < p i 0 ^+ 2 by rewrite exprn_even_gt0.
rewrite -(ler_pmul2r i0) mul1r; apply: (le_trans b1); rewrite b3 in b2; apply: (le_trans b2).
have -> : (N * N.-1)%:R * lam * p i 0 ^+ 2 = N.-1%:R * (lam * (N%:R * p i 0 ^+ 2)).
  by rewrite natrM -!mulrA mulrCA; congr (_ * _); rewrite mulrCA.
by rewrite ler_wpmul2l ?ler0n // ler_wpmul2l.
Qed.
End Gap.
