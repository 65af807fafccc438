(** * Interpolation at Chebyshev points

    The contract of chebpy's chebfun, that it can be met, and that it determines the series. *)

From Coq Require Import ZArith List Ring Field.
From mathcomp Require Import all_ssreflect all_algebra all_field complex ssrZ zify.
From Verif Require Import Py LinAlg RingTac Props_Cheb.

Set Implicit Arguments.
Unset Strict Implicit.
Unset Printing Implicit Defensive.

Import GRing.Theory Num.Theory Order.Theory.
Local Open Scope ring_scope.

(** The [n] Chebyshev points of the second kind cos(j pi / (n - 1)): the real parts of the 2(n-1)-th roots
    of unity; the only point for n = 1 is 0. *)
Definition cheb_point (R : rcfType) (n : nat) (x : R) : Prop :=
  (n = 1%N /\ x = 0) \/ ((1 < n)%N /\ exists z : R[i], z ^+ (n.-1).*2 = 1 /\ x = complex.Re z).

(** chebpy's chebfun(f=f, domain=[a, b], n=n), as used in chebyshev_filter_design.py 48: n coefficients,
    and the series takes the values of f at the n Chebyshev points moved to [a, b]. *)
Definition chebfun_contract (R : rcfType) (chebfun : (R -> R) -> R -> R -> Z -> res (seq R)) : Prop :=
  forall f a b n, a < b -> (0 < n)%N ->
  exists c, chebfun f a b (Z.of_nat n) = Ok c /\ size c = n /\
    forall x, cheb_point n x ->
      \sum_(k < n) c`_k * (chebT R k).[x] = f (a + (b - a) / 2%:R * (1 + x)).

Section Size.
Variable R : rcfType.
Lemma chebT_lead k : size (chebT R k) = k.+1 /\ (chebT R k)`_k != 0.
Proof.
have n2 : (2%:R : R) != 0 by rewrite pnatr_eq0.
elim/nat_ind2: k => [||k [s0 _] [s1 l1]].
- by rewrite size_poly1 coef1 oner_eq0.
- by rewrite size_polyX coefX oner_eq0.
have e : 2%:R *: 'X * chebT R k.+1 = 2%:R *: (chebT R k.+1 * 'X) by rewrite -scalerAl mulrC.
have t0 : chebT R k.+1 != 0 by rewrite -size_poly_eq0 s1.
have sz : size (2%:R *: (chebT R k.+1 * 'X)) = k.+3 by rewrite size_scale // size_mulX // s1.
rewrite chebTSS e; split.
  by rewrite size_addl // size_opp sz s0 ltnS leqnSn.
rewrite coefB coefZ coefMX /= [X in _ - X]nth_default ?s0 // subr0.
by rewrite mulf_neq0.
Qed.

(** Coefficients of a polynomial of size at most n in the basis T_0, ..., T_{n-1}. *)
Fixpoint to_cheb (n : nat) (p : {poly R}) : seq R :=
  match n with
  | O => [::]
  | S m => let a := p`_m / (chebT R m)`_m in rcons (to_cheb m (p - a *: chebT R m)) a
  end.
Lemma to_chebE n (p : {poly R}) : (size p <= n)%N ->
  size (to_cheb n p) = n /\ \sum_(k < n) (to_cheb n p)`_k *: chebT R k = p.
Proof.
elim: n p => [|m IH] p; first by rewrite leqn0 size_poly_eq0 => /eqP ->; rewrite big_ord0.
move=> sp /=; set a := p`_m / _; have [st lt0] := chebT_lead m.
have sq : (size (p - a *: chebT R m)%R <= m)%N.
  apply/leq_sizeP => j; rewrite leq_eqVlt => /orP[/eqP <-|mj].
    by rewrite coefB coefZ /a mulfVK // subrr.
  by rewrite coefB coefZ !nth_default ?mulr0 ?subrr ?st //; apply: leq_trans sp _.
have [s e] := IH _ sq; split; first by rewrite size_rcons s.
rewrite big_ord_recr /= nth_rcons s ltnn eqxx -[RHS](subrK (a *: chebT R m)); congr (_ + _).
rewrite -[RHS]e; apply: eq_bigr => k _.
by rewrite nth_rcons s ltn_ord.
Qed.
Lemma size_cheb_series n (c : seq R) : (size (\sum_(k < n) c`_k *: chebT R k)%R <= n)%N.
Proof.
apply: leq_trans (size_sum _ _ _) _; apply/bigmax_leqP => k _.
by apply: leq_trans (size_scale_leq _ _) _; rewrite (proj1 (chebT_lead k)).
Qed.

(** Lagrange interpolation. *)
Definition lagrange (xs : seq R) (g : R -> R) : {poly R} :=
  \sum_(x <- xs) (g x / \prod_(y <- rem x xs) (x - y)) *: \prod_(y <- rem x xs) ('X - y%:P).
Lemma lagrange_size xs g : (size (lagrange xs g) <= size xs)%N.
Proof.
rewrite /lagrange big_seq; apply: (big_ind (fun p : {poly R} => (size p <= size xs)%N)).
- by rewrite size_poly0.
- by move=> p q hp hq; apply: leq_trans (size_add _ _) _; rewrite geq_max hp.
move=> x xin; apply: leq_trans (size_scale_leq _ _) _; rewrite size_prod_XsubC size_rem //.
by rewrite prednK //; case: (xs) xin.
Qed.
Lemma lagrangeE xs g x : uniq xs -> x \in xs -> (lagrange xs g).[x] = g x.
Proof.
move=> u xin; rewrite /lagrange horner_sum (bigD1_seq x) //= [X in _ + X]big1_seq ?addr0.
  rewrite hornerZ horner_prod [X in _ * X](eq_bigr (fun y => x - y)); last by move=> y _; rewrite hornerXsubC.
  rewrite mulfVK // prodf_seq_neq0; apply/allP => y; rewrite mem_rem_uniq // inE => /andP[yx _].
  by rewrite subr_eq0 eq_sym.
move=> y /andP[yx yin]; rewrite hornerZ horner_prod.
rewrite [X in _ * X](bigD1_seq x) /= ?rem_uniq ?mem_rem_uniq // ?inE ?xin ?andbT 1?eq_sym //.
by rewrite hornerXsubC subrr mul0r mulr0.
Qed.
Lemma poly_agree (n : nat) (p q : {poly R}) xs : (size p <= n)%N -> (size q <= n)%N -> uniq xs -> (n <= size xs)%N ->
  {in xs, forall x, p.[x] = q.[x]} -> p = q.
Proof.
move=> sp sq u sx h; apply/eqP; rewrite -subr_eq0; apply/negPn/negP => ne.
have := max_poly_roots ne _ u; rewrite ltnNge => /(_ _)/negP[|].
  by apply/allP => x xin; rewrite rootE !hornerE h // subrr.
apply: leq_trans sx; apply: leq_trans (size_add _ _) _; by rewrite size_opp geq_max sp.
Qed.
End Size.

(** ** The Chebyshev points are n in number *)
Section Points.
Variable R : rcfType.
Add Field R_field2 : (mc_field R).
Local Open Scope complex_scope.

Definition unity_roots (m : nat) : seq R[i] := sval (closed_field_poly_normal ('X^m - 1 : {poly R[i]})).
Lemma unity_rootsP m : (0 < m)%N ->
  uniq (unity_roots m) /\ size (unity_roots m) = m /\ forall z, (z \in unity_roots m) = (z ^+ m == 1).
Proof.
move=> m0; rewrite /unity_roots; case: closed_field_poly_normal => r /= e.
have lc : lead_coef ('X^m - 1 : {poly R[i]}) = 1 by rewrite lead_coefDl ?lead_coefXn // size_polyXn size_opp size_poly1.
have {}e : 'X^m - 1 = \prod_(z <- r) ('X - z%:P) :> {poly R[i]} by rewrite e lc scale1r.
split; first by rewrite -separable_prod_XsubC -e cyclotomic.separable_Xn_sub_1 // pnatr_eq0 -lt0n.
split.
  by apply: succn_inj; rewrite -(size_prod_XsubC r id) -e size_Xn_sub_1.
by move=> z; rewrite -root_prod_XsubC -e rootE !hornerE hornerXn subr_eq0.
Qed.

Lemma root_norm m (z : R[i]) : (0 < m)%N -> z ^+ m = 1 -> complex.Re z ^+ 2 + complex.Im z ^+ 2 = 1.
Proof.
move=> m0 zm; have : `|z| ^+ m = 1 by rewrite -normrX zm normr1.
move=> /eqP; rewrite pexpr_eq1 ?normr_ge0 // => /eqP h.
have := h; rewrite normc_def => /eqP; rewrite eq_complex /= => /andP[/eqP e _].
have := congr1 (fun x : R => x ^+ 2) e; rewrite /= sqr_sqrtr ?expr1n //.
by rewrite addr_ge0 ?sqr_ge0.
Qed.
Lemma conj_root m (z : R[i]) : z ^+ m = 1 -> (z^*) ^+ m = 1.
Proof. by move=> e; rewrite -rmorphX /= e rmorph1. Qed.

Definition cheb_points (n : nat) : seq R :=
  if n == 1%N then [:: 0] else undup [seq complex.Re z | z <- unity_roots (n.-1).*2].
Lemma cheb_pointsP n x : (0 < n)%N -> (x \in cheb_points n) <-> cheb_point n x.
Proof.
case: n => [|[|n]] // _; rewrite /cheb_points /cheb_point /=.
  rewrite inE; split=> [/eqP ->|[[_ ->]|[]]] //; by left.
have m0 : (0 < (n.+1).*2)%N by rewrite double_gt0.
have [_ [_ mem]] := unity_rootsP m0; rewrite mem_undup; split.
  by case/mapP => z; rewrite mem => /eqP zm ->; right; split=> //; exists z.
by case=> [[]//|[_ [z [zm ->]]]]; apply/mapP; exists z; rewrite ?mem ?zm.
Qed.
Lemma cheb_points_size n : (0 < n)%N -> uniq (cheb_points n) /\ size (cheb_points n) = n.
Proof.
case: n => [|[|n]] // _; rewrite /cheb_points /=; split; first exact: undup_uniq.
set N := n.+1; have m0 : (0 < N.*2)%N by rewrite double_gt0.
have [u [sz mem]] := unity_rootsP m0; set rs := unity_roots N.*2 in u sz mem *.
have nm z : z \in rs -> complex.Re z ^+ 2 + complex.Im z ^+ 2 = 1.
  by rewrite mem => /eqP; apply: root_norm.
apply/eqP; rewrite eqn_leq; apply/andP; split.
  (* roots of T_{N+1} - T_{N-1} *)
  pose q := chebT R n.+2 - chebT R n.
  have sq : size q = n.+3.
    by rewrite /q size_addl ?(proj1 (chebT_lead R _)) // size_opp (proj1 (chebT_lead R _)) ltnS leqnSn.
  have q0 : q != 0 by rewrite -size_poly_eq0 sq.
  have := max_poly_roots q0 _ (undup_uniq [seq complex.Re z | z <- rs]); rewrite sq ltnS; apply.
  apply/allP => x; rewrite mem_undup => /mapP[z zr ->]; rewrite rootE hornerD hornerN !(cheb_cos _ (nm z zr)).
  have zz : z ^+ n.+2 * z ^+ n = 1.
    by move: zr; rewrite mem -exprD => /eqP <-; congr (_ ^+ _); rewrite /N; lia.
  have n1 : complex.Re (z ^+ n) ^+ 2 + complex.Im (z ^+ n) ^+ 2 = 1.
    have k0 : (0 < N.*2)%N by [].
    apply: (root_norm k0); rewrite exprAC; move: zr; rewrite mem => /eqP ->; exact: expr1n.
  have -> : z ^+ n.+2 = (z ^+ n)^*.
    have z0 : z ^+ n != 0 by apply/eqP => e0; move: zz; rewrite e0 mulr0 => /eqP; rewrite eq_sym oner_eq0.
    apply: (mulIf z0); rewrite zz.
    case: (z ^+ n) n1 => a b /= e.
    apply/eqP; rewrite eq_complex /=; apply/andP; split; apply/eqP.
      by rewrite -e !expr2 mulNr opprK.
    by to_r R; ring.
  by case: (z ^+ n) => a b /=; rewrite subrr.
pose up := [seq z <- rs | 0 < complex.Im z].
pose dn := [seq z <- rs | complex.Im z < 0].
pose md := [seq z <- rs | complex.Im z == 0].
have cst : size rs = (size up + size dn + size md)%N.
  rewrite /up /dn /md !size_filter; elim: (rs) => //= z r ->.
  by case: (ltrgtP (complex.Im z) 0) => _ /=; lia.
have eud : size dn = size up.
  rewrite -(size_map (fun z : R[i] => z^*) up); apply: perm_size; apply: uniq_perm.
  - exact: filter_uniq.
  - by rewrite map_inj_uniq ?filter_uniq //; apply: can_inj (@conjCK _).
  move=> z; apply/idP/mapP.
    rewrite mem_filter => /andP[zi zr]; exists z^*; last by rewrite conjCK.
    rewrite mem_filter; apply/andP; split; first by case: (z) zi => a b /=; rewrite oppr_gt0.
    by rewrite mem; apply/eqP/conj_root/eqP; rewrite -mem.
  case=> w; rewrite mem_filter => /andP[wi wr] ->; rewrite mem_filter; apply/andP; split.
    by case: (w) wi => a b /=; rewrite oppr_lt0.
  by rewrite mem; apply/eqP/conj_root/eqP; rewrite -mem.
have smd : (size md <= 2)%N.
  have -> : 2%N = size [:: 1 : R[i]; -1] by [].
  apply: uniq_leq_size; first exact: filter_uniq.
  move=> z; rewrite mem_filter => /andP[/eqP zi zr]; have := nm z zr; rewrite zi expr0n addr0 !inE.
  move=> /eqP; rewrite sqrf_eq1 => /orP[] /eqP e; apply/orP; [left|right];
    by rewrite eq_complex /= e zi ?oppr0 !eqxx.
have sup : (n <= size up)%N by move: cst; rewrite sz eud /N; lia.
have inj : {in up &, injective (@complex.Re R)}.
  move=> z w; rewrite !mem_filter => /andP[zi zr] /andP[wi wr] e.
  have := nm z zr; rewrite -(nm w wr) e => /addrI /eqP; rewrite eqf_sqr => /orP[] /eqP e2.
    by apply/eqP; rewrite eq_complex e e2 !eqxx.
  by move: zi; rewrite e2 oppr_gt0 ltNge (ltW wi).
have ub : uniq (1 :: -1 :: [seq complex.Re z | z <- up]).
  have bad x : x ^+ 2 = 1 -> x \notin [seq complex.Re z | z <- up].
    move=> x2; apply/mapP => -[z]; rewrite mem_filter => /andP[zi zr] e.
    have := nm z zr; rewrite -e x2 -[RHS]addr0 => /addrI /eqP; rewrite sqrf_eq0 => /eqP z0.
    by move: zi; rewrite z0 ltxx.
  rewrite /= inE negb_or !bad ?expr1n ?sqrrN ?expr1n // (map_inj_in_uniq inj) filter_uniq // !andbT.
  by rewrite -subr_eq0 opprK -mulr2n pnatr_eq0.
apply: (@leq_trans (size (1 :: -1 :: [seq complex.Re z | z <- up]))).
  by rewrite /= size_map.
apply: uniq_leq_size ub _ => x; rewrite mem_undup !inE => /or3P[/eqP ->|/eqP ->|].
- by apply/mapP; exists 1 => //; rewrite mem expr1n.
- by apply/mapP; exists (-1) => //; rewrite mem -mul2n exprM sqrrN expr1n expr1n.
by case/mapP => z; rewrite mem_filter => /andP[_ zr] ->; apply: map_f.
Qed.

(** ** A reference implementation *)
Definition chebfun_ref (f : R -> R) (a b : R) (n : Z) : res (seq R) :=
  Ok (to_cheb (Z.to_nat n) (lagrange (cheb_points (Z.to_nat n)) (fun x => f (a + (b - a) / 2%:R * (1 + x))))).
Lemma chebfun_ref_ok : chebfun_contract chebfun_ref.
Proof.
move=> f a b n ab n0; rewrite /chebfun_ref Nat2Z.id; eexists; split; first by [].
set g := fun x => _; have [u s] := cheb_points_size n0.
have [st e] := to_chebE (leq_trans (lagrange_size (cheb_points n) g) (eq_leq s)).
split=> // x /(cheb_pointsP x n0) xin; rewrite -/(g x) -(lagrangeE g u xin) -[in RHS]e horner_sum.
by apply: eq_bigr => k _; rewrite hornerZ.
Qed.

(** The values at the points determine the polynomial. *)
Lemma cheb_unique n (p q : {poly R}) : (0 < n)%N -> (size p <= n)%N -> (size q <= n)%N ->
  (forall x, cheb_point n x -> p.[x] = q.[x]) -> p = q.
Proof.
move=> n0 sp sq h; have [u s] := cheb_points_size n0.
apply: (poly_agree sp sq u); first by rewrite s.
by move=> x /(cheb_pointsP x n0); apply: h.
Qed.
End Points.
