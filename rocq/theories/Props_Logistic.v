(** * C45: the logistic cut-off, over any ordered field with an exponential *)

From Coq Require Import ZArith String List Ring Field.
From mathcomp Require Import all_ssreflect all_algebra.
From Verif Require Import RingTac Filter.

Set Implicit Arguments.
Unset Strict Implicit.
Unset Printing Implicit Defensive.

Import GRing.Theory Num.Theory Order.Theory.
Local Open Scope ring_scope.

(** What is used of np.exp: positive, strictly increasing, 1 at 0, and exp(-x) is the inverse of exp(x). *)
Definition exp_contract (R : rcfType) (expf : R -> R) : Prop :=
  (forall x, 0 < expf x) /\ (forall x y, x < y -> expf x < expf y) /\ expf 0 = 1 /\
  (forall x, expf x * expf (- x) = 1).

Theorem C45_logistic :
  forall (R : rcfType) (expf : R -> R), exp_contract expf ->
  forall c steep, 0 < steep ->
  let g := logistic_function expf c steep in
  (forall x, 0 < g x < 1) /\ (forall x y, x < y -> g x < g y) /\ g c = 1 / 2%:R /\
  (forall d, g (c + d) + g (c - d) = 1).
Proof.
move=> R expf [pos [mono [e0 inv]]] c s s0 g.
have p1 x : 0 < 1 + expf x by rewrite addr_gt0 ?ltr01 ?pos.
split=> [x|].
  rewrite /g /logistic_function mul1r invr_gt0 p1 /=.
  by rewrite invf_lt1 ?p1 // ltr_addl.
split=> [x y lxy|].
  rewrite /g /logistic_function !mul1r ltf_pinv ?posrE ?p1 // ltr_add2l; apply: mono.
  by rewrite !mulNr ltr_opp2 ltr_pmul2l // ltr_add2r.
split; first by rewrite /g /logistic_function subrr mulr0 e0.
move=> d; rewrite /g /logistic_function.
have -> : c + d - c = d by rewrite addrAC subrr add0r.
have -> : c - d - c = - d by rewrite addrAC subrr add0r.
have -> : - s * - d = - (- s * d) by rewrite mulrN.
move: (- s * d) => t; rewrite !div1r.
have a0 : expf t != 0 by rewrite gt_eqF.
have -> : expf (- t) = (expf t)^-1 by apply: (mulfI a0); rewrite inv mulfV.
have -> : 1 + (expf t)^-1 = (expf t + 1) / expf t by rewrite mulrDl mulfV // mul1r.
by rewrite invf_div (addrC (expf t)) -[X in X + _]mul1r -mulrDl mulfV // gt_eqF.
Qed.
Print Assumptions C45_logistic.

(** A negative steepness turns the pass band around. *)
Theorem C45_negative_steepness :
  forall (R : rcfType) (expf : R -> R), exp_contract expf ->
  forall c steep, steep < 0 ->
  let g := logistic_function expf c steep in forall x y, x < y -> g y < g x.
Proof.
move=> R expf [pos [mono _]] c s s0 g x y lxy.
have p1 z : 0 < 1 + expf z by rewrite addr_gt0 ?ltr01 ?pos.
rewrite /g /logistic_function !mul1r ltf_pinv ?posrE ?p1 // ltr_add2l; apply: mono.
by rewrite ltr_pmul2l ?oppr_gt0 // ltr_add2r.
Qed.
Print Assumptions C45_negative_steepness.

(** The odds g / (1 - g) are the exponential of the distance to the cut-off times the steepness, which determines g. *)
Theorem C45_odds :
  forall (R : rcfType) (expf : R -> R), exp_contract expf ->
  forall c steep x, let g := logistic_function expf c steep in
  g x = expf (steep * (x - c)) * (1 - g x).
Proof.
move=> R expf [pos [_ [_ inv]]] c s x g; rewrite /g /logistic_function.
have p1 : 1 + expf (- s * (x - c)) != 0 by rewrite gt_eqF // addr_gt0 ?ltr01 ?pos.
rewrite mulNr in p1 *; set e := expf (- _) in p1 *.
have -> : 1 - 1 / (1 + e) = e / (1 + e) by rewrite -[X in X - _](divff p1) -mulrBl addrC addKr.
by rewrite mulrA inv.
Qed.
Print Assumptions C45_odds.

(** The contract can be met in every field (the real exponential: Props_LogisticR.v). *)
Section Witness.
Variable R : rcfType.
Definition exp_ref (x : R) : R := if 0 <= x then 1 + x else (1 - x)^-1.
Lemma exp_ref_ok : exp_contract exp_ref.
Proof.
have pp (x : R) : 0 <= x -> 0 < 1 + x by move=> h; rewrite ltr_paddr ?ltr01.
have pn (x : R) : x < 0 -> 0 < 1 - x by move=> h; rewrite addr_gt0 ?ltr01 // oppr_gt0.
split=> [x|].
  by rewrite /exp_ref; case: (lerP 0 x) => h; rewrite ?invr_gt0; [exact: pp|exact: pn].
split=> [x y lxy|].
  rewrite /exp_ref; case: (lerP 0 x) => hx; case: (lerP 0 y) => hy.
  - by rewrite ltr_add2l.
  - by have := lt_trans (le_lt_trans hx lxy) hy; rewrite ltxx.
  - have h1 : (1 - x)^-1 < 1 by rewrite invf_lt1 ?pn // ltr_addl oppr_gt0.
    by apply: lt_le_trans h1 _; rewrite ler_addl.
  - by rewrite ltf_pinv ?posrE ?pn // ltr_add2l ltr_opp2.
split; first by rewrite /exp_ref lexx addr0.
move=> x; rewrite /exp_ref oppr_ge0.
case: (ltrgt0P x) => h.
- by rewrite opprK mulfV // gt_eqF // pp // ltW.
- by rewrite mulVf // gt_eqF // pn.
- by rewrite h oppr0 addr0 mulr1.
Qed.
End Witness.

Example C45_example : forall R : rcfType, exists expf : R -> R, exp_contract expf /\
  logistic_function expf 1 1 3%:R = 3%:R / 4%:R.
Proof.
move=> R; exists (@exp_ref R); split; first exact: exp_ref_ok.
rewrite /logistic_function /exp_ref -(natrB _ (isT : (1 <= 3)%N)) mulN1r oppr_ge0 leNgt ltr0n /=.
rewrite opprK -(natrD _ 1 2).
have n3 : (3%:R : R) != 0 by rewrite pnatr_eq0.
have -> : 1 + 3%:R^-1 = 4%:R / 3%:R :> R by rewrite (natrD _ 3 1) mulrDl mulfV // mul1r.
by rewrite mul1r invf_div.
Qed.
