(** * C45: the logistic cut-off with the real exponential *)

From Coq Require Import Reals Lra.
Local Open Scope R_scope.

(** base_filter.py 59-73: logistic_function over the real numbers with the real exponential (Filter.v has
    the same formula over any field). *)
Definition logistic_R (cut_off_frequency steep lam : R) : R :=
  1 / (1 + exp (- steep * (lam - cut_off_frequency))).

Theorem C45_logistic_real : forall c steep, 0 < steep ->
  (forall x, 0 < logistic_R c steep x < 1) /\
  (forall x y, x < y -> logistic_R c steep x < logistic_R c steep y) /\
  logistic_R c steep c = 1 / 2 /\
  (forall d, logistic_R c steep (c + d) + logistic_R c steep (c - d) = 1).
Proof.
  intros c s Hs; unfold logistic_R.
  assert (P : forall t, 0 < exp t) by exact exp_pos.
  split; [|split; [|split]].
  - intro x; specialize (P (- s * (x - c))); split.
    + apply Rdiv_lt_0_compat; lra.
    + apply (Rmult_lt_reg_r (1 + exp (- s * (x - c)))); [lra|].
      unfold Rdiv; rewrite Rmult_assoc, Rinv_l; lra.
  - intros x y L; unfold Rdiv; rewrite !Rmult_1_l.
    assert (P1 := P (- s * (x - c))); assert (P2 := P (- s * (y - c))).
    apply Rinv_lt_contravar; [apply Rmult_lt_0_compat; lra|].
    apply Rplus_lt_compat_l, exp_increasing.
    assert (s * x < s * y) by (apply Rmult_lt_compat_l; lra); lra.
  - replace (- s * (c - c)) with 0 by ring; rewrite exp_0; lra.
  - intro d; replace (- s * (c + d - c)) with (- s * d) by ring.
    replace (- s * (c - d - c)) with (- (- s * d)) by ring.
    rewrite exp_Ropp; specialize (P (- s * d)); field; lra.
Qed.
Print Assumptions C45_logistic_real.

(** The odds are the exponential of the distance to the cut-off times the steepness. *)
Theorem C45_odds_real : forall c steep x,
  logistic_R c steep x / (1 - logistic_R c steep x) = exp (steep * (x - c)).
Proof.
  intros c s x; unfold logistic_R.
  replace (- s * (x - c)) with (- (s * (x - c))) by ring. rewrite exp_Ropp.
  assert (P := exp_pos (s * (x - c))). field. split; lra.
Qed.
Print Assumptions C45_odds_real.

(** The limits of the response are 0 and 1: beyond every threshold it is as close as one likes. *)
Theorem C45_logistic_limits : forall c steep, 0 < steep -> forall eps, 0 < eps ->
  exists b, (forall x, b < x - c -> 1 - eps < logistic_R c steep x) /\
            (forall x, b < c - x -> logistic_R c steep x < eps).
Proof.
  intros c s Hs eps He.
  assert (T : forall t, 0 < t -> exp (- t) < / t).
  { intros t Ht; rewrite exp_Ropp; apply Rinv_lt_contravar.
    - apply Rmult_lt_0_compat; [exact Ht|apply exp_pos].
    - assert (H := exp_ineq1 t ltac:(lra)); lra. }
  exists (/ (s * eps)).
  assert (B : 0 < / (s * eps)) by (apply Rinv_0_lt_compat, Rmult_lt_0_compat; assumption).
  assert (K : forall d, / (s * eps) < d -> exp (- (s * d)) < eps).
  { intros d Hd; assert (Hsd : 0 < s * d) by (apply Rmult_lt_0_compat; lra).
    eapply Rlt_le_trans; [apply T, Hsd|].
    replace eps with (/ / eps) by (field; lra); apply Rinv_le_contravar; [apply Rinv_0_lt_compat; lra|].
    apply Rmult_lt_compat_l with (r := s) in Hd; [|exact Hs].
    replace (s * / (s * eps)) with (/ eps) in Hd by (field; lra); lra. }
  split; intros x Hx; unfold logistic_R.
  - specialize (K _ Hx); replace (- s * (x - c)) with (- (s * (x - c))) by ring.
    set (e := exp (- (s * (x - c)))) in *; assert (0 < e) by apply exp_pos.
    apply (Rmult_lt_reg_r (1 + e)); [lra|].
    unfold Rdiv; rewrite Rmult_assoc, Rinv_l by lra.
    assert (0 < eps * e) by (apply Rmult_lt_0_compat; lra); lra.
  - specialize (K _ Hx).
    replace (- s * (x - c)) with (- - (s * (c - x))) by ring; rewrite (exp_Ropp (- (s * (c - x)))).
    set (e := exp (- (s * (c - x)))) in *; assert (0 < e) by apply exp_pos.
    replace (1 / (1 + / e)) with (e / (1 + e)) by (field; lra).
    apply (Rmult_lt_reg_r (1 + e)); [lra|].
    unfold Rdiv; rewrite Rmult_assoc, Rinv_l by lra.
    assert (0 < eps * e) by (apply Rmult_lt_0_compat; lra); lra.
Qed.
Print Assumptions C45_logistic_limits.

(** The defaults of the code. *)
Example C45_defaults : 0 < 100 /\ logistic_R (1/100) 100 (1/100) = 1 / 2.
Proof. split; [lra|]. apply C45_logistic_real; lra. Qed.
