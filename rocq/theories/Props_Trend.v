(** * C46-C50, C76: the simplicial trend filter *)

From Coq Require Import ZArith String List.
From mathcomp Require Import all_ssreflect all_algebra ssrZ zify.
From Verif Require Import Py PyFacts ExampleData Complex ComplexSpec ComplexFacts LinAlg Spectral Signal
  SignalSpec Bridge SignalFacts Compute Props_Signal Props_Hodge Eigen EigenSpec EigenFacts
  Props_Eigen Filter FilterSpec FilterFacts FilterFacts2 PolyFacts Props_Masks Props_LowPass Trend.

Set Implicit Arguments.
Unset Strict Implicit.
Unset Printing Implicit Defensive.

Import GRing.Theory Num.Theory Order.Theory.
Local Open Scope ring_scope.

(** ** C46: shift operators *)
Section Shift.
Variable R : rcfType.
Implicit Types (A B : arr2) (f x : seq R).

Lemma atrK A : atr (atr A) = A. Proof. by case: A. Qed.

Lemma mv_amul A B f : sh1 A = sh0 B -> mv (amul A B) f = mv A (mv B f).
Proof.
move=> e; rewrite (@mvE R (amul A B) (sh0 A) (sh1 B)) // (@toM_amul R _ (sh1 A)) // -?e //.
by rewrite (@mvE R A (sh0 A) (sh1 A)) // (@mvE R B (sh1 A) (sh1 B)) // unvecK mulmxA.
Qed.

Lemma mv_gram_eq0 B x : mv (atr B) (mv B x) = zerof R (sh1 B) <-> mv B x = zerof R (sh0 B).
Proof.
rewrite (@mvE R B (sh0 B) (sh1 B)) // (@mvE R (atr B) (sh1 B) (sh0 B)) // unvecK.
rewrite toM_atr !zerof_unvec; split=> /unvec_inj h; last by rewrite h mulmx0.
congr unvec; apply/eqP; rewrite -nrm2_eq0 /nrm2 dot_mulmx h dot0r. by [].
Qed.

(** The operator of order k built from a boundary array. *)
Definition op_of B (k : nat) : arr2 :=
  if k == 0%N then B
  else if odd k then apow (amul (atr B) B) (k.+1)./2
  else amul B (apow (amul (atr B) B) k./2).

Lemma apow_sh A k : sh0 A = sh1 A -> sh0 (apow A k) = sh0 A /\ sh1 (apow A k) = sh0 A.
Proof. by move=> e; elim: k => [|[|k] IH] //=; case: IH. Qed.
Lemma mv_apow A k f : sh0 A = sh1 A -> mv (apow A k.+1) f = iter k.+1 (mv A) f.
Proof.
move=> e; elim: k => [|k IH] //.
have -> : apow A k.+2 = amul A (apow A k.+1) by [].
by rewrite mv_amul ?IH // (proj1 (apow_sh k.+1 e)).
Qed.

Lemma op_even B j f : mv (op_of B j.*2) f = mv B (iter j (mv (amul (atr B) B)) f).
Proof.
case: j => [|j] //; rewrite /op_of doubleS /= odd_double /= doubleK mv_amul ?mv_apow //.
by rewrite (proj1 (apow_sh j.+1 _)).
Qed.
Lemma op_odd B j f : mv (op_of B j.*2.+1) f = iter j.+1 (mv (amul (atr B) B)) f.
Proof. by rewrite /op_of /= odd_double /= doubleK mv_apow. Qed.

Lemma op_step B k f : mv (op_of B k.+1) f = mv (if odd k then B else atr B) (mv (op_of B k) f).
Proof.
rewrite -(odd_double_half k); case: (odd k) => /=; rewrite ?add1n ?add0n /=.
  have -> : (k./2).*2.+2 = (k./2).+1.*2 by rewrite doubleS.
  by rewrite odd_double /= op_even op_odd.
by rewrite odd_double op_even op_odd iterS mv_amul.
Qed.

Lemma op_sh B k : sh1 (op_of B k) = sh1 B /\ sh0 (op_of B k) = if odd k then sh1 B else sh0 B.
Proof.
have P q := apow_sh q (erefl : sh0 (amul (atr B) B) = sh1 (amul (atr B) B)).
rewrite /op_of; case: (k =P 0%N) => [-> //|_]; case: odd.
  by have [-> ->] := P (k.+1)./2.
by split=> //; have [_ h] := P k./2; exact: h.
Qed.

Lemma op_kernel B k f : mv (op_of B k) f = zerof R (sh0 (op_of B k)) <-> mv B f = zerof R (sh0 B).
Proof.
elim: k => [|k IH] //; rewrite op_step (proj2 (op_sh B k.+1)) /=.
have [] := op_sh B k; case ok : (odd k) => /= _ s0.
  (* k is odd: the order k operator is B^T times the previous one *)
  case: k ok IH s0 => [|k] //= /negbTE ok IH s0.
  rewrite -IH op_step ok -{1}(atrK B) s0; exact: mv_gram_eq0.
rewrite -IH s0.
case: k ok IH s0 => [|k] ok IH s0; first exact: mv_gram_eq0.
have ok' : odd k by move: ok => /= /negbT; rewrite negbK.
rewrite op_step ok'; exact: mv_gram_eq0.
Qed.
End Shift.

(** The array the order 0 operator is given by. *)
Definition base_array (sc : SC) (c : string) : arr2 :=
  if String.eqb c "divergence" then sc_B1 sc else atr (sc_B2 sc).

Lemma shift_opE sc c k : Z.le Z0 k ->
  get_shift_operator sc c k = Ok (Csr (op_of (base_array sc c) (Z.to_nat k))).
Proof.
move=> k0; rewrite /get_shift_operator; case: Z.ltb_spec => [|_]; first by lia.
have e0 : Z.eqb k 0 = (Z.to_nat k == 0%N) by apply/idP/idP; lia.
have h2 := odd_double_half (Z.to_nat k); have h3 := odd_double_half (Z.to_nat k).+1; rewrite -!muln2 /= in h2 h3.
have k2 := Z.div_mod k 2 ltac:(lia); have k3 := Z.mod_pos_bound k 2 ltac:(lia).
have k4 := Z.div_mod (k + 1) 2 ltac:(lia); have k5 := Z.mod_pos_bound (k + 1) 2 ltac:(lia).
have em : Z.eqb (Z.modulo k 2) 0 = ~~ odd (Z.to_nat k).
  by move: h2; case: odd => /= h2; apply/idP/idP; lia.
have d1 : Z.to_nat (Z.div k 2) = (Z.to_nat k)./2 by move: h2; case: odd => /= h2; lia.
have d2 : Z.to_nat (Z.div (k + 1) 2) = ((Z.to_nat k).+1)./2 by move: h3; case: odd => /= h3; lia.
rewrite e0 em d1 d2 /op_of /base_array /=.
by case: String.eqb; case: (Z.to_nat k == 0%N) => //=; case: odd => //=; rewrite atrK.
Qed.

Theorem C46_orders :
  forall (R : rcfType) nodes E T nf ef sc, make_sc nodes E T nf ef = Ok sc ->
  forall c,
  let div := c = "divergence"%string in
  (forall k, Z.lt k Z0 -> get_shift_operator sc c k = Raise ValueError) /\
  (div -> get_shift_operator sc c 0 = Ok (Csr (sc_B1 sc))) /\
  (~ div -> get_shift_operator sc c 0 = Ok (Csr (atr (sc_B2 sc)))) /\
  forall k, Z.le Z0 k -> exists A A',
    get_shift_operator sc c k = Ok (Csr A) /\ get_shift_operator sc c (Z.succ k) = Ok (Csr A') /\
    sh1 A = length E /\ sh1 A' = length E /\
    forall f : seq R, size f = length E ->
      (div -> Z.even k -> mv A' f = mv (atr (sc_B1 sc)) (mv A f)) /\
      (div -> Z.odd k -> mv A' f = mv (sc_B1 sc) (mv A f)) /\
      (~ div -> Z.even k -> mv A' f = mv (sc_B2 sc) (mv A f)) /\
      (~ div -> Z.odd k -> mv A' f = mv (atr (sc_B2 sc)) (mv A f)).
Proof.
move=> R nodes E T nf ef sc H c div.
have [b0 b1] := B1_dims H; have [c0 c1] := B2_dims H.
split; first by move=> k lk; rewrite /get_shift_operator (proj2 (Z.ltb_lt _ _) lk).
split; first by move=> ->.
split; first by move=> nd; rewrite /get_shift_operator /=; case: String.eqb_spec.
move=> k k0; do 2 eexists; split; first exact: shift_opE.
split; first by rewrite shift_opE //; lia.
have sb : sh1 (base_array sc c) = length E by rewrite /base_array; case: String.eqb.
rewrite !(proj1 (op_sh _ _)); do 2 split=> //.
move=> f sf; have -> : Z.to_nat (Z.succ k) = (Z.to_nat k).+1 by lia.
rewrite op_step.
have oe : Z.even k -> odd (Z.to_nat k) = false by move=> /Z.even_spec[q e]; lia.
have oo : Z.odd k -> odd (Z.to_nat k) by move=> /Z.odd_spec[q e]; lia.
have dT : div -> base_array sc c = sc_B1 sc by move=> ->.
have dF : ~ div -> base_array sc c = atr (sc_B2 sc) by rewrite /base_array; case: String.eqb_spec.
split; first by move=> /dT -> /oe ->. split; first by move=> /dT -> /oo ->.
by split; [move=> /dF -> /oe ->; rewrite atrK|move=> /dF -> /oo ->].
Qed.
Print Assumptions C46_orders.

Theorem C46_kernel :
  forall (R : rcfType) nodes E T nf ef sc, make_sc nodes E T nf ef = Ok sc ->
  forall c k A, get_shift_operator sc c k = Ok (Csr A) ->
  forall f : seq R, size f = length E ->
  (c = "divergence"%string ->
     (mv A f = zerof R (sh0 A) <-> get_divergence sc f = Ok (zerof R (length nodes)))) /\
  (c <> "divergence"%string ->
     (mv A f = zerof R (sh0 A) <-> get_curl sc f = Ok (zerof R (length T)))).
Proof.
move=> R nodes E T nf ef sc H c k A e f sf.
have [b0 b1] := B1_dims H; have [c0 c1] := B2_dims H.
have k0 : Z.le Z0 k by move: e; rewrite /get_shift_operator; case: Z.ltb_spec.
move: e; rewrite shift_opE // => -[<-]; rewrite op_kernel.
rewrite (divergence_Ok H) // (curl_Ok H) // /base_array.
split=> hc; case: String.eqb_spec => // _.
  by rewrite -b0 (@mvE R _ (length nodes) (length E)) //; split=> [->|[->]].
rewrite (@mvE R _ (length T) (length E)) // toM_atr /= -c1; by split=> [->|[->]].
Qed.
Print Assumptions C46_kernel.
