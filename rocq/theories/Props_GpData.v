(** * C64, C65: normalisation and splitting of the targets *)

From Coq Require Import ZArith String List.
From mathcomp Require Import all_ssreflect all_algebra ssrZ zify.
From Coq Require Import Ring Field.
From Verif Require Import RingTac Py PyFacts ExampleData Complex ComplexSpec ComplexFacts LinAlg Signal SignalSpec
  Bridge Compute Eigen EigenSpec FilterSpec Gp GpSpec GpFacts.

Set Implicit Arguments.
Unset Strict Implicit.
Unset Printing Implicit Defensive.

Import GRing.Theory Num.Theory Order.Theory.
Local Open Scope ring_scope.
Delimit Scope Z_scope with zz.

Section Data.
Variable R : rcfType.
Add Field R_field3 : (mc_field R).
Implicit Types y : seq R.

Lemma tmeanE y : tmean y = average y.
Proof. by rewrite /tmean /average (big_nth 0) big_mkord. Qed.

Lemma tstdE y : (0 < size y)%N -> tstd y = Num.sqrt (sample_variance y).
Proof.
move=> s; rewrite /tstd /sample_variance (big_nth 0) big_mkord tmeanE.
by case: (size y) s => // m _; rewrite -addn1 natrD addrK addn1.
Qed.

Lemma variance_ge0 y : (0 < size y)%N -> 0 <= sample_variance y.
Proof.
move=> s; rewrite /sample_variance mulr_ge0 //; first by apply: sumr_ge0 => x _; exact: sqr_ge0.
by rewrite invr_ge0 subr_ge0 ler1n.
Qed.

Lemma average_affine y (m s : R) : (0 < size y)%N -> average [seq (x - m) / s | x <- y] = (average y - m) / s.
Proof.
move=> h; rewrite /average size_map big_map -big_distrl /= sumrB big_const_seq count_predT iter_addr_0.
have n0 : (size y)%:R != 0 :> R by rewrite pnatr_eq0 -lt0n.
rewrite -[m *+ _]mulr_natr mulrAC; congr (_ / s); by rewrite mulrBl mulfK.
Qed.

Lemma variance_affine y (m s : R) : (0 < size y)%N ->
  sample_variance [seq (x - m) / s | x <- y] = sample_variance y / s ^+ 2.
Proof.
move=> h; rewrite /sample_variance size_map big_map average_affine // mulrAC; congr (_ / _).
rewrite big_distrl /=; apply: eq_bigr => x _.
by rewrite -mulrBl exprMn exprVn; congr (_ ^+ 2 * _); to_r R; ring.
Qed.

(** Zero variance means that all entries are equal. *)
Lemma variance0 y : (1 < size y)%N -> sample_variance y = 0 -> forall a b, a \in y -> b \in y -> a = b.
Proof.
move=> s /eqP; rewrite /sample_variance mulf_eq0 => /orP[]; last first.
  by rewrite invr_eq0 subr_eq0 pnatr_eq1 => /eqP e; rewrite e in s.
have nn : forall x, x \in y -> 0 <= (x - average y) ^+ 2 by move=> x _; exact: sqr_ge0.
rewrite big_seq psumr_eq0 // => /allP h.
have e : forall x, x \in y -> x = average y.
  by move=> x hx; have := h x hx; rewrite hx /= sqrf_eq0 subr_eq0 => /eqP.
by move=> a b ha hb; rewrite (e _ ha) (e _ hb).
Qed.

End Data.

(** ** C64 *)

(** Whenever the training targets are not all equal: one increasing affine map is applied to all three arrays, and the
    training targets get mean 0 and sample variance 1. *)
Theorem C64_normalize :
  forall (R : rcfType) (ytr yte y : seq R) a b, a \in ytr -> b \in ytr -> a <> b ->
  exists m s, 0 < s /\
    let f := fun x => (x - m) / s in
    normalize_data ytr yte y = Ok ([seq f x | x <- ytr], [seq f x | x <- yte], [seq f x | x <- y]) /\
    average [seq f x | x <- ytr] = 0 /\ sample_variance [seq f x | x <- ytr] = 1.
Proof.
move=> R ytr yte y a b ha hb ne.
have s2 : (1 < size ytr)%N.
  by case: ytr ha hb => // c [|d l] //; rewrite !inE => /eqP ea /eqP eb; case: ne; rewrite ea eb.
have s1 : (0 < size ytr)%N by exact: ltnW.
have v0 : sample_variance ytr != 0 by apply/eqP => /(variance0 s2)/(_ a b ha hb).
have vp : 0 < sample_variance ytr by rewrite lt_def v0 variance_ge0.
have t0 : 0 < tstd ytr by rewrite tstdE // sqrtr_gt0.
exists (tmean ytr), (tstd ytr); split=> //=; rewrite /normalize_data leqNgt s2 gt_eqF //=; split=> //.
rewrite average_affine // tmeanE subrr mul0r; split=> //.
by rewrite variance_affine // tstdE // sqr_sqrtr ?divff // ltW.
Qed.
Print Assumptions C64_normalize.

(** Otherwise there is no finite result. *)
Theorem C64_constant :
  forall (R : rcfType) (ytr yte y : seq R), (forall a b, a \in ytr -> b \in ytr -> a = b) ->
  normalize_data ytr yte y = Raise NonFinite.
Proof.
move=> R ytr yte y h; rewrite /normalize_data; case: (leqP (size ytr) 1) => //= s2.
have s1 : (0 < size ytr)%N by exact: ltnW.
suff -> : tstd ytr = 0 by rewrite eqxx.
rewrite tstdE // /sample_variance big_seq big1 ?mul0r ?sqrtr0 // => x hx.
have -> : average ytr = x; last by rewrite subrr expr0n.
rewrite /average big_seq (eq_bigr (fun _ => x)) => [|z hz]; last exact: h.
by rewrite -big_seq big_const_seq count_predT iter_addr_0 -[x *+ _]mulr_natr mulfK // pnatr_eq0 -lt0n.
Qed.
Print Assumptions C64_constant.

Example C64_example : forall (R : rcfType),
  exists a b : R, a \in [:: 1; 3%:R : R] /\ b \in [:: 1; 3%:R : R] /\ a <> b.
Proof.
move=> R; exists 1, 3%:R; rewrite !inE !eqxx orbT; split=> //; split=> //.
by move/eqP; rewrite eq_sym pnatr_eq1.
Qed.

(** ** C65 *)

Lemma floor_mulP (R : rcfType) (r : R) n : 0 < r -> r < 1 ->
  (floor_mul r n <= n)%N /\ (floor_mul r n)%:R <= r * n%:R < (floor_mul r n).+1%:R.
Proof.
move=> r0 r1; set z := r * n%:R.
have z0 : 0 <= z by rewrite mulr_ge0 ?ler0n // ltW.
have zn : z <= n%:R by rewrite ler_pimull ?ler0n // ltW.
rewrite /floor_mul -/z.
have H : forall m (i : nat), i%:R <= z -> z < (i + m).+1%:R ->
    let c := seq.count (fun k => k%:R <= z) (iota i.+1 m) in (c <= m)%N /\ (i + c)%:R <= z < (i + c).+1%:R.
  elim=> [|m IH] i hi hm /=; first by rewrite addn0 in hm *; rewrite hi hm.
  case: (leP i.+1%:R z) => h /=.
    by have := IH i.+1 h; rewrite addSnnS => /(_ hm) [a b]; rewrite add1n addnS -addSn.
  have -> : seq.count (fun k => k%:R <= z) (iota i.+2 m) = 0%N.
    apply/eqP; rewrite -leqn0 leqNgt -has_count; apply/hasPn => k; rewrite mem_iota => /andP[hk _].
    by rewrite -ltNge (lt_le_trans h) // ler_nat (ltn_trans _ hk).
  by rewrite !addn0 hi h.
have zn1 : z < (0 + n).+1%:R by rewrite add0n (le_lt_trans zn) // ltr_nat.
by have := H n 0%N z0 zn1; rewrite /= add0n.
Qed.

(** With as many targets as edges and a ratio that gives at least one training edge, for every permutation drawn:
    every edge number occurs exactly once in training and test part together, each target is the one of its edge,
    and the training part has floor(ratio * n) elements.  With normalisation, the targets are those that
    normalize_data makes of them. *)
Theorem C65_split :
  forall (R : rcfType) nodes E T nf ef sc, make_sc nodes E T nf ef = Ok sc ->
  forall (perm : nat -> seq nat) (y : seq R) r, perm_eq (perm (length E)) (iota 0 (length E)) ->
  size y = length E -> 0 < r -> r < 1 -> 1 <= r * (length E)%:R ->
  exists s, train_test_split sc y perm r false = Ok (s, iota 0 (length E), y) /\
    perm_eq (x_train s ++ x_test s) (iota 0 (length E)) /\
    y_train s = [seq y`_i | i <- x_train s] /\ y_test s = [seq y`_i | i <- x_test s] /\
    (size (x_train s))%:R <= r * (length E)%:R < (size (x_train s)).+1%:R /\
    (0 < size (x_train s))%N /\ (0 < size (x_test s))%N /\
    forall a b c, normalize_data (y_train s) (y_test s) y = Ok (a, b, c) ->
      train_test_split sc y perm r true = Ok (mkSplit (x_train s) a (x_test s) b, iota 0 (length E), c).
Proof.
move=> R nodes E T nf ef sc H perm y r P sy r0 r1 rn.
have [_ eM] := B1_dims H; set n := length E in P sy rn eM *.
have [cn /andP[c1 c2]] := floor_mulP n r0 r1; set c := floor_mul r n in cn c1 c2.
have c0 : c != 0%N.
  by apply: contraTneq rn => e; rewrite -ltNge; move: c2; rewrite e.
have cl : (c < n)%N.
  rewrite -(ltr_nat R) (le_lt_trans c1) // gtr_pmull //.
  by rewrite ltr0n (leq_trans _ cn) // lt0n.
have sp : size (perm n) = n by rewrite (perm_size P) size_iota.
rewrite /train_test_split /= -eM /sk_split r0 r1 /= size_iota sy eqxx /= -/c (negbTE c0) /=.
set ir := take c (drop (n - c) (perm n)); set it := take (n - c) (perm n).
have eir : ir = drop (n - c) (perm n).
  by rewrite /ir take_oversize // size_drop sp subKn // ltnW.
have allp : forall i, i \in perm n -> (i < n)%N by move=> i; rewrite (perm_mem P) mem_iota.
have idn : forall l, {subset l <= perm n} -> [seq nth 0%N (iota 0 n) i | i <- l] = l.
  move=> l sl; rewrite -[RHS]map_id; apply/eq_in_map => i /sl/allp h; by rewrite nth_iota.
have s1 : {subset ir <= perm n} by rewrite eir; exact: mem_drop.
have s2 : {subset it <= perm n} by exact: mem_take.
have sir : size ir = c by rewrite eir size_drop sp subKn // ltnW.
have sit : size it = (n - c)%N by rewrite size_take sp; case: ltnP => //; lia.
eexists; split; first by reflexivity.
cbn [x_train x_test y_train y_test]; rewrite !idn //.
split; first by rewrite perm_catC eir cat_take_drop.
do 2 (split; first by []).
rewrite sir sit c1 c2 lt0n c0 subn_gt0 cl; do 3 (split; first by []).
by move=> a b d ->.
Qed.
Print Assumptions C65_split.

(** Every other call with a float ratio raises ValueError. *)
Theorem C65_rejects :
  forall (R : rcfType) nodes E T nf ef sc, make_sc nodes E T nf ef = Ok sc ->
  forall (perm : nat -> seq nat) (y : seq R) r norm,
  size y <> length E \/ r <= 0 \/ 1 <= r \/ r * (length E)%:R < 1 ->
  train_test_split sc y perm r norm = Raise ValueError.
Proof.
move=> R nodes E T nf ef sc H perm y r norm; have [_ e] := B1_dims H.
rewrite /train_test_split /= -e /sk_split size_iota.
case: (ltP 0 r) => //= r0; case: (ltP r 1) => //= r1.
case: eqP => //= sy; case=> [h|[h|[h|h]]].
- by case: h.
- by move: h; rewrite ?leNgt ?r0.
- by move: h; rewrite ?leNgt ?r1.
have [cn /andP[c1 c2]] := floor_mulP (length E) r0 r1.
have -> // : floor_mul r (length E) == 0%N.
by rewrite -leqn0 -ltnS -(ltr_nat R) (le_lt_trans c1 h).
Qed.
Print Assumptions C65_rejects.

(** The hypotheses are met: the triangle, three quarters of its edges for training. *)
Example C65_example : forall (R : rcfType),
  exists s : split R, train_test_split tri_sc [:: 5%:R; 6%:R; 7%:R] (fun _ => [:: 2; 0; 1]%N) (3%:R / 4%:R) false
     = Ok (s, iota 0 3, [:: 5%:R; 6%:R; 7%:R]) /\
    x_train s = [:: 0; 1]%N /\ y_train s = [:: 5%:R; 6%:R] /\ x_test s = [:: 2]%N /\ y_test s = [:: 7%:R] /\
    perm_eq [:: 2; 0; 1]%N (iota 0 3).
Proof.
move=> R; have e3 : sh1 (sc_B1 tri_sc) = 3%N by vm_compute.
move: tri_sc e3 => sc e3; rewrite /train_test_split /= e3 /sk_split.
have r0 : 0 < 3%:R / 4%:R :> R by rewrite divr_gt0 ?ltr0n.
have r1 : 3%:R / 4%:R < 1 :> R by rewrite ltr_pdivr_mulr ?ltr0n // mul1r ltr_nat.
have -> : floor_mul (3%:R / 4%:R : R) (size (iota 0 3)) = 2%N.
  by rewrite /floor_mul /= mulrAC -natrM !ler_pdivl_mulr ?ltr0n // -!natrM !ler_nat.
by rewrite r0 r1 /=; eexists; split; first by reflexivity.
Qed.
