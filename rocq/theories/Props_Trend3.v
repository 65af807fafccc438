(** * C48, C49: l1 trend filtering *)

From Coq Require Import ZArith String List.
From mathcomp Require Import all_ssreflect all_algebra ssrZ zify.
From Verif Require Import Py PyFacts ExampleData Complex ComplexSpec ComplexFacts LinAlg Spectral Signal
  SignalSpec Bridge SignalFacts Compute Props_Signal Props_Hodge Eigen EigenSpec EigenFacts
  Props_Eigen Filter FilterSpec FilterFacts FilterFacts2 PolyFacts Props_Masks Props_LowPass Trend TrendFacts
  Props_Trend Props_Trend2.

Set Implicit Arguments.
Unset Strict Implicit.
Unset Printing Implicit Defensive.

Import GRing.Theory Num.Theory Order.Theory.
Local Open Scope ring_scope.

Section Spec.
Variable R : rcfType.
Implicit Types (x y z : seq R) (A : arr2).

Definition dist x y : R := Num.sqrt (energy (subf x y)).
Definition l1 x : R := \sum_(i < size x) `|x`_i|.
(** The objective of the trend filter. *)
Definition trend_cost A mu y x : R := dist y x + mu * l1 (mv A x).

(** Sum of the Euclidean norms of the rows. *)
Definition row_norms A : R := \sum_(i < sh0 A) Num.sqrt (\sum_(j < sh1 A) zmul (at2 A i j) 1 ^+ 2).

(** Contract of the solver: what it returns minimises the objective. *)
Definition solver_contract (solver : arr2 -> seq R -> R -> res (seq R)) : Prop :=
  forall A y mu x, size y = sh1 A -> 0 <= mu -> solver A y mu = Ok x ->
    size x = size y /\ forall z, size z = size y -> trend_cost A mu y x <= trend_cost A mu y z.

(** [x] agrees with [y] on what the rows measure. *)
Definition agrees (rows : seq (seq R)) x y : Prop := forall r, r \in rows -> dotp r x = dotp r y.

(** Contract of the solver with constraints. *)
Definition feasible_contract (solver : arr2 -> seq R -> seq (seq R) -> R -> res (seq R)) : Prop :=
  forall A y rows mu x, size y = sh1 A -> 0 <= mu -> solver A y rows mu = Ok x ->
    size x = size y /\ agrees rows x y.
Definition solver_eq_contract (solver : arr2 -> seq R -> seq (seq R) -> R -> res (seq R)) : Prop :=
  feasible_contract solver /\
  forall A y rows mu x, size y = sh1 A -> 0 <= mu -> solver A y rows mu = Ok x ->
    forall z, size z = size y -> agrees rows z y -> trend_cost A mu y x <= trend_cost A mu y z.

Definition floor_contract (floor : R -> Z) : Prop :=
  forall a, zmul (floor a) 1 <= a < zmul (floor a) 1 + 1.
Definition choice_contract (choice : nat -> nat -> nat -> nat -> seq nat) : Prop :=
  forall i j n m, (m <= n)%N -> uniq (choice i j n m) /\ size (choice i j n m) = m /\
    all (fun k => (k < n)%N) (choice i j n m).
End Spec.

Section Facts.
Variable R : rcfType.
Implicit Types (x y z : seq R) (A : arr2).

Lemma dist_ge0 x y : 0 <= dist x y. Proof. exact: sqrtr_ge0. Qed.
Lemma energy_eq0 n x : size x = n -> energy x = 0 -> x = zerof R n.
Proof.
move=> s; rewrite -(vecK s) energy_unvec => /eqP; rewrite nrm2_eq0 => /eqP ->.
by rewrite zerof_unvec.
Qed.
Lemma dist_eq0 n x y : size x = n -> size y = n -> dist x y = 0 -> x = y.
Proof.
move=> sx sy /eqP; rewrite sqrtr_eq0 => h; have /eqP : energy (subf x y) == 0 by rewrite eq_le h energy_ge0.
rewrite -(vecK sx) -(vecK sy) subf_unvec energy_unvec => /eqP; rewrite nrm2_eq0 subr_eq0 => /eqP -> //.
Qed.
Lemma distxx x : dist x x = 0.
Proof.
rewrite /dist; have -> : energy (subf x x) = 0; last by rewrite sqrtr0.
rewrite -(@vecK R (size x) x) // subf_unvec subrr energy_unvec; exact: nrm2_0.
Qed.
Lemma distC n x y : size x = n -> size y = n -> dist x y = dist y x.
Proof.
move=> sx sy; rewrite /dist -(vecK sx) -(vecK sy) !subf_unvec !energy_unvec; congr Num.sqrt.
by rewrite -opprB /nrm2 dotNl dotNr opprK.
Qed.

Lemma l1_ge0 x : 0 <= l1 x. Proof. by apply: sumr_ge0 => i _; exact: normr_ge0. Qed.
Lemma l1_zero n : l1 (zerof R n) = 0.
Proof. by apply: big1 => i _; rewrite nth_nseq; case: ifP => _; rewrite normr0. Qed.

Lemma mv_sub A x y : size x = sh1 A -> size y = sh1 A -> forall i, (i < sh0 A)%N ->
  (mv A x)`_i = (mv A y)`_i + (mv A (subf x y))`_i.
Proof.
move=> sx sy i li; rewrite !nth_mkseq // -big_split /=; apply: eq_bigr => j _.
have lj : (j < size x)%N by rewrite sx.
by rewrite nth_mkseq // (nth_map 0) ?sy // !zmulE mulN1r mulrBr addrC subrK.
Qed.

Lemma l1_triangle A x y : size x = sh1 A -> size y = sh1 A ->
  l1 (mv A x) <= l1 (mv A y) + l1 (mv A (subf x y)).
Proof.
move=> sx sy; rewrite /l1 !size_mv -big_split /=; apply: ler_sum => i _.
by rewrite (mv_sub sx sy) // ler_norm_add.
Qed.

Lemma l1_rows A d : size d = sh1 A -> l1 (mv A d) <= row_norms R A * Num.sqrt (energy d).
Proof.
move=> sd; rewrite /l1 size_mv /row_norms mulr_suml; apply: ler_sum => i _.
rewrite nth_mkseq //; set q := \sum_(j < _) zmul _ 1 ^+ 2; set t := \sum_(j < _) _.
have q0 : 0 <= q by apply: sumr_ge0 => j _; exact: sqr_ge0.
rewrite -sqrtrM // -sqrtr_sqr; apply: ler_wsqrtr.
have -> : t = dotp (mkseq (fun j => zmul (at2 A i j) (1 : R)) (sh1 A)) d.
  rewrite /dotp size_mkseq; apply: eq_bigr => j _; rewrite nth_mkseq //.
  by rewrite !zmulE mulr1.
have -> : q = energy (mkseq (fun j => zmul (at2 A i j) (1 : R)) (sh1 A)).
  by rewrite /energy /dotp size_mkseq; apply: eq_bigr => j _; rewrite nth_mkseq // expr2.
by apply: dotp_cs; rewrite size_mkseq.
Qed.

(** What being at least as good as [y] itself gives. *)
Lemma no_worse A mu y x : size y = sh1 A -> size x = sh1 A -> 0 <= mu ->
  trend_cost A mu y x <= trend_cost A mu y y ->
  (0 < mu -> l1 (mv A x) <= l1 (mv A y)) /\ dist y x <= mu * l1 (mv A y) /\
  (mv A y = zerof R (sh0 A) -> x = y) /\ (mu * row_norms R A < 1 -> x = y).
Proof.
move=> sy sx mu0; rewrite /trend_cost distxx add0r => h.
have d0 := dist_ge0 y x; have x0 : 0 <= mu * l1 (mv A x) by rewrite mulr_ge0 ?l1_ge0.
have dl : dist y x <= mu * l1 (mv A y) by apply: le_trans h; rewrite ler_addl.
split; first by move=> mup; rewrite -(ler_pmul2l mup); apply: le_trans h; rewrite ler_addr.
split=> //; split=> [z|k1].
  apply/esym/(dist_eq0 sy sx)/eqP; rewrite eq_le d0 andbT; apply: le_trans dl _.
  by rewrite z l1_zero mulr0.
apply/esym/(dist_eq0 sy sx)/eqP; rewrite eq_le d0 andbT.
have t : mu * l1 (mv A y) <= mu * l1 (mv A x) + mu * row_norms R A * dist y x.
  rewrite -mulrA -mulrDr ler_wpmul2l //; apply: le_trans (l1_triangle sy sx) _.
  by rewrite ler_add2l; apply: l1_rows; rewrite size_addf.
have := le_trans h t; rewrite addrC ler_add2l -subr_le0 -{1}[dist y x]mul1r -mulrBl.
by rewrite pmulr_rle0 // subr_gt0.
Qed.
End Facts.

Lemma shift_dims sc nodes E T nf ef c k A : make_sc nodes E T nf ef = Ok sc ->
  get_shift_operator sc c k = Ok (Csr A) -> sh1 A = length E.
Proof.
move=> H e; have [b0 b1] := B1_dims H; have [c0 c1] := B2_dims H.
have k0 : Z.le Z0 k by move: e; rewrite /get_shift_operator; case: Z.ltb_spec.
move: e; rewrite shift_opE // => -[<-]; rewrite (proj1 (op_sh _ _)) /base_array.
by case: String.eqb.
Qed.

(** ** C49 *)

Theorem C49_l1_estimates :
  forall (R : rcfType) (pow10 : R -> R) randn solver, (forall i j n, size (randn i j n) = n) ->
    solver_contract solver ->
  forall nodes E T nf ef sc, make_sc nodes E T nf ef = Ok sc ->
  forall (flow snr : seq R) c num order mu r, 0 <= mu ->
    denoise_l1 pow10 randn solver sc flow c num snr order mu = Ok r ->
  exists A, get_shift_operator sc c order = Ok (Csr A) /\ trend_filter r = None /\
    forall i j, (i < size snr)%N -> (j < Z.to_nat num)%N ->
      let y := noisy_flow pow10 flow (length E) snr`_i (randn i j (length E)) in
      let x := nth [::] (nth [::] (trend_responses r) i) j in
      size x = length E /\
      (forall z, size z = length E -> trend_cost A mu y x <= trend_cost A mu y z) /\
      (0 < mu -> l1 (mv A x) <= l1 (mv A y)) /\ dist y x <= mu * l1 (mv A y) /\
      (mv A y = zerof R (sh0 A) -> x = y) /\
      (mu * row_norms R A < 1 -> x = y).
Proof.
move=> R pow10 randn solver sr SC0 nodes E T nf ef sc H flow snr c num order mu r mu0.
rewrite /denoise_l1; case ec : components => [comp|] // /bind_Ok[Sh [eS /bind_Ok[A [eA /bind_Ok[[p q] [ep]]]]]].
case: Z.ltb_spec => // n0 /bind_Ok[t [et [<-]]].
have ES : Sh = Csr A.
  have k0 : Z.le Z0 order by move: eS; rewrite /get_shift_operator; case: Z.ltb_spec.
  by move: eS eA; rewrite shift_opE // => -[<-] [<-].
exists A; split; first by rewrite eS ES.
split=> //.
have dA : sh1 A = length E by apply: (shift_dims H (c := c) (k := order)); rewrite eS ES.
have M0 : (0 < length E)%N.
  by move: ep; rewrite /get_power_noise (scE H) lt0n; case: ifP.
move: ep; rewrite (power_noiseE pow10 H M0) => -[pE qE].
have sq : size q = size snr by rewrite -qE size_map.
have [st ht] := tableE et; rewrite sq in st ht.
move=> i j li lj; set y := noisy_flow _ _ _ _ _; set x := nth [::] (nth [::] _ i) j.
have [si hi] := ht i li; have := hi j lj.
move=> /bind_Ok[y' [ey]]; rewrite (scE H); case: eqP => // sy' /bind_Ok[x' [ex cx]].
have [sf [sx cE]] := cell_inv H ec cx.
have yE : y' = y by move: ey; rewrite -pE (scE H) (noisyE pow10 sr) // => -[<-].
have xE : x = x'.
  by rewrite /x /= (nth_map [::]) ?st // (nth_map (cell0 R)) ?si // cE.
have syA : size y' = sh1 A by rewrite sy' dA.
have [sxy mn] := SC0 _ _ _ _ syA mu0 ex; rewrite xE -yE; split; first by rewrite sx.
split; first by move=> z sz; apply: mn; rewrite sz sy'.
apply: no_worse => //; first by rewrite sx dA.
by apply: mn.
Qed.
Print Assumptions C49_l1_estimates.

(** ** C48 *)

Section Sample.
Variable R : rcfType.
Implicit Types (x f : seq R).

Lemma masked n f s : size f = n -> np_zip *%R f (sample_mask R n s) =
  Ok (mkseq (fun k => if k \in s then f`_k else 0) n).
Proof.
move=> sf; rewrite /np_zip size_mkseq sf eqxx; congr Ok.
apply: (@vecP R n); rewrite ?size_mkseq // ?size_map ?size_zip ?size_mkseq ?sf ?minnn // => k lk.
rewrite (nth_map (0, 0)) ?size_zip ?size_mkseq ?sf ?minnn // nth_zip ?size_mkseq //= !nth_mkseq //.
by case: (k \in s); rewrite ?mulr1 ?mulr0.
Qed.

Lemma row_dotp n k (a : R) x : (k < n)%N -> dotp (mkseq (fun j => if k == j then a else 0) n) x = a * x`_k.
Proof.
move=> lk; rewrite /dotp size_mkseq (bigD1 (Ordinal lk)) //= nth_mkseq // eqxx big1 ?addr0 //.
move=> j nj; rewrite nth_mkseq // (_ : (k == j) = false) ?mul0r //.
by apply/eqP => e; case/eqP: nj; apply: val_inj.
Qed.

Lemma sampled_row n k s : (k < n)%N -> k \in s ->
  mkseq (fun j => if k == j then 1 else 0 : R) n \in sampling_matrix (sample_mask R n s).
Proof.
move=> lk ks; rewrite mem_filter size_mkseq; apply/andP; split.
  apply/hasP; exists 1; last exact: oner_neq0.
  by apply/mapP; exists k; rewrite ?mem_iota // eqxx.
apply/mapP; exists k; rewrite ?mem_iota //.
by apply: eq_mkseq => j; case: eqP => // _; rewrite nth_mkseq // ks.
Qed.
Lemma row_sampled n r s : r \in sampling_matrix (sample_mask R n s) ->
  exists k, [/\ (k < n)%N, k \in s & r = mkseq (fun j => if k == j then 1 else 0) n].
Proof.
rewrite mem_filter size_mkseq => /andP[/hasP[a ha a0] /mapP[k]]; rewrite mem_iota /= => lk e.
have ks : k \in s.
  apply: contraNT a0 => nk; move: ha; rewrite e => /mapP[j _ ->]; case: (k == j) => //.
  by rewrite nth_mkseq // (negbTE nk).
exists k; split=> //; rewrite e; apply: eq_mkseq => j; case: eqP => // _.
by rewrite nth_mkseq // ks.
Qed.

Lemma agreesP n x y s : agrees (sampling_matrix (sample_mask R n s)) x y <->
  forall k, (k < n)%N -> k \in s -> x`_k = y`_k.
Proof.
split=> [h k lk ks|h r /row_sampled[k [lk ks ->]]].
  by have := h _ (sampled_row lk ks); rewrite !row_dotp // !mul1r.
by rewrite !row_dotp // !mul1r h.
Qed.
End Sample.

(** A completed interpolation, cell by cell. *)
Lemma interp_cells (R : rcfType) solver_eq (floor : R -> Z) choice nodes E T nf ef sc flow c ratio num order mu r :
  make_sc nodes E T nf ef = Ok sc ->
  interpolate_l1 solver_eq floor choice sc flow c ratio num order mu = Ok r ->
  exists A, get_shift_operator sc c order = Ok (Csr A) /\ sh1 A = length E /\ trend_filter r = None /\
    forall i j, (i < size ratio)%N -> (j < Z.to_nat num)%N ->
      let m := floor ((length E)%:R * ratio`_i) in
      let s := choice i j (length E) (Z.to_nat m) in
      let y := mkseq (fun k => if k \in s then flow`_k else 0) (length E) in
      let x := nth [::] (nth [::] (trend_responses r) i) j in
      Z.le Z0 m /\ Z.le m (Z.of_nat (length E)) /\ size flow = length E /\ size x = length E /\
      solver_eq A y (sampling_matrix (sample_mask R (length E) s)) mu = Ok x.
Proof.
move=> H; rewrite /interpolate_l1; case ec : components => [comp|] // /bind_Ok[Sh [eS /bind_Ok[A [eA]]]].
case: Z.ltb_spec => // n0 /bind_Ok[t [et [<-]]].
have ES : Sh = Csr A.
  have k0 : Z.le Z0 order by move: eS; rewrite /get_shift_operator; case: Z.ltb_spec.
  by move: eS eA; rewrite shift_opE // => -[<-] [<-].
exists A; split; first by rewrite eS ES.
split; first by apply: (shift_dims H (c := c) (k := order)); rewrite eS ES.
split=> //.
have [st ht] := tableE et.
move=> i j li lj; set m := floor _; set s := choice _ _ _ _; set y := mkseq _ _.
set x := nth [::] (nth [::] _ i) j; have [si hi] := ht i li; have := hi j lj.
rewrite (scE H) -[size E]/(length E) -/m; case: Z.ltb_spec => //= m0; case: Z.ltb_spec => //= m1.
move=> /bind_Ok[y' [ey]]; case: eqP => // sy' /bind_Ok[x' [ex cx]].
have [sf [sx cE]] := cell_inv H ec cx.
have yE : y' = y by move: ey; rewrite masked // => -[<-].
have xE : x = x'.
  by rewrite /x /= (nth_map [::]) ?st // (nth_map (cell0 R)) ?si // cE.
by rewrite xE -yE.
Qed.

Theorem C48_observed_edges_kept :
  forall (R : rcfType) solver_eq (floor : R -> Z) choice,
    feasible_contract solver_eq -> floor_contract floor -> choice_contract choice ->
  forall nodes E T nf ef sc, make_sc nodes E T nf ef = Ok sc ->
  forall (flow ratio : seq R) c num order mu r, 0 <= mu ->
    interpolate_l1 solver_eq floor choice sc flow c ratio num order mu = Ok r ->
  forall i j, (i < size ratio)%N -> (j < Z.to_nat num)%N ->
    let x := nth [::] (nth [::] (trend_responses r) i) j in
    exists observed : seq nat, uniq observed /\ (forall k, k \in observed -> (k < length E)%N) /\
      ((size observed)%:R <= (length E)%:R * ratio`_i < (size observed)%:R + 1) /\
      size x = length E /\ (forall k, k \in observed -> x`_k = flow`_k).
Proof.
move=> R solver_eq floor choice FC FL CC nodes E T nf ef sc H flow ratio c num order mu r mu0 er.
have [A [eA [dA [_ h]]]] := interp_cells H er.
move=> i j li lj x; have [m0 [m1 [sf [sx ex]]]] := h i j li lj.
set m := floor _ in m0 m1 ex.
have [|us [ss al]] := CC i j (length E) (Z.to_nat m); first by lia.
exists (choice i j (length E) (Z.to_nat m)); split=> //.
split; first by move=> k; exact: (allP al).
have mE : zmul m 1 = (size (choice i j (length E) (Z.to_nat m)))%:R :> R.
  by rewrite ss /zmul -[X in _ = X]/((Posz (Z.to_nat m))%:~R); congr (_ *~ _); lia.
split; first by rewrite -mE; exact: FL.
split=> //.
have [|_ ag] := FC _ _ _ _ _ _ mu0 ex; first by rewrite size_mkseq.
move=> k ks; have lk : (k < length E)%N := allP al k ks.
by have := proj1 (agreesP _ _ _ _) ag k lk ks; rewrite nth_mkseq // ks.
Qed.
Print Assumptions C48_observed_edges_kept.

(** What the objective does with the edges that were not observed: it pulls them towards zero, and for a
    small weight leaves them at zero, so that nothing is interpolated. *)
Theorem C48_unobserved_edges :
  forall (R : rcfType) solver_eq (floor : R -> Z) choice, solver_eq_contract solver_eq ->
  forall nodes E T nf ef sc, make_sc nodes E T nf ef = Ok sc ->
  forall (flow ratio : seq R) c num order mu r, 0 <= mu ->
    interpolate_l1 solver_eq floor choice sc flow c ratio num order mu = Ok r ->
  exists A, get_shift_operator sc c order = Ok (Csr A) /\ trend_filter r = None /\
  forall i j, (i < size ratio)%N -> (j < Z.to_nat num)%N ->
    let x := nth [::] (nth [::] (trend_responses r) i) j in
    exists (observed : seq nat) (y : seq R), size y = length E /\
      (forall k, (k < length E)%N -> y`_k = if k \in observed then flow`_k else 0) /\
      (forall k, (k < length E)%N -> k \in observed -> x`_k = flow`_k) /\
      (0 < mu -> l1 (mv A x) <= l1 (mv A y)) /\ dist y x <= mu * l1 (mv A y) /\
      (mv A y = zerof R (sh0 A) -> x = y) /\ (mu * row_norms R A < 1 -> x = y).
Proof.
move=> R solver_eq floor choice [FC MC] nodes E T nf ef sc H flow ratio c num order mu r mu0 er.
have [A [eA [dA [fN h]]]] := interp_cells H er.
exists A; do 2 split=> //; move=> i j li lj x.
have [m0 [m1 [sf [sx ex]]]] := h i j li lj.
set s := choice _ _ _ _ in ex; set y := mkseq _ _ in ex.
have sy : size y = sh1 A by rewrite size_mkseq dA.
have [sxy ag] := FC _ _ _ _ _ sy mu0 ex; have mn := MC _ _ _ _ _ sy mu0 ex.
exists s, y; split; first by rewrite size_mkseq.
split; first by move=> k lk; rewrite nth_mkseq.
split.
  by move=> k lk ks; have := proj1 (agreesP _ _ _ _) ag k lk ks; rewrite nth_mkseq // ks.
apply: no_worse => //; first by rewrite sx dA.
by apply: mn.
Qed.
Print Assumptions C48_unobserved_edges.

Theorem C48_ratios :
  forall (R : rcfType) solver_eq (floor : R -> Z) choice, floor_contract floor ->
  forall nodes E T nf ef sc, make_sc nodes E T nf ef = Ok sc ->
  forall (flow ratio : seq R) c num order mu,
  (~ (c = "divergence" \/ c = "curl")%string ->
     interpolate_l1 solver_eq floor choice sc flow c ratio num order mu = Raise ValueError) /\
  ((c = "divergence" \/ c = "curl")%string -> Z.lt order Z0 \/ Z.lt num Z0 ->
     interpolate_l1 solver_eq floor choice sc flow c ratio num order mu = Raise ValueError) /\
  (Z.lt Z0 num -> (exists i, (i < size ratio)%N /\
        ((length E)%:R * ratio`_i < 0 \/ (length E)%:R + 1 <= (length E)%:R * ratio`_i)) ->
     (exists e, interpolate_l1 solver_eq floor choice sc flow c ratio num order mu = Raise e) /\
     ((length E)%:R * ratio`_0 < 0 \/ (length E)%:R + 1 <= (length E)%:R * ratio`_0 ->
        interpolate_l1 solver_eq floor choice sc flow c ratio num order mu = Raise ValueError)).
Proof.
move=> R solver_eq floor choice FL nodes E T nf ef sc H flow ratio c num order mu.
have Z1 z : zmul z (1 : R) = (int_of_Z z)%:~R by [].
have bad a : a < 0 \/ (length E)%:R + 1 <= a ->
    Z.ltb (floor a) 0 || Z.ltb (Z.of_nat (length E)) (floor a).
  have := FL a; rewrite Z1 => /andP[f1 f2] [a0|a1].
    have : (int_of_Z (floor a))%:~R < 0 :> R by apply: le_lt_trans a0.
    by rewrite ltrz0 => l0; apply/orP; left; apply/Z.ltb_lt; lia.
  have : (length E)%:R + 1 < (int_of_Z (floor a))%:~R + 1 :> R by apply: le_lt_trans f2.
  rewrite ltr_add2r -[(length E)%:R]/((Posz (length E))%:~R) ltr_int => l1'.
  by apply/orP; right; apply/Z.ltb_lt; lia.
split=> [nc|].
  rewrite /interpolate_l1; case e : (components R sc c) => [comp|] //.
  by case: nc; apply/(components_some R sc); exists comp.
split=> [hc|n0 [i [li hi]]].
  have [comp ec] := proj2 (components_some R sc c) hc; rewrite /interpolate_l1 ec.
  have [o0|o0] := Z.lt_ge_cases order Z0.
    by move=> _; rewrite /get_shift_operator (proj2 (Z.ltb_lt _ _) o0).
  case=> [|n0]; first by lia.
  by rewrite shift_opE // /= (proj2 (Z.ltb_lt _ _) n0).
split.
  case er : (interpolate_l1 _ _ _ _ _ _ _ _ _ _) => [r|e]; last by exists e.
  have [A [_ [_ [_ h]]]] := interp_cells H er.
  have n0' : (0 < Z.to_nat num)%N by lia.
  have [m0 [m1 _]] := h i 0%N li n0'.
  by move: (bad _ hi) => /orP[/Z.ltb_lt|/Z.ltb_lt]; lia.
move=> h0; rewrite /interpolate_l1; case ec : components => [comp|] //.
have [o0|o0] := Z.lt_ge_cases order Z0.
  by rewrite /get_shift_operator (proj2 (Z.ltb_lt _ _) o0).
rewrite shift_opE // /=; case: Z.ltb_spec => // _.
rewrite (@table_raise _ _ _ _ ValueError) //.
- exact: leq_ltn_trans li.
- by lia.
by rewrite (scE H) (bad _ h0).
Qed.
Print Assumptions C48_ratios.
