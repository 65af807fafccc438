(** * Facts about low-pass denoising, errors and polynomial filters *)

From Coq Require Import ZArith String List.
From mathcomp Require Import all_ssreflect all_algebra ssrZ zify.
From Coq Require Import Ring Field.
From Verif Require Import Py PyFacts Complex ComplexSpec ComplexFacts LinAlg Spectral Signal SignalSpec
  Bridge SignalFacts Eigen EigenSpec IntEigen EigenFacts RingTac Filter FilterSpec FilterFacts.

Set Implicit Arguments.
Unset Strict Implicit.
Unset Printing Implicit Defensive.

Import GRing.Theory Num.Theory Order.Theory.
Local Open Scope ring_scope.

Section Unit.
Variable R : realFieldType.
Lemma unitmx_inj n (A : 'M[R]_n) : (forall x : 'cV[R]_n, A *m x = 0 -> x = 0) -> A \in unitmx.
Proof.
move=> h; rewrite -unitmx_tr -row_free_unit -kermx_eq0; apply/eqP/row_matrixP => i.
rewrite row0; apply: trmx_inj; rewrite trmx0; apply: h.
by apply: trmx_inj; rewrite trmx_mul trmxK -row_mul mulmx_ker row0 trmx0.
Qed.
Lemma unitmx_eq0 n (A : 'M[R]_n) (x : 'cV[R]_n) : A \in unitmx -> A *m x = 0 -> x = 0.
Proof. by move=> uA e; rewrite -[x](mulKmx uA) e mulmx0. Qed.
End Unit.

(** ** I + mu P for a symmetric positive semidefinite P *)
Section Shift.
Variable R : realFieldType.
Add Field R_field : (mc_field R).
Variables (n : nat) (P : 'M[R]_n) (mu : R).
Hypothesis sP : P^T = P.
Hypothesis pP : forall x : 'cV[R]_n, 0 <= dot x (P *m x).
Hypothesis mu0 : 0 <= mu.
Notation A := (1%:M + mu *: P).

Lemma shiftE (x : 'cV[R]_n) : A *m x = x + mu *: (P *m x).
Proof. by rewrite mulmxDl mul1mx scalemxAl. Qed.

Lemma shift_unit : A \in unitmx.
Proof.
apply: unitmx_inj => x; rewrite shiftE => e.
have : dot x (x + mu *: (P *m x)) = 0 by rewrite e dot0r.
rewrite dotDr dotZr => /eqP; rewrite paddr_eq0 ?dot_ge0 ?mulr_ge0 // => /andP[z _].
by apply/eqP; rewrite -dot_eq0.
Qed.

Variable f : 'cV[R]_n.
Notation x := (invmx A *m f).
Lemma shift_sol : x + mu *: (P *m x) = f.
Proof. by rewrite -shiftE mulKVmx // shift_unit. Qed.

Definition cost (y : 'cV[R]_n) : R := nrm2 (f - y) + mu * dot y (P *m y).

Lemma cost_diff y : cost y = cost x + nrm2 (y - x) + mu * dot (y - x) (P *m (y - x)).
Proof.
have [d ->] : exists d, y = x + d by exists (y - x); rewrite addrC subrK.
rewrite [x + d - x]addrAC subrr add0r /cost.
have fx : f - x = mu *: (P *m x) by rewrite -{1}shift_sol addrAC subrr add0r.
have -> : f - (x + d) = (f - x) + (- d) by rewrite opprD addrA.
rewrite nrm2D fx dotNr dotZl mulmxDr !dotDr !dotDl (dotC d (P *m x)) (dotC x (P *m d)).
rewrite [dot (P *m d) x]dot_mulmx sP (dotC d (P *m x)).
have -> : nrm2 (- d) = nrm2 d by rewrite /nrm2 dotNl dotNr opprK.
set a := nrm2 _; set b := dot (P *m x) d; set c := nrm2 d; set e := dot d _; set g := dot x _.
by to_r R; ring.
Qed.

Lemma shift_min y : cost x <= cost y /\ (cost y <= cost x -> y = x).
Proof.
rewrite (cost_diff y); set d := y - x.
have c0 : 0 <= nrm2 d + mu * dot d (P *m d) by rewrite addr_ge0 ?nrm2_ge0 ?mulr_ge0.
split=> [|]; first by rewrite -addrA ler_addl.
rewrite -addrA ger_addl => le; apply/eqP; rewrite -subr_eq0 -/d -nrm2_eq0 eq_le nrm2_ge0 andbT.
apply: le_trans le; rewrite ler_addl mulr_ge0 //.
Qed.

Lemma shift_energy : nrm2 x <= nrm2 f.
Proof.
rewrite -{2}shift_sol nrm2D -addrA ler_addl addr_ge0 ?nrm2_ge0 //.
by rewrite dotZr mulr_ge0 ?ler0n ?mulr_ge0.
Qed.
Lemma shift_dot : 0 <= dot f x.
Proof. by rewrite -{1}shift_sol dotDl dotZl addr_ge0 ?dot_ge0 ?mulr_ge0 // dotC. Qed.
Lemma shift_fix : P *m f = 0 -> x = f.
Proof.
move=> Pf; have e : A *m f = f by rewrite shiftE Pf scaler0 addr0.
by rewrite -{1}e mulKmx // shift_unit.
Qed.
Lemma shift_eigen (u : 'cV[R]_n) lam : P *m u = lam *: u -> dot u u = 1 ->
  (u^T *m invmx A *m u) 0 0 = (1 + mu * lam)^-1.
Proof.
move=> e u1.
have l0 : 0 <= lam by have := pP u; rewrite e dotZr u1 mulr1.
have a0 : 1 + mu * lam != 0 by rewrite gt_eqF // ltr_paddr ?mulr_ge0 // ltr01.
have Au : A *m u = (1 + mu * lam) *: u by rewrite shiftE e scalerA scalerDl scale1r.
have -> : u^T *m invmx A *m u = (1 + mu * lam)^-1 *: (u^T *m u).
  have {2}-> : u = (1 + mu * lam)^-1 *: (A *m u) by rewrite Au scalerA mulVf // scale1r.
  by rewrite -scalemxAr -mulmxA mulKmx ?shift_unit.
by rewrite mxE -dotE u1 mulr1.
Qed.
End Shift.

(** ** Errors *)
Section Err.
Variable R : rcfType.
Implicit Types x t : seq R.

Lemma normE x : norm x = Num.sqrt (energy x).
Proof. by rewrite /norm /energy /dotp; congr Num.sqrt; apply: eq_bigr => i _; rewrite expr2. Qed.

Lemma energy_ge0 x : 0 <= energy x.
Proof. by apply: sumr_ge0 => i _; rewrite -expr2 sqr_ge0. Qed.

Lemma norm_eq0 x : (norm x == 0) = (energy x == 0).
Proof. by rewrite normE sqrtr_eq0 eq_le energy_ge0 andbT. Qed.

(** The error as a function, for arrays of equal length. *)
Definition nrmse x t : fl R :=
  if energy t == 0 then if energy (subf x t) == 0 then NaN R else PInf R
  else Fin (norm (subf x t) / norm t).

Lemma subf_unvec n (u v : 'cV[R]_n) : subf (unvec u) (unvec v) = unvec (u - v).
Proof. by rewrite /subf scalef_unvec addf_unvec scaleN1r. Qed.

Lemma nrmseE x t : size x = size t -> calculate_error_NRMSE x t = Ok (nrmse x t).
Proof.
move=> s; rewrite /calculate_error_NRMSE.
rewrite -[x](vecK s) -[t in np_sub _ t](vecK erefl) np_sub_unvec /=.
by rewrite -subf_unvec (vecK s) (vecK erefl) /nrmse !norm_eq0.
Qed.

Lemma nrmse_fin x t e : nrmse x t = Fin e -> 0 <= e /\ e ^+ 2 * energy t = energy (subf x t) /\ energy t != 0.
Proof.
rewrite /nrmse; case: ifP => t0; first by case: ifP.
case=> <-; rewrite !normE; split; first by rewrite divr_ge0 ?sqrtr_ge0.
rewrite expr_div_n !sqr_sqrtr ?energy_ge0 //; split=> //.
by rewrite mulfVK ?t0.
Qed.
End Err.

(** ** EdgeFlowDenoising *)
Section EdgeFlow.
Variable R : rcfType.
Variable eigsh : forall n, 'M[R]_n -> seq (R * 'cV[R]_n).
Variables (nodes : list Z) (E : list (Z * Z)) (T : list (list Z)) (nf : dict Z fdict)
          (ef : dict (Z * Z) fdict) (sc : SC).
Hypothesis H : make_sc nodes E T nf ef = Ok sc.
Let M := length E.
Variables (p : string).
Hypothesis pv : p_valid p.
Hypothesis M0 : (0 < M)%N.
Notation P := (p_mat R nodes E T sc p).
Notation shift mu := (1%:M + mu *: P).
Notation U := (up (zeroed (eigsh P))).

Lemma edge_flow_unfold f t mus : edge_flow_denoise eigsh sc f t p mus =
  let! steps := mapM (denoise_step P U f t) mus in collect steps.
Proof.
have [h0 h1] := p_dims H p; have D := p_decomp eigsh H p M0; have TP := toM_p R H p.
rewrite /edge_flow_denoise get_p_matrixE pv; move: h0 h1 D TP; set A := p_array sc p => h0 _ D TP.
transitivity (let! U1 := get_eigendecomposition eigsh (Dense A) (eps64 R) in
  let! steps := mapM (denoise_step (toM R (sh0 A) (sh0 A) A) U1 f t) mus in collect steps); first by [].
rewrite D; move: (up _) => V; rewrite -TP; move: V; rewrite h0 => V.
by [].
Qed.

Definition low_pass f t mu : 'M[R]_M * seq R * seq R * fl R :=
  (invmx (shift mu), unvec (invmx (shift mu) *m vec M f), diag_response (invmx (shift mu)) U,
   nrmse (unvec (invmx (shift mu) *m vec M f)) t).

Lemma denoise_stepE f t mu : 0 <= mu -> size f = M -> size t = M ->
  denoise_step P U f t mu = Ok (low_pass f t mu).
Proof.
move=> mu0 sf st; rewrite /denoise_step /np_inv shift_unit //=; last exact: (p_psd nodes T sc p).
rewrite /mat_dot sf eqxx /= nrmseE ?size_unvec //.
Qed.

Lemma edge_flowE f t mus : size f = M -> size t = M -> (forall mu, mu \in mus -> 0 <= mu) ->
  edge_flow_denoise eigsh sc f t p mus = collect [seq low_pass f t mu | mu <- mus].
Proof.
move=> sf st nn; rewrite edge_flow_unfold.
suff -> : mapM (denoise_step P U f t) mus = Ok [seq low_pass f t mu | mu <- mus] by [].
elim: mus nn => //= mu mus IH nn; rewrite denoise_stepE ?nn ?mem_head //= IH // => a am.
by apply: nn; rewrite inE am orbT.
Qed.
End EdgeFlow.

(** ** Responses along an eigenbasis *)
Section Basis.
Variable R : rcfType.
Variables (n : nat) (P : 'M[R]_n) (l : seq (R * 'cV[R]_n)).
Hypothesis F : eigfam P l.

Lemma eigfam_size : size l = n. Proof. by have /eigfamP[] := F. Qed.
Lemma eigfam_orthonormal : orthonormal [seq unvec p.2 | p <- l].
Proof. by have /eigfamP[_ [o _]] := F; have := onf_orthonormal o; rewrite -map_comp. Qed.
Lemma eigfam_eq p : p \in l -> P *m p.2 = p.1 *: p.2.
Proof. by have /eigfamP[_ [_ h]] := F; exact: h. Qed.
Lemma eigfam_unit p : p \in l -> dot p.2 p.2 = 1.
Proof.
by have /eigfamP[_ [/onfP[_ o] _]] := F => pl; rewrite o ?eqxx //; apply: map_f.
Qed.

Lemma diag_responseE (H : 'M[R]_n) : diag_response H (up (zeroed l)) = [seq (p.2^T *m H *m p.2) 0 0 | p <- l].
Proof. by rewrite /diag_response /up /zeroed -!map_comp; apply: eq_map => p /=; rewrite unvecK. Qed.
End Basis.
