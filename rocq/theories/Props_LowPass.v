(** * Low-pass denoising: C33, C34 *)

From Coq Require Import ZArith String List.
From mathcomp Require Import all_ssreflect all_algebra all_real_closed ssrZ zify.
From Verif Require Import Py PyFacts ExampleData Complex ComplexSpec ComplexFacts LinAlg Spectral Signal SignalSpec
  Bridge SignalFacts Compute Props_Signal Eigen EigenSpec IntEigen EigenFacts Props_Eigen
  Filter FilterSpec FilterFacts FilterFacts2 Props_Masks.

Set Implicit Arguments.
Unset Strict Implicit.
Unset Printing Implicit Defensive.

Import GRing.Theory Num.Theory Order.Theory.
Local Open Scope ring_scope.

(** What a relative error between an estimate and a reference has to be: the quotient of the norms, nan
    for 0/0 and inf for a positive number over 0. *)
Definition relative_error (R : rcfType) (x t : seq R) (e : fl R) : Prop :=
  match e with
  | Fin e => 0 <= e /\ e ^+ 2 * energy t = energy (subf x t) /\ 0 < energy t
  | NaN => energy t = 0 /\ energy (subf x t) = 0
  | PInf => energy t = 0 /\ 0 < energy (subf x t)
  end.

Lemma nrmse_relative (R : rcfType) (x t : seq R) : relative_error x t (nrmse x t).
Proof.
case e : (nrmse x t) => [a||] /=.
- have [a0 [-> tn]] := nrmse_fin e; do 2 split=> //.
  by rewrite lt_neqAle eq_sym tn energy_ge0.
- by move: e; rewrite /nrmse; case: eqP => // -> ; case: eqP => // ->.
move: e; rewrite /nrmse; case: eqP => // -> ; case: eqP => // /eqP nz _; split=> //.
by rewrite lt_neqAle eq_sym nz energy_ge0.
Qed.

Section Facts.
Variable R : rcfType.
Variable eigsh : forall n, 'M[R]_n -> seq (R * 'cV[R]_n).
Variables (nodes : list Z) (E : list (Z * Z)) (T : list (list Z)) (nf : dict Z fdict)
          (ef : dict (Z * Z) fdict) (sc : SC).
Hypothesis H : make_sc nodes E T nf ef = Ok sc.
Let M := length E.

Lemma p_of p A : get_p_matrix sc p = Ok (Csr A) -> p_valid p /\ A = p_array sc p.
Proof. by rewrite get_p_matrixE; case: ifP => // v [<-]. Qed.

Lemma mv_p p (x : seq R) : mv (p_array sc p) x = unvec (p_mat R nodes E T sc p *m vec M x).
Proof. by have [h0 h1] := p_dims H p; rewrite (mvE x h0 h1) (toM_p R H). Qed.

Lemma qform_p p (x : seq R) : qform (p_array sc p) x = dot (vec M x) (p_mat R nodes E T sc p *m vec M x).
Proof. by have [h0 h1] := p_dims H p; rewrite (qformE x h0 h1) (toM_p R H). Qed.

Lemma mv_p0 p (x : seq R) : mv (p_array sc p) x = zerof R M <-> p_mat R nodes E T sc p *m vec M x = 0.
Proof.
rewrite mv_p zerof_unvec; split=> [h|-> //].
by move: (congr1 (vec M) h); rewrite !unvecK.
Qed.

Lemma is_eigen_p p lam (u : 'cV[R]_M) : p_mat R nodes E T sc p *m u = lam *: u ->
  is_eigen (p_array sc p) lam (unvec u).
Proof. by move=> e; rewrite /is_eigen mv_p unvecK e scalef_unvec. Qed.
End Facts.

(** ** C33 *)

Theorem C33_lowpass_is_regularised_minimiser :
  forall (R : rcfType) (eigsh : forall n, 'M[R]_n -> seq (R * 'cV[R]_n)),
  forall nodes E T nf ef sc, make_sc nodes E T nf ef = Ok sc -> (0 < length E)%N ->
  forall p P, get_p_matrix sc p = Ok (Csr P) ->
  forall (f f_true : seq R), size f = length E -> size f_true = length E ->
  forall mus mu, (forall m, m \in rcons mus mu -> 0 <= m) ->
  exists r, edge_flow_denoise eigsh sc f f_true p (rcons mus mu) = Ok r /\
    unique_minimiser (length E) (fun x => energy (subf f x) + mu * qform P x) (run_estimated r).
Proof.
move=> R eigsh nodes E T nf ef sc H M0 p P /p_of[pv ->] f t sf st mus mu nn.
rewrite (edge_flowE eigsh H pv M0 sf st nn); set D := low_pass _ _ _ _ _ _ _ _.
have -> : [seq D m | m <- rcons mus mu] = rcons [seq D m | m <- mus] (D mu) by rewrite map_rcons.
have [r [-> er]] : exists r, collect (rcons [seq D m | m <- mus] (D mu)) = Ok r /\
    run_estimated r = (D mu).1.1.2.
  case: (mus) => [|m ms] /=; first by eexists.
  by rewrite last_rcons; eexists.
exists r; split=> //; rewrite er /=.
have mu0 : 0 <= mu by apply: nn; rewrite mem_rcons mem_head.
set A := p_mat _ _ _ _ _ _; split=> [|y sy]; first by rewrite size_unvec.
rewrite !(qform_p H) unvecK -(vecK sf) -(vecK sy) !subf_unvec !energy_unvec !unvecK.
have [le uq] := shift_min (p_sym R nodes E T sc p) (p_psd nodes T sc p) mu0 (vec (length E) f) (vec (length E) y).
split=> // h; congr unvec; exact: uq.
Qed.
Print Assumptions C33_lowpass_is_regularised_minimiser.

(** ** C34 *)

Theorem C34_lowpass_run :
  forall (R : rcfType) (eigsh : forall n, 'M[R]_n -> seq (R * 'cV[R]_n)), eigsh_contract eigsh ->
  forall nodes E T nf ef sc, make_sc nodes E T nf ef = Ok sc -> (0 < length E)%N ->
  forall p P, get_p_matrix sc p = Ok (Csr P) ->
  forall (f f_true : seq R), size f = length E -> size f_true = length E ->
  forall mus mu, (forall m, m \in rcons mus mu -> 0 <= m) ->
  exists r, edge_flow_denoise eigsh sc f f_true p (rcons mus mu) = Ok r /\
    (* the last mu *)
    shaped (run_filter r) (length E) (length E) /\ symmetric (run_filter r) /\
    rmv (run_filter r) f = run_estimated r /\
    addf (run_estimated r) (scalef mu (mv P (run_estimated r))) = f /\
    energy (run_estimated r) <= energy f /\ 0 <= dotp f (run_estimated r) /\
    (mv P f = zerof R (length E) -> run_estimated r = f) /\
    (0 < mu -> run_estimated r = f -> mv P f = zerof R (length E)) /\
    (* every mu *)
    size (run_errors r) = (size mus).+1 /\ size (run_responses r) = (size mus).+1 /\
    (forall k, (k <= size mus)%N -> exists rk,
       edge_flow_denoise eigsh sc f f_true p (take k.+1 (rcons mus mu)) = Ok rk /\
       relative_error (run_estimated rk) f_true (nth (NaN R) (run_errors r) k)) /\
    exists lams us, size lams = length E /\ size us = length E /\ orthonormal us /\
      (forall i, (i < length E)%N -> is_eigen P lams`_i (nth [::] us i) /\ 0 <= lams`_i) /\
      forall k, (k <= size mus)%N ->
        nth [::] (run_responses r) k = [seq 1 / (1 + (rcons mus mu)`_k * lam) | lam <- lams].
Proof.
move=> R eigsh EC nodes E T nf ef sc H M0 p P /p_of[pv ->] f t sf st mus mu nn.
have takeE k : edge_flow_denoise eigsh sc f t p (take k (rcons mus mu)) =
    collect [seq low_pass eigsh nodes E T sc p f t m | m <- take k (rcons mus mu)].
  by apply: (edge_flowE eigsh H pv M0 sf st) => m /mem_take; exact: nn.
rewrite (edge_flowE eigsh H pv M0 sf st nn); set D := low_pass _ _ _ _ _ _ _ _ in takeE *.
have collectE ms m : exists r, collect [seq D m | m <- rcons ms m] = Ok r /\
    run_estimated r = (D m).1.1.2 /\ run_filter r = rows (D m).1.1.1 /\
    run_responses r = [seq (D m).1.2 | m <- rcons ms m] /\ run_errors r = [seq (D m).2 | m <- rcons ms m].
  rewrite map_rcons; case: ms => [|m' ms] /=; first by eexists.
  rewrite last_rcons; eexists; split; first by [].
  by rewrite /= -!map_rcons -!map_comp.
have [r [-> [ee [ef' [er ex]]]]] := collectE mus mu.
exists r; split=> //.
have mu0 : 0 <= mu by apply: nn; rewrite mem_rcons mem_head.
rewrite ee ef' er ex !size_map !size_rcons /D /low_pass /=.
set A := p_mat _ _ _ _ _ _; have sA : A^T = A := p_sym R nodes E T sc p.
have pA : forall x : 'cV[R]_(length E), 0 <= dot x (A *m x) := p_psd nodes T sc p.
split; first exact: rows_shaped.
split.
  by apply: rows_sym; rewrite trmx_inv linearD /= linearZ /= trmx1 sA.
split; first by rewrite rmv_rows.
split.
  by rewrite (mv_p H) unvecK scalef_unvec addf_unvec shift_sol // vecK.
split; first by have := shift_energy pA mu0 (vec (length E) f); rewrite -!energy_unvec (vecK sf).
split.
  by have := shift_dot pA mu0 (vec (length E) f); rewrite -dotp_unvec (vecK sf).
split.
  by move=> /(mv_p0 H) z; rewrite shift_fix // vecK.
split.
  move=> mup e; apply/(mv_p0 H); apply/eqP.
  have := shift_sol pA mu0 (vec (length E) f).
  have -> : invmx (1%:M + mu *: A) *m vec (length E) f = vec (length E) f by move: (congr1 (vec (length E)) e); rewrite unvecK.
  by move/eqP; rewrite -subr_eq0 addrAC subrr add0r scaler_eq0 gt_eqF.
split=> //; split=> //.
have F : eigfam A (eigsh (length E) A) := contract_eigfam EC M0 sA.
split.
  move=> k km; rewrite takeE.
  rewrite (take_nth 0) ?size_rcons //.
  have [rk [-> [ek _]]] := collectE (take k (rcons mus mu)) (rcons mus mu)`_k.
  exists rk; split=> //; rewrite (nth_map 0) ?size_rcons // ek; exact: nrmse_relative.
exists [seq q.1 | q <- eigsh (length E) A], [seq unvec q.2 | q <- eigsh (length E) A].
rewrite !size_map (eigfam_size F); do 2 split=> //; split; first exact: eigfam_orthonormal F.
have s := eigfam_size F.
split.
  move=> i im; rewrite !(nth_map (0, 0)) ?s //; set q := nth _ _ _.
  have ql : q \in eigsh (length E) A by rewrite mem_nth ?s.
  have qe := eigfam_eq F ql; split; first exact: (is_eigen_p H).
  by have := pA q.2; rewrite qe dotZr (eigfam_unit F ql) mulr1.
move=> k km; rewrite (nth_map 0) ?size_rcons // diag_responseE -map_comp.
apply/eq_in_map => q ql /=; rewrite (shift_eigen pA _ (eigfam_eq F ql) (eigfam_unit F ql)) ?div1r //.
by apply: nn; rewrite mem_nth // size_rcons.
Qed.
Print Assumptions C34_lowpass_run.

(** Inputs that are rejected.  A negative mu is accepted unless I + mu P is singular. *)
Theorem C34_rejections :
  forall (R : rcfType) (eigsh : forall n, 'M[R]_n -> seq (R * 'cV[R]_n)),
  forall nodes E T nf ef sc, make_sc nodes E T nf ef = Ok sc ->
  forall p (f f_true mus : seq R),
  (p <> "L1"%string -> p <> "L1L"%string -> p <> "L1U"%string ->
     edge_flow_denoise eigsh sc f f_true p mus = Raise ValueError) /\
  forall P, get_p_matrix sc p = Ok (Csr P) -> (0 < length E)%N ->
  edge_flow_denoise eigsh sc f f_true p [::] = Raise UnboundLocalError /\
  forall mu,
  (0 <= mu -> size f <> length E ->
     edge_flow_denoise eigsh sc f f_true p (mu :: mus) = Raise ValueError) /\
  (0 <= mu -> size f = length E -> size f_true <> length E -> length E <> 1%N -> size f_true <> 1%N ->
     edge_flow_denoise eigsh sc f f_true p (mu :: mus) = Raise ValueError) /\
  ((exists x, size x = length E /\ x <> zerof R (length E) /\
      addf x (scalef mu (mv P x)) = zerof R (length E)) ->
     edge_flow_denoise eigsh sc f f_true p (mu :: mus) = Raise LinAlgError).
Proof.
move=> R eigsh nodes E T nf ef sc H p f t mus; split.
  move=> a b c; rewrite /edge_flow_denoise get_p_matrixE /p_valid.
  by case: String.eqb_spec => //; case: String.eqb_spec => //; case: String.eqb_spec.
move=> P /p_of[pv ->] M0; split; first by rewrite (edge_flow_unfold eigsh H pv M0).
move=> mu; rewrite (edge_flow_unfold eigsh H pv M0) /= /denoise_step /np_inv.
set A := p_mat _ _ _ _ _ _.
have unit : 0 <= mu -> 1%:M + mu *: A \in unitmx by move=> mu0; exact: (shift_unit (p_psd nodes T sc p) mu0).
split; last split.
- by move=> mu0 sf; rewrite unit //= /mat_dot; case: eqP => // /sf.
- move=> mu0 sf st M1 t1; rewrite unit //= /mat_dot sf eqxx /=.
  rewrite /calculate_error_NRMSE /np_sub /np_zip size_unvec.
  by case: eqP => [/esym/st //|_]; case: eqP => // _; case: eqP.
case=> x [sx [x0 e]]; case: ifP => // u; exfalso; apply: x0.
rewrite -(vecK sx) zerof_unvec; congr unvec; apply: unitmx_eq0 u _.
apply: unvec_inj; rewrite shiftE -zerof_unvec -{}e -addf_unvec -scalef_unvec.
by rewrite -(mv_p H) !vecK.
Qed.
Print Assumptions C34_rejections.

Lemma collect2 (R : rcfType) (A : Type) n (D : A -> 'M[R]_n * seq R * seq R * fl R) a b :
  collect [seq D m | m <- [:: a; b]] =
  Ok (mkRun (rows (D b).1.1.1) (D b).1.1.2 [:: (D a).1.2; (D b).1.2] [:: (D a).2; (D b).2]).
Proof. by rewrite /=; case: (D b) => [[[]]]. Qed.

Lemma nrmse_num (R : rcfType) (x t : seq R) : energy t != 0 ->
  exists e, nrmse x t = Fin e /\ 0 <= e /\ e ^+ 2 * energy t = energy (subf x t).
Proof.
move=> t0; case e : (nrmse x t) (nrmse_relative x t) => [a||] /= [].
- by move=> a0 [h _]; exists a.
- by move=> z; rewrite z eqxx in t0.
by move=> z; rewrite z eqxx in t0.
Qed.

Lemma nrmse_self (R : rcfType) (t : seq R) : energy t != 0 -> nrmse t t = Fin 0.
Proof.
move=> t0; have h : energy (subf t t) = 0.
  by rewrite -(vecK (erefl (size t))) subf_unvec subrr energy_unvec /nrm2 dot0l.
have [e [-> [e0]]] := nrmse_num t t0; rewrite h => /eqP; rewrite mulf_eq0 (negbTE t0) orbF.
by rewrite expf_eq0 => /eqP ->.
Qed.

Lemma energy3 (R : rcfType) (a b c : R) : energy [:: a; b; c] = a ^+ 2 + b ^+ 2 + c ^+ 2.
Proof. by rewrite /energy /dotp !big_ord_recl big_ord0 /= addr0 addrA !expr2. Qed.

(** On the filled triangle L1 is three times the identity.  The flow (4, 8, -4) is denoised with mu = 0
    and then mu = 1; the stored estimate is a quarter of it, the second error is 0 and the first is not,
    whatever the eigensolver. *)
Example C33_C34_example :
  let R := realalg_rcfType in
  eigsh_contract (@eigsh_ref R) /\
  make_sc tri_nodes tri_edges tri_triangles nil nil = Ok tri_sc /\ (0 < length tri_edges)%N /\
  get_p_matrix tri_sc "L1" = Ok (Csr (aadd tLL tLU)) /\
  let f := [:: 4%:R; 8%:R; - 4%:R] : seq R in
  size f = length tri_edges /\ (forall m, m \in rcons [:: 0] 1 -> 0 <= m :> R) /\
  forall eigsh, exists r e, edge_flow_denoise eigsh tri_sc f [:: 1; 2%:R; - 1] "L1" (rcons [:: 0] 1) = Ok r /\
    run_estimated r = [:: 1; 2%:R; - 1] /\ run_errors r = [:: Fin e; Fin 0] /\ 0 < e.
Proof.
cbv zeta; split; first exact: eigsh_ref_ok. split; first exact: tri_ok. split; first by [].
split; first by []. split; first by [].
have nn : forall m, m \in rcons [:: 0] 1 -> 0 <= m :> realalg_rcfType.
  by move=> m; rewrite !inE => /orP[]/eqP->; rewrite ?ler01.
split=> // eigsh.
set f := [:: _; _; _]; set t := [:: 1; _; _].
have M0 : (0 < length tri_edges)%N by [].
rewrite (@edge_flowE _ eigsh _ _ _ _ _ _ tri_ok "L1" isT M0 f t _ erefl erefl nn).
have est mu : 0 <= mu -> unvec (invmx (1%:M + mu *: p_mat realalg_rcfType tri_nodes tri_edges tri_triangles tri_sc "L1")
   *m vec (length tri_edges) f) = scalef (1 + mu * 3%:R)^-1 f.
  move=> mu0; rewrite (_ : p_mat _ _ _ _ _ _ = 3%:R%:M); last exact: tri_LH.
  rewrite scale_scalar_mx -raddfD /= invmx_scalar mul_scalar_mx -scalef_unvec vecK //.
rewrite (_ : rcons [:: 0] 1 = [:: 0; 1]) // collect2 /low_pass.
have t0 : energy t != 0 by rewrite energy3 !paddr_eq0 ?addr_ge0 ?sqr_ge0 // !expf_eq0 oner_eq0.
have e1 : scalef (1 + 1 * 3%:R)^-1 f = t.
  have q : 4%:R != 0 :> realalg_rcfType by rewrite pnatr_eq0.
  rewrite /scalef /f /t /= mul1r (_ : 1 + 3%:R = 4%:R); last by rewrite -(natrD _ 1 3).
  by rewrite mulrN mulVf // (_ : 8%:R = 4%:R * 2%:R) ?mulKf // -natrM.
have e0 : scalef (1 + 0 * 3%:R)^-1 f = f by rewrite /scalef /f /= mul0r addr0 invr1 !mul1r.
have [e [ee [ge eq]]] := nrmse_num f t0.
eexists; exists e; split; first by [].
rewrite /= !est ?ler01 // e1 e0 ee nrmse_self //; do 2 split=> //.
rewrite lt_neqAle ge andbT eq_sym; apply/eqP => z; move: eq; rewrite z expr0n mul0r /subf /scalef /addf /=.
rewrite /mkseq /= energy3 mulN1r => /esym/eqP; rewrite !paddr_eq0 ?addr_ge0 ?sqr_ge0 //.
by rewrite !expf_eq0 subr_eq0 (eqr_nat _ 4 1).
Qed.
