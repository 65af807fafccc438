(** * C75: the plots of the history *)

From Coq Require Import ZArith String List.
From mathcomp Require Import all_ssreflect all_algebra ssrZ zify.
From Verif Require Import Py PyFacts ExampleData Complex ComplexSpec ComplexFacts LinAlg Spectral Signal
  SignalSpec Bridge SignalFacts Compute Props_Signal Props_Hodge Eigen EigenSpec EigenFacts
  Props_Eigen Filter FilterSpec FilterFacts FilterFacts2 PolyFacts Props_Masks Props_LowPass Props_Poly
  Props_Power Props_Cheb FilterState Props_State.

Set Implicit Arguments.
Unset Strict Implicit.
Unset Printing Implicit Defensive.

Import GRing.Theory Num.Theory Order.Theory.
Local Open Scope ring_scope.

(** Before the first completed run both plots refuse. *)
Theorem C75_plots_refuse_without_run :
  forall (R : rcfType) eigsh lstsq rint argsort expf cheb norm_2 sc (cs : seq (call R)),
  let exec := exec eigsh lstsq rint argsort expf cheb norm_2 sc in
  (forall c, List.In c cs -> is_single c /\ forall s, exists e, (exec c s).2 = Raise e) ->
  let s := exec_all eigsh lstsq rint argsort expf cheb norm_2 sc cs (new_filter R) in
  (forall p, plot_desired_frequency_response eigsh sc p s = Raise ValueError) /\
  (forall f c, plot_frequency_response_approx eigsh lstsq rint sc f c s = Raise ValueError).
Proof.
move=> R eigsh lstsq rint argsort expf cheb norm_2 sc cs ex h s.
suff -> : s = new_filter R by [].
rewrite /s; elim: cs h {s} => [|c cs IH] h //=.
have [lc /(_ (new_filter R))[e er]] := h c (or_introl erefl).
case E : FilterState.exec => [t x] /=; move: er; rewrite /ex E /= => ex'; rewrite ex' in E.
rewrite (C39_failed_run_changes_nothing lc E); apply: IH => c' ic; apply: h; by right.
Qed.
Print Assumptions C75_plots_refuse_without_run.

Lemma py_nth_last (A : Type) (x : A) (l : seq A) : py_nth (rcons l x) (-1) = Ok x.
Proof.
rewrite /py_nth.
have sz : length (rcons l x) = (size l).+1 by rewrite -(size_rcons l x).
have -> : np_index (length (rcons l x)) (-1) = Ok (size l).
  rewrite /np_index sz.
  have -> : Z.leb (Z.opp (Z.of_nat (size l).+1)) (-1) = true by apply/Z.leb_le; lia.
  have -> : Z.to_nat (Z.add (-1) (Z.of_nat (size l).+1)) = size l by lia.
  by [].
by rewrite /= {sz}; elim: l => //=.
Qed.

(** After a completed EdgeFlowDenoising run, the plot for the same matrix shows, at the eigenvalues,
    the response 1/(1 + mu lambda) for the last mu. *)
Theorem C75_edge_plot :
  forall (R : rcfType) (eigsh : forall n, 'M[R]_n -> seq (R * 'cV[R]_n)), eigsh_contract eigsh ->
  forall nodes E T nf ef sc, make_sc nodes E T nf ef = Ok sc -> (0 < length E)%N ->
  forall p P, get_p_matrix sc p = Ok (Csr P) ->
  forall (f f_true : seq R), size f = length E -> size f_true = length E ->
  forall mus mu, (forall m, m \in rcons mus mu -> 0 <= m) ->
  forall s, exists s' lams us,
    do_edge_denoise eigsh sc f f_true p (rcons mus mu) s = (s', Ok tt) /\
    spectral_basis P lams us /\
    plot_desired_frequency_response eigsh sc p s' =
      Ok ([seq if `|lam| < (2%:R ^+ 52)^-1 then 0 else lam | lam <- lams], [seq 1 / (1 + mu * lam) | lam <- lams]).
Proof.
move=> R eigsh EC nodes E T nf ef sc H M0 p P pP f t sf st mus mu nn s.
have mu0 : 0 <= mu by apply: nn; rewrite mem_rcons mem_head.
have := pP => /p_of[pv eP].
have rE := edge_flowE eigsh H pv M0 sf st nn.
have [r [cr [_ [_ [rr _]]]]] := collect_rcons (low_pass eigsh nodes E T sc p f t) mus mu.
rewrite cr in rE.
set A := p_mat R nodes E T sc p; have pA : forall x : 'cV[R]_(length E), 0 <= dot x (A *m x) := p_psd nodes T sc p.
have F : eigfam A (eigsh (length E) A) := contract_eigfam EC M0 (p_sym R nodes E T sc p).
exists (finish (Ok r) s).1, [seq q.1 | q <- eigsh (length E) A], [seq unvec q.2 | q <- eigsh (length E) A].
split; first by rewrite /do_edge_denoise rE.
have [d0 d1] := p_dims H p; have sF := eigfam_size F.
split.
  rewrite /spectral_basis eP -d0 !size_map sF; do 2 split=> //; split; first exact: eigfam_orthonormal F.
  move=> i im; rewrite !(nth_map (0, 0)) ?sF //; set q := nth _ _ _.
  have ql : q \in eigsh (length E) A by rewrite mem_nth ?sF.
  by rewrite size_unvec; split=> //; exact: (is_eigen_p H (eigfam_eq F ql)).
have := holds_finish r s => -[_ [_ [+ _]]]; rewrite /plot_desired_frequency_response.
rewrite /entry => ->; rewrite bindOk pP eP bindOk to_arrC bindOk (p_decomp eigsh H p M0) bindOk.
rewrite rr map_rcons py_nth_last bindOk !size_map eqxx; congr (Ok (_, _)).
  by rewrite -!map_comp.
rewrite [LHS]/= diag_responseE -map_comp.
apply/eq_in_map => q ql /=.
by rewrite (shift_eigen pA _ (eigfam_eq F ql) (eigfam_unit F ql)) ?div1r.
Qed.
Print Assumptions C75_edge_plot.

Lemma cheb_step_out (R : rcfType) norm_2 n (U Ul : eigpairs R) Hid f t h (Hk : 'M[R]_n) x :
  cheb_step norm_2 U Ul Hid f t h Hk = Ok x ->
  exists v : 'cV[R]_n, x.1.1.1 = unvec v /\ x.1.1.2 = [seq ((vec n q.2)^T *m v) 0 0 | q <- U].
Proof.
rewrite /cheb_step; case: ifP => // _ /bind_Ok[a [_]] /bind_Ok[g [+]] /bind_Ok[e [_]] /bind_Ok[e' [_]] [<-] /=.
rewrite /mat_dot; case: ifP => // _ [<-]; eexists; split; first by [].
by apply: eq_map => q; rewrite unvecK.
Qed.

Lemma cheb_steps_out (R : rcfType) norm_2 n (U Ul : eigpairs R) Hid f t h (Hs : seq 'M[R]_n) xs :
  mapM (cheb_step norm_2 U Ul Hid f t h) Hs = Ok xs ->
  size xs = size Hs /\ forall x, List.In x xs ->
  exists v : 'cV[R]_n, x.1.1.1 = unvec v /\ x.1.1.2 = [seq ((vec n q.2)^T *m v) 0 0 | q <- U].
Proof.
elim: Hs xs => [|X Hs IH] xs /=; first by case=> <-.
move=> /bind_Ok[y [ey]] /bind_Ok[ys [eys]] [<-]; have [sy iy] := IH _ eys.
split=> [|x /= [<-|ix]]; [by rewrite /= sy|exact: cheb_step_out ey|exact: iy].
Qed.

Lemma cheb_stack_size (R : rcfType) n (P : 'M[R]_n) c alpha order Hs :
  chebyshev_frequency_approx P c alpha order = Ok Hs -> size Hs = order.
Proof.
rewrite /chebyshev_frequency_approx; set g := (X in foldM X).
have : size (nseq order (0 : 'M[R]_n)) = order by rewrite size_nseq.
move: (nseq _ _) (iota _ _) => W l; elim: l W => [|k l IH] W sX /=; first by case=> <-.
rewrite {1}/g; case: chebyshev_filter_approximate => //= Y.
by apply: IH; rewrite size_set_from.
Qed.

(** After a completed Chebyshev run, the plot shows the coefficients of the last estimate next to those
    of the chosen component of the given flow, in an eigenbasis of L1; they are not responses of the filter. *)
Theorem C75_cheb_plot :
  forall (R : rcfType) eigsh lstsq rint argsort expf chebfun norm_2, eigsh_contract eigsh -> lstsq_contract lstsq ->
  forall nodes E T nf ef sc, make_sc nodes E T nf ef = Ok sc -> (0 < length E)%N ->
  forall p A B s (f : seq R) L n cut steep r,
    get_p_matrix sc p = Ok (Csr A) -> get_p_matrix sc "L1" = Ok (Csr B) -> Z.lt Z0 L ->
    cheb_apply eigsh lstsq rint argsort expf chebfun norm_2 sc f p s L n cut steep = Ok r ->
  forall g c st, size g = length E -> component_name c ->
  exists st' lams us t,
    do_cheb_apply eigsh lstsq rint argsort expf chebfun norm_2 sc f p s L n cut steep st = (st', Ok tt) /\
    spectral_basis B lams us /\ get_component_flow lstsq rint sc g c false 2 = Ok t /\
    plot_frequency_response_approx eigsh lstsq rint sc g c st' =
      Ok ([seq if `|lam| < (2%:R ^+ 52)^-1 then 0 else lam | lam <- lams], weights us t,
          weights us (last [::] (cheb_estimated r))).
Proof.
move=> R eigsh lstsq rint argsort expf cf norm_2 EC LC nodes E T nf ef sc H M0 p A B s f L n cut steep r pA pB L0 run.
move=> g c st sg cn.
have := pA => /p_of[pv eA]; have := pB => /p_of[_ eB].
have F := contract_eigfam EC M0 (p_sym R nodes E T sc "L1"); have sF := eigfam_size F.
have hL : hodge_laplacian_matrix sc 1 = Ok (Csr (p_array sc "L1")).
  move: pB; rewrite get_p_matrixE /= eB => _; by [].
set A1 := p_mat R nodes E T sc "L1" in F sF *; set V := eigsh (length E) A1 in F sF *.
pose t : seq R := unvec (comp_mx R nodes E T sc c *m vec (length E) g).
have te : get_true_signal lstsq rint sc g c = Ok t by rewrite /get_true_signal (component_Ok H LC).
eexists; exists [seq q.1 | q <- V], [seq unvec q.2 | q <- V], t.
split; first by rewrite /do_cheb_apply run.
have [d0 d1] := p_dims H "L1".
split.
  rewrite /spectral_basis eB -d0 !size_map sF; do 2 split=> //; split; first exact: eigfam_orthonormal F.
  move=> i im; rewrite !(nth_map (0, 0)) ?sF //; set q := nth _ _ _.
  have ql : q \in V by rewrite mem_nth ?sF.
  by rewrite size_unvec; split=> //; exact: (is_eigen_p H (eigfam_eq F ql)).
split; first by rewrite -te.
rewrite /plot_frequency_response_approx.
have := entry_set st (HArr3 (cheb_filter r)) (HArr2 (cheb_estimated r)) (HArr2 (cheb_responses r))
  (HErr (cheb_errors r)) (HArr1 (cheb_filter_error r)) => -[_ [_ [+ _]]]; rewrite /entry => ->.
rewrite bindOk hL bindOk to_arrC bindOk (p_decomp eigsh H "L1" M0) bindOk te bindOk -d0.
rewrite size_unvec eqxx.
have tl (x : 'cV[R]_(length E)) : [seq ((vec (length E) q.2)^T *m x) 0 0 | q <- up (zeroed V)] =
    weights [seq unvec q.2 | q <- V] (unvec x).
  rewrite /weights /up /zeroed -!map_comp; apply: eq_map => q /=.
  by rewrite unvecK dotp_unvec dotE.
have [v [ev [ys ey]]] : exists v : 'cV[R]_(length E), last [::] (cheb_estimated r) = unvec v /\
    exists ys, cheb_responses r = rcons ys [seq ((vec (length E) q.2)^T *m v) 0 0 | q <- up (zeroed V)].
  have [dp _] := p_dims H p.
  move: run; rewrite /cheb_apply hL bindOk to_arrC bindOk (p_decomp eigsh H "L1" M0) bindOk pA eA bindOk to_arrC bindOk.
  move=> /bind_Ok[Ul [_]] /bind_Ok[t' [_]] /bind_Ok[h [_]] /bind_Ok[[a b] [_]] /bind_Ok[cs [_]] /bind_Ok[W [_]].
  cbv zeta; case: ifP => // _ /bind_Ok[Hs [/cheb_stack_size sH]].
  move: Hs sH; rewrite -dp => Hs sH /bind_Ok[xs [/cheb_steps_out[sx hx]]] [<-] /=.
  case: (lastP xs) sx hx => [|xs' x] sx hx; first by move: sx; rewrite sH /=; lia.
  have [|v [e1 e2]] := hx x; first by elim: (xs') => [|y ys IH] /=; [left|right].
  exists v; rewrite !map_rcons last_rcons e1 e2; split=> //; by eexists.
rewrite ey py_nth_last bindOk !size_map eqxx; congr (Ok (_, _, _)).
- by rewrite -!map_comp.
- by rewrite /t unvecK tl.
- by rewrite ev tl.
Qed.
Print Assumptions C75_cheb_plot.
