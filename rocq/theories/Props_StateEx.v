(** * C37-C39, C75: witnesses *)

From Coq Require Import ZArith String List.
From mathcomp Require Import all_ssreflect all_algebra all_real_closed ssrZ zify.
From Verif Require Import Py PyFacts ExampleData Complex ComplexSpec ComplexFacts LinAlg Spectral Signal
  SignalSpec Bridge SignalFacts Compute Props_Signal Props_Hodge Eigen EigenSpec EigenFacts
  Props_Eigen Filter FilterSpec FilterFacts FilterFacts2 PolyFacts Props_Masks Props_LowPass Props_Poly
  Props_Exact Props_Power Props_Cheb Props_Grid PowerFacts FilterState Props_State Props_HistPlot.

Set Implicit Arguments.
Unset Strict Implicit.
Unset Printing Implicit Defensive.

Import GRing.Theory Num.Theory Order.Theory.
Local Open Scope ring_scope.

(** If the flow has no curl part but a gradient part, what the grid general_filter keeps under "L1" is
    not the gradient run. *)
Theorem C38_grid_gradient_run_lost :
  forall (R : rcfType) eigsh lstsq rint expf, eigsh_contract eigsh -> lstsq_min_contract lstsq ->
  forall nodes E T nf ef sc, make_sc nodes E T nf ef = Ok sc -> (0 < length E)%N ->
  forall (f g : seq R) L1 L2 s s' x, size f = length E -> (cur s < size (heap s))%N ->
  Z.lt Z0 L1 -> Z.lt Z0 L2 ->
  get_component_flow lstsq rint sc f "gradient" false 2 = Ok g -> energy g <> 0 ->
  get_component_flow lstsq rint sc f "curl" false 2 = Ok (zerof R (length E)) ->
  do_grid_general eigsh lstsq rint expf sc f L1 L2 s = (s', Ok x) ->
  exists a rg,
    grid_extraction eigsh lstsq rint expf sc f "gradient" "L1L" L1 10 (1 / 2%:R) (1 / 100%:R) 100%:R = Ok rg /\
    history s' "L1" = Ok (HDict R a) /\ ~ holds_run s' a rg.
Proof.
move=> R eigsh lstsq rint expf EC LC nodes E T nf ef sc H M0 f g L1 L2 s s' [[h c] q] sf cs l1 l2 eg g0 ec run.
have [dE [rc [erc hrc]]] := C38_grid_one_dictionary cs l1 l2 run.
have := C37_grid_parts run; cbv zeta; rewrite /part_of (proj2 (Z.ltb_lt _ _) l1) (proj2 (Z.ltb_lt _ _) l2).
move=> [[rg [erg _]] _]; exists (cur s), rg; split=> //; split; first by rewrite /history /entry dE.
have err p (pv : p_valid p) cmp (cn : component_name cmp) L (L0 : Z.lt Z0 L) r t :
    grid_extraction eigsh lstsq rint expf sc f cmp p L 10 (1 / 2%:R) (1 / 100%:R) 100%:R = Ok r ->
    get_component_flow lstsq rint sc f cmp false 2 = Ok t ->
    exists y, relative_error y t (nth (NaN R) (run_errors r) 0).
  move=> er et; have pA : get_p_matrix sc p = Ok (Csr (p_array sc p)) by rewrite get_p_matrixE pv.
  have [b [t' [et' [_ [_ /(_ L L0)[r' [hs [er' [sh [[_ [_ [_ [_ [_ [_ [hk _]]]]]]] _]]]]]]]]]] :=
    C35_grid_extraction EC LC H M0 pA cn sf (ex_intro _ L (ex_intro _ r er)).
  move: er' et' hk; rewrite er et => -[<-] [<-] hk; eexists; apply: hk; by rewrite sh; lia.
have [yg] := err "L1L"%string isT "gradient"%string (or_introl erefl) _ l1 _ _ erg eg.
have [yc] := err "L1U"%string isT "curl"%string (or_intror (or_introl erefl)) _ l2 _ _ erc ec.
move=> rc0 rg0 [_ [_ [_ [+ _]]]]; have [_ [_ [_ [-> _]]]] := hrc => -[e].
move: rc0 rg0; rewrite e; case: nth => [v| |] /= [z1 z2] [z3 z4]; try by apply: g0.
have : energy (zerof R (length E)) = 0 by rewrite zerof_unvec energy_unvec /nrm2 dot0l.
by move=> z; case: z2; rewrite z ltxx.
Qed.
Print Assumptions C38_grid_gradient_run_lost.

(** ** The filled triangle with the flow 1, 2, 1 *)
Section TriFlow.
Variable R : rcfType.

Lemma tri_div0 : get_divergence tri_sc (zerof R (length tri_edges)) = Ok (zerof R (length tri_nodes)).
Proof.
by rewrite (divergence_Ok tri_ok) ?size_nseq // !zerof_unvec unvecK mulmx0.
Qed.
Lemma tri_curl0 : get_curl tri_sc (zerof R (length tri_edges)) = Ok (zerof R (length tri_triangles)).
Proof.
by rewrite (curl_Ok tri_ok) ?size_nseq // !zerof_unvec unvecK mulmx0.
Qed.

Lemma ZR1 : ZR R 1 = 1%:R. Proof. by []. Qed.
Lemma ZR2 : ZR R 2 = 2%:R. Proof. by []. Qed.
Lemma ZRm1 : ZR R (-1) = -1. Proof. by []. Qed.
Lemma tri_ones : onesv R 3 = icol R 3 [:: 1; 1; 1]%zz.
Proof. by apply/colP => -[[|[|[|//]]] i3]; rewrite !mxE. Qed.

Lemma tri_sampleL : exists xs, sample_grid_points (toM R 3 3 tLL) 10 = Ok xs /\ 0 <= last 0 xs.
Proof.
apply: (@sample_eigen R 3 _ (icol R 3 [:: 1; 2; 1]%zz) 2%:R 3%:R) => //; rewrite ?ltr0n //.
- rewrite tri_ones (@imv R 3 tLL _ [:: 2; 4; 2]%zz); last by vm_compute.
  by apply/colP => -[[|[|[|//]]] i3]; rewrite !mxE /= ?mulr1 // -natrM.
- rewrite (@imv R 3 tLL _ [:: 3; 6; 3]%zz); last by vm_compute.
  by apply/colP => -[[|[|[|//]]] i3]; rewrite !mxE /= ?mulr1 // -natrM.
- by move=> [[|[|[|//]]] i3]; left; rewrite !mxE /= ?ltr01 ?ltr0n.
- by rewrite /dot !big_ord_recl big_ord0 !mxE /= !ZR1 !ZR2 addr0 -!natrM -!natrD ler_nat.
Qed.

Lemma tri_sampleU : exists xs, sample_grid_points (toM R 3 3 tLU) 10 = Ok xs /\ 0 <= last 0 xs.
Proof.
apply: (@sample_eigen R 3 _ (icol R 3 [:: 1; -1; 1]%zz) 1 3%:R) => //; rewrite ?ltr01 ?ltr0n //.
- rewrite tri_ones (@imv R 3 tLU _ [:: 1; -1; 1]%zz); last by vm_compute.
  by rewrite scale1r.
- rewrite (@imv R 3 tLU _ [:: 3; -3; 3]%zz); last by vm_compute.
  by apply/colP => -[[|[|[|//]]] i3]; rewrite !mxE /= ?mulr1 ?ZRm1 ?mulrN1.
- by move=> [[|[|[|//]]] i3]; rewrite !mxE /=; [left|right|left]; rewrite ?ltr01 ?ZRm1.
- rewrite /dot !big_ord_recl big_ord0 !mxE /= !ZR1 !ZRm1 addr0 mulrNN !mulr1.
  have -> : 1 + (1 + 1) = 3%:R :> R by rewrite !mulrS mulr0n addr0.
  by rewrite ler_nat.
Qed.

Definition tri_flow : seq R := [:: 1; 2%:R; 1].
Lemma tri_parts lstsq rint : lstsq_contract lstsq ->
  get_component_flow lstsq rint tri_sc tri_flow "gradient" false 2 = Ok tri_flow /\
  get_component_flow lstsq rint tri_sc tri_flow "curl" false 2 = Ok (zerof R (length tri_edges)).
Proof.
move=> LC; have [c0 c1] := B2_dims tri_ok.
have eg : tri_flow = potential_diff tri_edges [:: 0; 1; 2%:R].
  have r : potential_diff tri_edges [:: 0; 1; 2%:R] = [:: 1 - 0; 2%:R - 0; 2%:R - 1] :> seq R by [].
  by rewrite r !subr0 -(natrB _ (isT : (1 <= 2)%N)).
have ec : zerof R (length tri_edges) = mv (sc_B2 tri_sc) (zerof R (length tri_triangles)).
  by rewrite (mvE _ c0 c1) !zerof_unvec unvecK mulmx0.
have := C20_unique rint LC tri_ok tri_oriented (p := [:: 0; 1; 2%:R]) erefl (size_nseq _ _) (size_nseq _ _) eg ec
  tri_div0 tri_curl0 2.
have -> : addf (addf tri_flow (zerof R (length tri_edges))) (zerof R (length tri_edges)) = tri_flow.
  have r : addf (addf tri_flow (zerof R (length tri_edges))) (zerof R (length tri_edges)) =
    [:: 1 + 0 + 0; 2%:R + 0 + 0; 1 + 0 + 0] by [].
  by rewrite r !addr0.
by move=> [-> [-> _]].
Qed.
Lemma tri_flow_energy : energy tri_flow = 6%:R.
Proof.
rewrite /energy dotpCE.
have -> : dotpC tri_flow tri_flow = 1%:R * 1%:R + (2%:R * 2%:R + (1%:R * 1%:R + 0)) by [].
by rewrite addr0 -!natrM -!natrD.
Qed.

Lemma tri_general_completes eigsh lstsq rint expf s : eigsh_contract eigsh -> lstsq_contract lstsq ->
  exists s' x, do_grid_general eigsh lstsq rint expf tri_sc tri_flow 1 1 s = (s', Ok x).
Proof.
move=> EC LC.
have h2 : 0 <= 1 / 2%:R :> R by rewrite mul1r invr_ge0 ler0n.
have L0 : Z.lt Z0 1 by [].
have M0 : (0 < length tri_edges)%N by [].
have sf : size tri_flow = length tri_edges by [].
have [_ [ok _]] := C37_completes eigsh lstsq rint expf tri_sc tri_flow 1 1 0 s.
have [xl [el ll]] := tri_sampleL; have [xu [eu lu]] := tri_sampleU.
have pl : get_p_matrix tri_sc "L1L" = Ok (Csr tLL) by [].
have pu : get_p_matrix tri_sc "L1U" = Ok (Csr tLU) by [].
have [|_|x ex] := ok.
- by move=> _; have [_ h] := C35_grid_runs_complete rint expf EC LC tri_ok M0 pl sf h2 L0 el ll; apply: h; left.
- by have [_ h] := C35_grid_runs_complete rint expf EC LC tri_ok M0 pu sf h2 L0 eu lu; apply: h; right; left.
move: ex; case: do_grid_general => s' y /= ->; by exists s', x.
Qed.
End TriFlow.

(** The gradient run of the grid general_filter is not in the history. *)
Theorem C38_grid_keeps_both_runs_refuted :
  exists (R : rcfType) eigsh lstsq, eigsh_contract eigsh /\ lstsq_min_contract lstsq /\
  exists nodes E T sc (f : seq R), make_sc nodes E T nil nil = Ok sc /\ size f = length E /\
  forall rint expf, exists s' x a rg,
    do_grid_general eigsh lstsq rint expf sc f 1 1 (new_filter R) = (s', Ok x) /\
    grid_extraction eigsh lstsq rint expf sc f "gradient" "L1L" 1 10 (1 / 2%:R) (1 / 100%:R) 100%:R = Ok rg /\
    history s' "L1" = Ok (HDict R a) /\ ~ holds_run s' a rg.
Proof.
exists realalg_rcfType, (@eigsh_std _), (@ls_min _).
split; first exact: eigsh_std_ok. split; first exact: ls_min_ok.
exists tri_nodes, tri_edges, tri_triangles, tri_sc, (tri_flow _); split; first exact: tri_ok.
split=> // rint expf.
have EC := @eigsh_std_ok realalg_rcfType; have LC := @ls_min_ok realalg_rcfType.
have [s' [x run]] := tri_general_completes rint expf (new_filter _) EC (proj1 LC).
have [eg ec] := tri_parts rint (proj1 LC).
have L0 : Z.lt Z0 1 by [].
have e0 : energy (tri_flow realalg_rcfType) <> 0 by rewrite tri_flow_energy; apply/eqP; rewrite pnatr_eq0.
have [a [rg h]] := C38_grid_gradient_run_lost EC LC tri_ok (isT : (0 < length tri_edges)%N)
  (erefl : size (tri_flow realalg_rcfType) = length tri_edges) (isT : (cur (new_filter realalg_rcfType) < 1)%N)
  L0 L0 eg e0 ec run.
by exists s', x, a, rg.
Qed.
Print Assumptions C38_grid_keeps_both_runs_refuted.

(** ** The complete graph with four nodes and one triangle *)
Section K4.
Variable R : rcfType.
Lemma k4U_at_most2 : eigenvalues_at_most R kLU 2.
Proof.
move=> vs uv h; apply: (@uniq_leq_size _ vs [:: 0; 3%:R]) => // lam /h [u]; rewrite -(proj2 kLU_sh) => -[su [u0 e]].
by rewrite !inE; have [->|->] := kLU_eig su u0 e; rewrite eqxx ?orbT.
Qed.
Lemma k4_belowU : below_positive_spectrum kLU (milli R).
Proof.
move=> lam u; rewrite -(proj2 kLU_sh) => su e u0; have [//|->] := kLU_eig su u0 e => le.
by have := le_lt_trans le (milli3 R); rewrite ltxx.
Qed.
Lemma k4_B1_00 : at2 (sc_B1 k4_sc) 0 0 = (-1)%zz.
Proof. by vm_compute. Qed.
Lemma k4_zeroU : eigenvalue_of kLU (0 : R).
Proof.
pose u : 'cV[R]_(length k4_edges) := (B1m R k4_nodes k4_edges k4_sc)^T *m delta_mx 0 0.
have B12 := oriented_B1B2 R k4_ok k4_oriented.
exists (unvec u); rewrite -(proj2 kLU_sh) size_unvec; split=> //; split.
  rewrite (zerof_unvec R 6) => /unvec_inj /matrixP /(_ 0 0).
  rewrite /u -colE !mxE /toM; rewrite k4_B1_00 => /eqP.
  by rewrite oppr_eq0 oner_eq0.
apply: (proj2 (@eigU R _ _ _ _ _ _ k4_ok u 0)).
by rewrite scale0r /u /L1Um -mulmxA (mulmxA (_^T) (_^T)) -trmx_mul B12 trmx0 mul0mx mulmx0.
Qed.
End K4.

(** The hypotheses of [C37_ls_exact] hold there with two coefficients for each part. *)
Example C37_example : let R := realalg_rcfType in
  eigsh_contract (@eigsh_std R) /\ lstsq_min_contract (@ls_min R) /\
  make_sc k4_nodes k4_edges k4_triangles nil nil = Ok k4_sc /\ (0 < length k4_edges)%N /\
  get_p_matrix k4_sc "L1L" = Ok (Csr kLL) /\ get_p_matrix k4_sc "L1U" = Ok (Csr kLU) /\
  eps64 R <= milli R /\ below_positive_spectrum kLL (milli R) /\ below_positive_spectrum kLU (milli R) /\
  eigenvalue_of kLL (0 : R) /\ eigenvalue_of kLU (0 : R) /\
  eigenvalues_at_most R kLL (Z.to_nat 2) /\ eigenvalues_at_most R kLU (Z.to_nat 2).
Proof.
split; first exact: eigsh_std_ok. split; first exact: ls_min_ok. split; first exact: k4_ok.
split; first by []. split; first by []. split; first by []. split; first exact: eps64_milli.
split; first exact: k4_belowL. split; first exact: k4_belowU. split; first exact: k4_zero.
split; first exact: k4_zeroU. by split; [exact: k4_at_most2|exact: k4U_at_most2].
Qed.

(** Two runs after another: the grid extraction of the gradient on the triangle completes, and so do
    two low-pass runs; a general_filter run before them leaves its entries (C38, C39). *)
Example C38_C39_example : let R := realalg_rcfType in forall rint expf s,
  (exists r, grid_extraction (@eigsh_std R) (@ls_min R) rint expf tri_sc (tri_flow R) "gradient" "L1L" 1 10
     (1 / 2%:R) 0 1 = Ok r) /\
  (exists s' x, do_grid_general (@eigsh_std R) (@ls_min R) rint expf tri_sc (tri_flow R) 1 1 s = (s', Ok x)) /\
  (exists s' x, do_ls_general (@eigsh_std R) (@ls_min R) rint k4_sc [:: 1; 2%:R; 3%:R; 4%:R; 5%:R; 6%:R] 2 2
     (milli R) s = (s', Ok x)) /\
  is_single (CEdgeDenoise (tri_flow R) (tri_flow R) "L1" [:: 1]) /\
  (exists r, run_of (@eigsh_std R) (@ls_min R) rint (@argsort_ref R) expf tri_sc
     (CEdgeDenoise (tri_flow R) (tri_flow R) "L1" [:: 1]) = Some (Ok r)).
Proof.
move=> R rint expf s; have EC := @eigsh_std_ok R; have LC := @ls_min_ok R.
have M0 : (0 < length tri_edges)%N by [].
have sf : size (tri_flow R) = length tri_edges by [].
have h2 : 0 <= 1 / 2%:R :> R by rewrite mul1r invr_ge0 ler0n.
have L0 : Z.lt Z0 1 by []. have L2 : Z.lt Z0 2 by [].
have [xl [el ll]] := tri_sampleL R.
have pl : get_p_matrix tri_sc "L1L" = Ok (Csr tLL) by [].
split.
  by have [_ h] := C35_grid_runs_complete rint expf EC (proj1 LC) tri_ok M0 pl sf h2 L0 el ll; apply: h; left.
split; first exact: (tri_general_completes rint expf s EC (proj1 LC)).
split.
  have [_ [_ [H [K0 [pL [pU [et [bL [bU [zL [zU [mL mU]]]]]]]]]]]] := C37_example.
  have [s' [h [c [g [e _]]]]] := C37_ls_exact rint EC LC H K0 pL pU L2 L2 et bL bU zL zU mL mU
    s (erefl : size [:: 1; 2%:R; 3%:R; 4%:R; 5%:R; 6%:R : R] = length k4_edges).
  by exists s', (h, PArr c, PArr g).
split=> //.
have nn m : m \in rcons [::] (1 : R) -> 0 <= m by rewrite inE => /eqP ->; exact: ler01.
have [s' [lams [us [e _]]]] := C75_edge_plot EC tri_ok M0 (erefl : get_p_matrix tri_sc "L1" = Ok (Csr (aadd tLL tLU)))
  sf sf nn s.
move: e; rewrite /do_edge_denoise; set m := edge_flow_denoise _ _ _ _ _ _.
have -> : run_of (@eigsh_std R) (@ls_min R) rint (@argsort_ref R) expf tri_sc
     (CEdgeDenoise (tri_flow R) (tri_flow R) "L1" [:: 1]) = Some m by [].
by case: m => [r|e] //= _; exists r.
Qed.

(** The hypotheses of the C75 theorems: a call that always fails, and a completed Chebyshev run. *)
Example C75_example : let R := realalg_rcfType in
  let cf : (R -> R) -> R -> R -> Z -> res (seq R) := fun _ _ _ _ => Ok [:: 1; 1; 1] in
  (forall rint argsort expf norm_2 s, exists e,
    (exec (@eigsh_std R) (@ls_min R) rint argsort expf cf norm_2 tri_sc
      (CEdgeDenoise [:: 1] [:: 1] "L0" [:: 1]) s).2 = Raise e) /\
  forall rint norm_2, exists r, cheb_apply (@eigsh_std R) (@ls_min R) rint (@argsort_ref R) id cf norm_2
    path_sc [:: 1; 2%:R] "L1" "gradient" 3 None 0 1 = Ok r.
Proof.
move=> R cf; split; last first.
  have [EC [LC [AC [H [M1 [O [pA [cn [ga [a0 [ec Lc]]]]]]]]]]] := C43_example.
  move=> rint norm_2; have L0 : Z.lt Z0 3 by [].
  have [r [t [F [m [us [e _]]]]]] := @C43_apply R _ _ rint _ id cf norm_2 EC LC AC _ _ _ _ _ _ H M1 O _ _ _
    [:: 1; 2%:R] 3%zz None 0 1 _ _ pA cn erefl ga a0 _ ec L0 Lc.
  by exists r.
by move=> rint argsort expf norm_2 s; exists ValueError.
Qed.
