(** * Properties relating components and eigenpairs to the shape of the complex *)

From Coq Require Import ZArith String List Lia.
From mathcomp Require Import all_ssreflect all_algebra all_real_closed ssrZ zify.
From Verif Require Import Py PyFacts Complex ComplexSpec ComplexFacts ComplexFacts2 ExampleData
  LinAlg Spectral Signal SignalSpec Bridge SignalFacts Compute Eigen EigenSpec IntEigen EigenFacts
  TopologySpec TopologyFacts GapFacts Props_Complex Props_Signal Props_Hodge Props_Eigen.

Set Implicit Arguments.
Unset Strict Implicit.
Unset Printing Implicit Defensive.

Import GRing.Theory Num.Theory Order.Theory.
Local Open Scope ring_scope.
Delimit Scope Z_scope with zz.

(** ** C84 *)


Theorem C84_divergence_and_curl_carried :
  forall (R : realFieldType) lstsq rint, lstsq_contract lstsq ->
  forall nodes E T nf ef sc, make_sc nodes E T nf ef = Ok sc ->
  forall (f : seq R) d g c, size f = length E ->
    get_component_flow lstsq rint sc f "gradient" false d = Ok g ->
    get_component_flow lstsq rint sc f "curl" false d = Ok c ->
  get_divergence sc g = get_divergence sc f /\ get_curl sc c = get_curl sc f.
Proof.
move=> R lstsq rint LS nodes E T nf ef sc H f d g c sf.
rewrite (compG H LS) // (compC H LS) // => -[<-] [<-].
rewrite !(divergence_Ok H) ?size_unvec // !(curl_Ok H) ?size_unvec // !unvecK; split; congr (Ok (unvec _)).
  by have := proj_normal (B1m R nodes E sc)^T (vec (length E) f); rewrite trmxK.
exact: proj_normal.
Qed.
Print Assumptions C84_divergence_and_curl_carried.

Theorem C84_determined_by_divergence :
  forall (R : realFieldType) lstsq rint, lstsq_contract lstsq ->
  forall nodes E T nf ef sc, make_sc nodes E T nf ef = Ok sc ->
  forall (x y : seq R) d, size x = length E -> size y = length E ->
  (get_component_flow lstsq rint sc x "gradient" false d =
   get_component_flow lstsq rint sc y "gradient" false d <->
   get_divergence sc x = get_divergence sc y) /\
  (get_component_flow lstsq rint sc x "curl" false d =
   get_component_flow lstsq rint sc y "curl" false d <->
   get_curl sc x = get_curl sc y).
Proof.
move=> R lstsq rint LS nodes E T nf ef sc H x y d sx sy.
rewrite !(compG H LS) // !(compC H LS) // !(divergence_Ok H) // !(curl_Ok H) // /maybe_round;
  split; split=> -[/unvec_inj e].
- congr (Ok (unvec _)); move/eqP: e; rewrite -subr_eq0 -mulmxBr => /eqP.
  move/(@proj_perp_iff _ _ _ (B1m R nodes E sc)^T); rewrite trmxK mulmxBr => /eqP.
  by rewrite subr_eq0 => /eqP.
- congr (Ok (unvec _)); move/eqP: e; rewrite -subr_eq0 -mulmxBr => /eqP e.
  apply/eqP; rewrite -subr_eq0 -mulmxBr; apply/eqP; apply: proj_perp; by rewrite trmxK.
- congr (Ok (unvec _)); move/eqP: e; rewrite -subr_eq0 -mulmxBr => /eqP.
  by move/proj_perp_iff; rewrite mulmxBr => /eqP; rewrite subr_eq0 => /eqP.
congr (Ok (unvec _)); move/eqP: e; rewrite -subr_eq0 -mulmxBr => /eqP e.
by apply/eqP; rewrite -subr_eq0 -mulmxBr; apply/eqP; apply: proj_perp.
Qed.
Print Assumptions C84_determined_by_divergence.

Theorem C84_kinds_of_flow :
  forall (R : realFieldType) lstsq rint, lstsq_contract lstsq ->
  forall nodes E T nf ef sc, make_sc nodes E T nf ef = Ok sc ->
  oriented (length nodes) E T -> simple_edges E ->
  forall (f : seq R) d, size f = length E ->
  (get_component_flow lstsq rint sc f "gradient" false d = Ok f <->
   exists p, size p = length nodes /\ f = potential_diff E p) /\
  (get_component_flow lstsq rint sc f "curl" false d = Ok f <->
   exists w, size w = length T /\ f = circulation E T w) /\
  (get_component_flow lstsq rint sc f "harmonic" false d = Ok f <->
   get_divergence sc f = Ok (zerof R (length nodes)) /\ get_curl sc f = Ok (zerof R (length T))).
Proof.
move=> R lstsq rint LS nodes E T nf ef sc H O SE f d sf.
have [P [PT _]] := O; have B12 := oriented_B1B2 R H O.
rewrite (compG H LS) // (compC H LS) // (compH H LS) // (divergence_Ok H) // (curl_Ok H) // !zerof_unvec.
split; [|split].
- split.
    case=> e; have [p ep] := proj_img (B1m R nodes E sc)^T (vec (length E) f).
    exists (unvec p); split; first exact: size_unvec.
    apply: (@vec_inj _ (length E)); rewrite ?size_potential_diff //.
    by rewrite -(B1T_potential H P) unvecK -ep -{1}e unvecK.
  case=> p [sp ->]; congr Ok; rewrite /maybe_round; apply: (@vec_inj _ (length E)).
  + exact: size_unvec.
  + exact: size_potential_diff.
  by rewrite unvecK -(B1T_potential H P); exact: proj_in.
- split.
    case=> e; have [w ew] := proj_img (B2m R E T sc) (vec (length E) f).
    exists (unvec w); split; first exact: size_unvec.
    apply: (@vec_inj _ (length E)); rewrite ?size_map //.
    by rewrite -(B2_circulation H SE PT) unvecK -ew -{1}e unvecK.
  case=> w [sw ->]; congr Ok; rewrite /maybe_round; apply: (@vec_inj _ (length E)).
  + exact: size_unvec.
  + by rewrite size_map.
  by rewrite unvecK -(B2_circulation H SE PT); exact: proj_in.
split.
  rewrite /maybe_round => -[e]; rewrite -e unvecK.
  split; congr (Ok (unvec _)).
    by rewrite mulmxA (B1H0 B12) mul0mx.
  by rewrite mulmxA (B2H0 B12) mul0mx.
case=> -[/unvec_inj D] [/unvec_inj Cz]; congr Ok; rewrite /maybe_round.
apply: (@vec_inj _ (length E)); rewrite ?size_unvec // unvecK /Hm !mulmxBl mul1mx.
have -> : Gm R nodes E sc *m vec (length E) f = 0 by apply: proj_perp; rewrite trmxK.
have -> : Cm R E T sc *m vec (length E) f = 0 by apply: proj_perp.
by rewrite !subr0.
Qed.
Print Assumptions C84_kinds_of_flow.

Lemma tri_simple : simple_edges tri_edges.
Proof.
split; first by unfold tri_edges; repeat constructor; simpl; intuition congruence.
unfold tri_edges; simpl; intros u v HI.
by repeat (destruct HI as [HI|HI]; [injection HI; intros <- <-; intuition congruence|]); destruct HI.
Qed.

(** The triangle without its filling. *)
Definition hollow_sc : SC :=
  match make_sc tri_nodes tri_edges nil nil nil with Ok sc => sc | Raise _ => tri_sc end.
Lemma hollow_ok : make_sc tri_nodes tri_edges nil nil nil = Ok hollow_sc.
Proof. by rewrite /hollow_sc; vm_compute. Qed.

(** All hypotheses are met on the filled and on the hollow triangle, and each of the three kinds of
    flow occurs: a flow that is its own gradient component and has the divergence of another flow,
    one that is its own curl component, and one that is its own harmonic component. *)
Example C84_example :
  lstsq_contract (@ls_sol [realFieldType of rat]) /\
  make_sc tri_nodes tri_edges tri_triangles nil nil = Ok tri_sc /\
  oriented (length tri_nodes) tri_edges tri_triangles /\ simple_edges tri_edges /\
  make_sc tri_nodes tri_edges nil nil nil = Ok hollow_sc /\ oriented (length tri_nodes) tri_edges nil /\
  forall lstsq (rint : rat -> int), lstsq_contract lstsq -> forall d,
  get_component_flow lstsq rint tri_sc [:: third *+ 2; third; - third] "gradient" false d =
    Ok [:: third *+ 2; third; - third] /\
  get_divergence tri_sc [:: third *+ 2; third; - third] = Ok [:: -1; 1; 0] /\
  get_divergence tri_sc [:: 1; 0; 0 : rat] = Ok [:: -1; 1; 0] /\
  get_component_flow lstsq rint tri_sc [:: third; - third; third] "curl" false d =
    Ok [:: third; - third; third] /\
  get_component_flow lstsq rint hollow_sc [:: third; - third; third] "harmonic" false d =
    Ok [:: third; - third; third].
Proof.
split; first exact: ls_sol_ok. split; first exact: tri_ok. split; first exact: tri_oriented.
split; first exact: tri_simple. split; first exact: hollow_ok.
have Oh : oriented (length tri_nodes) tri_edges nil by split; [exact: tri_proper|split=> [? ? ? []|? []]].
split=> // lstsq rint LS d; split.
  apply/(proj1 (C84_kinds_of_flow rint LS tri_ok tri_oriented tri_simple _ _)) => //.
  by exists [:: 0; third *+ 2; third]; split=> //; apply/eqP; vm_compute.
split; first by rewrite divergenceC //; apply: Ok_eq; vm_compute.
split; first by rewrite divergenceC //; apply: Ok_eq; vm_compute.
split.
  apply/(proj1 (proj2 (C84_kinds_of_flow rint LS tri_ok tri_oriented tri_simple _ _))) => //.
  exists [:: third]; split=> //; rewrite /circulation /tri_edges /=.
  by rewrite !big_ord_recl !big_ord0; apply/eqP; vm_compute.
apply/(proj2 (proj2 (C84_kinds_of_flow rint LS hollow_ok Oh tri_simple _ _))) => //.
by rewrite divergenceC // curlC //; split; apply: Ok_eq; vm_compute.
Qed.

(** ** C85 *)

Theorem C85_components_exist :
  forall n E, proper_edges n E ->
  exists k, (exists lab, components n E lab k) /\
    forall lab' k', components n E lab' k' -> k' = k.
Proof.
move=> n E P; have [lab [k C]] := components_exist P; exists k; split; first by exists lab.
by move=> lab' k' C'; exact: components_unique C' C.
Qed.
Print Assumptions C85_components_exist.

Section Counts.
Variable R : realFieldType.
Variables (nodes : list Z) (E : list (Z * Z)) (T : list (list Z)) (nf : dict Z fdict)
          (ef : dict (Z * Z) fdict) (sc : SC).
Hypothesis H : make_sc nodes E T nf ef = Ok sc.
Hypothesis M0 : (0 < length E)%N.
Variable eigsh : forall n, 'M[R]_n -> seq (R * 'cV[R]_n).
Hypothesis EC : eigsh_contract eigsh.

Lemma size_gradl t : 0 < t -> below_positive_spectrum (amul (atr (sc_B1 sc)) (sc_B1 sc)) t ->
  size (gradl eigsh nodes E sc t) = \rank (B1m R nodes E sc).
Proof.
move=> t0 b; have := rank_outer (onfG EC nodes sc M0 t); rewrite size_map => <-.
rewrite outer_grad //; [|exact: ltW|exact: (belowL EC H M0 b)].
by rewrite /Gm rank_proj mxrank_tr.
Qed.

Lemma size_curll t : 0 < t -> below_positive_spectrum (amul (sc_B2 sc) (atr (sc_B2 sc))) t ->
  size (curll eigsh E T sc t) = \rank (B2m R E T sc).
Proof.
move=> t0 b; have := rank_outer (onfC EC T sc M0 t); rewrite size_map => <-.
rewrite outer_curl //; first by rewrite /Cm rank_proj.
by move=> p pl /ltW; apply: (belowU EC H M0 b).
Qed.

Lemma size_harml t : 0 < t -> oriented (length nodes) E T ->
  below_positive_spectrum (aadd (amul (atr (sc_B1 sc)) (sc_B1 sc)) (amul (sc_B2 sc) (atr (sc_B2 sc)))) t ->
  (size (harml eigsh nodes E T sc t) + \rank (B2m R E T sc) + \rank (B1m R nodes E sc) = length E)%N.
Proof.
move=> t0 O b; have B12 := oriented_B1B2 R H O.
have bL := belowSL H B12 b; have bU := belowSU H B12 b.
rewrite -(size_gradl t0 bL) -(size_curll t0 bU) (dim_sum EC M0 B12 t0).
rewrite -[RHS]addn0; congr addn; apply/eqP; rewrite -leqn0 leqNgt -has_count; apply/negP => /hasP[p pl /eqP e].
by have := belowU EC H M0 bU pl; rewrite e lexx => /(_ isT) z; rewrite z ltxx in t0.
Qed.
End Counts.

Theorem C85_gradient_count :
  forall (R : realFieldType) eigsh, eigsh_contract eigsh ->
  forall nodes E T nf ef sc, make_sc nodes E T nf ef = Ok sc -> (0 < length E)%N ->
  proper_edges (length nodes) E ->
  forall LL, lower_laplacian_matrix sc 1 = Ok (Csr LL) ->
  forall (t : R), (2%:R ^+ 52)^-1 <= t -> below_positive_spectrum LL t ->
  forall lab k, components (length nodes) E lab k ->
  exists gs, get_component_eigenpair eigsh sc "gradient" t = Ok gs /\
    (length gs + k = length nodes)%N.
Proof.
move=> R eigsh EC nodes E T nf ef sc H M0 P LL [<-] t et b lab k C.
have t0 : 0 < t := lt_le_trans (eps64_gt0 R) et.
rewrite (eigG eigsh H M0 et); eexists; split; first by [].
by rewrite -[length (up _)]/(size _) size_map (size_gradl H M0 EC t0 b) (rank_components _ H P C).
Qed.
Print Assumptions C85_gradient_count.

(** No combination of the triangles' boundaries vanishes unless all its weights do. *)
Definition independent_triangles (R : realFieldType) (E : list (Z * Z)) (T : list (list Z)) : Prop :=
  forall w : seq R, size w = length T -> circulation E T w = zerof R (length E) -> w = zerof R (length T).

Theorem C85_euler_count :
  forall (R : realFieldType) eigsh, eigsh_contract eigsh ->
  forall nodes E T nf ef sc, make_sc nodes E T nf ef = Ok sc -> (0 < length E)%N ->
  oriented (length nodes) E T -> simple_edges E -> independent_triangles R E T ->
  forall LH, hodge_laplacian_matrix sc 1 = Ok (Csr LH) ->
  forall (t : R), (2%:R ^+ 52)^-1 <= t -> below_positive_spectrum LH t ->
  forall lab k, components (length nodes) E lab k ->
  exists gs cs hs,
    get_component_eigenpair eigsh sc "gradient" t = Ok gs /\
    get_component_eigenpair eigsh sc "curl" t = Ok cs /\
    get_component_eigenpair eigsh sc "harmonic" t = Ok hs /\
    (length gs + k = length nodes)%N /\ length cs = length T /\
    (length hs + length nodes + length T = length E + k)%N.
Proof.
move=> R eigsh EC nodes E T nf ef sc H M0 O SE I LH [<-] t et b lab k C.
have t0 : 0 < t := lt_le_trans (eps64_gt0 R) et.
have [P [PT _]] := O; have B12 := oriented_B1B2 R H O.
have bL := belowSL H B12 b; have bU := belowSU H B12 b.
rewrite (eigG eigsh H M0 et) (eigC eigsh H M0 et) (eigH eigsh H M0 et).
do 3 eexists; do 3 (split; first by []).
have len A B (F : A -> B) (l : seq A) : length (map F l) = size l by rewrite -[LHS]/(size _) size_map.
rewrite /up /zeroed !len size_map (size_gradl H M0 EC t0 bL) (size_curll H M0 EC t0 bU).
have r1 := rank_components R H P C; have r3 := size_harml H M0 EC t0 O b.
have r2 : \rank (B2m R E T sc) = length T.
  rewrite -mxrank_tr; apply/eqP; rewrite -/(row_free _) -kermx_eq0; apply/eqP/row_matrixP => i.
  rewrite row0; set x := row i _.
  have : x *m (B2m R E T sc)^T = 0 by rewrite /x -row_mul mulmx_ker row0.
  move/(congr1 trmx); rewrite trmx_mul trmxK trmx0 -[x^T]unvecK (B2_circulation H SE PT) => z.
  apply: trmx_inj; rewrite trmx0 -[x^T]unvecK.
  have -> : unvec x^T = zerof R (length T); last by rewrite zerof_unvec unvecK.
  apply: I; first exact: size_unvec.
  apply: (@vec_inj _ (length E)); [by rewrite size_map|by rewrite zerof_unvec size_unvec|].
  by rewrite z zerof_unvec unvecK.
rewrite r2; split=> //; split=> //; rewrite r2 in r3.
have ar (a j m h l e : nat) : (a + j = m -> h + l + a = e -> h + m + l = e + j)%N by lia.
exact: ar r1 r3.
Qed.
Print Assumptions C85_euler_count.

Theorem C85_forest :
  forall (R : realFieldType) lstsq rint, lstsq_contract lstsq ->
  forall nodes E T nf ef sc, make_sc nodes E T nf ef = Ok sc ->
  proper_edges (length nodes) E ->
  forall lab k d, components (length nodes) E lab k ->
  ((length E + k = length nodes)%N <->
   forall f : seq R, size f = length E -> get_component_flow lstsq rint sc f "gradient" false d = Ok f).
Proof.
move=> R lstsq rint LS nodes E T nf ef sc H P lab k d C.
have r1 := rank_components R H P C; split=> [e f sf|Q].
  have /row_fullP[X XB] : row_full (B1m R nodes E sc) by rewrite /row_full; apply/eqP; move: r1 e; lia.
  rewrite (compG H LS) // /maybe_round; congr Ok; apply: (@vec_inj _ (length E)); rewrite ?size_unvec // unvecK.
  have : (vec (length E) f) = (B1m R nodes E sc)^T *m (X^T *m vec (length E) f).
    by rewrite mulmxA -trmx_mul XB trmx1 mul1mx.
  by move=> ->; exact: proj_in.
have : Gm R nodes E sc = 1%:M.
  apply: mx_ext => v; rewrite mul1mx; have := Q (unvec v) (size_unvec v).
  by rewrite (compG H LS) ?size_unvec // /maybe_round => -[/unvec_inj]; rewrite unvecK.
move/(congr1 mxrank); rewrite mxrank1 /Gm rank_proj mxrank_tr => r2; move: r1; rewrite r2; lia.
Qed.
Print Assumptions C85_forest.

(** Below 1/(n(n-1)) there is no positive eigenvalue of the lower Laplacian of a graph with n nodes. *)
Theorem C85_spectral_gap :
  forall (R : realFieldType) nodes E T nf ef sc, make_sc nodes E T nf ef = Ok sc ->
  proper_edges (length nodes) E ->
  forall LL, lower_laplacian_matrix sc 1 = Ok (Csr LL) ->
  forall t : R, (length nodes * (length nodes - 1))%:R * t < 1 -> below_positive_spectrum LL t.
Proof.
move=> R nodes E T nf ef sc H P LL [<-] t nt lam u /=; have [h0 h1] := B1_dims H; rewrite -h1 => su.
rewrite -(vecK su) => /(eigL H) e u0 lt; apply/eqP/negPn/negP => l0.
have u0' : vec (length E) u != 0 by apply/eqP => z; apply: u0; rewrite z zerof_unvec.
have := gap H P (u := vec (length E) u) (lam := lam); rewrite mulmxA => /(_ e u0' l0).
rewrite leNgt => /negP; apply; apply: le_lt_trans nt; rewrite -subn1 ler_wpmul2l // ler0n.
by [].
Qed.
Print Assumptions C85_spectral_gap.

Theorem C85_default_tolerance_small_graphs :
  forall (R : realFieldType) eigsh, eigsh_contract eigsh ->
  forall nodes E T nf ef sc, make_sc nodes E T nf ef = Ok sc -> (0 < length E)%N ->
  proper_edges (length nodes) E -> (length nodes <= 32)%N ->
  forall lab k, components (length nodes) E lab k ->
  (exists gs, get_component_eigenpair eigsh sc "gradient" (1000%:R^-1 : R) = Ok gs /\
     (length gs + k = length nodes)%N) /\
  (T = nil -> exists hs, get_component_eigenpair eigsh sc "harmonic" (1000%:R^-1 : R) = Ok hs /\
     (length hs + length nodes = length E + k)%N).
Proof.
move=> R eigsh EC nodes E T nf ef sc H M0 P n32 lab k C.
have b : below_positive_spectrum (amul (atr (sc_B1 sc)) (sc_B1 sc)) (milli R).
  apply: (C85_spectral_gap H P (erefl _)); rewrite /milli ltr_pdivr_mulr ?ltr0n // mul1r ltr_nat.
  apply: (@leq_ltn_trans (32 * 31)%N); last by [].
  by apply: leq_mul => //; move: n32; move: (length nodes) => n; lia.
have t0 : 0 < milli R := lt_le_trans (eps64_gt0 R) (eps64_milli R).
split; first exact: (C85_gradient_count EC H M0 P (erefl _) (eps64_milli R) b C).
move=> eT; subst T; have O : oriented (length nodes) E nil by split=> //; split=> [? ? ? []|? []].
rewrite (eigH eigsh H M0 (eps64_milli R)); eexists; split; first by [].
have U0 : L1Um R E nil sc = 0 by rewrite /L1Um [B2m _ _ _ _]thinmx0 mul0mx.
have bS : below_positive_spectrum (aadd (amul (atr (sc_B1 sc)) (sc_B1 sc)) (amul (sc_B2 sc) (atr (sc_B2 sc)))) (milli R).
  have [h0 h1] := B1_dims H; move=> lam u /=; rewrite -h1 => su.
  rewrite -(vecK su) => /(eigS H); rewrite U0 addr0 => /(eigL H) e u0 lt.
  by apply: (b lam _ _ e _ lt); rewrite /= ?size_unvec -?h1.
have r1 := rank_components R H P C; have r3 := size_harml H M0 EC t0 O bS.
rewrite /up /zeroed -[length _]/(size _) !size_map.
have r2 : \rank (B2m R E nil sc) = 0%N by rewrite [B2m _ _ _ _]thinmx0 mxrank0.
rewrite r2 in r3.
have ar (a j m h e : nat) : (a + j = m -> h + 0 + a = e -> h + m = e + j)%N by lia.
exact: ar r1 r3.
Qed.
Print Assumptions C85_default_tolerance_small_graphs.

(** *** Long paths *)
Definition path_nodes (m : nat) : list Z := [seq Z.of_nat i | i <- iota 0 m.+1].
Definition path_edges (m : nat) : list (Z * Z) := [seq (Z.of_nat i, Z.of_nat i.+1) | i <- iota 0 m].

Section Paths.
Variable m : nat.
Lemma path_n : length (path_nodes m) = m.+1.
Proof. by rewrite -[LHS]/(size (path_nodes m)) size_map size_iota. Qed.
Lemma path_m : length (path_edges m) = m.
Proof. by rewrite -[LHS]/(size (path_edges m)) size_map size_iota. Qed.
Lemma path_nth k : (k < m)%N -> nth (Z0, Z0) (path_edges m) k = (Z.of_nat k, Z.of_nat k.+1).
Proof. by move=> km; rewrite (nth_map 0%N) ?size_iota // nth_iota. Qed.
Lemma path_in u v : List.In (u, v) (path_edges m) <-> exists k, (k < m)%N /\ u = Z.of_nat k /\ v = Z.of_nat k.+1.
Proof.
split=> [/in_map_iff [k [[<- <-] /(In_mem (A := nat_eqType))]]|[k [km [-> ->]]]].
  by rewrite mem_iota add0n => /andP[_ km]; exists k.
apply/in_map_iff; exists k; split=> //; apply/(in_seq m 0 k); lia.
Qed.
Lemma path_proper : proper_edges (length (path_nodes m)) (path_edges m).
Proof. by rewrite path_n => u v /path_in [k [km [-> ->]]]; lia. Qed.
Lemma path_components : components (length (path_nodes m)) (path_edges m) (fun=> 0%N) 1.
Proof.
rewrite path_n; split; [by move=> *; lia|split; first by move=> c c1; exists 0%N; lia].
have up d i : (i + d <= m)%N -> connected (path_edges m) (Z.of_nat i) (Z.of_nat (i + d)).
  elim: d i => [|d IH] i im; first by rewrite addn0; constructor.
  apply: (@conn_step _ _ (Z.of_nat i.+1)); first by left; apply/path_in; exists i; split=> //; lia.
  by rewrite -addSnnS; apply: IH; lia.
have down d i : (i + d <= m)%N -> connected (path_edges m) (Z.of_nat (i + d)) (Z.of_nat i).
  elim: d => [|d IH] im; first by rewrite addn0; constructor.
  apply: (@conn_step _ _ (Z.of_nat (i + d))); last by apply: IH; lia.
  by right; apply/path_in; exists (i + d)%N; rewrite addnS; split=> //; lia.
move=> i j im jm; split=> // _; case: (leqP i j) => ij.
  by have := @up (j - i)%N i; rewrite subnKC //; apply; lia.
by have := @down (i - j)%N j; rewrite subnKC ?(ltnW ij) //; apply; lia.
Qed.
Lemma path_make : exists sc, make_sc (path_nodes m) (path_edges m) nil nil nil = Ok sc.
Proof.
apply/C02_accepts_iff; split; last by [].
by move=> u v /path_proper; rewrite /in_range path_n; lia.
Qed.
End Paths.

Section Rayleigh.
Variable R : realFieldType.
Lemma small_pair n (A : 'M[R]_n) l (x : 'cV[R]_n) t : eigfam A l -> dot x (A *m x) < t * nrm2 x ->
  exists2 p, p \in l & p.1 < t.
Proof.
move=> F q; have [_ [_ e]] := eigfamP _ _ F; apply/hasP; apply/negPn/negP => /hasPn Q.
move: q; rewrite ltNge => /negP; apply.
have xE : x = \sum_(p <- l) dot p.2 x *: p.2.
  by rewrite -{1}[x]mul1mx -(eigfam_outer F) outer_mulE big_map.
have -> : nrm2 x = \sum_(p <- l) dot p.2 x ^+ 2.
  by rewrite /nrm2 {2}xE dot_sumr; apply: eq_bigr => p _; rewrite dotZr [dot x _]dotC expr2.
have -> : dot x (A *m x) = \sum_(p <- l) p.1 * dot p.2 x ^+ 2.
  rewrite {2}xE mulmx_sumr dot_sumr big_seq [RHS]big_seq; apply: eq_bigr => p pl.
  by rewrite -scalemxAr (e p pl) !dotZr [dot x _]dotC expr2 mulrCA.
rewrite mulr_sumr big_seq [X in _ <= X]big_seq; apply: ler_sum => p pl.
by rewrite ler_wpmul2r ?sqr_ge0 // leNgt; exact: Q.
Qed.

Variables (m : nat) (sc : SC).
Hypothesis H : make_sc (path_nodes m) (path_edges m) nil nil nil = Ok sc.
Notation M := (length (path_edges m)).

Let ones : 'cV[R]_M := vec M (nseq M 1).

Lemma ones_div : nrm2 (B1m R (path_nodes m) (path_edges m) sc *m ones) <= 2%:R.
Proof.
have D i : (B1m R (path_nodes m) (path_edges m) sc *m ones) i 0 = (m == i :> nat)%:R - (0%N == i :> nat)%:R.
  rewrite (B1_net_inflow H (@path_proper m)) /net_inflow.
  have zE (a b : nat) : Z.eqb (Z.of_nat a) (Z.of_nat b) = (a == b).
    by apply/idP/idP => [/Z.eqb_spec h|/eqP ->]; [apply/eqP; lia|exact: Z.eqb_refl].
  rewrite (eq_bigr (fun k : 'I_M => (k.+1 == i :> nat)%:R - (k == i :> nat)%:R)) => [|k _]; last first.
    have kl : (k < M)%N := ltn_ord k; have km : (k < m)%N by rewrite -{2}(path_m m).
    by rewrite path_nth // nth_nseq kl mulr1 !zE.
  by rewrite -(big_mkord xpredT (fun k => (k.+1 == i :> nat)%:R - (k == i :> nat)%:R)) telescope_sumr // path_m.
rewrite /nrm2 /dot.
apply: (@le_trans _ _ (\sum_(i < length (path_nodes m)) ((m == i :> nat)%:R + (0%N == i :> nat)%:R))).
  apply: ler_sum => i _; rewrite D.
  by case: (m == i); case: (0%N == i); rewrite ?subrr ?subr0 ?sub0r ?mulrNN ?mulr1 ?mulr0 ?addr0 ?add0r ?addr_ge0 ?ler01.
have one a : (a < length (path_nodes m))%N -> \sum_(i < length (path_nodes m)) (a == i :> nat)%:R = 1 :> R.
  move=> al; rewrite (bigD1 (Ordinal al)) //= eqxx big1 ?addr0 // => i /eqP ne.
  by case: eqP => // e; case: ne; apply: val_inj.
by rewrite big_split /= !one ?path_n.
Qed.

Lemma ones_nrm : nrm2 ones = m%:R.
Proof.
rewrite /nrm2 /dot (eq_bigr (fun=> 1)) => [|i _]; last by rewrite !mxE nth_nseq ltn_ord mulr1.
by rewrite sumr_const card_ord path_m.
Qed.
End Rayleigh.

(** At the default tolerance the counts are wrong on a path of 2001 edges, which is a tree: an
    eigenpair of the lower Laplacian is dropped from the gradient part, and the harmonic part,
    which should be empty, is not. *)
Theorem C85_default_tolerance_refuted :
  exists nodes E sc, make_sc nodes E nil nil nil = Ok sc /\ (0 < length E)%N /\
  oriented (length nodes) E nil /\ components (length nodes) E (fun=> 0%N) 1 /\
  (length E + 1 = length nodes)%N /\
  forall (R : realFieldType) eigsh, eigsh_contract eigsh ->
  exists gs hs,
    get_component_eigenpair eigsh sc "gradient" (1000%:R^-1 : R) = Ok gs /\
    get_component_eigenpair eigsh sc "harmonic" (1000%:R^-1 : R) = Ok hs /\
    (length gs + 1 < length nodes)%N /\ (0 < length hs)%N.
Proof.
have [m [m1 m2]] : exists m, (0 < m)%N /\ (2 * 1000 < m)%N by exists 2001%N; split; vm_compute.
have [sc H] := path_make m.
exists (path_nodes m), (path_edges m), sc; split=> //; split; first by rewrite path_m.
split; first by split; [exact: path_proper|split=> [? ? ? []|? []]].
split; first exact: path_components. split; first by rewrite path_m path_n addn1.
move=> R eigsh EC; have M0 : (0 < length (path_edges m))%N by rewrite path_m.
rewrite (eigG eigsh H M0 (eps64_milli R)) (eigH eigsh H M0 (eps64_milli R)).
do 2 eexists; do 2 (split; first by []).
have q : dot (vec (length (path_edges m)) (nseq (length (path_edges m)) 1))
   (L1Lm R (path_nodes m) (path_edges m) sc *m vec (length (path_edges m)) (nseq (length (path_edges m)) 1)) <
   milli R * nrm2 (vec (length (path_edges m)) (nseq (length (path_edges m)) (1 : R))).
  rewrite ones_nrm /L1Lm -mulmxA dot_mulmxr trmxK.
  apply: le_lt_trans (ones_div R H) _.
  by rewrite /milli mulrC ltr_pdivl_mulr ?ltr0n // -natrM ltr_nat m2.
have U0 : L1Um R (path_edges m) nil sc = 0 by rewrite /L1Um [B2m _ _ _ _]thinmx0 mul0mx.
have FL := famL EC (path_nodes m) sc M0.
have FS := famS EC (path_nodes m) nil sc M0.
have [p pl pt] := small_pair FL q.
have [r rl rt] : exists2 r, r \in eigsh _ (L1Lm R (path_nodes m) (path_edges m) sc + L1Um R (path_edges m) nil sc)
   & r.1 < milli R by apply: (small_pair FS); rewrite U0 addr0; exact: q.
split.
  rewrite path_n addn1 ltnS /up -[length _]/(size _) size_map /gradl size_filter.
  have [sz _] := eigfamP _ _ FL; rewrite -[X in (_ < X)%N](path_m m) -[X in (_ < X)%N]sz.
  rewrite ltn_neqAle count_size andbT -all_count; apply/negP => /allP /(_ p pl).
  by rewrite ltNge (ltW pt).
rewrite /up /zeroed -[length _]/(size _) !size_map /harml size_filter -has_count.
by apply/hasP; exists r => //; exact: ltW.
Qed.
Print Assumptions C85_default_tolerance_refuted.

(** Two disjoint edges. *)
Definition two_nodes : list Z := [:: 0; 1; 2; 3]%zz.
Definition two_edges : list (Z * Z) := [:: (0, 1); (2, 3)]%zz.
Definition two_sc : SC := match make_sc two_nodes two_edges nil nil nil with Ok sc => sc | Raise _ => tri_sc end.
Lemma two_ok : make_sc two_nodes two_edges nil nil nil = Ok two_sc.
Proof. by rewrite /two_sc; vm_compute. Qed.
Lemma two_proper : proper_edges (length two_nodes) two_edges.
Proof. by move=> u v /= HI; inlist HI. Qed.
Lemma two_components : components (length two_nodes) two_edges half 2.
Proof.
have half4 i : (i < 4)%coq_nat -> [\/ i = 0%N, i = 1%N, i = 2%N | i = 3%N].
  by case: i => [|[|[|[|i]]]] h; [constructor 1|constructor 2|constructor 3|constructor 4|lia].
have a01 : connected two_edges 0%zz 1%zz by apply: (@conn_step _ _ 1%zz); [left; left|constructor].
have a10 : connected two_edges 1%zz 0%zz by apply: (@conn_step _ _ 0%zz); [right; left|constructor].
have a23 : connected two_edges 2%zz 3%zz by apply: (@conn_step _ _ 3%zz); [left; right; left|constructor].
have a32 : connected two_edges 3%zz 2%zz by apply: (@conn_step _ _ 2%zz); [right; right; left|constructor].
have low u v : connected two_edges u v -> (Z.ltb u 2 = Z.ltb v 2)%zz.
  elim=> // x y z L _ <-; case: L => /= HI; inlist HI; done.
split; first by move=> i /half4 [] -> /=; lia.
split; first by move=> [|[|c]] h; [exists 0%N|exists 2%N|lia]; split=> //=; lia.
move=> i j /half4 hi /half4 hj; case: hi => ->; case: hj => -> /=; split=> //; try by move=> _; constructor.
all: by move/low.
Qed.
Lemma tri_components : components (length tri_nodes) tri_edges (fun=> 0%N) 1.
Proof.
split; first by move=> *; lia. split; first by move=> c h; exists 0%N; rewrite /=; lia.
have third3 i : (i < 3)%coq_nat -> [\/ i = 0%N, i = 1%N | i = 2%N].
  by case: i => [|[|[|i]]] h; [constructor 1|constructor 2|constructor 3|lia].
have C u v : linked tri_edges u v -> connected tri_edges u v.
  by move=> L; apply: conn_step L _; constructor.
move=> i j /third3 hi /third3 hj; split=> // _.
by case: hi => ->; case: hj => ->; first [constructor|apply: C; rewrite /linked /tri_edges /=; tauto].
Qed.

(** The hypotheses of the counting theorems hold for the filled triangle (one component, independent
    triangles, spectrum above the default tolerance); the triangle without its filling has one
    harmonic eigenvector, two disjoint edges have two gradient eigenvectors and are a forest. *)
Example C85_example :
  eigsh_contract (@eigsh_ref realalg_rcfType) /\ eps64 realalg_rcfType <= milli realalg_rcfType /\
  oriented (length tri_nodes) tri_edges tri_triangles /\ simple_edges tri_edges /\
  independent_triangles realalg_rcfType tri_edges tri_triangles /\
  below_positive_spectrum (aadd tLL tLU) (milli realalg_rcfType) /\
  components (length tri_nodes) tri_edges (fun=> 0%N) 1 /\
  components (length two_nodes) two_edges half 2 /\ proper_edges (length two_nodes) two_edges /\
  forall (R : realFieldType) eigsh, eigsh_contract eigsh ->
  (exists hs, get_component_eigenpair eigsh hollow_sc "harmonic" (milli R) = Ok hs /\ length hs = 1%N) /\
  (exists gs, get_component_eigenpair eigsh two_sc "gradient" (milli R) = Ok gs /\ length gs = 2%N) /\
  (exists hs, get_component_eigenpair eigsh two_sc "harmonic" (milli R) = Ok hs /\ length hs = 0%N).
Proof.
split; first exact: eigsh_ref_ok. split; first exact: eps64_milli. split; first exact: tri_oriented.
split; first exact: tri_simple. split.
  move=> [|w [|? ?]] //= _; rewrite /circulation /tri_edges /= => -[].
  by rewrite big_ord_recl big_ord0 addr0 /zmul /= mulr1z => -> .
split; first exact: tri_below. split; first exact: tri_components. split; first exact: two_components.
split; first exact: two_proper.
move=> R eigsh EC.
have [_ /(_ erefl) [hs [ehs chs]]] := C85_default_tolerance_small_graphs EC hollow_ok isT tri_proper isT tri_components.
have [[gs [egs cgs]] /(_ erefl) [hs' [ehs' chs']]] :=
  C85_default_tolerance_small_graphs EC two_ok isT two_proper isT two_components.
split; first by exists hs; split=> //; move: chs => /=; lia.
split; first by exists gs; split=> //; move: cgs => /=; lia.
by exists hs'; split=> //; move: chs' => /=; lia.
Qed.
