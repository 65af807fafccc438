(** * Properties of the Hodge decomposition (get_component_flow) *)

From Coq Require Import ZArith String List.
From mathcomp Require Import all_ssreflect all_algebra ssrZ zify.
From Verif Require Import Py PyFacts Complex ComplexSpec ComplexFacts ComplexFacts2 ExampleData
  LinAlg Signal SignalSpec Bridge SignalFacts Compute.

Set Implicit Arguments.
Unset Strict Implicit.
Unset Printing Implicit Defensive.

Import GRing.Theory Num.Theory Order.Theory.
Local Open Scope ring_scope.
Delimit Scope Z_scope with zz.

(** The three names. *)
Definition component_name (s : string) : Prop := s = "gradient"%string \/ s = "curl"%string \/ s = "harmonic"%string.

Section Aux.
Variable R : realFieldType.
Variables (nodes : list Z) (E : list (Z * Z)) (T : list (list Z)) (nf : dict Z fdict)
          (ef : dict (Z * Z) fdict) (sc : SC).
Hypothesis H : make_sc nodes E T nf ef = Ok sc.
Variable lstsq : forall m n, 'M[R]_(m, n) -> 'cV[R]_m -> 'cV[R]_n.
Hypothesis LS : lstsq_contract lstsq.
Variable rint : R -> int.

Definition comp_mx (s : string) : 'M[R]_(length E) :=
  if String.eqb s "harmonic" then Hm R nodes E T sc
  else if String.eqb s "curl" then Cm R E T sc else Gm R nodes E sc.

Lemma component_Ok (f : seq R) s rf d : component_name s -> size f = length E ->
  get_component_flow lstsq rint sc f s rf d =
  Ok (maybe_round rint rf d (unvec (comp_mx s *m vec (length E) f))).
Proof.
move=> Hs sf; rewrite /get_component_flow /comp_mx.
by case: Hs => [->|[->| ->]] /=;
  [rewrite (gradient_Ok H LS)|rewrite (curl_flow_Ok H LS)|rewrite (harmonic_Ok H LS)].
Qed.

Lemma compG (f : seq R) rf d : size f = length E ->
  get_component_flow lstsq rint sc f "gradient" rf d =
  Ok (maybe_round rint rf d (unvec (Gm R nodes E sc *m vec (length E) f))).
Proof. by move=> sf; rewrite component_Ok //; left. Qed.
Lemma compC (f : seq R) rf d : size f = length E ->
  get_component_flow lstsq rint sc f "curl" rf d =
  Ok (maybe_round rint rf d (unvec (Cm R E T sc *m vec (length E) f))).
Proof. by move=> sf; rewrite component_Ok //; right; left. Qed.
Lemma compH (f : seq R) rf d : size f = length E ->
  get_component_flow lstsq rint sc f "harmonic" rf d =
  Ok (maybe_round rint rf d (unvec (Hm R nodes E T sc *m vec (length E) f))).
Proof. by move=> sf; rewrite component_Ok //; right; right. Qed.
End Aux.

Lemma component_G (R : realFieldType) lstsq rint sc (f : seq R) rf d :
  get_component_flow lstsq rint sc f "gradient" rf d = get_gradient_flow lstsq rint (sc_B1 sc) f rf d.
Proof. by []. Qed.
Lemma component_C (R : realFieldType) lstsq rint sc (f : seq R) rf d :
  get_component_flow lstsq rint sc f "curl" rf d = get_curl_flow lstsq rint (sc_B2 sc) f rf d.
Proof. by []. Qed.
Lemma component_H (R : realFieldType) lstsq rint sc (f : seq R) rf d :
  get_component_flow lstsq rint sc f "harmonic" rf d =
  get_harmonic_flow lstsq rint (sc_B1 sc) (sc_B2 sc) f rf d.
Proof. by []. Qed.

(** ** C19 *)

Theorem C19_decomposition :
  forall (R : realFieldType) lstsq rint, lstsq_contract lstsq ->
  forall nodes E T nf ef sc, make_sc nodes E T nf ef = Ok sc ->
  forall f : seq R, size f = length E -> forall d,
  exists g c h,
    get_component_flow lstsq rint sc f "gradient" false d = Ok g /\
    get_component_flow lstsq rint sc f "curl" false d = Ok c /\
    get_component_flow lstsq rint sc f "harmonic" false d = Ok h /\
    size g = length E /\ size c = length E /\ size h = length E /\
    f = addf (addf g c) h /\
    (exists p, size p = length nodes /\ g = mv (atr (sc_B1 sc)) p) /\
    (exists w, size w = length T /\ c = mv (sc_B2 sc) w) /\
    (proper_edges (length nodes) E -> exists p, size p = length nodes /\ g = potential_diff E p) /\
    (simple_edges E -> proper_triangles T -> exists w, size w = length T /\ c = circulation E T w).
Proof.
move=> R lstsq rint LS nodes E T nf ef sc H f sf d.
have [h0 h1] := B1_dims H; have [h2 h3] := B2_dims H.
rewrite (compG H LS) // (compC H LS) // (compH H LS) //.
rewrite /maybe_round /comp_mx /=; do 3 eexists; do 3 (split; first by []).
rewrite !size_unvec; do 3 (split; first by []).
split; first by rewrite !addf_unvec /Hm !mulmxBl mul1mx addrC -addrA -opprD subrK vecK.
have [p Ep] := proj_img (B1m R nodes E sc)^T (vec (length E) f).
have [w Ew] := proj_img (B2m R E T sc) (vec (length E) f).
rewrite /Gm /Cm Ep Ew.
split; first by exists (unvec p); rewrite size_unvec (@mvE _ _ (length E) (length nodes)) // toM_atr unvecK.
split; first by exists (unvec w); rewrite size_unvec (@mvE _ _ (length E) (length T)) // unvecK.
split=> [P|S PT].
  exists (unvec p); rewrite size_unvec; split=> //.
  by have := B1T_potential H P (unvec p); rewrite unvecK => ->; rewrite vecK ?size_potential_diff.
exists (unvec w); rewrite size_unvec; split=> //.
by have := B2_circulation H S PT (unvec w); rewrite unvecK => ->; rewrite vecK ?size_map.
Qed.
Print Assumptions C19_decomposition.

Theorem C19_orthogonal :
  forall (R : realFieldType) lstsq rint, lstsq_contract lstsq ->
  forall nodes E T nf ef sc, make_sc nodes E T nf ef = Ok sc ->
  oriented (length nodes) E T ->
  forall (f : seq R) d g c h,
    get_component_flow lstsq rint sc f "gradient" false d = Ok g ->
    get_component_flow lstsq rint sc f "curl" false d = Ok c ->
    get_component_flow lstsq rint sc f "harmonic" false d = Ok h ->
    dotp g c = 0 /\ dotp g h = 0 /\ dotp c h = 0 /\
    get_divergence sc h = Ok (zerof R (length nodes)) /\
    get_curl sc h = Ok (zerof R (length T)) /\
    get_divergence sc c = Ok (zerof R (length nodes)) /\
    get_curl sc g = Ok (zerof R (length T)) /\
    forall L, hodge_laplacian_matrix sc 1 = Ok (Csr L) -> mv L h = zerof R (length E).
Proof.
move=> R lstsq rint LS nodes E T nf ef sc H O f d g c h Hg Hc Hh.
have O12 := oriented_B1B2 R H O.
have [h0 h1] := B1_dims H; have [h2 h3] := B2_dims H.
have sf : size f = length E.
  move: Hg; rewrite /get_component_flow /=.
  by case: (size f =P length E) => // N; rewrite (gradient_Raise H).
move: Hg Hc Hh; rewrite (compG H LS) // (compC H LS) // (compH H LS) //.
rewrite /maybe_round /comp_mx /= => -[<-] [<-] [<-].
rewrite !dotp_unvec.
have Sg : (Gm R nodes E sc)^T = Gm R nodes E sc by exact: proj_sym.
have Sc : (Cm R E T sc)^T = Cm R E T sc by exact: proj_sym.
do 3 (split; first by apply: sym_orth; rewrite ?(GC0 O12) ?(GH0 O12) ?(CH0 O12)).
rewrite !(divergence_Ok H) ?size_unvec // !(curl_Ok H) ?size_unvec // !unvecK !zerof_unvec.
split; first by rewrite mulmxA (B1H0 O12) mul0mx.
split; first by rewrite mulmxA (B2H0 O12) mul0mx.
split.
  rewrite mulmxA (_ : B1m R nodes E sc *m Cm R E T sc = 0) ?mul0mx //.
  by rewrite /Cm /proj mulmxA O12 mul0mx.
split.
  rewrite mulmxA (_ : (B2m R E T sc)^T *m Gm R nodes E sc = 0) ?mul0mx //.
  by rewrite /Gm /proj mulmxA -trmx_mul O12 trmx0 mul0mx.
move=> L [<-]; rewrite (@mvE _ _ (length E) (length E)) // toM_aadd (toM_L1L R H) (toM_L1U R H).
rewrite unvecK mulmxDl /L1Lm /L1Um -!mulmxA; set v := vec _ f.
have -> : B1m R nodes E sc *m (Hm R nodes E T sc *m v) = 0 by rewrite mulmxA (B1H0 O12) mul0mx.
have -> : (B2m R E T sc)^T *m (Hm R nodes E T sc *m v) = 0 by rewrite mulmxA (B2H0 O12) mul0mx.
by rewrite !mulmx0 addr0.
Qed.
Print Assumptions C19_orthogonal.

(** ** C20 *)

Theorem C20_solver_independent :
  forall (R : realFieldType) lstsq lstsq' rint, lstsq_contract lstsq -> lstsq_contract lstsq' ->
  forall nodes E T nf ef sc, make_sc nodes E T nf ef = Ok sc ->
  forall (f : seq R) s rf d,
  get_component_flow lstsq rint sc f s rf d = get_component_flow lstsq' rint sc f s rf d.
Proof.
move=> R l1 l2 rint LS1 LS2 nodes E T nf ef sc H f s rf d.
rewrite /get_component_flow; case: (size f =P length E) => sf.
  by rewrite !(harmonic_Ok H) // !(curl_flow_Ok H) // !(gradient_Ok H).
by rewrite !(harmonic_Raise H) // !(curl_flow_Raise H) // !(gradient_Raise H).
Qed.
Print Assumptions C20_solver_independent.

Theorem C20_unique :
  forall (R : realFieldType) lstsq rint, lstsq_contract lstsq ->
  forall nodes E T nf ef sc, make_sc nodes E T nf ef = Ok sc ->
  oriented (length nodes) E T ->
  forall (g c h p w : seq R), size p = length nodes -> size w = length T -> size h = length E ->
  g = potential_diff E p -> c = mv (sc_B2 sc) w ->
  get_divergence sc h = Ok (zerof R (length nodes)) -> get_curl sc h = Ok (zerof R (length T)) ->
  let f := addf (addf g c) h in
  forall d,
    get_component_flow lstsq rint sc f "gradient" false d = Ok g /\
    get_component_flow lstsq rint sc f "curl" false d = Ok c /\
    get_component_flow lstsq rint sc f "harmonic" false d = Ok h.
Proof.
move=> R lstsq rint LS nodes E T nf ef sc H O g c h p w sp sw sh Eg Ec Dh Ch f d.
have O12 := oriented_B1B2 R H O; have P := proj1 O.
have [h0 h1] := B1_dims H; have [h2 h3] := B2_dims H.
have sg : size g = length E by rewrite Eg size_potential_diff.
have sf : size f = length E by rewrite !size_addf.
rewrite (compG H LS) // (compC H LS) // (compH H LS) //.
rewrite /maybe_round /comp_mx /= /f.
have sc' : size c = length E by rewrite Ec size_mv.
rewrite !vec_addf ?size_addf //.
have Vg : vec (length E) g = (B1m R nodes E sc)^T *m vec (length nodes) p.
  by rewrite (B1T_potential H P) Eg.
have Vc : vec (length E) c = B2m R E T sc *m vec (length T) w.
  by rewrite Ec (@mvE _ _ (length E) (length T)) // unvecK.
move: Dh Ch; rewrite (divergence_Ok H) // (curl_Ok H) // !zerof_unvec => -[/unvec_inj D] [/unvec_inj C].
set vg := vec _ g; set vc := vec _ c; set vh := vec _ h.
have Gg : Gm R nodes E sc *m vg = vg by rewrite /vg Vg proj_in.
have Gc : Gm R nodes E sc *m vc = 0 by rewrite proj_perp // trmxK /vc Vc mulmxA O12 mul0mx.
have Gh : Gm R nodes E sc *m vh = 0 by rewrite proj_perp // trmxK.
have Cg : Cm R E T sc *m vg = 0 by rewrite proj_perp // /vg Vg mulmxA -trmx_mul O12 trmx0 mul0mx.
have Cc : Cm R E T sc *m vc = vc by rewrite /vc Vc proj_in.
have C_h : Cm R E T sc *m vh = 0 by rewrite proj_perp.
have EG : Gm R nodes E sc *m (vg + vc + vh) = vg by rewrite !mulmxDr Gg Gc Gh !addr0.
have EC : Cm R E T sc *m (vg + vc + vh) = vc by rewrite !mulmxDr Cg Cc C_h add0r addr0.
rewrite EG EC /Hm !mulmxBl mul1mx EG EC /vg /vc !vecK //; do 2 split=> //.
rewrite -/vg -/vc (_ : vg + vc + vh - vg - vc = vh) ?vecK //.
by rewrite -[LHS]addrA -opprD addrAC subrr add0r.
Qed.
Print Assumptions C20_unique.

Theorem C20_linear :
  forall (R : realFieldType) lstsq rint, lstsq_contract lstsq ->
  forall nodes E T nf ef sc, make_sc nodes E T nf ef = Ok sc ->
  forall s, component_name s ->
  forall (x y : seq R) a d, size x = length E -> size y = length E ->
  exists X Y, get_component_flow lstsq rint sc x s false d = Ok X /\
    get_component_flow lstsq rint sc y s false d = Ok Y /\
    get_component_flow lstsq rint sc (addf (scalef a x) y) s false d = Ok (addf (scalef a X) Y).
Proof.
move=> R lstsq rint LS nodes E T nf ef sc H s Hs x y a d sx sy.
rewrite !(component_Ok H LS) ?size_addf ?size_scalef //= /maybe_round.
do 2 eexists; split; first by []. split; first by [].
by rewrite vec_addf ?size_scalef // vec_scalef // scalef_unvec addf_unvec mulmxDr scalemxAr.
Qed.
Print Assumptions C20_linear.

Theorem C20_projections :
  forall (R : realFieldType) lstsq rint, lstsq_contract lstsq ->
  forall nodes E T nf ef sc, make_sc nodes E T nf ef = Ok sc ->
  oriented (length nodes) E T ->
  forall s s', component_name s -> component_name s' ->
  forall (f : seq R) d x, get_component_flow lstsq rint sc f s false d = Ok x ->
  get_component_flow lstsq rint sc x s' false d =
    Ok (if String.eqb s s' then x else zerof R (length E)).
Proof.
move=> R lstsq rint LS nodes E T nf ef sc H O s s' Hs Hs' f d x Hx.
have O12 := oriented_B1B2 R H O.
have sf : size f = length E.
  move: Hx; rewrite /get_component_flow; case: (size f =P length E) => // N.
  by rewrite (gradient_Raise H) // (curl_flow_Raise H) // (harmonic_Raise H) //; do !case: ifP => _.
move: Hx; rewrite (component_Ok H LS) // /maybe_round => -[<-].
rewrite (component_Ok H LS) ?size_unvec // /maybe_round unvecK mulmxA.
suff -> : comp_mx R nodes E T sc s' *m comp_mx R nodes E T sc s =
  if String.eqb s s' then comp_mx R nodes E T sc s else 0.
  by case: ifP => // _; rewrite mul0mx zerof_unvec.
have GG : Gm R nodes E sc *m Gm R nodes E sc = Gm R nodes E sc by exact: proj_idem.
have CC : Cm R E T sc *m Cm R E T sc = Cm R E T sc by exact: proj_idem.
by case: Hs => [->|[->| ->]]; case: Hs' => [->|[->| ->]] /=; rewrite /comp_mx /=
  ?GG ?CC ?(HH O12) ?(GC0 O12) ?(CG0 O12) ?(GH0 O12) ?(HG0 O12) ?(CH0 O12) ?(HC0 O12).
Qed.
Print Assumptions C20_projections.

(** Each component is the closest flow of its kind. *)
Theorem C20_closest :
  forall (R : realFieldType) lstsq rint, lstsq_contract lstsq ->
  forall nodes E T nf ef sc, make_sc nodes E T nf ef = Ok sc ->
  proper_edges (length nodes) E ->
  forall (f : seq R) d g c h,
    get_component_flow lstsq rint sc f "gradient" false d = Ok g ->
    get_component_flow lstsq rint sc f "curl" false d = Ok c ->
    get_component_flow lstsq rint sc f "harmonic" false d = Ok h ->
  let dist x := energy (addf f (scalef (-1) x)) in
  (forall p, size p = length nodes -> dist g <= dist (potential_diff E p)) /\
  (forall w, size w = length T -> dist c <= dist (mv (sc_B2 sc) w)) /\
  (oriented (length nodes) E T ->
   forall z, size z = length E -> get_divergence sc z = Ok (zerof R (length nodes)) ->
             get_curl sc z = Ok (zerof R (length T)) -> dist h <= dist z).
Proof.
move=> R lstsq rint LS nodes E T nf ef sc H P f d g c h Hg Hc Hh dist.
have [h0 h1] := B1_dims H; have [h2 h3] := B2_dims H.
have sf : size f = length E.
  move: Hg; rewrite /get_component_flow /=.
  by case: (size f =P length E) => // N; rewrite (gradient_Raise H).
move: Hg Hc Hh; rewrite (compG H LS) // (compC H LS) // (compH H LS) //.
rewrite /maybe_round /comp_mx /= => -[<-] [<-] [<-].
have D x : size x = length E -> dist x = nrm2 (vec (length E) f - vec (length E) x).
  move=> sx; rewrite /dist.
  rewrite -[addf _ _](vecK (n := length E)) ?size_addf // energy_unvec vec_addf ?size_scalef //.
  by rewrite vec_scalef // scaleN1r.
split; last split.
- move=> p sp; rewrite !D ?size_unvec ?size_potential_diff // unvecK -(B1T_potential H P).
  exact: proj_min.
- move=> w sw; rewrite !D ?size_unvec ?size_mv // unvecK (@mvE _ _ (length E) (length T)) // unvecK.
  exact: proj_min.
- move=> O z sz; rewrite (divergence_Ok H) // (curl_Ok H) // !zerof_unvec => -[/unvec_inj Z1] [/unvec_inj Z2].
  by rewrite !D ?size_unvec // unvecK; apply: H_closest => //; exact: (oriented_B1B2 R H O).
Qed.
Print Assumptions C20_closest.

(** ** C21 *)

Theorem C21_energy :
  forall (R : realFieldType) lstsq rint, lstsq_contract lstsq ->
  forall nodes E T nf ef sc, make_sc nodes E T nf ef = Ok sc ->
  oriented (length nodes) E T ->
  forall (f : seq R) d g c h,
    get_component_flow lstsq rint sc f "gradient" false d = Ok g ->
    get_component_flow lstsq rint sc f "curl" false d = Ok c ->
    get_component_flow lstsq rint sc f "harmonic" false d = Ok h ->
  energy f = energy g + energy c + energy h /\
  energy g <= energy f /\ energy c <= energy f /\ energy h <= energy f.
Proof.
move=> R lstsq rint LS nodes E T nf ef sc H O f d g c h Hg Hc Hh.
have O12 := oriented_B1B2 R H O.
have sf : size f = length E.
  move: Hg; rewrite /get_component_flow /=.
  by case: (size f =P length E) => // N; rewrite (gradient_Raise H).
move: Hg Hc Hh; rewrite (compG H LS) // (compC H LS) // (compH H LS) //.
rewrite /maybe_round /comp_mx /= => -[<-] [<-] [<-]; rewrite !energy_unvec.
suff -> : energy f = nrm2 (Gm R nodes E sc *m vec (length E) f) + nrm2 (Cm R E T sc *m vec (length E) f)
  + nrm2 (Hm R nodes E T sc *m vec (length E) f).
  split=> //; split; first by rewrite -addrA ler_addl addr_ge0 ?nrm2_ge0.
  split; last by rewrite ler_addr addr_ge0 ?nrm2_ge0.
  by rewrite [X in X + _]addrC -addrA ler_addl addr_ge0 ?nrm2_ge0.
rewrite -[f in LHS](vecK sf) energy_unvec; set v := vec _ f.
rewrite {1}(_ : v = Gm R nodes E sc *m v + Cm R E T sc *m v + Hm R nodes E T sc *m v); last first.
  by rewrite /Hm !mulmxBl mul1mx addrC -[X in X + _]addrA -opprD subrK.
have Sg : (Gm R nodes E sc)^T = Gm R nodes E sc by exact: proj_sym.
have Sc : (Cm R E T sc)^T = Cm R E T sc by exact: proj_sym.
rewrite nrm2D dotDl !sym_orth ?(GC0 O12) ?(GH0 O12) ?(CH0 O12) // addr0 mulr0 addr0 nrm2D.
by rewrite sym_orth ?(GC0 O12) // mulr0 addr0.
Qed.
Print Assumptions C21_energy.

(** A concrete decomposition on the paper complex, for every solver: the hypotheses of C19-C21 are
    met and none of the components vanishes. *)
Definition third : rat := 3%:R^-1.
Example C19_example :
  oriented (length tri_nodes) tri_edges tri_triangles /\
  lstsq_contract (@ls_sol [realFieldType of rat]) /\
  rint_contract (R := [realFieldType of rat]) rint_rat /\
  forall lstsq (rint : rat -> int), lstsq_contract lstsq -> forall d,
  get_component_flow lstsq rint tri_sc [:: 1; 0; 0] "gradient" false d = Ok [:: third *+ 2; third; - third] /\
  get_component_flow lstsq rint tri_sc [:: 1; 0; 0] "curl" false d = Ok [:: third; - third; third] /\
  get_component_flow lstsq rint tri_sc [:: 1; 0; 0] "harmonic" false d = Ok [:: 0; 0; 0].
Proof.
split.
  split; first exact: tri_proper. split.
    by move=> x y z /= [[<- <- <-]|//].
  by move=> t /= [<-|//]; do 3 eexists; split=> //; left; rewrite /=; auto 10.
split; first exact: ls_sol_ok. split; first exact: rint_rat_ok.
move=> lstsq rint LS d; rewrite !component_G !component_C !component_H.
have s3 : size [:: 1; 0; 0 : rat] = length tri_edges by [].
have K1 : mvC (sc_B1 tri_sc) (mvC (atr (sc_B1 tri_sc)) [:: 0; third *+ 2; third]) =
          mvC (sc_B1 tri_sc) [:: 1; 0; 0] by apply/eqP; vm_compute.
have K2 : mvC (atr (sc_B2 tri_sc)) (mvC (sc_B2 tri_sc) [:: third]) =
          mvC (atr (sc_B2 tri_sc)) [:: 1; 0; 0] by apply/eqP; vm_compute.
rewrite (grad_cert tri_ok LS rint false d s3 K1 erefl).
rewrite (curl_cert tri_ok LS rint false d s3 K2 erefl).
rewrite (harm_cert tri_ok LS rint false d s3 K1 K2 erefl erefl).
by split; [|split]; apply: Ok_eq; vm_compute.
Qed.

(** The energies of those components are 2/3, 1/3 and 0; the flow itself has energy 1. *)
Example C21_example :
  energy [:: 1; 0; 0 : rat] = 1 /\ energy [:: third *+ 2; third; - third] = third *+ 2 /\
  energy [:: third; - third; third] = third.
Proof. by rewrite /energy !dotpCE; split; [|split]; apply/eqP; vm_compute. Qed.

(** ** C22 *)

Theorem C22_incoherent_refuted :
  exists nodes E T sc, make_sc nodes E T nil nil = Ok sc /\
    proper_edges (length nodes) E /\ simple_edges E /\ proper_triangles T /\
    exists (f g c h : seq rat) L, hodge_laplacian_matrix sc 1 = Ok (Csr L) /\
    (forall lstsq rint d, lstsq_contract lstsq ->
      get_component_flow lstsq rint sc f "gradient" false d = Ok g /\
      get_component_flow lstsq rint sc f "curl" false d = Ok c /\
      get_component_flow lstsq rint sc f "harmonic" false d = Ok h) /\
    dotp g c <> 0 /\ get_divergence sc h <> Ok (zerof _ (length nodes)) /\
    get_curl sc h <> Ok (zerof _ (length T)) /\ mv L h <> zerof _ (length E) /\
    energy f <> energy g + energy c + energy h.
Proof.
exists tri_nodes, twisted_edges, tri_triangles, twisted_sc; split; first exact: twisted_ok.
split; first exact: twisted_proper. split.
  split; first by repeat constructor; simpl; intuition congruence.
  by move=> u v /= [[<- <-]|[[<- <-]|[[<- <-]|//]]]; intuition congruence.
split; first by move=> x y z /= [[<- <- <-]|//].
exists [:: 1; 0; 0], [:: third *+ 2; third; third], [:: third; - third; third], [:: 0; 0; - third *+ 2].
eexists; split; first by []. split.
  move=> lstsq rint d LS; rewrite !component_G !component_C !component_H.
  have s3 : size [:: 1; 0; 0 : rat] = length twisted_edges by [].
  have K1 : mvC (sc_B1 twisted_sc) (mvC (atr (sc_B1 twisted_sc)) [:: 0; third *+ 2; third]) =
            mvC (sc_B1 twisted_sc) [:: 1; 0; 0] by apply/eqP; vm_compute.
  have K2 : mvC (atr (sc_B2 twisted_sc)) (mvC (sc_B2 twisted_sc) [:: third]) =
            mvC (atr (sc_B2 twisted_sc)) [:: 1; 0; 0] by apply/eqP; vm_compute.
  rewrite (grad_cert twisted_ok LS rint false d s3 K1 erefl).
  rewrite (curl_cert twisted_ok LS rint false d s3 K2 erefl).
  rewrite (harm_cert twisted_ok LS rint false d s3 K1 K2 erefl erefl).
  by split; [|split]; apply: Ok_eq; vm_compute.
rewrite /energy !dotpCE mvCE divergenceC; last by vm_compute.
rewrite curlC; last by vm_compute.
split; first by apply: neqP; vm_compute.
split; first by apply: Ok_neq; vm_compute.
split; first by apply: Ok_neq; vm_compute.
by split; apply: neqP; vm_compute.
Qed.
Print Assumptions C22_incoherent_refuted.

(** ** C23 *)

(** [y] is [x] rounded to [d] decimals: an integer number of units of 10^-d, at most half a unit
    away. *)
Definition rounded (R : realFieldType) (d : int) (x y : R) : Prop :=
  (exists k : int, y = k%:~R / 10%:R ^ d) /\ `|y - x| <= 2%:R^-1 / 10%:R ^ d.

Lemma np_round1_rounded (R : realFieldType) (rint : R -> int) d x : rint_contract rint -> rounded d x (np_round1 rint d x).
Proof.
move=> C; split; first by eexists.
have p0 : (0 : R) < 10%:R ^ d by rewrite exprz_gt0 // ltr0n.
rewrite ler_pdivl_mulr // -[X in _ * X](gtr0_norm p0) -normrM mulrBl /np_round1 divfK ?lt0r_neq0 //.
by rewrite distrC; have [] := C (x * 10%:R ^ d).
Qed.

Theorem C23_rounding :
  forall (R : realFieldType) lstsq rint, lstsq_contract lstsq -> rint_contract rint ->
  forall nodes E T nf ef sc, make_sc nodes E T nf ef = Ok sc ->
  forall (f : seq R) d, size f = length E ->
  exists g c h g' c' h',
    get_component_flow lstsq rint sc f "gradient" false d = Ok g /\
    get_component_flow lstsq rint sc f "curl" false d = Ok c /\
    get_component_flow lstsq rint sc f "harmonic" false d = Ok h /\
    get_component_flow lstsq rint sc f "gradient" true d = Ok g' /\
    get_component_flow lstsq rint sc f "curl" true d = Ok c' /\
    get_component_flow lstsq rint sc f "harmonic" true d = Ok h' /\
    size g' = length E /\ size c' = length E /\ size h' = length E /\
    forall i, (i < length E)%N ->
      rounded d g`_i g'`_i /\ rounded d c`_i c'`_i /\ rounded d h`_i h'`_i /\
      `|g'`_i + c'`_i + h'`_i - f`_i| <= 3%:R / 2%:R / 10%:R ^ d.
Proof.
move=> R lstsq rint LS RC nodes E T nf ef sc H f d sf.
rewrite !(compG H LS) // !(compC H LS) // !(compH H LS) // /maybe_round.
set g := unvec (Gm _ _ _ _ *m _); set c := unvec (Cm _ _ _ _ *m _); set h := unvec (Hm _ _ _ _ _ *m _).
exists g, c, h; do 3 eexists; do 6 (split; first by []).
have sr x : size (np_round rint x d) = size x by rewrite size_map.
rewrite !sr !size_unvec; do 3 (split; first by []).
move=> i Hi; rewrite !(nth_map 0) ?size_unvec //.
have Hg := @np_round1_rounded R rint d g`_i RC; have Hc := @np_round1_rounded R rint d c`_i RC.
have Hh := @np_round1_rounded R rint d h`_i RC; do 3 (split; first by []).
have -> : f`_i = g`_i + c`_i + h`_i.
  rewrite -[f](vecK sf) /g /c /h -[i]/(nat_of_ord (Ordinal Hi)) !nth_unvec.
  set v := vec _ f; have -> : Hm R nodes E T sc *m v = v - (Gm R nodes E sc *m v + Cm R E T sc *m v).
    by rewrite /Hm !mulmxBl mul1mx -addrA -opprD.
  move: (Gm _ _ _ _ *m v) (Cm _ _ _ _ *m v) => A B; rewrite [in RHS]mxE [(A + B)]lock !mxE -lock mxE.
  by rewrite [RHS]addrC subrK.
move: (proj2 Hg) (proj2 Hc) (proj2 Hh); move: (np_round1 _ _ g`_i) (np_round1 _ _ c`_i) (np_round1 _ _ h`_i).
move=> x y z bx by_ bz.
have -> : x + y + z - (g`_i + c`_i + h`_i) = (x - g`_i) + (y - c`_i) + (z - h`_i).
  by rewrite (addrACA x) (addrACA (x + y)) !opprD.
have -> : 3%:R / 2%:R / 10%:R ^ d = 2%:R^-1 / 10%:R ^ d + 2%:R^-1 / 10%:R ^ d + 2%:R^-1 / 10%:R ^ d :> R.
  by rewrite -!mulrDl -[3%N]/(1 + 1 + 1)%N !natrD !mulrDl !mul1r.
apply: le_trans (ler_norm_add _ _) _; apply: ler_add => //.
by apply: le_trans (ler_norm_add _ _) _; apply: ler_add.
Qed.
Print Assumptions C23_rounding.

(** Two decimals of the components in C19_example. *)
Example C23_example : forall lstsq, lstsq_contract lstsq ->
  lstsq_contract (@ls_sol [realFieldType of rat]) /\ rint_contract (R := [realFieldType of rat]) rint_rat /\
  get_component_flow lstsq rint_rat tri_sc [:: 1; 0; 0] "gradient" true 2 =
    Ok [:: 67%:R / 100%:R; 33%:R / 100%:R; - (33%:R / 100%:R)] /\
  get_component_flow lstsq rint_rat tri_sc [:: 1; 0; 0] "curl" true 2 =
    Ok [:: 33%:R / 100%:R; - (33%:R / 100%:R); 33%:R / 100%:R].
Proof.
move=> lstsq LS; split; first exact: ls_sol_ok. split; first exact: rint_rat_ok.
rewrite !component_G !component_C.
have s3 : size [:: 1; 0; 0 : rat] = length tri_edges by [].
have K1 : mvC (sc_B1 tri_sc) (mvC (atr (sc_B1 tri_sc)) [:: 0; third *+ 2; third]) =
          mvC (sc_B1 tri_sc) [:: 1; 0; 0] by apply/eqP; vm_compute.
have K2 : mvC (atr (sc_B2 tri_sc)) (mvC (sc_B2 tri_sc) [:: third]) =
          mvC (atr (sc_B2 tri_sc)) [:: 1; 0; 0] by apply/eqP; vm_compute.
rewrite (grad_cert tri_ok LS rint_rat true 2 s3 K1 erefl) (curl_cert tri_ok LS rint_rat true 2 s3 K2 erefl).
by split; apply: Ok_eq; vm_compute.
Qed.

(** The rounded components of a two-decimal flow need not add up to it: on the hollow square the
    flow 0.01 on two consecutive edges has its rounded components all zero. *)
Definition square_nodes : list Z := [:: 0; 1; 2; 3]%zz.
Definition square_edges : list (Z * Z) := [:: (0, 1); (0, 3); (1, 2); (2, 3)]%zz.
Definition square_sc := get_sc (make_sc square_nodes square_edges nil nil nil).
Lemma square_ok : make_sc square_nodes square_edges nil nil nil = Ok square_sc.
Proof. by vm_compute. Qed.

Theorem C23_rounded_sum_refuted :
  exists nodes E T sc (f : seq rat), make_sc nodes E T nil nil = Ok sc /\
    oriented (length nodes) E T /\ size f = length E /\
    (forall i, exists k : int, f`_i = k%:~R / 100%:R) /\
    forall lstsq rint, lstsq_contract lstsq -> rint_contract rint ->
    exists g c h,
      get_component_flow lstsq rint sc f "gradient" true 2 = Ok g /\
      get_component_flow lstsq rint sc f "curl" true 2 = Ok c /\
      get_component_flow lstsq rint sc f "harmonic" true 2 = Ok h /\
      addf (addf g c) h = zerof _ (length E) /\ f <> addf (addf g c) h.
Proof.
exists square_nodes, square_edges, nil, square_sc, [:: 100%:R^-1; 0; 100%:R^-1; 0].
split; first exact: square_ok. split.
  split; last by split=> // x y z [].
  by move=> u v /= [[<- <-]|[[<- <-]|[[<- <-]|[[<- <-]|//]]]]; rewrite /=; lia.
split=> //; split.
  move=> [|[|[|[|i]]]]; [exists 1|exists 0|exists 1|exists 0|exists 0]; apply/eqP; try by vm_compute.
  by rewrite nth_default //.
move=> lstsq rint LS RC; rewrite !component_G !component_C !component_H.
set f := [:: _; _; _; _]; pose e : rat := 200%:R^-1.
have s3 : size f = length square_edges by [].
have K1 : mvC (sc_B1 square_sc) (mvC (atr (sc_B1 square_sc)) [:: 0; e; e *+ 2; e]) =
          mvC (sc_B1 square_sc) f by apply/eqP; vm_compute.
have K2 : mvC (atr (sc_B2 square_sc)) (mvC (sc_B2 square_sc) [::]) =
          mvC (atr (sc_B2 square_sc)) f by apply/eqP; vm_compute.
have RU : np_round rint =2 np_round rint_rat.
  by move=> x d; apply: eq_map => t; rewrite /np_round1 (rint_unique RC rint_rat_ok).
rewrite (grad_cert square_ok LS rint true 2 s3 K1 erefl).
rewrite (curl_cert square_ok LS rint true 2 s3 K2 erefl).
rewrite (harm_cert square_ok LS rint true 2 s3 K1 K2 erefl erefl) /maybe_round !RU.
do 3 eexists; do 3 (split; first by []).
by split; [apply/eqP; vm_compute|move/eqP; vm_compute].
Qed.
Print Assumptions C23_rounded_sum_refuted.

(** ** C24 *)

Theorem C24_flow_component_names :
  forall (R : realFieldType) lstsq rint, lstsq_contract lstsq ->
  forall nodes E T nf ef sc, make_sc nodes E T nf ef = Ok sc ->
  forall (f : seq R) s rf d,
  (~ component_name s -> get_component_flow lstsq rint sc f s rf d = Raise ValueError) /\
  (component_name s -> size f = length E ->
     exists x, get_component_flow lstsq rint sc f s rf d = Ok x /\ size x = length E) /\
  (component_name s -> size f <> length E ->
     get_component_flow lstsq rint sc f s rf d = Raise LinAlgError).
Proof.
move=> R lstsq rint LS nodes E T nf ef sc H f s rf d; split; [|split].
- move=> N; rewrite /get_component_flow.
  case: ifP => [/String.eqb_spec Hs|_]; first by case: N; right; right.
  case: ifP => [/String.eqb_spec Hs|_]; first by case: N; right; left.
  by case: ifP => [/String.eqb_spec Hs|_] //; case: N; left.
- move=> Hs sf; rewrite (component_Ok H LS) //; eexists; split; first by [].
  by rewrite /maybe_round; case: rf; rewrite ?/np_round ?(size_map (np_round1 rint d)) size_unvec.
- move=> Hs sf; rewrite /get_component_flow.
  by case: Hs => [->|[->| ->]] /=; rewrite ?(gradient_Raise H) ?(curl_flow_Raise H) ?(harmonic_Raise H).
Qed.
Print Assumptions C24_flow_component_names.

Example C24_example :
  ~ component_name "Gradient" /\ ~ component_name "" /\ component_name "curl".
Proof. by split; [|split; [|right; left]] => // -[|[|]]. Qed.

(** C20: on the hollow square the flow (1,-1,1,1) has neither divergence nor curl: it is a
    non-zero harmonic part as in the hypotheses of C20_unique. *)
Example C20_example :
  oriented (length square_nodes) square_edges nil /\
  get_divergence square_sc [:: 1; - 1; 1; 1 : rat] = Ok (zerof _ 4) /\
  get_curl square_sc [:: 1; - 1; 1; 1 : rat] = Ok (zerof _ 0).
Proof.
split.
  split; last by split=> // x y z [].
  by move=> u v /= [[<- <-]|[[<- <-]|[[<- <-]|[[<- <-]|//]]]]; rewrite /=; lia.
rewrite divergenceC; last by vm_compute.
rewrite curlC; last by vm_compute.
by split; apply: Ok_eq; vm_compute.
Qed.
