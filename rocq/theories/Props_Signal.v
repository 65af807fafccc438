(** * Properties of the Laplacians as operators, shifting, divergence and curl *)

From Coq Require Import ZArith String List.
From mathcomp Require Import all_ssreflect all_algebra ssrZ zify.
From Verif Require Import Py PyFacts Complex ComplexSpec ComplexFacts ComplexFacts2 ExampleData
  LinAlg Signal SignalSpec Bridge SignalFacts Compute.

Set Implicit Arguments.
Unset Strict Implicit.
Unset Printing Implicit Defensive.

Import GRing.Theory Num.Theory Order.Theory.
Local Open Scope ring_scope.
Delimit Scope Z_scope with zz.

(** Any matrix the four Laplacian methods can return. *)
Definition returned_laplacian (sc : SC) (L : arr2) : Prop :=
  laplacian_matrix sc = Csr L \/
  (exists r, lower_laplacian_matrix sc r = Ok (Csr L)) \/
  (exists r, upper_laplacian_matrix sc r = Ok (Csr L)) \/
  (exists r, hodge_laplacian_matrix sc r = Ok (Csr L)).

Lemma returned_laplacian_cases sc L : returned_laplacian sc L ->
  L = amul (sc_B1 sc) (atr (sc_B1 sc)) \/ L = amul (atr (sc_B1 sc)) (sc_B1 sc) \/
  L = amul (atr (sc_B2 sc)) (sc_B2 sc) \/ L = amul (sc_B2 sc) (atr (sc_B2 sc)) \/
  L = aadd (amul (atr (sc_B1 sc)) (sc_B1 sc)) (amul (sc_B2 sc) (atr (sc_B2 sc))).
Proof.
case=> [[<-]|[[r]|[[r]|[r]]]]; first by left.
- by rewrite /lower_laplacian_matrix; case: ifP => _; [|case: ifP => _ //]; case=> <-; auto.
- rewrite /upper_laplacian_matrix; case: ifP => _; [|case: ifP => _ //].
    by case=> <-; auto.
  by case=> <-; auto.
- rewrite /hodge_laplacian_matrix; case: ifP => _; first by case=> <-; auto.
  case: ifP => // /Z.eqb_spec -> /=; case=> <-; auto 10.
Qed.

(** ** C14 *)

Theorem C14_symmetric_psd :
  forall (R : realFieldType) nodes E T nf ef sc, make_sc nodes E T nf ef = Ok sc ->
  forall L, returned_laplacian sc L ->
  sh0 L = sh1 L /\
  (forall i j, at2 L i j = at2 L j i) /\
  (forall x : seq R, size x = sh0 L ->
     0 <= qform L x /\ (qform L x = 0 <-> mv L x = zerof R (sh0 L))).
Proof.
move=> R nodes E T nf ef sc H L HL.
have [h0 h1] := B1_dims H; have [h2 h3] := B2_dims H.
have zero n m (A : 'M[R]_(m, n)) (v : 'cV[R]_n) : nrm2 (A *m v) = 0 -> A *m v = 0.
  by move=> Z; apply/eqP; rewrite -nrm2_eq0 Z.
have gen (A B : arr2) n m : n = sh0 A -> m = sh1 A ->
  forall x : seq R, size x = m ->
     0 <= qform (amul (atr A) A) x /\
     (qform (amul (atr A) A) x = 0 <-> mv (amul (atr A) A) x = zerof R m).
  move=> d0 d1 x sx; rewrite (@qform_gram _ _ n m) //; split; first exact: nrm2_ge0.
  split=> [Z|]; first by apply: (@mv_gram0 _ _ n) => //; exact: zero.
  rewrite (@mvE _ _ m m) // (@toM_amul _ _ n) // toM_atr zerof_unvec => /unvec_inj Z.
  by rewrite (@gram_ker _ _ _ (toM R n m A)) ?nrm2_0 // mulmxA.
have gent (A B : arr2) n m : n = sh0 A -> m = sh1 A ->
  forall x : seq R, size x = n ->
     0 <= qform (amul A (atr A)) x /\
     (qform (amul A (atr A)) x = 0 <-> mv (amul A (atr A)) x = zerof R n).
  move=> d0 d1 x sx; rewrite (@qform_gramT _ _ n m) //; split; first exact: nrm2_ge0.
  split=> [Z|]; first by apply: (@mv_gramT0 _ _ n m) => //; exact: zero.
  rewrite (@mvE _ _ n n) // (@toM_amul _ _ m) // toM_atr zerof_unvec => /unvec_inj Z.
  by rewrite (@gram_ker _ _ _ (toM R n m A)^T) ?nrm2_0 // trmxK mulmxA.
case: (returned_laplacian_cases HL) => [->|[->|[->|[->| ->]]]].
- split; [by []|split; [exact: gram_sym|]].
  by move=> x sx; rewrite -[sh0 _]h0; apply: (@gent _ L _ (length E)) => //; rewrite sx h0.
- split; [by []|split; [exact: gram_sym'|]].
  by move=> x sx; rewrite -[sh0 _]h1; apply: (@gen _ L (length nodes)) => //; rewrite sx h1.
- split; [by []|split; [exact: gram_sym'|]].
  by move=> x sx; rewrite -[sh0 _]h3; apply: (@gen _ L (length E)) => //; rewrite sx h3.
- split; [by []|split; [exact: gram_sym|]].
  by move=> x sx; rewrite -[sh0 _]h2; apply: (@gent _ L _ (length T)) => //; rewrite sx h2.
- split; [by []|split].
    by move=> i j; rewrite /aadd /=; congr Z.add; [exact: gram_sym'|exact: gram_sym].
  move=> x sx.
  have e1 : length E = sh0 (aadd (amul (atr (sc_B1 sc)) (sc_B1 sc)) (amul (sc_B2 sc) (atr (sc_B2 sc)))).
    exact: h1.
  rewrite -e1 in sx *.
  rewrite (@qformE _ _ (length E)) // toM_aadd mulmxDl dotDr.
  have -> : dot (vec (length E) x) (toM R (length E) (length E) (amul (atr (sc_B1 sc)) (sc_B1 sc)) *m vec (length E) x)
    = nrm2 (toM R (length nodes) (length E) (sc_B1 sc) *m vec (length E) x).
    by rewrite -(@qform_gram _ (sc_B1 sc)) // (@qformE _ _ (length E)).
  have -> : dot (vec (length E) x) (toM R (length E) (length E) (amul (sc_B2 sc) (atr (sc_B2 sc))) *m vec (length E) x)
    = nrm2 ((toM R (length E) (length T) (sc_B2 sc))^T *m vec (length E) x).
    by rewrite -(@qform_gramT _ (sc_B2 sc)) // (@qformE _ _ (length E)).
  split; first by rewrite addr_ge0 ?nrm2_ge0.
  rewrite (@mvE _ _ (length E) (length E)) // toM_aadd mulmxDl (@toM_amul _ _ (length nodes)) //
    (@toM_amul _ _ (length T) (length E) (sc_B2 sc)) // !toM_atr zerof_unvec.
  set A := toM R (length nodes) (length E) _; set B := toM R (length E) (length T) _; set v := vec _ x.
  split.
    move=> /eqP; rewrite paddr_eq0 ?nrm2_ge0 // => /andP [/eqP Z1 /eqP Z2].
    by rewrite -!mulmxA (zero _ _ _ _ Z1) (zero _ _ _ _ Z2) !mulmx0 addr0.
  move/unvec_inj => Z.
  have : dot v (A^T *m A *m v + B *m B^T *m v) = 0 by rewrite Z dot0r.
  rewrite dotDr -!mulmxA [X in X + _]dot_mulmxr trmxK [X in _ + X]dot_mulmxr => /eqP.
  by rewrite /nrm2 => /eqP.
Qed.
Print Assumptions C14_symmetric_psd.

(** What the quadratic forms measure. *)
Theorem C14_quadratic_forms :
  forall (R : realFieldType) nodes E T nf ef sc, make_sc nodes E T nf ef = Ok sc ->
  forall Ll Lu Lh L2, lower_laplacian_matrix sc 1 = Ok (Csr Ll) ->
  upper_laplacian_matrix sc 1 = Ok (Csr Lu) -> hodge_laplacian_matrix sc 1 = Ok (Csr Lh) ->
  lower_laplacian_matrix sc 2 = Ok (Csr L2) ->
  (forall f d c : seq R, get_divergence sc f = Ok d -> get_curl sc f = Ok c ->
     qform Ll f = energy d /\ qform Lu f = energy c /\ qform Lh f = energy d + energy c) /\
  (proper_edges (length nodes) E -> forall L0, laplacian_matrix sc = Csr L0 ->
     forall p : seq R, size p = length nodes -> qform L0 p = energy (potential_diff E p)) /\
  (simple_edges E -> proper_triangles T ->
     forall w : seq R, size w = length T -> qform L2 w = energy (circulation E T w)).
Proof.
move=> R nodes E T nf ef sc H Ll Lu Lh L2 [<-] [<-] [<-] [<-].
have [h0 h1] := B1_dims H; have [h2 h3] := B2_dims H.
split; last split.
- move=> f d c D C.
  have sf : size f = length E.
    by move: D; rewrite /get_divergence /= /arr_dot; case: eqP => // ->.
  move: D C; rewrite (divergence_Ok H) // (curl_Ok H) // => -[<-] [<-].
  rewrite !energy_unvec (@qform_gram _ _ (length nodes) (length E)) //
    (@qform_gramT _ _ (length E) (length T)) //; split=> //; split=> //.
  rewrite (@qformE _ _ (length E)) // toM_aadd mulmxDl dotDr -!(@qformE _ _ (length E)) //.
  by rewrite (@qform_gram _ _ (length nodes) (length E)) // (@qform_gramT _ _ (length E) (length T)).
- move=> P L0 [<-] p sp; rewrite (@qform_gramT _ _ (length nodes) (length E)) //.
  by rewrite (B1T_potential H P p) -energy_unvec vecK // size_potential_diff.
- move=> S P w sw; rewrite (@qform_gram _ _ (length E) (length T)) //.
  by rewrite (B2_circulation H S P w) -energy_unvec vecK // size_map.
Qed.
Print Assumptions C14_quadratic_forms.

Example C14_example :
  exists L, returned_laplacian paper_sc L /\ sh0 L = 10%nat /\
    qform L [:: 1; 2%:R; 0; 0; 0; 0; 0; 0; 0; 1 : rat] = 22%:R.
Proof.
eexists; split; [by right; right; right; exists 1%zz|split=> //].
by rewrite qformCE; apply/eqP; vm_compute.
Qed.

(** ** C15: lower(1) @ upper(1) vanishes exactly when B1 @ B2 does *)

Theorem C15_annihilation_iff :
  forall nodes E T nf ef sc, make_sc nodes E T nf ef = Ok sc ->
  forall Ll Lu B1 B2, lower_laplacian_matrix sc 1 = Ok (Csr Ll) ->
  upper_laplacian_matrix sc 1 = Ok (Csr Lu) ->
  incidence_matrix sc 1 = Ok (Csr B1) -> incidence_matrix sc 2 = Ok (Csr B2) ->
  (forall i j, (i < length E)%N -> (j < length E)%N -> at2 (amul Ll Lu) i j = Z0) <->
  (forall i j, (i < length nodes)%N -> (j < length T)%N -> at2 (amul B1 B2) i j = Z0).
Proof.
move=> nodes E T nf ef sc H Ll Lu B1 B2 [<-] [<-] [<-] [<-].
have [h0 h1] := B1_dims H; have [h2 h3] := B2_dims H.
pose R := [realFieldType of rat].
have zeroP n m (A : arr2) : toM R n m A = 0 <->
  (forall i j, (i < n)%N -> (j < m)%N -> at2 A i j = Z0).
  split=> [Z i j Hi Hj|Z].
    have := congr1 (fun A : 'M_(n,m) => A (Ordinal Hi) (Ordinal Hj)) Z.
    by rewrite !mxE -(ZR0 R); exact: ZR_inj.
  by apply/matrixP => i j; rewrite !mxE Z ?ltn_ord.
rewrite -!zeroP (@toM_amul _ _ (length E)) // (toM_L1L R H) (toM_L1U R H) (@toM_amul _ _ (length E)) //.
rewrite -/(B1m R nodes E sc) -/(B2m R E T sc) /L1Lm /L1Um; move: (B1m _ _ _ _) (B2m _ _ _ _) => A B.
split=> [Z|Z]; last by rewrite -mulmxA (mulmxA A) Z mul0mx mulmx0.
have : (B^T *m A^T) *m (A *m B) *m (B^T *m A^T *m (A *m B)) = 0.
  transitivity (B^T *m (A^T *m A *m (B *m B^T)) *m (A^T *m (A *m B))); first by rewrite !mulmxA.
  by rewrite Z mulmx0 mul0mx.
rewrite -trmx_mul; set N := A *m B => Z2.
apply: mulmx_gram_eq0; apply: mulmx_gram_eq0.
by rewrite trmx_mul trmxK.
Qed.
Print Assumptions C15_annihilation_iff.

(** ** C16 *)

Theorem C16_steps :
  forall (R : realFieldType) nodes E T nf ef sc, make_sc nodes E T nf ef = Ok sc ->
  forall Ll Lu, lower_laplacian_matrix sc 1 = Ok (Csr Ll) ->
  upper_laplacian_matrix sc 1 = Ok (Csr Lu) ->
  forall f : seq R, size f = length E ->
  apply_lower_shifting sc f 1 = Ok (mv Ll f) /\
  apply_upper_shifting sc f 1 = Ok (mv Lu f) /\
  apply_k_step_shifting sc f 1 = Ok (addf (mv Ll f) (mv Lu f)) /\
  (forall steps, steps <> 1%zz ->
     apply_lower_shifting sc f steps = Ok (mv Ll (mv Ll f)) /\
     apply_upper_shifting sc f steps = Ok (mv Lu (mv Lu f)) /\
     apply_k_step_shifting sc f steps = Ok (addf (mv Ll (mv Ll f)) (mv Lu (mv Lu f)))).
Proof.
move=> R nodes E T nf ef sc H Ll Lu [<-] [<-] f sf.
have [h0 h1] := B1_dims H; have [h2 h3] := B2_dims H.
have eL (x : seq R) : mv (amul (atr (sc_B1 sc)) (sc_B1 sc)) x
   = unvec (L1Lm R nodes E sc *m vec (length E) x).
  by rewrite (@mvE _ _ (length E) (length E)) // (toM_L1L R H).
have eU (x : seq R) : mv (amul (sc_B2 sc) (atr (sc_B2 sc))) x
   = unvec (L1Um R E T sc *m vec (length E) x).
  by rewrite (@mvE _ _ (length E) (length E)) // (toM_L1U R H).
rewrite (lower_shift_Ok H) // (upper_shift_Ok H) // (k_shift_Ok H) //= !eL !eU !unvecK.
rewrite !addf_unvec; split=> //; split=> //; split; first by rewrite mulmxDl.
move=> steps /Z.eqb_spec/negbTE N1.
by rewrite (lower_shift_Ok H) // (upper_shift_Ok H) // (k_shift_Ok H) //= N1.
Qed.
Print Assumptions C16_steps.

(** Flows of the wrong length are rejected. *)
Theorem C16_wrong_length :
  forall (R : realFieldType) nodes E T nf ef sc, make_sc nodes E T nf ef = Ok sc ->
  forall (f : seq R) steps, size f <> length E ->
  apply_lower_shifting sc f steps = Raise ValueError /\
  apply_upper_shifting sc f steps = Raise ValueError /\
  apply_k_step_shifting sc f steps = Raise ValueError.
Proof.
move=> R nodes E T nf ef sc H f steps sf.
by rewrite /apply_k_step_shifting (lower_shift_Raise H) // (upper_shift_Raise H).
Qed.
Print Assumptions C16_wrong_length.

Theorem C16_linear :
  forall (R : realFieldType) nodes E T nf ef sc, make_sc nodes E T nf ef = Ok sc ->
  forall op, op = @apply_lower_shifting R \/ op = @apply_upper_shifting R \/
             op = @apply_k_step_shifting R ->
  forall (f g : seq R) a steps, size f = length E -> size g = length E ->
  exists F G, op sc f steps = Ok F /\ op sc g steps = Ok G /\
    size F = length E /\ size G = length E /\
    op sc (addf (scalef a f) g) steps = Ok (addf (scalef a F) G).
Proof.
move=> R nodes E T nf ef sc H op Hop f g a steps sf sg.
have lin (A : 'M[R]_(length E)) (F : seq R -> Z -> res (seq R)) :
  (forall x, size x = length E -> F x steps = Ok (unvec (A *m vec (length E) x))) ->
  exists F' G', F f steps = Ok F' /\ F g steps = Ok G' /\
    size F' = length E /\ size G' = length E /\
    F (addf (scalef a f) g) steps = Ok (addf (scalef a F') G').
  move=> HF; exists (unvec (A *m vec (length E) f)), (unvec (A *m vec (length E) g)).
  rewrite !size_unvec !HF ?size_addf ?size_scalef //; do 4 split=> //.
  by rewrite vec_addf ?size_scalef // vec_scalef // scalef_unvec addf_unvec mulmxDr scalemxAr.
case: Hop => [->|[->| ->]].
- apply: (lin (if Z.eqb steps 1 then L1Lm R nodes E sc else L1Lm R nodes E sc *m L1Lm R nodes E sc)
            (fun x s => apply_lower_shifting sc x s)) => x sx.
  by rewrite (lower_shift_Ok H) //; case: ifP; rewrite ?mulmxA.
- apply: (lin (if Z.eqb steps 1 then L1Um R E T sc else L1Um R E T sc *m L1Um R E T sc)
            (fun x s => apply_upper_shifting sc x s)) => x sx.
  by rewrite (upper_shift_Ok H) //; case: ifP; rewrite ?mulmxA.
- apply: (lin (if Z.eqb steps 1 then L1Lm R nodes E sc + L1Um R E T sc
     else L1Lm R nodes E sc *m L1Lm R nodes E sc + L1Um R E T sc *m L1Um R E T sc)
            (fun x s => apply_k_step_shifting sc x s)) => x sx.
  by rewrite (k_shift_Ok H) //; case: ifP; rewrite ?mulmxDl ?mulmxA.
Qed.
Print Assumptions C16_linear.

(** "Number of times to apply the shifting operator" fails for 0 and for 3 steps. *)
Theorem C16_documented_count_refuted :
  exists nodes E T sc Ll, make_sc nodes E T nil nil = Ok sc /\
    lower_laplacian_matrix sc 1 = Ok (Csr Ll) /\
    exists f : seq rat, size f = length E /\
      apply_lower_shifting sc f 0 <> Ok f /\
      apply_lower_shifting sc f 3 <> Ok (mv Ll (mv Ll (mv Ll f))) /\
      apply_upper_shifting sc f 0 <> Ok f.
Proof.
exists tri_nodes, tri_edges, tri_triangles, tri_sc; eexists; split; first exact: tri_ok.
split; first by []. exists [:: 1; 0; 0 : rat]; split=> //.
have s1 : size [:: 1; 0; 0 : rat] = sh1 (sc_B1 tri_sc) by vm_compute.
have s2 : size [:: 1; 0; 0 : rat] = sh0 (sc_B2 tri_sc) by vm_compute.
rewrite !(lower_shiftC _ s1) !(upper_shiftC _ s2) !mvCE; split; last split.
- by apply: Ok_neq; vm_compute.
- by apply: Ok_neq; vm_compute.
- by apply: Ok_neq; vm_compute.
Qed.
Print Assumptions C16_documented_count_refuted.

Example C16_example :
  let f := [:: 1; 2%:R; 0; -1; 3%:R; 0; 0; 1; 1; 0 : rat] in
  size f = length paper_edges /\
  apply_upper_shifting paper_sc f 1 = Ok [:: -2%:R; 7%:R; -5%:R; -2%:R; 5%:R; 0; 0; 0; 0; 0 : rat] /\
  apply_upper_shifting paper_sc f 2 =
    Ok [:: -11%:R; 28%:R; -17%:R; -11%:R; 17%:R; 0; 0; 0; 0; 0 : rat].
Proof.
move=> f; split=> //; have s2 : size f = sh0 (sc_B2 paper_sc) by vm_compute.
by rewrite !(upper_shiftC _ s2); split; apply: Ok_eq; vm_compute.
Qed.

(** ** C17 *)

Theorem C17_divergence :
  forall (R : realFieldType) nodes E T nf ef sc, make_sc nodes E T nf ef = Ok sc ->
  proper_edges (length nodes) E ->
  forall f : seq R, size f = length E ->
  exists d, get_divergence sc f = Ok d /\ size d = length nodes /\
    (forall i, (i < length nodes)%N -> d`_i = net_inflow E f i) /\
    \sum_(i < length nodes) d`_i = 0.
Proof.
move=> R nodes E T nf ef sc H P f sf; rewrite (divergence_Ok H) //.
eexists; split; first by []. split; first by rewrite size_unvec. split.
  move=> i Hi; rewrite -[i in LHS]/(nat_of_ord (Ordinal Hi)) nth_unvec.
  exact: (B1_net_inflow H).
under eq_bigr => i _ do rewrite nth_unvec.
transitivity (dot (vec (length nodes) (nseq (length nodes) 1)) (B1m R nodes E sc *m vec (length E) f)).
  by apply: eq_bigr => i _; rewrite [in RHS]mxE nth_nseq ltn_ord mul1r.
rewrite dot_mulmxr (B1T_potential H P).
rewrite (_ : vec _ (potential_diff E _) = 0) ?dot0l //.
apply/colP => k; rewrite !mxE (nth_map (Z0, Z0)) ?ltn_ord //.
have := nth_error_In _ _ (nth_error_nth (Z0, Z0) (ltn_ord k)).
case: (nth _ E k) => u v /= /P -[Hu [Hv _]].
rewrite !nth_nseq; have -> : (Z.to_nat v < length nodes)%N by lia.
have -> : (Z.to_nat u < length nodes)%N by lia.
by rewrite subrr.
Qed.
Print Assumptions C17_divergence.

Theorem C17_curl :
  forall (R : realFieldType) nodes E T nf ef sc, make_sc nodes E T nf ef = Ok sc ->
  forall f : seq R, size f = length E ->
  exists c, get_curl sc f = Ok c /\ size c = length T /\
    forall j x y z ka kb kc, nth_error T j = Some [:: x; y; z] -> x <> y -> y <> z -> x <> z ->
      stored_at E x y ka -> stored_at E y z kb -> stored_at E x z kc ->
      c`_j = f`_ka + f`_kb - f`_kc.
Proof.
move=> R nodes E T nf ef sc H f sf; rewrite (curl_Ok H) //.
eexists; split; first by []. split; first by rewrite size_unvec.
move=> j x y z ka kb kc Hj Nab Nbc Nac Ha Hb Hc.
have Lj := nth_error_lt Hj.
rewrite -[j]/(nat_of_ord (Ordinal Lj)) nth_unvec.
by apply: (B2T_stored H) Nab Nbc Nac Ha Hb Hc; exact: nth_error_nthE Hj.
Qed.
Print Assumptions C17_curl.

Theorem C17_linear :
  forall (R : realFieldType) nodes E T nf ef sc, make_sc nodes E T nf ef = Ok sc ->
  forall (f g : seq R) a, size f = length E -> size g = length E ->
  exists df dg cf cg, get_divergence sc f = Ok df /\ get_divergence sc g = Ok dg /\
    get_curl sc f = Ok cf /\ get_curl sc g = Ok cg /\
    get_divergence sc (addf (scalef a f) g) = Ok (addf (scalef a df) dg) /\
    get_curl sc (addf (scalef a f) g) = Ok (addf (scalef a cf) cg).
Proof.
move=> R nodes E T nf ef sc H f g a sf sg.
rewrite !(divergence_Ok H) ?size_addf ?size_scalef // !(curl_Ok H) ?size_addf ?size_scalef //.
do 4 eexists; do 4 (split; first by []).
by rewrite vec_addf ?size_scalef // vec_scalef // !scalef_unvec !addf_unvec !mulmxDr !scalemxAr.
Qed.
Print Assumptions C17_linear.

Theorem C17_wrong_length :
  forall (R : realFieldType) nodes E T nf ef sc, make_sc nodes E T nf ef = Ok sc ->
  forall f : seq R, size f <> length E ->
  get_divergence sc f = Raise ValueError /\ get_curl sc f = Raise ValueError.
Proof.
move=> R nodes E T nf ef sc H f sf; have [h0 h1] := B1_dims H; have [h2 h3] := B2_dims H.
rewrite /get_divergence /get_curl /= !arr_dot_Raise //=; by [rewrite -h2|rewrite -h1].
Qed.
Print Assumptions C17_wrong_length.

Example C17_example :
  proper_edges (length paper_nodes) paper_edges /\
  let f := [:: 1; 2%:R; 0; -1; 3%:R; 0; 0; 1; 1; 0 : rat] in
  get_divergence paper_sc f = Ok [:: -3%:R; 2%:R; -2%:R; 3%:R; -2%:R; 1; 1 : rat] /\
  get_curl paper_sc f = Ok [:: -2%:R; 5%:R; 0 : rat].
Proof.
split; first exact: paper_proper.
move=> f; have s1 : size f = sh1 (sc_B1 paper_sc) by vm_compute.
have s2 : size f = sh0 (sc_B2 paper_sc) by vm_compute.
by rewrite (divergenceC s1) (curlC s2); split; apply: Ok_eq; vm_compute.
Qed.

(** ** C18 *)

Theorem C18_curl_grad_iff :
  forall (R : realFieldType) nodes E T nf ef sc, make_sc nodes E T nf ef = Ok sc ->
  proper_edges (length nodes) E -> proper_triangles T ->
  (forall p : seq R, size p = length nodes ->
     get_curl sc (potential_diff E p) = Ok (zerof R (length T))) <->
  (forall t, List.In t T -> coherent E t).
Proof.
move=> R nodes E T nf ef sc H P PT; split=> [Z|C].
  apply: (B1B2_oriented (R:=R) H P PT); apply: trmx_inj; rewrite trmx_mul trmx0.
  apply: mx_ext => v; rewrite mul0mx -mulmxA.
  have := Z (unvec v); rewrite size_unvec => /(_ erefl).
  rewrite (curl_Ok H) ?size_potential_diff // -(B1T_potential H P) unvecK zerof_unvec.
  by case=> /unvec_inj.
move=> p sp; rewrite (curl_Ok H) ?size_potential_diff // -(B1T_potential H P) zerof_unvec.
by rewrite mulmxA -trmx_mul (oriented_B1B2 R H) // trmx0 mul0mx.
Qed.
Print Assumptions C18_curl_grad_iff.

Theorem C18_div_circulation_iff :
  forall (R : realFieldType) nodes E T nf ef sc, make_sc nodes E T nf ef = Ok sc ->
  proper_edges (length nodes) E -> simple_edges E -> proper_triangles T ->
  (forall w : seq R, size w = length T ->
     get_divergence sc (circulation E T w) = Ok (zerof R (length nodes))) <->
  (forall t, List.In t T -> coherent E t).
Proof.
move=> R nodes E T nf ef sc H P S PT; split=> [Z|C].
  apply: (B1B2_oriented (R:=R) H P PT); apply: mx_ext => v; rewrite mul0mx -mulmxA.
  have := Z (unvec v); rewrite size_unvec => /(_ erefl).
  rewrite (divergence_Ok H) ?size_map // -(B2_circulation H S PT) unvecK zerof_unvec.
  by case=> /unvec_inj.
move=> w sw; rewrite (divergence_Ok H) ?size_map // -(B2_circulation H S PT) zerof_unvec.
by rewrite mulmxA (oriented_B1B2 R H) // mul0mx.
Qed.
Print Assumptions C18_div_circulation_iff.

Example C18_example :
  (forall t, List.In t paper_triangles -> coherent paper_edges t) /\
  potential_diff paper_edges [:: 0; 1; 4%:R; 0; 0; 0; 0 : rat] =
    [:: 1; 4%:R; 0; 3%:R; - 4%:R; - 4%:R; 0; 0; 0; 0 : rat].
Proof. by split; [exact: paper_coherent|apply/eqP; vm_compute]. Qed.
