(** * C95: parts of a network that are not connected do not influence each other *)

From Coq Require Import ZArith String List.
From mathcomp Require Import all_ssreflect all_algebra all_real_closed ssrZ zify.
From Verif Require Import Py PyFacts ExampleData Complex ComplexSpec ComplexFacts ComplexFacts2 LinAlg Spectral
  Signal SignalSpec Bridge SignalFacts Compute Props_Complex Props_Signal Props_Hodge Eigen EigenSpec IntEigen
  EigenFacts Props_Eigen Filter FilterSpec FilterFacts FilterFacts2 PolyFacts Props_Masks Props_LowPass
  Props_Poly Props_Power Props_Grid Props_Linear Props_Topology Props_Reorder Props_FilterOrder Gp GpSpec GpFacts
  GpPredict Props_Gp Props_GpPredict Props_GpObs Props_Solver Props_GpOrder.

Set Implicit Arguments.
Unset Strict Implicit.
Unset Printing Implicit Defensive.

Import GRing.Theory Num.Theory Order.Theory.
Local Open Scope ring_scope.
Delimit Scope Z_scope with zz.

(** ** Specification *)

(** No edge leads from the nodes in [keep] to the others. *)
Definition separate (keep : Z -> bool) (E : list (Z * Z)) : Prop := forall u v, List.In (u, v) E -> keep u = keep v.

(** Edges and triangles among the nodes in [keep], and values at these edges and triangles. *)
Definition part (keep : Z -> bool) (E : list (Z * Z)) : list (Z * Z) := [seq e <- E | keep e.1].
Definition tri_part (keep : Z -> bool) (T : list (list Z)) : list (list Z) := [seq t <- T | all keep t].
Definition on_part (R : Type) (keep : Z -> bool) (E : list (Z * Z)) (f : seq R) : seq R :=
  [seq x.2 | x <- zip E f & keep x.1.1].
Definition on_tri (R : Type) (keep : Z -> bool) (T : list (list Z)) (f : seq R) : seq R :=
  [seq x.2 | x <- zip T f & all keep x.1].

(** ** Positions of the elements a filter keeps *)
Lemma filter_pos (A : eqType) (d : A) (a : pred A) (s : seq A) n' : size [seq x <- s | a x] = n' ->
  exists p : 'I_n' -> 'I_(size s), [/\ injective p, forall k : 'I_n', nth d [seq x <- s | a x] k = nth d s (p k),
    forall j : 'I_(size s), a (nth d s j) <-> exists k, p k = j &
    forall (B : Type) (b : B) (f : seq B), size f = size s ->
      size [seq x.2 | x <- zip s f & a x.1] = n' /\ forall k : 'I_n', nth b [seq x.2 | x <- zip s f & a x.1] k = nth b f (p k)].
Proof.
set I := [seq i <- iota 0 (size s) | a (nth d s i)].
have eI : [seq x <- s | a x] = [seq nth d s i | i <- I].
  by rewrite -[X in filter _ X](mkseq_nth d) /mkseq filter_map.
have sI : size I = size [seq x <- s | a x] by rewrite eI size_map.
move=> <-; rewrite -sI.
have lt (k : 'I_(size I)) : (nth O I k < size s)%N.
  have : nth O I k \in I by rewrite mem_nth.
  by rewrite mem_filter mem_iota add0n => /andP[_ /andP[]].
exists (fun k => Ordinal (lt k)); split.
- move=> i j [] /eqP; rewrite nth_uniq ?ltn_ord //; first by move/eqP/val_inj.
  by rewrite filter_uniq // iota_uniq.
- by move=> k; rewrite eI (nth_map O).
- move=> j; split=> [aj|[k <-] /=].
    have jI : (j : nat) \in I by rewrite mem_filter aj mem_iota add0n ltn_ord.
    have lj : (index (j : nat) I < size I)%N by rewrite index_mem.
    by exists (Ordinal lj); apply: val_inj; rewrite /= nth_index.
  by have := mem_nth O (ltn_ord k); rewrite mem_filter => /andP[].
move=> B b f sf.
have -> : [seq x.2 | x <- zip s f & a x.1] = [seq nth b f i | i <- I].
  have -> : zip s f = [seq (nth d s i, nth b f i) | i <- iota 0 (size s)].
    rewrite -{1}(mkseq_nth d s) -{1}(mkseq_nth b f) sf /mkseq; elim: (iota _ _) => //= i l ->; done.
  by rewrite filter_map -map_comp.
by rewrite size_map; split=> // k; rewrite (nth_map O).
Qed.

(** ** Matrices of a part *)
Section Sub.
Variable R : realFieldType.
Variables (n n' : nat) (p : 'I_n' -> 'I_n).
Hypothesis inj : injective p.
Notation P := (sel R p).
Notation J := (P^T *m P).

Lemma JP : J *m P^T = P^T. Proof. by rewrite -mulmxA sel_l // mulmx1. Qed.
Lemma PJ : P *m J = P. Proof. by rewrite mulmxA sel_l // mul1mx. Qed.
Lemma Jt : J^T = J. Proof. by rewrite trmx_mul trmxK. Qed.

Lemma Jdiag i j : J i j = if i == j then [exists k, p k == i]%:R else 0.
Proof.
rewrite mxE; have e k : P^T i k * P k j = ((i == p k) && (j == p k))%:R by rewrite !mxE -natrM mulnb.
rewrite (eq_bigr _ (fun k _ => e k)); case: ifP => [/eqP <-|n0].
  case: existsP => [[k /eqP ek]|h].
    rewrite (bigD1 k) //= -ek eqxx big1 ?addr0 // => l nl.
    by rewrite (inj_eq inj) eq_sym (negbTE nl).
  by rewrite big1 // => k _; case: eqP => // ek; case: h; exists k; rewrite ek.
by rewrite big1 // => k _; case: eqP => //= ei; case: eqP => //= ej; rewrite ei ej eqxx in n0.
Qed.

(** A matrix that does not mix the part with the rest. *)
Lemma part_inter (A : 'M[R]_n) : J *m A = A *m J -> P *m A = (P *m A *m P^T) *m P /\ A *m P^T = P^T *m (P *m A *m P^T).
Proof.
move=> c; split; first by rewrite -mulmxA -[_ *m A *m _]mulmxA -c !mulmxA sel_l // mul1mx.
by rewrite !mulmxA c -mulmxA JP.
Qed.

(** Projections *)
Lemma proj_part m m' (A : 'M[R]_(n, m)) (W : 'M[R]_m) (V : 'M[R]_(m', m)) : W^T = W ->
  J *m A = A *m W -> P *m A *m V^T *m V = P *m A -> proj (P *m A *m V^T) *m P = P *m proj A.
Proof.
move=> sW c cv.
have c' : A^T *m J = W *m A^T by have := congr1 trmx c; rewrite trmx_mul Jt [in RHS]trmx_mul sW.
have vec_eq k l (B C : 'M[R]_(k, l)) : (forall b : 'cV_l, B *m b = C *m b) -> B = C.
  move=> h; apply/matrixP => i j; have g (D : 'M[R]_(k, l)) : D i j = (D *m delta_mx j (0 : 'I_1)) i 0 by rewrite -colE mxE.
  by rewrite g h -g.
apply: vec_eq => b; set x := ls_sol A b; have hx : A^T *m (A *m x) = A^T *m b := ls_solP A b.
have hy : is_ls (P *m A *m V^T) (P *m b) (V *m x).
  rewrite /is_ls -!mulmxA [V^T *m _]mulmxA !trmx_mul trmxK.
  have -> : P *m (A *m (V^T *m V *m x)) = P *m (A *m x) by rewrite !mulmxA cv.
  rewrite -!mulmxA; congr (_ *m _); rewrite ![P^T *m (P *m _)]mulmxA.
  by rewrite ![A^T *m (J *m _)]mulmxA c' -!mulmxA hx.
rewrite -[LHS]mulmxA -[RHS]mulmxA -(is_ls_proj hy) -(is_ls_proj (hx : is_ls A b x)).
by rewrite !mulmxA cv.
Qed.
End Sub.

(** ** A complex and one of its parts *)
Section Part.
Variable R : realFieldType.
Variables (nodes : list Z) (E : list (Z * Z)) (T : list (list Z)) (nf : dict Z fdict)
          (ef : dict (Z * Z) fdict) (sc : SC).
Hypothesis H : make_sc nodes E T nf ef = Ok sc.
Hypotheses (PE : proper_edges (length nodes) E) (SE : simple_edges E) (PT : proper_triangles T).
Variable keep : Z -> bool.
Hypothesis S : separate keep E.
Variables (nf' : dict Z fdict) (ef' : dict (Z * Z) fdict) (sc' : SC).
Notation E' := (part keep E).
Notation T' := (tri_part keep T).
Hypothesis H' : make_sc nodes E' T' nf' ef' = Ok sc'.

Lemma linked_keep a b : linked E a b -> keep a = keep b.
Proof. by case=> h; [exact: S h|rewrite (S h)]. Qed.

Lemma part_proper : proper_edges (length nodes) E'.
Proof. by move=> u v /InE; rewrite mem_filter => /andP[_ /InE]; exact: PE. Qed.
Lemma part_simple : simple_edges E'.
Proof.
case: SE => nd sy; split; first by apply/NoDupE; rewrite filter_uniq //; apply/NoDupE.
by move=> u v /InE; rewrite mem_filter => /andP[_ /InE h] /InE; rewrite mem_filter => /andP[_ /InE h']; exact: sy h h'.
Qed.
Lemma tri_part_proper : proper_triangles T'.
Proof. by move=> a b c /InE; rewrite mem_filter => /andP[_ /InE]; exact: PT. Qed.

(** Everything that is needed about the matrices of the two complexes. *)
Lemma part_setup : exists (p : 'I_(length E') -> 'I_(length E)) (q : 'I_(length T') -> 'I_(length T)),
  let P := sel R p in let V := sel R q in
  let D := diag_mx (\row_(i < length nodes) (keep (Z.of_nat i))%:R) in
  [/\ injective p /\ injective q,
    (forall k : 'I_(length E'), nth (Z0, Z0) E' k = nth (Z0, Z0) E (p k)) /\
    (forall j : 'I_(length E), keep (nth (Z0, Z0) E j).1 <-> exists k, p k = j),
    (forall f : seq R, size f = length E -> size (on_part keep E f) = length E' /\ vec (length E') (on_part keep E f) = P *m vec (length E) f) /\
    (forall f : seq R, size f = length T -> size (on_tri keep T f) = length T' /\ vec (length T') (on_tri keep T f) = V *m vec (length T) f),
    [/\ B1m R nodes E' sc' = B1m R nodes E sc *m P^T, B2m R E' T' sc' = P *m B2m R E T sc *m V^T,
        D *m B1m R nodes E sc = B1m R nodes E sc *m (P^T *m P) & (P^T *m P) *m B2m R E T sc = B2m R E T sc *m (V^T *m V)] &
    [/\ (forall s, comp_mx R nodes E' T' sc' s *m P = P *m comp_mx R nodes E T sc s),
        L1Lm R nodes E' sc' *m P = P *m L1Lm R nodes E sc & L1Um R E' T' sc' *m P = P *m L1Um R E T sc]].
Proof.
have [p [ip hp im hf]] := @filter_pos _ (Z0, Z0) (fun e : Z * Z => keep e.1) E _ (erefl (size E')).
have [q [iq hq imq hfq]] := @filter_pos _ [::] (fun t : list Z => all keep t) T _ (erefl (size T')).
exists p, q => P V D.
have vecs n m (r : 'I_n -> 'I_m) (f g : seq R) : (forall k : 'I_n, g`_k = f`_(r k)) -> vec n g = sel R r *m vec m f.
  by move=> h; apply/colP => k; rewrite selM !mxE h.
have e1 : B1m R nodes E' sc' = B1m R nodes E sc *m P^T.
  apply/matrixP => i k; rewrite Msel (B1m_entry _ H') //; last exact: part_proper.
  by rewrite (B1m_entry _ H) // hp.
have e2 : B2m R E' T' sc' = P *m B2m R E T sc *m V^T.
  apply/matrixP => k j; rewrite Msel selM (B2m_entry _ H'); [|exact: part_simple|exact: tri_part_proper].
  by rewrite (B2m_entry _ H) // hp hq.
have Je : P^T *m P = diag_mx (\row_(k < length E) (keep (nth (Z0, Z0) E k).1)%:R).
  apply/matrixP => i j; rewrite Jdiag // !mxE; case: eqP => // _; rewrite mulr1n; congr (_%:R); congr nat_of_bool.
  by apply/existsP/idP => [[k /eqP e]|/im [k e]]; [apply/im; exists k|exists k; rewrite e].
have Ve : V^T *m V = diag_mx (\row_(k < length T) (all keep (nth [::] T k))%:R).
  apply/matrixP => i j; rewrite Jdiag // !mxE; case: eqP => // _; rewrite mulr1n; congr (_%:R); congr nat_of_bool.
  by apply/existsP/idP => [[k /eqP e]|/imq [k e]]; [apply/imq; exists k|exists k; rewrite e].
have c1 : D *m B1m R nodes E sc = B1m R nodes E sc *m (P^T *m P).
  rewrite Je; apply/matrixP => i k; rewrite mul_diag_mx mul_mx_diag [LHS]mxE [RHS]mxE (B1m_entry _ H) // !mxE.
  have : List.In (nth (Z0, Z0) E k) E by apply/InE/mem_nth.
  case: (nth (Z0, Z0) E k) => u v /S kv /=.
  case: (Z.eqb_spec v) => [<-|_]; first by rewrite -kv mulrC.
  by case: (Z.eqb_spec u) => [<-|_]; [rewrite mulrC|rewrite subrr mulr0 mul0r].
have c2 : (P^T *m P) *m B2m R E T sc = B2m R E T sc *m (V^T *m V).
  rewrite Je Ve; apply/matrixP => k j; rewrite mul_diag_mx mul_mx_diag [LHS]mxE [RHS]mxE (B2m_entry _ H) // !mxE.
  have hT : List.In (nth [::] T j) T by apply/InE/mem_nth.
  have [_ gT] := proj1 (C02_accepts_iff nodes E T nf ef) (ex_intro _ sc H).
  have [a [b [c [-> [/linked_keep l1 [/linked_keep l2 /linked_keep l3]]]]]] := gT _ hT.
  case: (nth (Z0, Z0) E k) => u v /=; rewrite -l2 -l1 andbT !andbb mulrC.
  have jk x y : joinsb (u, v) x y -> keep x = keep a -> keep y = keep a -> keep u = keep a.
    rewrite /joinsb /=; case: (Z.eqb_spec u x) => [->|_] //=; case: (Z.eqb_spec u y) => [->|_] //=.
  case: ifP => [/jk ->|_] //; case: ifP => [/jk ->|_] //; case: ifP => [/jk ->|_] //.
  by rewrite !mul0r.
have Dt : D^T = D by rewrite tr_diag_mx.
have c1t : (P^T *m P) *m (B1m R nodes E sc)^T = (B1m R nodes E sc)^T *m D.
  by have := congr1 trmx c1; rewrite trmx_mul Dt [in RHS]trmx_mul Jt.
have c2t : (B2m R E T sc)^T *m (P^T *m P) = (V^T *m V) *m (B2m R E T sc)^T.
  by have := congr1 trmx c2; rewrite trmx_mul Jt [in RHS]trmx_mul Jt.
have G : Gm R nodes E' sc' *m P = P *m Gm R nodes E sc.
  rewrite /Gm e1 trmx_mul trmxK.
  have -> : P *m (B1m R nodes E sc)^T = P *m (B1m R nodes E sc)^T *m (1%:M)^T by rewrite trmx1 mulmx1.
  by apply: (@proj_part R _ _ p _ _ _ D 1%:M Dt c1t); rewrite trmx1 !mulmx1.
have C : Cm R E' T' sc' *m P = P *m Cm R E T sc.
  rewrite /Cm e2; apply: (@proj_part R _ _ p _ _ _ (V^T *m V) V (Jt R q) c2).
  by rewrite -!mulmxA -c2 !mulmxA sel_l // mul1mx.
split=> //.
- split=> f sf; [have [s1 h] := hf _ 0 f sf|have [s1 h] := hfq _ 0 f sf]; split=> //; exact: vecs.
- split.
  + move=> s; rewrite /comp_mx; case: ifP => _; last by case: ifP.
    by rewrite /Hm !mulmxBl !mulmxBr G C mul1mx mulmx1.
  + have e : L1Lm R nodes E' sc' = P *m L1Lm R nodes E sc *m P^T.
      by rewrite /L1Lm e1 trmx_mul trmxK !mulmxA.
    rewrite e; apply/esym/(proj1 (part_inter ip _)).
    by rewrite -/P /L1Lm [LHS]mulmxA c1t -[LHS]mulmxA c1 [LHS]mulmxA.
  + have e : L1Um R E' T' sc' = P *m L1Um R E T sc *m P^T.
      rewrite /L1Um e2 !trmx_mul trmxK !mulmxA; congr (_ *m _ *m _).
      by rewrite -!mulmxA -c2 !mulmxA sel_l // mul1mx.
    rewrite e; apply/esym/(proj1 (part_inter ip _)).
    by rewrite -/P /L1Um [LHS]mulmxA c2 -[LHS]mulmxA -c2t [LHS]mulmxA.
Qed.
End Part.

(** ** What is computed on flows *)

(** The part is a complex. *)
Theorem C95_part :
  forall nodes E T nf ef sc, make_sc nodes E T nf ef = Ok sc -> forall keep, separate keep E ->
  forall nf' ef', exists sc', make_sc nodes (part keep E) (tri_part keep T) nf' ef' = Ok sc'.
Proof.
move=> nodes E T nf ef sc H keep S nf' ef'; apply/C02_accepts_iff.
have [gE gT] := proj1 (C02_accepts_iff nodes E T nf ef) (ex_intro _ sc H); split.
  by move=> u v /InE; rewrite mem_filter => /andP[_ /InE]; exact: gE.
move=> t /InE; rewrite mem_filter => /andP[kt /InE /gT [a [b [c [et [l1 [l2 l3]]]]]]].
exists a, b, c; split=> //; move: kt; rewrite et /= => /and4P[ka kb kc _].
have lk x y : keep x -> keep y -> linked E x y -> linked (part keep E) x y.
  by move=> kx ky [] /InE h; [left|right]; apply/InE; rewrite mem_filter h ?kx ?ky.
by split; [exact: lk|split; exact: lk].
Qed.
Print Assumptions C95_part.

Lemma on_part_map (A B : Type) (h : A -> B) keep E f : on_part keep E (map h f) = map h (on_part keep E f).
Proof.
rewrite /on_part -map_comp.
have -> : zip E (map h f) = [seq (x.1, h x.2) | x <- zip E f] by elim: E f => [|e E IH] [|x f] //=; rewrite IH.
by rewrite filter_map -map_comp.
Qed.
Lemma on_part_round (R : realFieldType) (rint : R -> int) keep E rf d (f : seq R) :
  on_part keep E (maybe_round rint rf d f) = maybe_round rint rf d (on_part keep E f).
Proof. by rewrite /maybe_round; case: rf => //; rewrite on_part_map. Qed.

(** Divergence, curl, components and shifts of the part of a flow are the parts of those of the flow. *)
Theorem C95_signals :
  forall (R : realFieldType) lstsq rint, lstsq_contract lstsq ->
  forall nodes E T nf ef sc, make_sc nodes E T nf ef = Ok sc ->
  proper_edges (length nodes) E -> simple_edges E -> proper_triangles T ->
  forall keep, separate keep E ->
  forall nf' ef' sc', make_sc nodes (part keep E) (tri_part keep T) nf' ef' = Ok sc' ->
  forall f : seq R, size f = length E ->
  (exists y y', get_divergence sc f = Ok y /\ get_divergence sc' (on_part keep E f) = Ok y' /\ size y' = size y /\
     forall i, (i < size y)%N -> y'`_i = if keep (Z.of_nat i) then y`_i else 0) /\
  (exists c, get_curl sc f = Ok c /\ get_curl sc' (on_part keep E f) = Ok (on_tri keep T c)) /\
  (forall s rf d, component_name s -> exists g, get_component_flow lstsq rint sc f s rf d = Ok g /\
     get_component_flow lstsq rint sc' (on_part keep E f) s rf d = Ok (on_part keep E g)) /\
  (forall s, exists l u k,
     apply_lower_shifting sc f s = Ok l /\ apply_lower_shifting sc' (on_part keep E f) s = Ok (on_part keep E l) /\
     apply_upper_shifting sc f s = Ok u /\ apply_upper_shifting sc' (on_part keep E f) s = Ok (on_part keep E u) /\
     apply_k_step_shifting sc f s = Ok k /\ apply_k_step_shifting sc' (on_part keep E f) s = Ok (on_part keep E k)).
Proof.
move=> R lstsq rint LS nodes E T nf ef sc H PE SE PT keep S nf' ef' sc' H' f sf.
have [p [q]] := part_setup R H PE SE PT S H'.
set P := sel R p; set V := sel R q; move=> /= [[ip iq] _ [vf vt] [e1 e2 c1 c2] [G L U]].
have [sf' ef1] := vf f sf.
have up (v : 'cV[R]_(length E)) : unvec (P *m v) = on_part keep E (unvec v).
  have [s1 h] := vf (unvec v) (size_unvec v); rewrite unvecK in h.
  by rewrite -h -[RHS](vecK s1).
have ut (v : 'cV[R]_(length T)) : unvec (V *m v) = on_tri keep T (unvec v).
  have [s1 h] := vt (unvec v) (size_unvec v); rewrite unvecK in h.
  by rewrite -h -[RHS](vecK s1).
split.
  rewrite (divergence_Ok H) // (divergence_Ok H') //; do 2 eexists; do 2 (split; first by []).
  rewrite !size_unvec; split=> // i hi; rewrite ef1 e1 -mulmxA [P^T *m _]mulmxA [X in unvec X]mulmxA -c1 -mulmxA.
  have -> : i = Ordinal hi :> nat by [].
  rewrite !nth_unvec mul_diag_mx [LHS]mxE mxE.
  by case: (keep _); rewrite ?mul1r ?mul0r.
split.
  rewrite (curl_Ok H) // (curl_Ok H') //; eexists; split; first by [].
  rewrite -ut ef1 e2 !trmx_mul trmxK !mulmxA; congr (Ok (unvec (_ *m _))).
  have := congr1 trmx c2; rewrite trmx_mul Jt [in RHS]trmx_mul Jt => h.
  by rewrite -!mulmxA h !mulmxA sel_l // mul1mx.
split.
  move=> s rf d hs; rewrite (component_Ok H) // (component_Ok H') //; eexists; split; first by [].
  by rewrite ef1 mulmxA G -mulmxA up on_part_round.
have Lv (v : 'cV[R]_(length E)) : L1Lm R nodes (part keep E) sc' *m (P *m v) = P *m (L1Lm R nodes E sc *m v) by rewrite mulmxA L -mulmxA.
have Uv (v : 'cV[R]_(length E)) : L1Um R (part keep E) (tri_part keep T) sc' *m (P *m v) = P *m (L1Um R E T sc *m v) by rewrite mulmxA U -mulmxA.
move=> s; do 3 eexists.
split; first exact: (lower_shift_Ok H s sf).
split; first by rewrite (lower_shift_Ok H' s sf') ef1 -up; case: ifP => _; rewrite !Lv.
split; first exact: (upper_shift_Ok H s sf).
split; first by rewrite (upper_shift_Ok H' s sf') ef1 -up; case: ifP => _; rewrite !Uv.
split; first exact: (k_shift_Ok H s sf).
by rewrite (k_shift_Ok H' s sf') ef1 -up; case: ifP => _; rewrite ?mulmxDl !Lv !Uv -mulmxDr.
Qed.
Print Assumptions C95_signals.

Lemma p_part (R : rcfType) (nodes : list Z) (E E' : list (Z * Z)) (T T' : list (list Z)) (sc sc' : SC)
  (P : 'M[R]_(length E', length E)) :
  L1Lm R nodes E' sc' *m P = P *m L1Lm R nodes E sc -> L1Um R E' T' sc' *m P = P *m L1Um R E T sc ->
  forall s, p_mat R nodes E' T' sc' s *m P = P *m p_mat R nodes E T sc s.
Proof. by move=> L U s; rewrite /p_mat; case: ifP => _; [rewrite mulmxDl mulmxDr L U|case: ifP]. Qed.

(** Denoising the part of a flow gives the part of the denoised flow. *)
Theorem C95_lowpass :
  forall (R : rcfType) (eigsh : forall n, 'M[R]_n -> seq (R * 'cV[R]_n)),
  forall nodes E T nf ef sc, make_sc nodes E T nf ef = Ok sc ->
  proper_edges (length nodes) E -> simple_edges E -> proper_triangles T ->
  forall keep, separate keep E -> (0 < length (part keep E))%N ->
  forall nf' ef' sc', make_sc nodes (part keep E) (tri_part keep T) nf' ef' = Ok sc' ->
  forall c A, get_p_matrix sc c = Ok A ->
  forall (f t : seq R), size f = length E -> size t = length E ->
  forall mus mu, (forall m, m \in rcons mus mu -> 0 <= m) ->
  exists r r', edge_flow_denoise eigsh sc f t c (rcons mus mu) = Ok r /\
    edge_flow_denoise eigsh sc' (on_part keep E f) (on_part keep E t) c (rcons mus mu) = Ok r' /\
    run_estimated r' = on_part keep E (run_estimated r).
Proof.
move=> R eigsh nodes E T nf ef sc H PE SE PT keep S M0' nf' ef' sc' H' c A; rewrite get_p_matrixE.
case: ifP => // cv _ f t sf st mus mu nn.
have [p [q]] := part_setup R H PE SE PT S H'.
set P := sel R p => /= -[_ _ [vf _] _ [_ L U]].
have G := p_part L U c.
have [sf' ef1] := vf f sf; have [st' _] := vf t st.
have M0 : (0 < length E)%N by apply: leq_trans M0' _; rewrite -[length E]/(size E) -[length _]/(size _) size_filter count_size.
rewrite (edge_flowE eigsh H cv M0 sf st nn) (edge_flowE eigsh H' cv M0' sf' st' nn).
set D := low_pass _ _ _ _ _ _ _ _; set D' := low_pass _ _ _ _ _ _ _ _.
have col n (F : R -> 'M[R]_n * seq R * seq R * fl R) : exists r, collect [seq F m | m <- rcons mus mu] = Ok r /\ run_estimated r = (F mu).1.1.2.
  rewrite map_rcons; case: (mus) => [|m ms] /=; rewrite ?last_rcons; case: (F mu) => [[[? ?] ?] ?]; by eexists.
have [r [-> er]] := col _ D; have [r' [-> er']] := col _ D'; exists r, r'; do 2 split=> //.
rewrite er er' /= ef1.
have mu0 : 0 <= mu by apply: nn; rewrite mem_rcons mem_head.
set B := p_mat R nodes E T sc c in G *; set B' := p_mat R nodes _ _ sc' c in G *.
have u : 1%:M + mu *: B \in unitmx by apply: shift_unit => // x; exact: (p_psd nodes T sc c).
have u' : 1%:M + mu *: B' \in unitmx by apply: shift_unit => // x; exact: (p_psd nodes _ sc' c).
have i : invmx (1%:M + mu *: B') *m P = P *m invmx (1%:M + mu *: B).
  apply: (can_inj (mulKmx u')); rewrite mulmxA mulmxV // mul1mx mulmxA.
  have -> : (1%:M + mu *: B') *m P = P *m (1%:M + mu *: B).
    by rewrite mulmxDl mulmxDr mul1mx mulmx1 -scalemxAl -scalemxAr G.
  by rewrite -mulmxA mulmxV // mulmx1.
rewrite mulmxA i -mulmxA; set v := _ *m vec _ f.
have [s1 h] := vf (unvec v) (size_unvec v); rewrite unvecK in h.
by rewrite -h vecK.
Qed.
Print Assumptions C95_lowpass.

(** ** Gaussian processes *)
Section Kernels.
Variable R : rcfType.
Variables (n n' : nat) (p : 'I_n' -> 'I_n).
Hypothesis ip : injective p.
Variables (A : 'M[R]_n) (A' : 'M[R]_n') (l : seq (R * 'cV[R]_n)) (l' : seq (R * 'cV[R]_n')).
Hypotheses (sA : A^T = A) (sA' : A'^T = A') (f1 : eigfam A l) (f2 : eigfam A' l').
Hypothesis AP : A' *m sel R p = sel R p *m A.

Lemma lift_eigen (x : R * 'cV[R]_n') : x \in l' -> A *m ((sel R p)^T *m x.2) = x.1 *: ((sel R p)^T *m x.2).
Proof.
move=> xl; have := congr1 trmx AP; rewrite !trmx_mul sA sA' => e.
by rewrite mulmxA -e -mulmxA (eigfam_eq f2 xl) scalemxAr.
Qed.

Lemma calc_part g : calc g l *m (sel R p)^T = (sel R p)^T *m calc g l'.
Proof.
rewrite -[LHS]mulmx1 -(eigfam_outer f2) /outer big_map !mulmx_sumr big_seq [RHS]big_seq.
apply: eq_bigr => x xl; rewrite mulmxA -[calc g l *m _ *m _]mulmxA (calc_eigen sA g f1 (lift_eigen xl)).
by rewrite -scalemxAr -scalemxAl mulmxA.
Qed.

Lemma calc_in g i j : calc g l' i j = calc g l (p i) (p j).
Proof. by rewrite -[RHS]Msel calc_part -[RHS]selM mulmxA sel_l // mul1mx. Qed.

Lemma calc_out g i j : (forall k, p k <> i) -> calc g l i (p j) = 0.
Proof.
move=> h; rewrite -Msel calc_part mxE big1 // => k _; rewrite !mxE.
by case: eqP => [e|_]; [case: (h k)|rewrite mul0r].
Qed.

(** The eigenvalues of the part are eigenvalues of the whole. *)
Lemma values_part (x : R * 'cV[R]_n') : x \in l' -> exists2 y, y \in l & y.1 = x.1.
Proof.
move=> xl; suff /hasP[y yl /eqP e] : has (fun y : R * 'cV[R]_n => y.1 == x.1) l by exists y.
apply/negPn/negP => /hasPn h.
have := calc_eigen sA (fun a => (a == x.1)%:R) f1 (lift_eigen xl); rewrite eqxx scale1r.
have -> : calc (fun a => (a == x.1)%:R) l = 0.
  rewrite /calc big_seq big1 // => y yl; have /negbTE -> := h y yl; exact: scale0r.
rewrite mul0mx => /(congr1 (mulmx (sel R p))); rewrite mulmx0 mulmxA sel_l // mul1mx => x0.
by have := eigfam_unit f2 xl; rewrite -x0 dot0r => /eqP; rewrite eq_sym oner_eq0.
Qed.

Variable Q : pred R.
Notation ps := [seq x <- up (zeroed l) | Q x.1].
Notation ps' := [seq x <- up (zeroed l') | Q x.1].

Lemma mix_calc m (k : seq (R * 'cV[R]_m)) g (a b : 'I_m) :
  mixture g [seq x <- up (zeroed k) | Q x.1] a b = calc (fun x => if Q (zs x) then g (zs x) else 0) k a b.
Proof.
rewrite /mixture big_filter /up /zeroed -map_comp big_map big_mkcond /calc summxE; apply: eq_bigr => x _ /=.
rewrite !mxE big_ord1 !mxE mulrA !nth_unvec.
by case: ifP => // _; rewrite !mul0r.
Qed.

(** What the eigenpairs of the part say. *)
Definition of_part (q q' : eigpairs R) : Prop :=
  [/\ forall g (i j : 'I_n'), mixture g q' i j = mixture g q (p i) (p j),
    forall g (i : 'I_n) (j : 'I_n'), (forall k, p k <> i) -> mixture g q i (p j) = 0 &
    forall x, x \in q' -> exists2 y, y \in q & y.1 = x.1].

Lemma families_part : of_part ps ps'.
Proof.
split=> [g i j|g i j h|x].
- by rewrite !mix_calc calc_in.
- by rewrite mix_calc calc_out.
rewrite mem_filter => /andP[Qx /mapP[y /mapP[z zl ->] ex]]; have [w wl e] := values_part zl.
rewrite {}ex /= in Qx *; exists (zs w.1, unvec w.2); last by rewrite /= e.
rewrite mem_filter /=; apply/andP; split; first by rewrite e.
by apply: (map_f (fun q => (q.1, unvec q.2)) (x := (zs w.1, w.2))); apply: (map_f (fun q => (zs q.1, q.2)) wl).
Qed.
End Kernels.

(** Values at the elements of [xs] that satisfy [I]. *)
Definition kept (A B : Type) (I : A -> bool) (xs : seq A) (ys : seq B) : seq B := [seq x.2 | x <- zip xs ys & I x.1].

Lemma kept_map (A B C : Type) (h : B -> C) (I : A -> bool) xs ys : kept I xs (map h ys) = map h (kept I xs ys).
Proof.
rewrite /kept -map_comp.
have -> : zip xs (map h ys) = [seq (x.1, h x.2) | x <- zip xs ys] by elim: xs ys => [|e E IH] [|x f] //=; rewrite IH.
by rewrite filter_map -map_comp.
Qed.
Lemma kept_fun (A B : Type) (I : A -> bool) xs (h : A -> B) : kept I xs [seq h x | x <- xs] = [seq h x | x <- xs & I x].
Proof. by rewrite /kept; elim: xs => //= x xs IH; case: ifP => _ //=; rewrite IH. Qed.

Section Solve.
Variable R : rcfType.
Variables (k : Z -> Z -> R) (I : pred Z) (xs : seq Z).

Lemma combine_zip ys (a : seq R) z : size a = size ys -> combine k ys a z = \sum_(x <- zip ys a) k z x.1 * x.2.
Proof.
move=> sa; rewrite (big_nth (0%zz, 0)) size_zip sa minnn big_mkord; apply: eq_bigr => i _.
by rewrite nth_zip.
Qed.

Lemma kept_zip (a : seq R) : zip (filter I xs) (kept I xs a) = [seq x <- zip xs a | I x.1].
Proof.
elim: xs a => [|x l IH] [|y a] //=; first by case: ifP => _ //; case: (filter I l).
by rewrite /kept /=; case: ifP => _ //=; rewrite -/(kept _ _ _) IH.
Qed.

Lemma size_kept (a : seq R) : size a = size xs -> size (kept I xs a) = size (filter I xs).
Proof. by elim: xs a => [|x l IH] [|y a] //= [/IH]; rewrite /kept /=; case: ifP => _ //= ->. Qed.

Lemma combine_kept (a : seq R) z : size a = size xs -> (forall y, y \in xs -> ~~ I y -> k z y = 0) ->
  combine k (filter I xs) (kept I xs a) z = combine k xs a z.
Proof.
move=> sa h; rewrite !combine_zip ?size_kept // kept_zip big_filter big_mkcond big_seq [RHS]big_seq.
apply: eq_bigr => -[y c] /= hy; case: ifP => // /negbT ny; rewrite h ?mul0r //.
have : y \in unzip1 (zip xs a) by apply/mapP; exists (y, c).
by rewrite unzip1_zip // sa.
Qed.

Lemma solves_kept s (b a : seq R) : (forall x y, x \in xs -> y \in xs -> I x -> ~~ I y -> k x y = 0) -> size b = size xs ->
  solves k s xs b a -> solves k s (filter I xs) (kept I xs b) (kept I xs a).
Proof.
move=> h sb [sa e]; split=> [|i hi]; first exact: size_kept.
have [r [_ r1 r2 r3]] := @filter_pos _ 0%zz I xs _ (erefl (size (filter I xs))).
have [_ ra] := r3 _ 0 a sa; have [_ rb] := r3 _ 0 b sb.
rewrite -/(combine k (filter I xs) (kept I xs a) (nth 0%zz (filter I xs) i)).
rewrite combine_kept // => [|y hy ny].
  by rewrite (r1 (Ordinal hi)) (ra (Ordinal hi)) (rb (Ordinal hi)) -e.
have : nth 0%zz (filter I xs) i \in filter I xs by rewrite mem_nth.
by rewrite mem_filter => /andP[ix xx]; apply: h.
Qed.
End Solve.

Section Transport.
Variable R : rcfType.
Variables (k k' : Z -> Z -> R) (r : Z -> Z -> Prop).
Hypothesis kk : forall x x' y y', r x x' -> r y y' -> k' x' y' = k x y.

Lemma F2_size (xs xs' : seq Z) : List.Forall2 r xs xs' -> size xs' = size xs.
Proof. by elim=> //= *; congr _.+1. Qed.
Lemma F2_nth (xs xs' : seq Z) i : List.Forall2 r xs xs' -> (i < size xs)%N -> r (nth 0%zz xs i) (nth 0%zz xs' i).
Proof. by move=> h; elim: h i => // x x' l l' hx _ IH [|i] //= hi; exact: IH. Qed.
Lemma combine_moved (xs xs' : seq Z) (a : seq R) z z' : List.Forall2 r xs xs' -> r z z' -> combine k' xs' a z' = combine k xs a z.
Proof.
move=> h hz; rewrite /combine (F2_size h); apply: eq_bigr => j _; congr (_ * _); apply: kk => //; exact: F2_nth.
Qed.
Lemma solves_moved s (xs xs' : seq Z) (b a : seq R) : List.Forall2 r xs xs' -> solves k s xs b a -> solves k' s xs' b a.
Proof.
move=> h [sa e]; split=> [|i]; first by rewrite (F2_size h).
rewrite {1}(F2_size h) => hi; rewrite -e //.
by have := combine_moved a h (F2_nth h hi); rewrite /combine => ->.
Qed.
Lemma fun_moved (xs xs' : seq Z) z z' : List.Forall2 r xs xs' -> r z z' -> [seq k' x z' | x <- xs'] = [seq k x z | x <- xs].
Proof. by move=> h hz; elim: h => //= x x' l l' hx _ ->; rewrite (kk hx hz). Qed.
End Transport.

Section Eigenpairs.
Variable R : rcfType.
Variables (eigsh : forall n, 'M[R]_n -> seq (R * 'cV[R]_n)).
Hypotheses (EC : eigsh_contract eigsh).
Variables (nodes : list Z) (E E' : list (Z * Z)) (T T' : list (list Z)) (nf nf' : dict Z fdict)
          (ef ef' : dict (Z * Z) fdict) (sc sc' : SC).
Hypotheses (H : make_sc nodes E T nf ef = Ok sc) (H' : make_sc nodes E' T' nf' ef' = Ok sc').
Variable (p : 'I_(length E') -> 'I_(length E)).
Hypotheses (ip : injective p) (M0' : (0 < length E')%N) (M0 : (0 < length E)%N).
Hypothesis G : forall s, p_mat R nodes E' T' sc' s *m sel R p = sel R p *m p_mat R nodes E T sc s.

Lemma component_part c t ps : get_component_eigenpair eigsh sc c t = Ok ps ->
  exists ps', get_component_eigenpair eigsh sc' c t = Ok ps' /\ of_part p ps ps'.
Proof.
have gen s (Q : pred R) :
  (let! ps := get_eigendecomposition eigsh (Dense (p_array sc s)) (eps64 R) in Ok [seq p <- ps | Q p.1]) = Ok ps ->
  exists ps', (let! ps := get_eigendecomposition eigsh (Dense (p_array sc' s)) (eps64 R) in Ok [seq p <- ps | Q p.1]) = Ok ps' /\
    of_part p ps ps'.
  rewrite (p_decomp eigsh H s M0) (p_decomp eigsh H' s M0') !bindOk => -[<-]; eexists; split; first by [].
  by apply: (families_part ip (p_sym R nodes E T sc s) (p_sym R nodes E' T' sc' s) _ _ (G s));
    apply: contract_eigfam => //; exact: p_sym.
rewrite /get_component_eigenpair; case: ifP => _; first exact: (gen "L1"%string (fun x => x <= t)).
case: ifP => _; first exact: (gen "L1U"%string (fun x => t <= x)).
by case: ifP => // _; exact: (gen "L1L"%string (fun x => t < x)).
Qed.

Lemma eigenpairs_part t hp gp cp : get_eigenpairs eigsh sc t = Ok (hp, gp, cp) ->
  exists hp' gp' cp', [/\ get_eigenpairs eigsh sc' t = Ok (hp', gp', cp'), of_part p hp hp', of_part p gp gp' & of_part p cp cp'].
Proof.
move=> e0; have [a ea e1] := bind_Ok e0; have [b eb e2] := bind_Ok e1; have [c ec [e3 e4 e5]] := bind_Ok e2; subst.
have [a' [ea' ta]] := component_part ea; have [b' [eb' tb]] := component_part eb.
have [c' [ec' tc]] := component_part ec.
by exists a', b', c'; split=> //; rewrite /get_eigenpairs ea' eb' ec'.
Qed.
End Eigenpairs.

(** Edge number [z] is in the part. *)
Definition inside (keep : Z -> bool) (E : list (Z * Z)) (z : Z) : bool := keep (nth (Z0, Z0) E (wrap (length E) z)).1.

(** A kernel with the class and hyperparameters of [k], for a network of [n] edges. *)
Definition kernel_on (R : rcfType) (k : kernel R) (n : nat) (ps : eigpairs R * eigpairs R * eigpairs R) : kernel R :=
  mkKernel (k_type k) n ps.1.1 ps.1.2 ps.2 (k_raw k).

(** Edges of different parts are uncorrelated; covariances within a part and predictions for its edges are those of the
    part alone, whatever was observed elsewhere. *)
Theorem C95_gp :
  forall (R : rcfType) exp pow softplus eigsh, exp_contract exp -> pow_contract pow -> (forall x, 0 < softplus x) ->
  eigsh_contract eigsh ->
  forall nodes E T nf ef sc, make_sc nodes E T nf ef = Ok sc ->
  proper_edges (length nodes) E -> simple_edges E -> proper_triangles T ->
  forall keep, separate keep E -> (0 < length (part keep E))%N ->
  forall nf' ef' sc', make_sc nodes (part keep E) (tri_part keep T) nf' ef' = Ok sc' ->
  forall (t : R) ps, get_eigenpairs eigsh sc t = Ok ps -> exists ps', get_eigenpairs eigsh sc' t = Ok ps' /\
  forall m v,
    let m1 := with_kernel m (kernel_on (m_kernel m) (length E) ps) in
    let m2 := with_kernel m (kernel_on (m_kernel m) (length (part keep E)) ps') in
    let same := same_edge E (part keep E) in
    sound softplus m1 v -> sound softplus m2 v /\
    (forall x1 x2 x1' x2' diag, List.Forall2 same x1 x1' -> List.Forall2 same x2 x2' ->
       forward exp pow softplus (m_kernel m2) x1' (Some x2') diag =
       forward exp pow softplus (m_kernel m1) x1 (Some x2) diag) /\
    (forall x1 x2, List.Forall (in_range (length E)) (x1 ++ x2) -> all (inside keep E) x1 -> ~~ has (inside keep E) x2 ->
       forward exp pow softplus (m_kernel m1) x1 (Some x2) false = Ok (Mat (nseq (size x1) (nseq (size x2) 0)))) /\
    forall xs ys ts xs' ts', List.Forall (in_range (length E)) xs -> size ys = size xs ->
      List.Forall2 same [seq x <- xs | inside keep E x] xs' -> List.Forall2 same ts ts' ->
      let ys' := kept (inside keep E) xs ys in
      posterior exp pow softplus m2 xs' ys' ts' = posterior exp pow softplus m1 xs ys ts /\
      forall yt, predict exp pow softplus m2 xs' ys' ts' yt = predict exp pow softplus m1 xs ys ts yt.
Proof.
move=> R exp pow softplus eigsh XC PC SP EC nodes E T nf ef sc H PE SE PT keep S M0' nf' ef' sc' H' t [[hp gp] cp] ep.
have [p [q [[ip _] [hE im] _ _ [_ L U]]]] := part_setup R H PE SE PT S H'.
set E' := part keep E in p ip hE im L U M0' H' *.
have M0 : (0 < length E)%N by apply: leq_trans M0' _; rewrite -[length E]/(size E) -[length _]/(size _) size_filter count_size.
have [h' [g' [c' [ep' th tg tc]]]] := eigenpairs_part EC H H' ip M0' M0 (p_part L U) ep.
exists (h', g', c'); split=> // m v m1 m2 same S1.
have S2 : sound softplus m2 v.
  case: S1 => rd [po [[f0 [f1 f2]] s0]]; split=> //; split=> //; split=> //.
  have gc x : x \in g' ++ c' -> exists2 y, y \in gp ++ cp & y.1 = x.1.
    by rewrite mem_cat => /orP[/(let: And3 _ _ h := tg in h x)|/(let: And3 _ _ h := tc in h x)] [y hy e]; exists y; rewrite // mem_cat hy ?orbT.
  split; [|split].
  - by move=> x /(let: And3 _ _ h := th in h x) [y hy <-]; exact: f0.
  - by move=> x /gc [y hy <-]; exact: f1.
  by move=> tl x /gc [y hy <-]; exact: f2 tl y hy.
have /NoDupE uE : NoDup E by case: SE.
have pa z z' (i : 'I_(length E')) : same z z' -> wrap (length E') z' = i -> wrap (length E) z = p i.
  case=> rz [rz' e] ei; move: e; rewrite ei hE => e.
  by apply/eqP; rewrite -(nth_uniq (Z0, Z0) _ _ uE) ?e //; exact: wrap_lt.
have ins z z' : same z z' -> inside keep E z.
  by move=> hz; have rz' := proj1 (proj2 hz); rewrite /inside (pa z z' (Ordinal (wrap_lt rz')) hz erefl); apply/im; eexists.
have out z (i : 'I_(length E)) : ~~ inside keep E z -> wrap (length E) z = i -> forall k, p k <> i.
  by move=> nz ei k ek; move: nz; rewrite /inside ei; case/negP; apply/im; exists k.
have kE z z' y y' : same z z' -> same y y' -> prior exp pow softplus m2 v z' y' = prior exp pow softplus m1 v z y.
  move=> hz hy; rewrite /prior /= /covariance.
  have lz := wrap_lt (proj1 (proj2 hz)); have ly := wrap_lt (proj1 (proj2 hy)).
  rewrite (pa _ _ (Ordinal lz) hz erefl) (pa _ _ (Ordinal ly) hy erefl).
  have mixE (ps ps' : eigpairs R) g : of_part p ps ps' -> mixture g ps' (wrap (length E') z') (wrap (length E') y') =
     mixture g ps (p (Ordinal lz)) (p (Ordinal ly)) by case=> h _ _; rewrite -h.
  by rewrite (mixE _ _ _ th) (mixE _ _ _ tg) (mixE _ _ _ tc).
have k0 z y : in_range (length E) z -> in_range (length E) y -> inside keep E z -> ~~ inside keep E y ->
    forall g, covariance g hp gp cp (wrap (length E) z) (wrap (length E) y) = 0.
  move=> rz ry iz ny g; rewrite covarianceC /covariance.
  have [k ek] := proj1 (im (Ordinal (wrap_lt rz))) iz.
  have ez : wrap (length E) z = p k by rewrite ek.
  have mix0 (ps ps' : eigpairs R) h : of_part p ps ps' -> mixture h ps (wrap (length E) y) (wrap (length E) z) = 0.
    by case=> _ h0 _; rewrite ez; apply: (h0 h (Ordinal (wrap_lt ry)) k); exact: (out y).
  by rewrite (mix0 _ _ _ th) (mix0 _ _ _ tg) (mix0 _ _ _ tc) !addr0.
have rg x x' : List.Forall2 same x x' -> List.Forall (in_range (length E)) x /\ List.Forall (in_range (length E')) x'.
  by elim=> [|z z' l l' [r1 [r2 _]] _ [IH1 IH2]]; split; constructor.
have [rd1 [po1 [fi1 n1]]] := S1; have [rd2 [po2 [fi2 n2]]] := S2.
split=> //; split; [|split].
- move=> x1 x2 x1' x2' diag h1 h2; have [a1 a1'] := rg _ _ h1; have [a2 a2'] := rg _ _ h2.
  rewrite (forwardE exp pow diag rd2 po2 fi2 a1' a2') (forwardE exp pow diag rd1 po1 fi1 a1 a2).
  have cE z z' y y' : same z z' -> same y y' ->
     covariance (multiplier exp pow (k_type (m_kernel m)) v) h' g' c' (wrap (length E') z') (wrap (length E') y') =
     covariance (multiplier exp pow (k_type (m_kernel m)) v) hp gp cp (wrap (length E) z) (wrap (length E) y).
    move=> hz hy; have := kE _ _ _ _ hz hy; rewrite /prior /=; apply: mulfI; exact: lt0r_neq0.
  case: diag; congr (Ok _).
    congr Diag; rewrite (F2_size h1) (F2_size h2); apply/eq_in_map => a.
    rewrite mem_iota add0n leq_min => /andP[_ /andP[l1 l2]]; exact: cE (F2_nth h1 l1) (F2_nth h2 l2).
  congr Mat; elim: h1 => //= z z' l l' hz _ ->; congr cons.
  by elim: h2 => //= y y' k k' hy _ ->; rewrite (cE _ _ _ _ hz hy).
- move=> x1 x2 /List.Forall_app [a1 a2] i1 i2.
  rewrite (forwardE exp pow false rd1 po1 fi1 a1 a2); congr (Ok (Mat _)).
  have row z : in_range (length E) z -> inside keep E z ->
     [seq covariance (multiplier exp pow (k_type (m_kernel m)) v) hp gp cp (wrap (length E) z) (wrap (length E) j) | j <- x2] = nseq (size x2) 0.
    move=> rz iz; move: i2; elim: a2 => //= y l ry _ IH; rewrite negb_or => /andP[ny /IH ->].
    by rewrite k0.
  by move: i1; elim: a1 => //= z l rz _ IH /andP[iz /IH ->]; rewrite row.
move=> xs ys ts xs' ts' rx sy hx ht ys'.
suff po : posterior exp pow softplus m2 xs' ys' ts' = posterior exp pow softplus m1 xs ys ts.
  by split=> // yt; rewrite /predict po.
have [a1 a1'] := rg _ _ hx; have [a2 a2'] := rg _ _ ht.
have d1 : List.Forall (in_range (k_rows (m_kernel m1))) (xs ++ ts) by apply/List.Forall_app.
have d2 : List.Forall (in_range (k_rows (m_kernel m2))) (xs' ++ ts') by apply/List.Forall_app.
have sy' : size ys' = size xs' by rewrite size_kept // (F2_size hx).
have [P eP] := posterior_exists XC PC SP S1 d1 sy; have [P' eP'] := posterior_exists XC PC SP S2 d2 sy'.
rewrite eP eP'.
have [s1 s2 hm hc] := posterior_by XC PC SP S1 d1 sy eP; have [s1' s2' hm' hc'] := posterior_by XC PC SP S2 d2 sy' eP'.
have [P0 [_ [_ [_ [[a [ha _]] hw]]]]] := C87_predictive XC PC SP S1 d1 sy.
have st := F2_size ht; rewrite st in s1' s2' hm' hc'.
have rxs x : x \in xs -> in_range (length E) x.
  by move=> hx0; move/List.Forall_forall: rx; apply; apply/InE.
have pr0 x y : x \in xs \/ x \in ts -> y \in xs -> inside keep E x -> ~~ inside keep E y -> prior exp pow softplus m1 v x y = 0.
  move=> x0 y0 ix ny; rewrite /prior /= k0 ?mulr0 //; last exact: rxs.
  by case: x0 => [|x0]; [exact: rxs|move/List.Forall_forall: a2; apply; apply/InE].
have its j : (j < size ts)%N -> inside keep E (nth 0%zz ts j) by move=> hj; exact: ins (F2_nth ht hj).
have tr b w j : size b = size xs -> solves (prior exp pow softplus m1 v) (m_noise m1) xs b w -> (j < size ts)%N ->
  solves (prior exp pow softplus m2 v) (m_noise m2) xs' (kept (inside keep E) xs b) (kept (inside keep E) xs w) /\ combine (prior exp pow softplus m2 v) xs' (kept (inside keep E) xs w) (nth 0%zz ts' j) =
  combine (prior exp pow softplus m1 v) xs w (nth 0%zz ts j).
  move=> sb hs hj; split.
    apply: (solves_moved kE hx); apply: solves_kept => // x y hx0 hy0; apply: pr0 => //; by left.
  rewrite (combine_moved kE _ hx (F2_nth ht hj)) combine_kept //; first by case: hs.
  by move=> y hy ny; apply: pr0 => //; [right; rewrite mem_nth|exact: its].
congr Ok; case: P P' {eP eP'} s1 s2 hm hc s1' s2' hm' hc' => mu K [mu' K'] /= s1 s2 hm hc s1' s2' hm' hc'.
congr mkPrediction.
  apply: (@eq_from_nth _ 0); rewrite s1' ?s1 // => j hj.
  have [|t1 t2] := tr _ _ j _ ha hj; first by rewrite size_map sy.
  rewrite (hm a) // (hm' (kept (inside keep E) xs a)) ?t2 //.
  by rewrite -kept_map.
apply: shaped_eq s2' s2 _ => i j hi hj; have [w [sw _]] := hw j hj.
have [|t1 _] := tr _ _ j _ sw hj; first by rewrite size_map.
have [|_ t2] := tr _ _ i _ sw hi; first by rewrite size_map.
rewrite (hc w) // (hc' (kept (inside keep E) xs w)) ?t2 //; first by rewrite (kE _ _ _ _ (F2_nth ht hi) (F2_nth ht hj)).
by rewrite (fun_moved kE hx (F2_nth ht hj)) -kept_fun.
Qed.
Print Assumptions C95_gp.

(** *** The grid-based filter *)

Definition low (z : Z) : bool := Z.leb z 2.

(** One edge: the filter is fitted at the single frequency 0. *)
Lemma grid_one (R : rcfType) eigsh lstsq : lstsq_contract lstsq ->
  forall nodes (e1 : Z * Z) T nf ef sc, make_sc nodes [:: e1] T nf ef = Ok sc ->
  forall c A, get_p_matrix sc c = Ok (Csr A) ->
  forall s : R, 0 < s -> mv A (nseq 1 1) = nseq 1 s ->
  forall f t : seq R, size f = 1%N -> size t = 1%N ->
  exists r, grid_denoise eigsh lstsq sc f t c 1 1 = Ok r /\ run_estimated r = f.
Proof.
move=> LC nodes e1 T nf ef sc H c A gp s s0 hA f t sf st.
have [_ sg] := C41_equal_row_sums H isT gp s0 hA.
have [pv eA] := p_of gp; have [h0 h1] := p_dims H c; rewrite -eA in h0 h1.
rewrite /grid_denoise gp !bindOk eA (p_decomp eigsh H c isT) !bindOk -eA st.
have -> : sampled_freq_response (toM R (sh0 A) (sh0 A) A) (Z.of_nat 1) 1 = Ok ([:: 1], [:: 0]).
  rewrite -h0 /sampled_freq_response sg // bindOk /even_grid /mkseq /=.
  by rewrite mulr0 mul0r /frequency_response_hp !mul1r addr0 oner_eq0 invr1 /=.
rewrite bindOk /apply_filter /= /filter_step /=.
set h := lstsq _ _ _ _.
have hv : h 0 0 = 1.
  have : is_ls (system_mat [:: 0] 1 0) (vec 1 [:: 1]) h by exact: (contract_is_ls LC).
  rewrite /is_ls; move: h => h; move/matrixP/(_ 0 0).
  by rewrite !mxE !big_ord_recl !big_ord0 !mxE !big_ord_recl !big_ord0 !mxE /= !expr0 !mul1r !addr0.
have -> : poly_filter (toM R (sh0 A) (sh0 A) A) h = 1%:M.
  by rewrite /poly_filter big_ord1 /mpow /= hv scale1r.
have -> : mat_dot (1%:M : 'M[R]_(sh0 A)) f = Ok f.
  have sf' : size f = sh0 A by rewrite -h0.
  by rewrite /mat_dot sf' eqxx mul1mx vecK.
rewrite bindOk nrmseE ?sf ?st // bindOk /=.
by eexists; split.
Qed.

Definition one_edge : list (Z * Z) := [:: (0, 1)]%zz.
Definition one_sc := get_sc (make_sc two_nodes one_edge nil nil nil).
Lemma one_ok : make_sc two_nodes one_edge nil nil nil = Ok one_sc. Proof. by vm_compute. Qed.
Definition twoLL := amul (atr (sc_B1 two_sc)) (sc_B1 two_sc).
Definition oneLL := amul (atr (sc_B1 one_sc)) (sc_B1 one_sc).

(** False: the same for the grid-based filter, which takes as many samples as the network has edges.  Of two separate
    edges, each is multiplied by 2/3; one of them alone is left unchanged. *)
Theorem C95_grid_refuted :
  exists nodes E sc keep sc', make_sc nodes E nil nil nil = Ok sc /\ proper_edges (length nodes) E /\ simple_edges E /\
  separate keep E /\ make_sc nodes (part keep E) nil nil nil = Ok sc' /\
  forall (R : rcfType) eigsh lstsq, lstsq_contract lstsq ->
  forall f t : seq R, size f = length E -> size t = length E -> f`_0 != 0 ->
  exists r r', grid_denoise eigsh lstsq sc f t "L1L" 1 1 = Ok r /\
    grid_denoise eigsh lstsq sc' (on_part keep E f) (on_part keep E t) "L1L" 1 1 = Ok r' /\
    run_estimated r' <> on_part keep E (run_estimated r).
Proof.
exists two_nodes, two_edges, two_sc, (fun z => Z.leb z 1), one_sc.
split; first exact: two_ok. split; first exact: two_proper.
split; first by split; [apply/NoDupE|move=> u v /= h h'; inlist h; inlist h'].
split; first by move=> u v /= h; inlist h.
split; first exact: one_ok.
move=> R eigsh lstsq LC f t sf st nz.
have e2 : mv twoLL (nseq 2 1) = nseq 2 (2%:R : R).
  have v : [seq at2 twoLL i.1 i.2 | i <- [:: (0, 0); (0, 1); (1, 0); (1, 1)]%N] = (2 :: 0 :: 0 :: 2 :: nil)%zz by vm_compute.
  have [s0 s1] : 2%N = sh0 twoLL /\ 2%N = sh1 twoLL by vm_compute.
  rewrite mvCE /mvC -s0 -s1; move: v; move: twoLL => A; rewrite /mkseq /=; case=> -> -> -> ->.
  by rewrite !addr0 /= add0r.
have e1 : mv oneLL (nseq 1 1) = nseq 1 (2%:R : R).
  have v : at2 oneLL 0 0 = 2%zz by vm_compute.
  have [s0 s1] : 1%N = sh0 oneLL /\ 1%N = sh1 oneLL by vm_compute.
  by rewrite mvCE /mvC -s0 -s1; move: v; move: oneLL => A; rewrite /mkseq /= => ->; rewrite addr0.
have g2 : get_p_matrix two_sc "L1L" = Ok (Csr twoLL) by [].
have g1 : get_p_matrix one_sc "L1L" = Ok (Csr oneLL) by [].
have [r [c2 x2]] := grid_two eigsh LC two_ok g2 (ltr0n _ 2) e2 sf st.
case: f sf nz c2 x2 => [|a [|b [|? ?]]] // sf nz c2 x2; case: t st c2 => [|a' [|b' [|? ?]]] // st c2.
have [r' [c1 x1]] := grid_one eigsh LC one_ok g1 (ltr0n _ 2) e1 (erefl : size [:: a] = 1%N) (erefl : size [:: a'] = 1%N).
exists r, r'; do 2 split=> //; rewrite x1 x2 /on_part /scalef /= => -[/esym/eqP].
rewrite -{2}[a]mul1r (inj_eq (mulIf nz)) => /eqP e.
have := congr1 (fun x => x * 2%:R) e; rewrite divfK ?pnatr_eq0 // mul1r => /eqP.
by rewrite [X in _ == X](natrD _ 1 1) (inj_eq (addrI 1)) invr_eq1 addrC -subr_eq0 addrK pnatr_eq0.
Qed.
Print Assumptions C95_grid_refuted.

(** A filled triangle 0, 1, 2 and, listed second, an edge from 3 to 4. *)
Definition apart_nodes : list Z := [:: 0; 1; 2; 3; 4]%zz.
Definition apart_edges : list (Z * Z) := [:: (0, 1); (3, 4); (0, 2); (1, 2)]%zz.
Definition apart_triangles : list (list Z) := [:: [:: 0; 1; 2]]%zz.
Definition apart_sc := get_sc (make_sc apart_nodes apart_edges apart_triangles nil nil).
Lemma apart_ok : make_sc apart_nodes apart_edges apart_triangles nil nil = Ok apart_sc. Proof. by vm_compute. Qed.

Example C95_example :
  let R := realalg_rcfType in
  let f := [:: 4%:R; 7%:R; 8%:R; - 4%:R] : seq R in
  let m : gpmodel R := new_model (new_kernel Diffusion 4 [::] [::] [::]) 1 None in
  proper_edges (length apart_nodes) apart_edges /\ simple_edges apart_edges /\ proper_triangles apart_triangles /\
  separate low apart_edges /\ part low apart_edges = tri_edges /\ tri_part low apart_triangles = apart_triangles /\
  on_part low apart_edges f = [:: 4%:R; 8%:R; - 4%:R] /\
  kept (inside low apart_edges) [:: 0; 1; 2]%zz [:: 5%:R; 6%:R; 7%:R] = [:: 5%:R; 7%:R : R] /\
  List.Forall2 (same_edge apart_edges tri_edges) [:: 0; 2; -1; 0]%zz [:: 0; 1; 2; 0]%zz /\
  (exists r r' sc', make_sc apart_nodes tri_edges apart_triangles nil nil = Ok sc' /\
     edge_flow_denoise (@eigsh_std R) apart_sc f f "L1L" [:: 1] = Ok r /\
     edge_flow_denoise (@eigsh_std R) sc' [:: 4%:R; 8%:R; - 4%:R] [:: 4%:R; 8%:R; - 4%:R] "L1L" [:: 1] = Ok r' /\
     run_estimated r' = on_part low apart_edges (run_estimated r)) /\
  exists ps r sc' ps', get_eigenpairs (@eigsh_std R) apart_sc (milli R) = Ok ps /\
    predict (@grow R) (@pow_ex R) (@grow R) (with_kernel m (kernel_on (m_kernel m) 4 ps)) [:: 0; 1; 2]%zz [:: 5%:R; 6%:R; 7%:R] [:: -1; 0]%zz [:: 3%:R; 4%:R] = Ok r /\
    make_sc apart_nodes tri_edges apart_triangles nil nil = Ok sc' /\
    get_eigenpairs (@eigsh_std R) sc' (milli R) = Ok ps' /\
    predict (@grow R) (@pow_ex R) (@grow R) (with_kernel m (kernel_on (m_kernel m) 3 ps')) [:: 0; 1]%zz [:: 5%:R; 7%:R] [:: 2; 0]%zz [:: 3%:R; 4%:R] = Ok r.
Proof.
move=> R f m; have EC := @eigsh_std_ok R.
have pe : proper_edges (length apart_nodes) apart_edges by move=> u v /= h; inlist h.
have se : simple_edges apart_edges by split; [apply/NoDupE|move=> u v /= h h'; inlist h; inlist h'].
have pt : proper_triangles apart_triangles by move=> a b c /= h; inlist h.
have sp : separate low apart_edges by move=> u v /= h; inlist h.
have fo : on_part low apart_edges f = [:: 4%:R; 8%:R; - 4%:R] by [].
have h1 : List.Forall2 (same_edge apart_edges tri_edges) [:: 0; 2]%zz [:: 0; 1]%zz by repeat constructor.
have h2 : List.Forall2 (same_edge apart_edges tri_edges) [:: -1; 0]%zz [:: 2; 0]%zz by repeat constructor.
have [sc' H'] := C95_part apart_ok sp nil nil.
do 8 (split=> //); split; first exact: List.Forall2_app h1 h2.
split.
  have [|r [r' [c1 [c2 e]]]] := C95_lowpass (@eigsh_std R) apart_ok pe se pt sp isT H' (c := "L1L") erefl
    (erefl : size f = length apart_edges) (erefl : size f = length apart_edges) (mus := [::]) (mu := 1) _.
    by move=> x; rewrite inE => /eqP ->; exact: ler01.
  by exists r, r', sc'; do 3 split=> //.
have ep : exists ps, get_eigenpairs (@eigsh_std R) apart_sc (milli R) = Ok ps.
  by rewrite /get_eigenpairs !(component_eigE (@eigsh_std R) apart_ok) ?eps64_milli // !bindOk; eexists.
have [ps e] := ep.
have S : sound (@grow R) (with_kernel m (kernel_on (m_kernel m) 4 ps)) (fun _ => 1).
  split; [|split; [|split]].
  - by move=> s h; rewrite -(grow0 R); apply: (proj1 (proj1 (C77_hyperparameters (@grow_contract R)) Diffusion 4%N [::] [::] [::])).
  - by move=> s _; exact: ltr01.
  - exact: (trained_fit (m_kernel m) EC apart_ok _ e).
  - exact: ltr01.
have inr : List.Forall (in_range 4) ([:: 0; 1; 2] ++ [:: -1; 0])%zz by repeat constructor.
have [r er] := proj2 (proj1 (C87_accepts (@grow_gt0 R) (@pow_ex_contract R) (@grow_gt0 R) [:: 0; 1; 2]%zz [:: 5%:R; 6%:R; 7%:R] [:: -1; 0]%zz [:: 3%:R; 4%:R] S))
  (conj inr (conj erefl (conj erefl erefl))).
have [ps' [e' h]] := C95_gp (@grow_gt0 R) (@pow_ex_contract R) (@grow_gt0 R) EC apart_ok pe se pt sp isT H' e.
have [_ [_ [_ pr]]] := h m _ S.
have inx : List.Forall (in_range 4) [:: 0; 1; 2]%zz by repeat constructor.
exists ps, r, sc', ps'; do 4 split=> //.
by rewrite -er -(proj2 (pr _ [:: 5%:R; 6%:R; 7%:R] _ _ _ inx erefl h1 h2)).
Qed.
