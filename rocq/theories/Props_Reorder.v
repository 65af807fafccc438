(** * C86: the order of edges and triangles, the numbering of the nodes and the direction of edges *)

From Coq Require Import ZArith String List.
From mathcomp Require Import all_ssreflect all_algebra ssrZ zify.
From Verif Require Import Py PyFacts Complex ComplexSpec ComplexFacts ComplexFacts2 LinAlg Signal
  SignalSpec Bridge SignalFacts ExampleData Compute Props_Complex Props_Hodge.

Set Implicit Arguments.
Unset Strict Implicit.
Unset Printing Implicit Defensive.

Import GRing.Theory Num.Theory Order.Theory.
Local Open Scope ring_scope.
Delimit Scope Z_scope with zz.

(** ** Matrices that select rows *)
Section Sel.
Variable R : realFieldType.

Definition sel n m (p : 'I_n -> 'I_m) : 'M[R]_(n, m) := \matrix_(i, j) (j == p i)%:R.

Lemma selM n m k (p : 'I_n -> 'I_m) (A : 'M[R]_(m, k)) i j : (sel p *m A) i j = A (p i) j.
Proof.
rewrite mxE (bigD1 (p i)) //= mxE eqxx mul1r big1 ?addr0 // => l /negbTE nl.
by rewrite mxE nl mul0r.
Qed.

Lemma Msel n m k (p : 'I_n -> 'I_m) (A : 'M[R]_(k, m)) i j : (A *m (sel p)^T) i j = A i (p j).
Proof.
have -> : A *m (sel p)^T = (sel p *m A^T)^T by rewrite trmx_mul trmxK.
by rewrite mxE selM mxE.
Qed.

Lemma sel_l n m (p : 'I_n -> 'I_m) : injective p -> sel p *m (sel p)^T = 1%:M.
Proof.
move=> inj; apply/matrixP => i j; rewrite selM !mxE.
by rewrite (inj_eq inj) eq_sym.
Qed.

Lemma sel_r n m (p : 'I_n -> 'I_m) : bijective p -> (sel p)^T *m sel p = 1%:M.
Proof.
move=> [q pq qp]; apply/matrixP => i j; rewrite mxE.
rewrite (bigD1 (q i)) //= !mxE qp eqxx mul1r big1 ?addr0; first by rewrite eq_sym.
move=> k nk; rewrite !mxE; case: eqP => [e|_]; last by rewrite mul0r.
by case/eqP: nk; rewrite e pq.
Qed.

(** Projections under orthogonal changes of coordinates. *)
Lemma proj_conj m n m' n' (A : 'M[R]_(m, n)) (P : 'M[R]_(m', m)) (Q : 'M[R]_(n', n)) :
  P *m P^T = 1%:M -> P^T *m P = 1%:M -> Q^T *m Q = 1%:M -> proj (P *m A *m Q^T) = P *m proj A *m P^T.
Proof.
move=> PP PtP QQ; apply/matrixP => i j.
suff e b : proj (P *m A *m Q^T) *m b = P *m proj A *m P^T *m (b : 'cV_m').
  have h (B : 'M[R]_m') k l : B k l = (B *m delta_mx l (0 : 'I_1)) k 0 by rewrite -colE mxE.
  by rewrite h e -h.
have hx := ls_solP A (P^T *m b).
have hy : is_ls (P *m A *m Q^T) b (Q *m ls_sol A (P^T *m b)).
  rewrite /is_ls in hx *; rewrite !trmx_mul trmxK.
  have -> : P *m A *m Q^T *m (Q *m ls_sol A (P^T *m b)) = P *m (A *m ls_sol A (P^T *m b)).
    by rewrite -!mulmxA [Q^T *m _]mulmxA QQ mul1mx.
  rewrite -!mulmxA [P^T *m (P *m _)]mulmxA PtP mul1mx hx //.
have -> : P *m proj A *m P^T *m b = P *m (proj A *m (P^T *m b)) by rewrite !mulmxA.
rewrite -(is_ls_proj hy) -(is_ls_proj hx).
by rewrite -!mulmxA [Q^T *m _]mulmxA QQ mul1mx.
Qed.
End Sel.

(** ** Two listings of the same things *)
Lemma perm_bij (A : eqType) (d : A) (s s' : seq A) n n' : size s = n -> size s' = n' -> perm_eq s s' ->
  exists p : 'I_n' -> 'I_n, bijective p /\ forall k : 'I_n', nth d s' k = nth d s (p k).
Proof.
move=> <- <- h; have hs := perm_size h; rewrite perm_sym in h.
have [Is pI eI] := perm_iotaP d h.
have sI : size Is = size s' by rewrite (perm_size pI) size_iota.
have lt (k : 'I_(size s')) : (nth O Is k < size s)%N.
  have : nth O Is k \in Is by rewrite mem_nth // sI.
  by rewrite (perm_mem pI) mem_iota add0n.
exists (fun k => Ordinal (lt k)); split; last first.
  move=> k; have lk : (k < size Is)%N by rewrite sI.
  rewrite /=; move: (nat_of_ord k) lk => i li; by rewrite {1}eI (nth_map O).
apply: inj_card_bij; last by rewrite !card_ord hs.
move=> i j [] /eqP; rewrite nth_uniq ?sI ?ltn_ord //; first by move/eqP/val_inj.
by rewrite (perm_uniq pI) iota_uniq.
Qed.

Lemma bij_perm (A : eqType) (d : A) (s s' : seq A) n n' (p : 'I_n' -> 'I_n) : size s = n -> size s' = n' ->
  bijective p -> (forall k : 'I_n', nth d s' k = nth d s (p k)) -> perm_eq s s'.
Proof.
move=> hs hs' bp hn.
have e (t : seq A) m : size t = m -> t = [seq nth d t (k : 'I_m) | k <- enum 'I_m].
  by move=> <-; rewrite -[LHS](mkseq_nth d) /mkseq -val_enum_ord -map_comp.
have -> : s' = [seq nth d s (k : 'I_n) | k <- [seq p k | k <- enum 'I_n']].
  by rewrite [LHS](e _ _ hs') -map_comp; exact: eq_map.
rewrite {1}(e _ _ hs); apply: (perm_map (fun k : 'I_n => nth d s k)).
apply: uniq_perm; rewrite ?enum_uniq //.
  by rewrite map_inj_uniq ?enum_uniq //; exact: bij_inj.
move=> k; rewrite mem_enum; case: bp => q pq qp; apply/esym/mapP.
by exists (q k); rewrite ?mem_enum ?qp.
Qed.

(** ** The same complex described twice *)
Section Two.
Variable R : realFieldType.
Variables (nodes : list Z) (E : list (Z * Z)) (T : list (list Z)) (nf : dict Z fdict)
          (ef : dict (Z * Z) fdict) (sc : SC).
Hypothesis H : make_sc nodes E T nf ef = Ok sc.
Variables (nodes' : list Z) (E' : list (Z * Z)) (T' : list (list Z)) (nf' : dict Z fdict)
          (ef' : dict (Z * Z) fdict) (sc' : SC).
Hypothesis H' : make_sc nodes' E' T' nf' ef' = Ok sc'.
Notation B1 := (B1m R nodes E sc).
Notation B2 := (B2m R E T sc).
Notation B1' := (B1m R nodes' E' sc').
Notation B2' := (B2m R E' T' sc').
Variables (Q : 'M[R]_(length nodes', length nodes)) (P : 'M[R]_(length E', length E)) (V : 'M[R]_(length T', length T)).
Hypotheses (QQ : Q^T *m Q = 1%:M) (PP : P *m P^T = 1%:M) (PtP : P^T *m P = 1%:M) (VV : V^T *m V = 1%:M).
Hypothesis e1 : B1' = Q *m B1 *m P^T.

Lemma Gm_conj : Gm R nodes' E' sc' = P *m Gm R nodes E sc *m P^T.
Proof.
rewrite /Gm e1 -(proj_conj _ PP PtP QQ); congr (proj _).
by rewrite !trmx_mul trmxK mulmxA.
Qed.

Hypothesis e2 : B2' = P *m B2 *m V^T.
Lemma Cm_conj : Cm R E' T' sc' = P *m Cm R E T sc *m P^T.
Proof. by rewrite /Cm e2 (proj_conj _ PP PtP VV). Qed.

Lemma comp_conj s : comp_mx R nodes' E' T' sc' s = P *m comp_mx R nodes E T sc s *m P^T.
Proof.
rewrite /comp_mx; case: ifP => _; last by case: ifP => _; [exact: Cm_conj|exact: Gm_conj].
by rewrite /Hm Gm_conj Cm_conj !mulmxBr !mulmxBl mulmx1 PP.
Qed.

Lemma L1L_conj : L1Lm R nodes' E' sc' = P *m L1Lm R nodes E sc *m P^T.
Proof.
rewrite /L1Lm e1 !trmx_mul trmxK !mulmxA; congr (_ *m _).
by rewrite -!mulmxA [Q^T *m _]mulmxA QQ mul1mx.
Qed.
Lemma L1U_conj : L1Um R E' T' sc' = P *m L1Um R E T sc *m P^T.
Proof.
rewrite /L1Um e2 !trmx_mul trmxK !mulmxA; congr (_ *m _ *m _).
by rewrite -!mulmxA [V^T *m V]VV mulmx1.
Qed.
End Two.

(** ** The order of edges and triangles *)

Lemma InE (A : eqType) (x : A) (l : seq A) : List.In x l <-> x \in l.
Proof.
elim: l => //= a l IH; rewrite inE IH; split; first by case=> [->|->]; rewrite ?eqxx ?orbT.
by case/orP => [/eqP ->|]; [left|right].
Qed.

Lemma NoDupE (A : eqType) (l : seq A) : NoDup l <-> uniq l.
Proof.
elim: l => [|a l IH] /=; first by split=> // _; constructor.
split; first by move=> h; inversion h; subst; apply/andP; split; [apply/negP => /InE|exact/IH].
by case/andP => na /IH; constructor => // /InE; exact/negP.
Qed.

Section Order.
Variable R : realFieldType.
Variables (E E' : list (Z * Z)).

(** The value at each edge is the same. *)
Lemma zip_moved (A : eqType) (a : A) (L L' : seq A) (x x' : seq R) n n' (p : 'I_n' -> 'I_n) : bijective p ->
  size L = n -> size L' = n' -> size x = n -> size x' = n' ->
  (forall k : 'I_n', nth a L' k = nth a L (p k)) -> (forall k : 'I_n', x'`_k = x`_(p k)) -> perm_eq (zip L x) (zip L' x').
Proof.
move=> bp sL sL' sx sx' hL hx; apply: (@bij_perm _ (a, 0) _ _ n n' p) => //.
- by rewrite size_zip sL sx minnn.
- by rewrite size_zip sL' sx' minnn.
by move=> k; rewrite !nth_zip ?sx ?sx' ?hL ?hx.
Qed.
End Order.

(** The order in which edges and triangles are listed is irrelevant: if two complexes list the same edges and the
    same triangles, and two flows have the same value at every edge, then the divergence is the same, the
    curl has the same value at every triangle, and the gradient, curl and harmonic component, rounded or
    not, and the shifted flows have the same value at every edge. *)
Theorem C86_order :
  forall (R : realFieldType) lstsq rint, lstsq_contract lstsq ->
  forall nodes E T nf ef sc, make_sc nodes E T nf ef = Ok sc ->
  proper_edges (length nodes) E -> simple_edges E -> proper_triangles T ->
  forall E' T' nf' ef' sc', make_sc nodes E' T' nf' ef' = Ok sc' ->
  forall f f' : seq R, size f = length E -> size f' = length E' ->
  perm_eq (zip E f) (zip E' f') -> perm_eq T T' ->
  get_divergence sc' f' = get_divergence sc f /\
  (exists c c', get_curl sc f = Ok c /\ get_curl sc' f' = Ok c' /\ perm_eq (zip T c) (zip T' c')) /\
  (forall s rf d, component_name s -> exists g g',
     get_component_flow lstsq rint sc f s rf d = Ok g /\ get_component_flow lstsq rint sc' f' s rf d = Ok g' /\
     perm_eq (zip E g) (zip E' g')) /\
  (forall s, exists l l' u u' k k',
     apply_lower_shifting sc f s = Ok l /\ apply_lower_shifting sc' f' s = Ok l' /\ perm_eq (zip E l) (zip E' l') /\
     apply_upper_shifting sc f s = Ok u /\ apply_upper_shifting sc' f' s = Ok u' /\ perm_eq (zip E u) (zip E' u') /\
     apply_k_step_shifting sc f s = Ok k /\ apply_k_step_shifting sc' f' s = Ok k' /\ perm_eq (zip E k) (zip E' k')).
Proof.
move=> R lstsq rint LS nodes E T nf ef sc H PE SE PT E' T' nf' ef' sc' H' f f' sf sf' hz hT.
have szE : size (zip E f) = length E by rewrite size_zip sf minnn.
have szE' : size (zip E' f') = length E' by rewrite size_zip sf' minnn.
have pE : perm_eq E E'.
  have := perm_map fst hz; rewrite -/(unzip1 _) -/(unzip1 (zip E' f')) !unzip1_zip //; by rewrite ?sf ?sf'.
have [p [bp hp]] := perm_bij ((Z0, Z0), 0) szE szE' hz.
have hE (k : 'I_(length E')) : nth (Z0, Z0) E' k = nth (Z0, Z0) E (p k) by have := hp k; rewrite !nth_zip ?sf ?sf' // => -[].
have hf (k : 'I_(length E')) : f'`_k = f`_(p k) by have := hp k; rewrite !nth_zip ?sf ?sf' // => -[].
have [q [bq hq]] := perm_bij [::] (erefl (size T)) (erefl (size T')) hT.
have PE' : proper_edges (length nodes) E' by move=> u v /InE h; apply: PE; apply/InE; rewrite (perm_mem pE).
have SE' : simple_edges E'.
  case: SE => nd sy; split; first by apply/NoDupE; rewrite -(perm_uniq pE); apply/NoDupE.
  move=> u v /InE h /InE h'; apply: (sy u v); apply/InE; by rewrite (perm_mem pE).
have PT' : proper_triangles T' by move=> a b c /InE h; apply: PT; apply/InE; rewrite (perm_mem hT).
pose P : 'M[R]_(length E', length E) := sel R p.
pose V : 'M[R]_(length T', length T) := sel R q.
have PP : P *m P^T = 1%:M by apply: sel_l; exact: bij_inj.
have PtP : P^T *m P = 1%:M by exact: sel_r.
have VV : V^T *m V = 1%:M by exact: sel_r.
have QQ : (1%:M : 'M[R]_(length nodes))^T *m 1%:M = 1%:M by rewrite trmx1 mulmx1.
have e1 : B1m R nodes E' sc' = 1%:M *m B1m R nodes E sc *m P^T.
  apply/matrixP => i k; rewrite mul1mx Msel (B1m_entry _ H') // (B1m_entry _ H) //.
  by rewrite hE.
have e2 : B2m R E' T' sc' = P *m B2m R E T sc *m V^T.
  apply/matrixP => k j; rewrite Msel selM (B2m_entry _ H') // (B2m_entry _ H) //.
  by rewrite hE hq.
have vf : vec (length E') f' = P *m vec (length E) f.
  by apply/colP => k; rewrite selM !mxE hf.
have mv A : P *m A *m P^T *m (P *m vec (length E) f) = P *m (A *m vec (length E) f).
  by rewrite -!mulmxA [P^T *m _]mulmxA PtP mul1mx.
have mvv A B : P *m A *m P^T *m (P *m B *m P^T *m (P *m vec (length E) f)) = P *m (A *m (B *m vec (length E) f)).
  by rewrite mv -!mulmxA [P^T *m _]mulmxA PtP mul1mx.
have same (v : 'cV[R]_(length E)) : perm_eq (zip E (unvec v)) (zip E' (unvec (P *m v))).
  apply: (@zip_moved R _ (Z0, Z0) _ _ _ _ _ _ p) => //; rewrite ?size_unvec // => k.
  by rewrite !nth_unvec selM.
split; first by rewrite (divergence_Ok H') // (divergence_Ok H) // e1 vf mul1mx -mulmxA [P^T *m _]mulmxA PtP mul1mx.
split.
  rewrite (curl_Ok H') // (curl_Ok H) //; do 2 eexists; do 2 (split; first by []).
  apply: (@zip_moved R _ [::] _ _ _ _ _ _ q) => //; rewrite ?size_unvec // => k.
  rewrite !nth_unvec e2 vf !trmx_mul trmxK -!mulmxA [P^T *m _]mulmxA PtP mul1mx.
  by rewrite selM.
split.
  move=> s rf d hs; rewrite (component_Ok H) // (component_Ok H') //; do 2 eexists; do 2 (split; first by []).
  rewrite vf (comp_conj QQ PP PtP VV e1 e2) mv.
  rewrite /maybe_round; case: rf; last exact: same.
  apply: (@zip_moved R _ (Z0, Z0) _ _ _ _ _ _ p) => //; rewrite 1?size_map ?size_unvec // => k.
  rewrite !(nth_map 0) ?size_unvec //.
  by rewrite !nth_unvec selM.
move=> s; rewrite (lower_shift_Ok H) // (lower_shift_Ok H') // (upper_shift_Ok H) // (upper_shift_Ok H') //.
rewrite (k_shift_Ok H) // (k_shift_Ok H') // vf (L1L_conj QQ e1) (L1U_conj VV e2).
do 6 eexists; split; first by []. split; first by [].
split; first by case: ifP => _; rewrite ?mvv ?mv; exact: same.
split; first by []. split; first by [].
split; first by case: ifP => _; rewrite ?mvv ?mv; exact: same.
split; first by []. split; first by [].
by case: ifP => _; rewrite ?mulmxDl ?mvv ?mv -mulmxDr; exact: same.
Qed.
Print Assumptions C86_order.

(** ** The numbering of the nodes *)

Lemma InM (A B : Type) (g : A -> B) (y : B) l : List.In y (List.map g l) -> exists2 x, List.In x l & y = g x.
Proof. by move/in_map_iff => -[x [<- h]]; exists x. Qed.

Definition renumber (pi : Z -> Z) (e : Z * Z) : Z * Z := (pi e.1, pi e.2).

(** Renumbering the nodes renumbers the divergence and leaves everything on edges and triangles as it is. *)
Theorem C86_renumbering :
  forall (R : realFieldType) lstsq rint, lstsq_contract lstsq ->
  forall nodes E T nf ef sc, make_sc nodes E T nf ef = Ok sc ->
  proper_edges (length nodes) E -> simple_edges E -> proper_triangles T ->
  forall pi, injective pi ->
  (forall i, (0 <= i < Z.of_nat (length nodes))%zz -> (0 <= pi i < Z.of_nat (length nodes))%zz) ->
  forall nodes' nf' ef' sc', length nodes' = length nodes ->
  make_sc nodes' (List.map (renumber pi) E) (List.map (List.map pi) T) nf' ef' = Ok sc' ->
  forall f : seq R, size f = length E ->
  (exists y y', get_divergence sc f = Ok y /\ get_divergence sc' f = Ok y' /\ size y' = size y /\
     forall i, (i < size y)%N -> y'`_(Z.to_nat (pi (Z.of_nat i))) = y`_i) /\
  get_curl sc' f = get_curl sc f /\
  (forall s rf d, component_name s ->
     get_component_flow lstsq rint sc' f s rf d = get_component_flow lstsq rint sc f s rf d) /\
  (forall s, apply_lower_shifting sc' f s = apply_lower_shifting sc f s /\
     apply_upper_shifting sc' f s = apply_upper_shifting sc f s /\
     apply_k_step_shifting sc' f s = apply_k_step_shifting sc f s).
Proof.
move=> R lstsq rint LS nodes E T nf ef sc H PE SE PT pi inj range nodes' nf' ef' sc' hN H' f sf.
set E' := List.map _ E in H' *; set T' := List.map _ T in H' *.
have sE : length E' = length E by exact: List.map_length.
have sT : length T' = length T by exact: List.map_length.
have mapE (A B : Type) (g : A -> B) l : List.map g l = [seq g x | x <- l] by [].
have PE' : proper_edges (length nodes') E'.
  move=> u v h0; have [[a b] h [-> ->]] := InM h0; have [h1 [h2 h3]] := PE _ _ h; rewrite hN.
  by split; [exact: range|split; [exact: range|move=> /inj]].
have SE' : simple_edges E'.
  case: SE => nd sy; split.
    by apply/NoDupE; rewrite /E' mapE map_inj_uniq; [apply/NoDupE|move=> [a b] [c d] [/inj -> /inj ->]].
  move=> u v h0 h0'; have [[a b] h [e1 e2]] := InM h0; have [[c d] h' [e3 e4]] := InM h0'.
  have ea : d = a by apply: inj; rewrite -e4.
  have eb : c = b by apply: inj; rewrite -e3.
  by apply: (sy a b h); rewrite -ea -eb.
have PT' : proper_triangles T'.
  move=> a b c h0; have [[|x [|y [|z [|w t]]]] h] //= := InM h0; move=> [-> -> ->].
  by have [n1 [n2 n3]] := PT _ _ _ h; split; [move=> /inj|split; move=> /inj].
have lt (i : 'I_(length nodes)) : (Z.to_nat (pi (Z.of_nat i)) < length nodes')%N.
  have li := ltn_ord i; have := range (Z.of_nat i); rewrite hN; lia.
pose p (i : 'I_(length nodes)) := Ordinal (lt i).
have pz i : Z.of_nat (p i) = pi (Z.of_nat i).
  have li := ltn_ord i; have := range (Z.of_nat i); rewrite /=; lia.
have bp : bijective p.
  apply: inj_card_bij; last by rewrite !card_ord hN.
  move=> i j e; apply: val_inj => /=.
  have : pi (Z.of_nat i) = pi (Z.of_nat j) by rewrite -!pz e.
  by move/inj; lia.
pose P : 'M[R]_(length E', length E) := sel R (cast_ord sE).
pose V : 'M[R]_(length T', length T) := sel R (cast_ord sT).
pose Q : 'M[R]_(length nodes', length nodes) := (sel R p)^T.
have QQ : Q^T *m Q = 1%:M by rewrite trmxK; apply: sel_l; exact: bij_inj.
have cb m n (e : m = n) : bijective (cast_ord e) by exists (cast_ord (esym e)); [exact: cast_ordK|exact: cast_ordKV].
have PP : P *m P^T = 1%:M by apply: sel_l; exact: cast_ord_inj.
have PtP : P^T *m P = 1%:M by apply: sel_r; exact: cb.
have VV : V^T *m V = 1%:M by apply: sel_r; exact: cb.
have zinj a b : Z.eqb (pi a) (pi b) = Z.eqb a b.
  by case: (Z.eqb_spec a b) => [->|n]; [exact: Z.eqb_refl|apply/Z.eqb_spec => /inj].
have nE (k : 'I_(length E')) : nth (Z0, Z0) E' k = renumber pi (nth (Z0, Z0) E (cast_ord sE k)).
  by apply: (@nth_map _ (Z0, Z0) _ (Z0, Z0) (renumber pi)); rewrite -[size E]sE.
have nT (k : 'I_(length T')) : nth [::] T' k = [seq pi x | x <- nth [::] T (cast_ord sT k)].
  by apply: (@nth_map _ [::] _ [::] (List.map pi)); rewrite -[size T]sT.
have e1 : B1m R nodes' E' sc' = Q *m B1m R nodes E sc *m P^T.
  have : sel R p *m B1m R nodes' E' sc' = B1m R nodes E sc *m P^T.
    apply/matrixP => i k; rewrite selM Msel (B1m_entry _ H') // (B1m_entry _ H) //.
    by rewrite nE pz /= !zinj.
  by move=> h; rewrite -mulmxA -h mulmxA /Q sel_r // mul1mx.
have e2 : B2m R E' T' sc' = P *m B2m R E T sc *m V^T.
  apply/matrixP => k j; rewrite Msel selM (B2m_entry _ H') // (B2m_entry _ H) // nE nT.
  case: (nth (Z0, Z0) E _) => u v; case: (nth [::] T _) => [|a [|b [|c [|w t]]]] //=.
  by rewrite /joinsb /= !zinj.
have sf' : size f = length E' by rewrite sE.
have vf : vec (length E') f = P *m vec (length E) f.
  by apply/colP => k; rewrite selM !mxE.
have mv A : P *m A *m P^T *m (P *m vec (length E) f) = P *m (A *m vec (length E) f).
  by rewrite -!mulmxA [P^T *m _]mulmxA PtP mul1mx.
have mvv A B : P *m A *m P^T *m (P *m B *m P^T *m (P *m vec (length E) f)) = P *m (A *m (B *m vec (length E) f)).
  by rewrite mv -!mulmxA [P^T *m _]mulmxA PtP mul1mx.
have same m n (e : m = n) (v : 'cV[R]_n) : unvec (sel R (cast_ord e) *m v) = unvec v.
  case: n / e v => v; congr unvec; apply/colP => k; rewrite selM; congr (v _ _); exact: val_inj.
split.
  rewrite (divergence_Ok H) // (divergence_Ok H') //; do 2 eexists; do 2 (split; first by []).
  rewrite !size_unvec; split; first by []; move=> i li.
  have := pz (Ordinal li) => /= pi_i.
  have -> : Z.to_nat (pi (Z.of_nat i)) = p (Ordinal li) by [].
  rewrite -[in RHS](_ : nat_of_ord (Ordinal li) = i) // !nth_unvec.
  have -> : B1m R nodes E sc *m vec (length E) f = sel R p *m (B1m R nodes' E' sc' *m vec (length E') f).
    by rewrite e1 vf -!mulmxA [P^T *m _]mulmxA PtP mul1mx [sel R p *m _]mulmxA -/Q sel_l ?mul1mx //; exact: bij_inj.
  by rewrite selM.
split.
  rewrite (curl_Ok H) // (curl_Ok H') // e2 vf !trmx_mul trmxK -!mulmxA [P^T *m _]mulmxA PtP mul1mx.
  by rewrite same.
split.
  move=> s rf d hs; rewrite (component_Ok H) // (component_Ok H') // vf (comp_conj QQ PP PtP VV e1 e2) mv.
  by rewrite same.
move=> s; rewrite (lower_shift_Ok H) // (lower_shift_Ok H') // (upper_shift_Ok H) // (upper_shift_Ok H') //.
rewrite (k_shift_Ok H) // (k_shift_Ok H') // vf (L1L_conj QQ e1) (L1U_conj VV e2).
by split; [|split]; case: ifP => _; rewrite ?mulmxDl ?mvv ?mv -?mulmxDr same.
Qed.
Print Assumptions C86_renumbering.

(** ** The direction of the edges *)

(** Reverse the marked edges, and change the sign of the marked values. *)
Definition reversed (marks : seq bool) (E : list (Z * Z)) : list (Z * Z) :=
  [seq (if x.1 then (x.2.2, x.2.1) else x.2) | x <- zip marks E].
Definition negated (R : realFieldType) (marks : seq bool) (f : seq R) : seq R :=
  [seq (if x.1 then - x.2 else x.2) | x <- zip marks f].

(** An edge stored the other way round with the opposite flow describes the same: the divergence stays, and the gradient
    component and the lower shift change their sign at the reversed edges. *)
Theorem C86_reversal :
  forall (R : realFieldType) lstsq rint, lstsq_contract lstsq ->
  forall nodes E T nf ef sc, make_sc nodes E T nf ef = Ok sc -> proper_edges (length nodes) E ->
  forall marks, size marks = length E ->
  forall T' nf' ef' sc', make_sc nodes (reversed marks E) T' nf' ef' = Ok sc' ->
  forall f : seq R, size f = length E ->
  get_divergence sc' (negated marks f) = get_divergence sc f /\
  (forall d, exists g, get_component_flow lstsq rint sc f "gradient" false d = Ok g /\
     get_component_flow lstsq rint sc' (negated marks f) "gradient" false d = Ok (negated marks g)) /\
  (forall s, exists l, apply_lower_shifting sc f s = Ok l /\
     apply_lower_shifting sc' (negated marks f) s = Ok (negated marks l)).
Proof.
move=> R lstsq rint LS nodes E T nf ef sc H PE marks sm T' nf' ef' sc' H' f sf.
set E' := reversed marks E in H' *.
have sE : length E' = length E by rewrite -[length E']/(size E') size_map size_zip sm minnn.
have sneg (x : seq R) : size x = length E -> size (negated marks x) = length E.
  by move=> sx; rewrite size_map size_zip sm sx minnn.
have nneg (x : seq R) k : size x = length E -> (k < length E)%N ->
    (negated marks x)`_k = if nth false marks k then - x`_k else x`_k.
  move=> sx lk; rewrite (nth_map (false, 0)) ?size_zip ?sm ?sx ?minnn // nth_zip ?sm ?sx //.
have nE k : (k < length E)%N ->
    nth (Z0, Z0) E' k = if nth false marks k then ((nth (Z0, Z0) E k).2, (nth (Z0, Z0) E k).1) else nth (Z0, Z0) E k.
  by move=> lk; rewrite (nth_map (false, (Z0, Z0))) ?size_zip ?sm ?minnn // nth_zip ?sm.
have PE' : proper_edges (length nodes) E'.
  move=> u v /InE /(nthP (Z0, Z0)) [k lk]; rewrite nE -?[length E]sE // => e.
  have hk : List.In (nth (Z0, Z0) E k) E by apply/InE/mem_nth; rewrite -[size E]sE.
  case: (nth (Z0, Z0) E k) hk e => a b /PE [h1 [h2 h3]] /=.
  by case: (nth false marks k) => -[<- <-]; split=> //; split=> // h; apply: h3.
pose sg (k : nat) : R := if nth false marks k then - 1 else 1.
have sgg k : sg k * sg k = 1 by rewrite /sg; case: nth; rewrite ?mulrNN mulr1.
pose P : 'M[R]_(length E', length E) := \matrix_(k, j) (sg k * (j == cast_ord sE k)%:R).
have PE1 n (A : 'M[R]_(length E, n)) k j : (P *m A) k j = sg k * A (cast_ord sE k) j.
  rewrite -(selM (cast_ord sE)) !mxE big_distrr /=; apply: eq_bigr => l _; by rewrite !mxE mulrA.
have PE2 n (A : 'M[R]_(n, length E)) j k : (A *m P^T) j k = sg k * A j (cast_ord sE k).
  have -> : A *m P^T = (P *m A^T)^T by rewrite trmx_mul trmxK.
  by rewrite mxE PE1 mxE.
have PP : P *m P^T = 1%:M.
  apply/matrixP => i j; rewrite PE1 !mxE; case: (i =P j) => [->|n].
    by rewrite eqxx mulr1 sgg.
  have -> : (cast_ord sE i == cast_ord sE j) = false by apply/negbTE/eqP => /cast_ord_inj.
  by rewrite !mulr0.
have PtP : P^T *m P = 1%:M.
  apply/matrixP => i j; rewrite mxE (bigD1 (cast_ord (esym sE) i)) //= !mxE cast_ordKV eqxx mulr1 mulrA sgg mul1r.
  rewrite big1 ?addr0 1?eq_sym // => k nk; rewrite !mxE; case: eqP => [e|_]; last by rewrite mulr0 mul0r.
  by case/eqP: nk; rewrite e cast_ordK.
have QQ : (1%:M : 'M[R]_(length nodes))^T *m 1%:M = 1%:M by rewrite trmx1 mulmx1.
have e1 : B1m R nodes E' sc' = 1%:M *m B1m R nodes E sc *m P^T.
  apply/matrixP => i k; rewrite mul1mx PE2 (B1m_entry _ H') // (B1m_entry _ H) //.
  have lk : (k < length E)%N by rewrite -sE.
  rewrite nE //= /sg; case: (nth false marks k); last by rewrite mul1r.
  by rewrite /= mulN1r opprB.
have sf' : size (negated marks f) = length E' by rewrite sneg.
have vneg (x : seq R) : size x = length E -> vec (length E') (negated marks x) = P *m vec (length E) x.
  move=> sx; apply/colP => k; have lk : (k < length E)%N by rewrite -sE.
  by rewrite PE1 !mxE nneg //= /sg; case: nth; rewrite ?mulN1r ?mul1r.
have neg (v : 'cV[R]_(length E)) : unvec (P *m v) = negated marks (unvec v).
  apply: (@vec_inj _ (length E')); rewrite ?size_unvec ?sneg ?size_unvec //.
  by rewrite unvecK vneg ?size_unvec // unvecK.
have vf := vneg f sf.
have mv A : P *m A *m P^T *m (P *m vec (length E) f) = P *m (A *m vec (length E) f).
  by rewrite -!mulmxA [P^T *m _]mulmxA PtP mul1mx.
have mvv A B : P *m A *m P^T *m (P *m B *m P^T *m (P *m vec (length E) f)) = P *m (A *m (B *m vec (length E) f)).
  by rewrite mv -!mulmxA [P^T *m _]mulmxA PtP mul1mx.
split; first by rewrite (divergence_Ok H') // (divergence_Ok H) // e1 vf mul1mx -mulmxA [P^T *m _]mulmxA PtP mul1mx.
split.
  move=> d; rewrite (compG H) // (compG H') // /maybe_round; eexists; split; first by [].
  by rewrite vf (Gm_conj QQ PP PtP e1) mv neg.
move=> s; rewrite (lower_shift_Ok H) // (lower_shift_Ok H') // vf (L1L_conj QQ e1).
by eexists; split; first by []; case: ifP => _; rewrite ?mvv ?mv neg.
Qed.
Print Assumptions C86_reversal.

(** The curl does not follow: the incidence of edges and triangles ignores the stored direction of the edge. *)
Theorem C86_reversal_of_curl_refuted :
  exists nodes E T marks sc sc', make_sc nodes E T nil nil = Ok sc /\
    make_sc nodes (reversed marks E) T nil nil = Ok sc' /\ size marks = length E /\
    oriented (length nodes) E T /\ simple_edges E /\
    exists (f c c' h h' : seq rat), size f = length E /\
    get_curl sc' (negated marks f) <> get_curl sc f /\
    (forall lstsq rint d, lstsq_contract lstsq ->
      get_component_flow lstsq rint sc f "curl" false d = Ok c /\
      get_component_flow lstsq rint sc' (negated marks f) "curl" false d = Ok c' /\
      get_component_flow lstsq rint sc f "harmonic" false d = Ok h /\
      get_component_flow lstsq rint sc' (negated marks f) "harmonic" false d = Ok h') /\
    c' <> negated marks c /\ h' <> negated marks h.
Proof.
exists tri_nodes, tri_edges, tri_triangles, [:: false; false; true], tri_sc, twisted_sc.
split; first exact: tri_ok. split; first exact: twisted_ok. split; first by [].
have [O _] := C19_example; split; first exact: O. split.
  split; first by repeat constructor; simpl; intuition congruence.
  by move=> u v /= [[<- <-]|[[<- <-]|[[<- <-]|//]]]; intuition congruence.
exists [:: 0; 0; 1], [:: third; - third; third], [:: - third; third; - third], [:: 0; 0; 0], [:: third *+ 2; - third *+ 2; 0].
split; first by []. split.
  rewrite !curlC; [|by vm_compute..].
  by apply: Ok_neq; vm_compute.
split; last by split; apply: neqP; vm_compute.
move=> lstsq rint d LS; rewrite !component_C !component_H.
have s3 : size [:: 0; 0; 1 : rat] = length tri_edges by [].
have s3' : size (negated [:: false; false; true] [:: 0; 0; 1 : rat]) = length twisted_edges by [].
have K1 : mvC (sc_B1 tri_sc) (mvC (atr (sc_B1 tri_sc)) [:: 0; - third; third]) =
          mvC (sc_B1 tri_sc) [:: 0; 0; 1] by apply/eqP; vm_compute.
have K2 : mvC (atr (sc_B2 tri_sc)) (mvC (sc_B2 tri_sc) [:: third]) =
          mvC (atr (sc_B2 tri_sc)) [:: 0; 0; 1] by apply/eqP; vm_compute.
have K1' : mvC (sc_B1 twisted_sc) (mvC (atr (sc_B1 twisted_sc)) [:: 0; - third; third]) =
          mvC (sc_B1 twisted_sc) (negated [:: false; false; true] [:: 0; 0; 1]) by apply/eqP; vm_compute.
have K2' : mvC (atr (sc_B2 twisted_sc)) (mvC (sc_B2 twisted_sc) [:: - third]) =
          mvC (atr (sc_B2 twisted_sc)) (negated [:: false; false; true] [:: 0; 0; 1]) by apply/eqP; vm_compute.
rewrite (curl_cert tri_ok LS rint false d s3 K2 erefl) (curl_cert twisted_ok LS rint false d s3' K2' erefl).
rewrite (harm_cert tri_ok LS rint false d s3 K1 K2 erefl erefl).
rewrite (harm_cert twisted_ok LS rint false d s3' K1' K2' erefl erefl).
by split; [|split; [|split]]; apply: Ok_eq; vm_compute.
Qed.
Print Assumptions C86_reversal_of_curl_refuted.

(** The hypotheses of the three theorems are met: the triangle with its edges in another order, with nodes 0 and 2
    exchanged, and with one edge reversed. *)
Definition swap02 (z : Z) : Z := if Z.eqb z 0 then 2%zz else if Z.eqb z 2 then Z0 else z.

Example C86_example :
  proper_edges (length tri_nodes) tri_edges /\ simple_edges tri_edges /\ proper_triangles tri_triangles /\
  (exists sc', make_sc tri_nodes [:: (1, 2); (0, 1); (0, 2)]%zz tri_triangles nil nil = Ok sc') /\
  perm_eq (zip tri_edges [:: 5%:R; 6%:R; 7%:R : rat]) (zip [:: (1, 2); (0, 1); (0, 2)]%zz [:: 7%:R; 5%:R; 6%:R]) /\
  injective swap02 /\ (forall i, (0 <= i < 3)%zz -> (0 <= swap02 i < 3)%zz) /\
  (exists sc', make_sc tri_nodes (List.map (renumber swap02) tri_edges) (List.map (List.map swap02) tri_triangles) nil nil = Ok sc') /\
  List.map (renumber swap02) tri_edges = [:: (2, 1); (2, 0); (1, 0)]%zz /\
  reversed [:: false; false; true] tri_edges = twisted_edges.
Proof.
split; first exact: tri_proper. split.
  split; first by repeat constructor; simpl; intuition congruence.
  by move=> u v /= [[<- <-]|[[<- <-]|[[<- <-]|//]]]; intuition congruence.
split; first by move=> x y z /= [[<- <- <-]|//].
split; first by eexists; vm_compute; reflexivity.
split; first by vm_compute.
split.
  move=> x y; rewrite /swap02.
  by case: (Z.eqb_spec x 0) => ?; case: (Z.eqb_spec x 2) => ?; case: (Z.eqb_spec y 0) => ?; case: (Z.eqb_spec y 2) => ?; lia.
split; first by move=> i; rewrite /swap02; case: (Z.eqb_spec i 0) => ?; case: (Z.eqb_spec i 2) => ?; lia.
split; first by eexists; vm_compute; reflexivity.
by [].
Qed.
