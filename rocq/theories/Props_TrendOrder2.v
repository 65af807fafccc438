(** * C98: the trend filters and the direction of edges *)

From Coq Require Import ZArith String List Ring Field.
From mathcomp Require Import all_ssreflect all_algebra all_real_closed ssrZ zify.
From Verif Require Import RingTac Py PyFacts ExampleData Complex ComplexSpec ComplexFacts ComplexFacts2 LinAlg Spectral
  Signal SignalSpec Bridge SignalFacts Compute Props_Complex Props_Signal Props_Hodge Eigen EigenSpec
  EigenFacts Props_Eigen Filter FilterSpec FilterFacts FilterFacts2 PolyFacts Props_Masks Props_LowPass
  Props_Poly Props_Linear Props_Topology Props_Solver Props_Reorder Props_FilterOrder
  Trend TrendFacts Props_Logistic Props_Trend Props_Trend2 Props_Trend3 Props_TrendEx Props_TrendOrder.

Set Implicit Arguments.
Unset Strict Implicit.
Unset Printing Implicit Defensive.

Import GRing.Theory Num.Theory Order.Theory.
Local Open Scope ring_scope.
Delimit Scope Z_scope with zz.

(** Turning edges round and changing the sign of the flow and of the noise on them: the estimates change their signs on
    these edges, and the errors and the norms of the divergence are the same. *)
Theorem C98_reversal :
  forall (R : rcfType) (pow10 : R -> R) randn randn', (forall i j n, size (randn i j n) = n) ->
    (forall i j n, size (randn' i j n) = n) ->
  forall solver solver' solver_eq solver_eq' (floor : R -> Z) choice, solver_contract solver -> solver_contract solver' ->
    solver_eq_contract solver_eq -> solver_eq_contract solver_eq' ->
  forall nodes E T nf ef sc, make_sc nodes E T nf ef = Ok sc -> proper_edges (length nodes) E ->
  forall marks, size marks = length E ->
  forall T' nf' ef' sc', make_sc nodes (reversed marks E) T' nf' ef' = Ok sc' ->
  (forall i j, randn' i j (length E) = negated marks (randn i j (length E))) ->
  forall (flow snr : seq R) num order mu r r', size flow = length E -> 0 <= mu ->
  let turned z z' := z' = negated marks z /\ size z = length E in
  let x i j := nth [::] (nth [::] (trend_responses r) i) j in
  let x' i j := nth [::] (nth [::] (trend_responses r') i) j in
  (denoise_l2 pow10 randn sc flow "divergence" num snr mu = Ok r ->
   exists q, denoise_l2 pow10 randn' sc' (negated marks flow) "divergence" num snr mu = Ok q /\
     (forall i j, (i < size snr)%N -> (j < Z.to_nat num)%N ->
        nth [::] (nth [::] (trend_responses q) i) j = negated marks (x i j)) /\
     trend_component q = trend_component r /\ trend_errors q = trend_errors r) /\
  (denoise_l1 pow10 randn solver sc flow "divergence" num snr order mu = Ok r ->
   denoise_l1 pow10 randn' solver' sc' (negated marks flow) "divergence" num snr order mu = Ok r' ->
   exists A A', get_shift_operator sc "divergence" order = Ok (Csr A) /\
     get_shift_operator sc' "divergence" order = Ok (Csr A') /\
   forall i j, (i < size snr)%N -> (j < Z.to_nat num)%N ->
     let y := noisy_flow pow10 flow (length E) snr`_i (randn i j (length E)) in
     equally_good (length E) turned (fun _ => Logic.True) (trend_cost A mu y) (trend_cost A' mu (negated marks y))
       (x i j) (x' i j)) /\
  (interpolate_l1 solver_eq floor choice sc flow "divergence" snr num order mu = Ok r ->
   interpolate_l1 solver_eq' floor choice sc' (negated marks flow) "divergence" snr num order mu = Ok r' ->
   exists A A', get_shift_operator sc "divergence" order = Ok (Csr A) /\
     get_shift_operator sc' "divergence" order = Ok (Csr A') /\
   forall i j, (i < size snr)%N -> (j < Z.to_nat num)%N ->
     let s := choice i j (length E) (Z.to_nat (floor ((length E)%:R * snr`_i))) in
     let y := mkseq (fun k => if k \in s then flow`_k else 0) (length E) in
     equally_good (length E) turned (fun z => forall k, (k < length E)%N -> k \in s -> z`_k = flow`_k)
       (trend_cost A mu y) (trend_cost A' mu (negated marks y)) (x i j) (x' i j)).
Proof.
move=> R pow10 randn randn' sr sr' solver solver' solver_eq solver_eq' floor choice SC SC' SQ SQ' nodes E T nf ef sc H PE marks sm.
move=> T' nf' ef' sc' H' rr flow snr num order mu r r' sf mu0 turned X X'.
set E' := reversed marks E in H' *.
have sE : length E' = length E by rewrite -[length E']/(size E') size_map size_zip sm minnn.
have sneg (x : seq R) : size x = length E -> size (negated marks x) = length E.
  by move=> sx; rewrite size_map size_zip sm sx minnn.
have nneg (x : seq R) k : size x = length E -> (k < length E)%N ->
    (negated marks x)`_k = if nth false marks k then - x`_k else x`_k.
  move=> sx lk; rewrite (nth_map (false, 0)) ?size_zip ?sm ?sx ?minnn // nth_zip ?sm ?sx //.
have nE k : (k < length E)%N ->
    nth (Z0, Z0) E' k = if nth false marks k then ((nth (Z0, Z0) E k).2, (nth (Z0, Z0) E k).1) else nth (Z0, Z0) E k.
  by move=> lk; rewrite (nth_map (false, (Z0, Z0))) ?size_zip ?sm ?minnn // nth_zip ?sm.
have PE' : proper_edges (length nodes) E'.
  move=> u v /InE /(nthP (Z0, Z0)) [k lk]; rewrite nE -?[length E]sE // => e.
  have hk : List.In (nth (Z0, Z0) E k) E by apply/InE/mem_nth; rewrite -[size E]sE.
  case: (nth (Z0, Z0) E k) hk e => a b /PE [h1 [h2 h3]] /=.
  by case: (nth false marks k) => -[<- <-]; split=> //; split=> // h; apply: h3.
pose sg (k : nat) : R := if nth false marks k then - 1 else 1.
have sgg k : sg k * sg k = 1 by rewrite /sg; case: nth; rewrite ?mulrNN mulr1.
have cb : bijective (cast_ord sE) by exists (cast_ord (esym sE)); [exact: cast_ordK|exact: cast_ordKV].
pose P : 'M[R]_(length E', length E) := ssel sg (cast_ord sE).
have QQ : (1%:M : 'M[R]_(length nodes))^T *m 1%:M = 1%:M by rewrite trmx1 mulmx1.
have e1 : B1m R nodes E' sc' = 1%:M *m B1m R nodes E sc *m P^T.
  apply/matrixP => i k; rewrite mul1mx Mssel (B1m_entry _ H') // (B1m_entry _ H) //.
  have lk : (k < length E)%N by rewrite -sE.
  rewrite nE //= /sg; case: (nth false marks k); last by rewrite mul1r.
  by rewrite /= mulN1r opprB.
have mv1 (x : seq R) : size x = length E -> moved (cast_ord sE) sg x (negated marks x).
  move=> sx; split=> //; split; first by rewrite sneg // sE.
  by move=> k; rewrite nneg // -?sE // /sg; case: nth; rewrite ?mulN1r ?mul1r.
have vm (x x' : seq R) : moved (cast_ord sE) sg x x' -> turned x x'.
  move=> [sx [sx' h]]; split=> //; apply: (@eq_from_nth _ 0); first by rewrite sx' sneg // sE.
  by move=> i; rewrite sx' => li; have [_ [_ h']] := mv1 _ sx; rewrite (h (Ordinal li)) (h' (Ordinal li)).
have pL : p_same nodes T sc nodes T' sc' (cast_ord sE) sg "L1L" by exact: (L1L_conj QQ e1).
have db x x' : moved (cast_ord sE) sg x x' -> perm_eq (mv (comp_arr sc "divergence") x) (mv (comp_arr sc' "divergence") x').
  move=> /vm[-> sx]; have [d _] := C86_reversal (fun _ => 0) (@ls_sol_ok R) H PE sm H' sx.
  by move: d; rewrite (div_mv H) // (div_mv H') ?sneg // => -[<-].
have gb x x' := @base_moved R _ _ _ _ _ _ H _ _ _ _ _ _ H' _ _ cb sgg "divergence" x x' pL.
have rm i j : moved (cast_ord sE) sg (randn i j (length E)) (randn' i j (length E')).
  by rewrite {2}sE rr; apply: mv1.
split=> [e|].
  have [q [e' [h1 [h2 [h3 _]]]]] := l2_pair H H' cb sgg pL db sr sr' rm (mv1 _ sf) mu0 e.
  by exists q; split=> //; split=> // i j li lj; have [] := vm _ _ (h1 i j li lj).
split=> e e'.
  have [A [A' [eA [eA' h]]]] := l1_pair H H' cb sgg db gb sr sr' rm (mv1 _ sf) mu0 SC SC' e e'.
  exists A, A'; do 2 split=> //; move=> i j li lj y; have [h1 [h2 h3]] := h i j li lj lj.
  have sy : size y = length E by rewrite size_addf.
  have [yE _] := vm _ _ (noisy_moved cb sgg pow10 snr`_i (mv1 _ sf) (rm i j)); rewrite yE -/y in h1 h2.
  split; first by move=> z z' [-> sz]; apply: h1; exact: mv1.
  by split=> // un; apply: vm; apply: h3 => z sz le; exact: un.
have hs i j m (k : 'I_(length E')) : ((k : nat) \in choice i j (length E') m) = ((cast_ord sE k : nat) \in choice i j (length E) m).
  by rewrite {2}sE.
have [A [A' [eA [eA' h]]]] := interp_pair H H' cb sgg db gb hs (mv1 _ sf) mu0 SQ SQ' e e'.
exists A, A'; do 2 split=> //; move=> i j li lj s y; have [h1 [h2 h3]] := h i j li lj lj.
have sy : size y = length E by rewrite size_mkseq.
have yE : mkseq (fun k => if k \in choice i j (length E') (Z.to_nat (floor ((length E')%:R * snr`_i)))
     then (negated marks flow)`_k else 0) (length E') = negated marks y.
  rewrite sE -/s; apply: (@eq_from_nth _ 0); first by rewrite size_mkseq sneg.
  by move=> k; rewrite size_mkseq => lk; rewrite nth_mkseq // !nneg // nth_mkseq //; do 2 case: ifP; rewrite ?oppr0.
rewrite yE in h1 h2.
split; first by move=> z z' [-> sz]; apply: h1; exact: mv1.
by split=> // un; apply: vm; apply: h3 => z sz oz le; exact: un.
Qed.
Print Assumptions C98_reversal.
