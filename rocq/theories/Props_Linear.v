(** * C89, C90: filters are linear, act on each component of a flow separately, and smooth more as mu grows *)

From Coq Require Import ZArith String List Ring Field.
From mathcomp Require Import all_ssreflect all_algebra all_real_closed ssrZ zify.
From Verif Require Import Py PyFacts ExampleData Complex ComplexSpec ComplexFacts LinAlg Spectral Signal
  SignalSpec Bridge SignalFacts Compute Props_Signal Props_Hodge Eigen EigenSpec IntEigen EigenFacts
  Props_Eigen Filter FilterSpec FilterFacts FilterFacts2 PolyFacts Props_Masks Props_LowPass Props_Poly
  RingTac.

Set Implicit Arguments.
Unset Strict Implicit.
Unset Printing Implicit Defensive.

Import GRing.Theory Num.Theory Order.Theory.
Local Open Scope ring_scope.

(** The methods that filter a flow with one matrix, as functions of the flow alone. *)
Inductive filter_call (R : rcfType) eigsh lstsq rint argsort expf (sc : SC) : (seq R -> res (run R)) -> Prop :=
| CallDenoise t p mus : filter_call eigsh lstsq rint argsort expf sc
    (fun f => edge_flow_denoise eigsh sc f t p mus)
| CallOne s L : filter_call eigsh lstsq rint argsort expf sc
    (fun f => ls_type_one eigsh lstsq rint argsort sc f s L)
| CallTwo s L tol : filter_call eigsh lstsq rint argsort expf sc
    (fun f => ls_type_two eigsh lstsq rint sc f s L tol)
| CallGrid t p L mu : filter_call eigsh lstsq rint argsort expf sc
    (fun f => grid_denoise eigsh lstsq sc f t p L mu)
| CallExtract s p L num mu cut steep : filter_call eigsh lstsq rint argsort expf sc
    (fun f => grid_extraction eigsh lstsq rint expf sc f s p L num mu cut steep).

(** ** One loop over filters, on two flows *)
Section Loop.
Variable R : rcfType.

Lemma nrmse_sizes (x t x' t' : seq R) e : calculate_error_NRMSE x t = Ok e -> size x' = size x -> size t' = size t ->
  exists e', calculate_error_NRMSE x' t' = Ok e'.
Proof.
rewrite /calculate_error_NRMSE /np_sub /np_zip => h sx st; move: h; rewrite sx st.
case: ifP => _ /=; first by eexists.
case: ifP => _ /=; first by eexists.
by case: ifP => _ //=; eexists.
Qed.

Variables (n : nat) (K : Type) (X : K -> res 'M[R]_n) (U : eigpairs R).
Definition gstep (f t : seq R) (k : K) : res ('M[R]_n * seq R * seq R * fl R) :=
  let! H := X k in
  let! f_estimated := mat_dot H f in
  let! e := calculate_error_NRMSE f_estimated t in
  Ok (H, f_estimated, diag_response H U, e).

Lemma gstep_Ok f t k y : gstep f t k = Ok y -> size f = n /\ X k = Ok y.1.1.1 /\
  y.1.1.2 = unvec (y.1.1.1 *m vec n f) /\ y.1.2 = diag_response y.1.1.1 U /\
  forall f' t', size f' = n -> size t' = size t -> exists e', gstep f' t' k =
    Ok (y.1.1.1, unvec (y.1.1.1 *m vec n f'), y.1.2, e').
Proof.
rewrite /gstep; case: (X k) => [H|] //=; rewrite /mat_dot; case: eqP => //= sf.
case e : calculate_error_NRMSE => [er|] //= [<-] /=; do 4 split=> //.
move=> f' t' sf' st'; rewrite sf' eqxx /=.
have [e' ->] := nrmse_sizes e (etrans (size_unvec _) (esym (size_unvec _)) : size (unvec (H *m vec n f')) = _) st'.
by exists e'.
Qed.

Lemma gloop f t ks ys f' t' : mapM (gstep f t) ks = Ok ys -> size f' = n -> size t' = size t ->
  exists ys', mapM (gstep f' t') ks = Ok ys' /\
    [seq (y.1.1.1, y.1.2) | y <- ys'] = [seq (y.1.1.1, y.1.2) | y <- ys] /\
    [seq y.1.1.2 | y <- ys'] = [seq unvec (y.1.1.1 *m vec n f') | y <- ys].
Proof.
move=> h sf st; elim: ks ys h => [|k ks IH] ys /=; first by case=> <-; exists [::].
case e : (gstep f t k) => [y|] //=; case e' : mapM => [zs|] //= [<-].
have [_ [_ [_ [_ /(_ _ _ sf st)[er ->]]]]] := gstep_Ok e.
have [zs' [-> [e1 e2]]] := IH _ e' => /=; eexists; split; first by [].
by rewrite /= e1 e2.
Qed.

Lemma gloop_in f t ks ys y : mapM (gstep f t) ks = Ok ys -> List.In y ys ->
  exists2 k, List.In k ks & gstep f t k = Ok y.
Proof.
elim: ks ys => [|k ks IH] ys /=; first by case=> <-.
case e : (gstep f t k) => [z|] //=; case e' : mapM => [zs|] //= [<-] /= [<-|iy].
  by exists k => //; left.
by have [k' ik ek] := IH _ e' iy; exists k' => //; right.
Qed.

Lemma In_last (A : Type) (x : A) s : List.In (last x s) (x :: s).
Proof. by elim: s x => [|y s IH] x; [left|right; exact: IH]. Qed.

(** A completed loop, and the same loop on another flow. *)
Lemma grun f t ks r : (let! ys := mapM (gstep f t) ks in collect ys) = Ok r ->
  size f = n /\ exists H, (exists2 k, List.In k ks & X k = Ok H) /\ run_filter r = rows H /\
    run_estimated r = unvec (H *m vec n f) /\
    forall f' t', size f' = n -> size t' = size t ->
      exists r', (let! ys := mapM (gstep f' t') ks in collect ys) = Ok r' /\ run_filter r' = rows H /\
        run_responses r' = run_responses r /\ run_estimated r' = unvec (H *m vec n f').
Proof.
case e : mapM => [ys|] //=; case: ys e => [|y ys] e //=.
case el : (last y ys) => [[[H fe] g] er] [<-] /=.
have iy : List.In (H, fe, g, er) (y :: ys) by rewrite -el; exact: In_last.
have [k ik ek] := gloop_in e iy; have [sf [XH [/= fE [_ _]]]] := gstep_Ok ek.
split=> //; exists H; split; first by exists k.
do 2 split=> //; move=> f' t' sf' st'.
have [ys' [-> [e1 e2]]] := gloop e sf' st'; case: ys' e1 e2 => [|y' ys'] //= [h1 h2 h3] [h4 h5].
have lE : (last y' ys').1.1.1 = H /\ (last y' ys').1.1.2 = unvec (H *m vec n f').
  have e1 : last (y'.1.1.1, y'.1.2) [seq (z.1.1.1, z.1.2) | z <- ys'] = last (y.1.1.1, y.1.2) [seq (z.1.1.1, z.1.2) | z <- ys].
    by rewrite h1 h2 h3.
  have e2 : last y'.1.1.2 [seq z.1.1.2 | z <- ys'] =
      last (unvec (y.1.1.1 *m vec n f')) [seq unvec (z.1.1.1 *m vec n f') | z <- ys] by rewrite h4 h5.
  rewrite (last_map (fun z => (z.1.1.1, z.1.2))) (last_map (fun z : 'M_n * _ * _ * _ => (z.1.1.1, z.1.2))) el in e1.
  rewrite (last_map (fun z => z.1.1.2)) (last_map (fun z : 'M_n * _ * _ * _ => unvec (z.1.1.1 *m vec n f'))) el in e2.
  by case: e1 => /= -> _.
move: lE; case: (last y' ys') => [[[H' fe'] g'] er'] /= [-> ->].
eexists; split; first by []; split=> //; split=> //=.
have := congr1 (map snd) h3; rewrite -!map_comp /= => h6.
by congr (_ :: _).
Qed.
End Loop.

(** ** All methods *)
Section Calls.
Variable R : rcfType.
Variable eigsh : forall n, 'M[R]_n -> seq (R * 'cV[R]_n).
Variable lstsq : forall m n, 'M[R]_(m, n) -> 'cV[R]_m -> 'cV[R]_n.
Variable rint : R -> int.
Variable argsort : seq R -> seq nat.
Variable expf : R -> R.
Variables (nodes : list Z) (E : list (Z * Z)) (T : list (list Z)) (nf : dict Z fdict)
          (ef : dict (Z * Z) fdict) (sc : SC).
Hypothesis H : make_sc nodes E T nf ef = Ok sc.
Hypothesis LC : lstsq_contract lstsq.
Let M := length E.

Definition follows n (P Q : 'M[R]_n) : Prop := forall C : 'M[R]_n, C *m P = P *m C -> C *m Q = Q *m C.

Lemma follows_inv n (P Q : 'M[R]_n) : follows P Q -> Q \in unitmx -> follows P (invmx Q).
Proof.
move=> f u C /f e.
by rewrite -[LHS]mul1mx -{1}(mulVmx u) -!mulmxA [Q *m _]mulmxA -e -mulmxA mulmxV // mulmx1.
Qed.
Lemma followsD n (P Q S : 'M[R]_n) : follows P Q -> follows P S -> follows P (Q + S).
Proof. by move=> f g C e; rewrite mulmxDr mulmxDl (f _ e) (g _ e). Qed.
Lemma followsZ n (P Q : 'M[R]_n) a : follows P Q -> follows P (a *: Q).
Proof. by move=> f C e; rewrite -scalemxAr -scalemxAl (f _ e). Qed.
Lemma followsM n (P Q S : 'M[R]_n) : follows P Q -> follows P S -> follows P (Q *m S).
Proof. by move=> f g C e; rewrite mulmxA (f _ e) -mulmxA (g _ e) mulmxA. Qed.
Lemma follows1 n (P : 'M[R]_n) : follows P 1%:M.
Proof. by move=> C _; rewrite mulmx1 mul1mx. Qed.
Lemma follows0 n (P : 'M[R]_n) : follows P 0.
Proof. by move=> C _; rewrite mulmx0 mul0mx. Qed.
Lemma follows_id n (P : 'M[R]_n) : follows P P. Proof. by []. Qed.
Lemma follows_sum n (P : 'M[R]_n) m (F : 'I_m -> 'M[R]_n) : (forall i, follows P (F i)) -> follows P (\sum_i F i).
Proof. by move=> h; elim/big_ind: _ => // [|A B]; [exact: follows0|exact: followsD]. Qed.
Lemma follows_pow n (P : 'M[R]_n) k : follows P (mpow P k).
Proof. by elim: k => [|k IH]; [exact: follows1|rewrite mpowS; exact: followsM]. Qed.

(** What a completed call says about all calls. *)
Definition uniform (call : seq R -> res (run R)) (f : seq R) (r : run R) : Prop :=
  exists p (Q : 'M[R]_(sh0 (p_array sc p))),
    follows (toM R (sh0 (p_array sc p)) (sh0 (p_array sc p)) (p_array sc p)) Q /\
    run_filter r = rows Q /\ run_estimated r = unvec (Q *m vec (sh0 (p_array sc p)) f) /\
    forall f', size f' = M -> exists r', call f' = Ok r' /\ run_filter r' = rows Q /\
      run_responses r' = run_responses r /\ run_estimated r' = unvec (Q *m vec (sh0 (p_array sc p)) f').

Lemma true_signal (f : seq R) s t : get_true_signal lstsq rint sc f s = Ok t -> size f = M ->
  size t = M /\ forall f', size f' = M -> exists2 t', get_true_signal lstsq rint sc f' s = Ok t' & size t' = M.
Proof.
move=> e sf; have cn : component_name s.
  have [nn _] := C24_flow_component_names rint LC H f s false 2.
  case c : (c_valid s); first exact/c_validP.
  by move: e; rewrite /get_true_signal nn // => /c_validP; rewrite c.
move: e; rewrite /get_true_signal (component_Ok H LC) // => -[<-] /=; split; first by rewrite size_unvec.
by move=> f' sf'; rewrite (component_Ok H LC) //=; eexists; first by []; rewrite size_unvec.
Qed.

Lemma apply_gen p U (f t : seq R) ev alpha L r : size f = M ->
  apply_filter lstsq (p_array sc p) U f t ev alpha L = Ok r ->
  exists Q : 'M[R]_(sh0 (p_array sc p)),
    follows (toM R (sh0 (p_array sc p)) (sh0 (p_array sc p)) (p_array sc p)) Q /\
    run_filter r = rows Q /\ run_estimated r = unvec (Q *m vec (sh0 (p_array sc p)) f) /\
    forall f' t', size f' = M -> size t' = size t -> exists r',
      apply_filter lstsq (p_array sc p) U f' t' ev alpha L = Ok r' /\ run_filter r' = rows Q /\
      run_responses r' = run_responses r /\ run_estimated r' = unvec (Q *m vec (sh0 (p_array sc p)) f').
Proof.
have [d0 _] := p_dims H p; rewrite -/M in d0.
move=> sf; rewrite /apply_filter; case: Z.ltb => //.
set m := Z.to_nat L; set A := p_array sc p in d0 *.
pose X l : res 'M[R]_(sh0 A) := let! h := (if size alpha == size ev
    then Ok (lstsq (system_mat ev m l) (vec (size ev) alpha)) else Raise LinAlgError) in
    Ok (poly_filter (toM R (sh0 A) (sh0 A) A) h).
have eX f1 t1 l : filter_step lstsq A U f1 t1 ev alpha m l = gstep X U f1 t1 l.
  by rewrite /filter_step /gstep /X; case: (_ == _).
have eM f1 t1 : mapM (filter_step lstsq A U f1 t1 ev alpha m) (iota 0 m) = mapM (gstep X U f1 t1) (iota 0 m).
  by apply: mapM_ext => l _; exact: eX.
rewrite eM => /grun[_ [Q [[k ik Xk] [e1 [e2 e3]]]]]; exists Q.
split.
  move: Xk; rewrite /X; case: ifP => //= _ [<-]; apply: follows_sum => i.
  by apply: followsZ; exact: follows_pow.
do 2 split=> //; move=> f' t' sf' st'; rewrite eM; apply: e3 => //; by rewrite sf' d0.
Qed.

Lemma call_uniform call : filter_call eigsh lstsq rint argsort expf sc call ->
  forall f r, size f = M -> call f = Ok r -> uniform call f r.
Proof.
have true2 p U ev alpha L s (f : seq R) r : size f = M ->
  (let! t := get_true_signal lstsq rint sc f s in apply_filter lstsq (p_array sc p) U f t ev alpha L) = Ok r ->
  uniform (fun f => let! t := get_true_signal lstsq rint sc f s in
                    apply_filter lstsq (p_array sc p) U f t ev alpha L) f r.
  move=> sf; case et : get_true_signal => [t|] //= e; have [st tt] := true_signal et sf.
  have [Q [fo [e1 [e2 e3]]]] := apply_gen sf e; exists p, Q; do 3 split=> //.
  by move=> f' sf'; have [t' -> st'] := tt _ sf'; apply: e3; rewrite ?st.
case=> [t p mus|s L|s L tol|t p L mu|s p L num mu cut steep] f r sf.
- rewrite /edge_flow_denoise get_p_matrixE; case: ifP => // pv.
  have [d0 _] := p_dims H p; rewrite -/M in d0.
  rewrite bindOk to_arrC bindOk; set A := p_array sc p in d0 *.
  case eU : get_eigendecomposition => [U|] //; rewrite bindOk.
  pose X mu : res 'M[R]_(sh0 A) := np_inv (1%:M + mu *: toM R (sh0 A) (sh0 A) A).
  move=> h; have [_ [Q [[mu _ Xk] [e1 [e2 e3]]]]] := @grun _ _ _ X U f t mus r h.
  exists p, Q; split.
    move: Xk; rewrite /X /np_inv; case: ifP => // u [<-]; apply: follows_inv => //.
    by apply: followsD; [exact: follows1|apply: followsZ].
  do 2 split=> //; move=> f' sf'; have [||r' [e4 e5]] := e3 f' t; [by rewrite sf' d0|by []|].
  by exists r'; rewrite bindOk to_arrC bindOk -/A eU bindOk.
- have unf f' : ls_type_one eigsh lstsq rint argsort sc f' s L =
    let! U := get_eigendecomposition eigsh (Dense (p_array sc "L1")) (eps64 R) in
    let! t := get_true_signal lstsq rint sc f' s in
    let! al := get_component_coefficients eigsh argsort sc s in
    apply_filter lstsq (p_array sc "L1") U f' t [seq p.1 | p <- U] al L by [].
  rewrite unf; case eU : get_eigendecomposition => [U|] //; rewrite bindOk.
  case ea : get_component_coefficients => [al|]; last by case: get_true_signal.
  move=> h; have [p [Q [fo [e1 [e2 e3]]]]] := true2 "L1"%string U [seq p.1 | p <- U] al L s f r sf h.
  exists p, Q; do 3 split=> //; move=> f' sf'; rewrite unf eU bindOk ea; exact: e3.
- have unf p : type_two_laplacian s p -> forall f', ls_type_two eigsh lstsq rint sc f' s L tol =
    let! U := get_eigendecomposition eigsh (Dense (p_array sc p)) (eps64 R) in
    let! f_true := get_true_signal lstsq rint sc f' s in
    apply_filter lstsq (p_array sc p) U f' f_true (np_unique [seq if `|q.1| < tol then 0 else q.1 | q <- U])
      (0 :: nseq (size (np_unique [seq if `|q.1| < tol then 0 else q.1 | q <- U]) - 1) 1) L.
    by case=> [[-> ->]|[-> ->]].
  move=> h; have [p tp] : exists p, type_two_laplacian s p.
    move: h; rewrite /ls_type_two; case: String.eqb_spec => [->|_]; first by exists "L1L"%string; left.
    by case: String.eqb_spec => [->|_] //; exists "L1U"%string; right.
  move: h; rewrite (unf p tp); case eU : get_eigendecomposition => [U|] //; rewrite bindOk => h.
  have [q [Q [fo [e1 [e2 e3]]]]] := true2 p _ _ _ _ _ _ _ sf h.
  by exists q, Q; do 3 split=> //; move=> f' sf'; rewrite (unf p tp) eU bindOk; exact: e3.
- rewrite /grid_denoise get_p_matrixE; case: ifP => // pv; rewrite bindOk to_arrC bindOk.
  case eU : get_eigendecomposition => [U|] //; rewrite bindOk.
  case eS : sampled_freq_response => [[g xs]|] //; rewrite bindOk => h.
  have [Q [fo [e1 [e2 e3]]]] := apply_gen sf h; exists p, Q; do 3 split=> //.
  by move=> f' sf'; rewrite bindOk to_arrC bindOk eU bindOk eS bindOk; exact: e3.
rewrite /grid_extraction get_p_matrixE; case: ifP => // pv; rewrite bindOk to_arrC bindOk.
case eU : get_eigendecomposition => [U|] //; rewrite bindOk.
case eS : sampled_freq_response => [[g xs]|] //; rewrite bindOk => h.
have [q [Q [fo [e1 [e2 e3]]]]] := true2 p _ _ _ _ _ _ _ sf h; exists q, Q; do 3 split=> //.
by move=> f' sf'; rewrite bindOk to_arrC bindOk eU bindOk eS bindOk; exact: e3.
Qed.
End Calls.

Section Cheb.
Variable R : rcfType.
Variable eigsh : forall n, 'M[R]_n -> seq (R * 'cV[R]_n).
Variable lstsq : forall m n, 'M[R]_(m, n) -> 'cV[R]_m -> 'cV[R]_n.
Variable rint : R -> int.
Variable argsort : seq R -> seq nat.
Variable expf : R -> R.
Variable chebfun : (R -> R) -> R -> R -> Z -> res (seq R).
Variable norm_2 : forall n, 'M[R]_n -> R.

Lemma cheb_step_Ok n U Ul (Hi : 'M[R]_n) (f t h : seq R) Q y : cheb_step norm_2 U Ul Hi f t h Q = Ok y ->
  size f = n /\ y.1.1.1 = unvec (Q *m vec n f) /\
  forall f' t', size f' = n -> size t' = size t -> exists y', cheb_step norm_2 U Ul Hi f' t' h Q = Ok y' /\
    y'.1.1.1 = unvec (Q *m vec n f') /\ y'.2 = y.2.
Proof.
rewrite /cheb_step; case: ifP => // _.
case: calculate_error_NRMSE => [e0|] //=; rewrite /mat_dot; case: eqP => //= sf.
case e : calculate_error_NRMSE => [er|] //=.
case e1 : calculate_error_NRMSE => [er1|] //= [<-] /=; do 2 split=> //.
move=> f' t' sf' st'; rewrite sf' eqxx /=.
have [e' ->] := nrmse_sizes e (etrans (size_unvec _) (esym (size_unvec _)) : size (unvec (Q *m vec n f')) = _) st'.
have s1 x x' : size [seq ((vec n p.2)^T *m vec n x) 0 0 | p <- U] = size [seq ((vec n p.2)^T *m vec n x') 0 0 | p <- U].
  by rewrite !size_map.
have [e2 /= ->] := nrmse_sizes e1 (s1 (unvec (Q *m vec n f')) _) (s1 t' _).
by eexists.
Qed.

Lemma cheb_loop n U Ul (Hi : 'M[R]_n) (f t h : seq R) Qs ys f' t' :
  mapM (cheb_step norm_2 U Ul Hi f t h) Qs = Ok ys -> size f' = n -> size t' = size t ->
  [seq y.1.1.1 | y <- ys] = [seq unvec (Q *m vec n f) | Q <- Qs] /\
  exists ys', mapM (cheb_step norm_2 U Ul Hi f' t' h) Qs = Ok ys' /\
    [seq y.1.1.1 | y <- ys'] = [seq unvec (Q *m vec n f') | Q <- Qs] /\
    [seq y.2 | y <- ys'] = [seq y.2 | y <- ys].
Proof.
move=> e sf st; elim: Qs ys e => [|Q Qs IH] ys /=; first by case=> <-; split=> //; exists [::].
case e : cheb_step => [y|] //=; case e' : mapM => [zs|] //= [<-] /=.
have [_ [yE /(_ _ _ sf st)[y' [-> [y1 y2]]]]] := cheb_step_Ok e.
have [h1 [zs' [-> [h2 h3]]]] := IH _ e'; rewrite h1 yE; split=> //.
by exists (y' :: zs'); rewrite /= h2 h3 y1 y2.
Qed.

Lemma follows_stack n (P : 'M[R]_n) alpha k : follows P (cheb_stack P alpha k).
Proof.
have b : follows P (P - alpha *: 1%:M).
  by rewrite -scaleNr; apply: followsD => //; apply: followsZ; exact: follows1.
suff : follows P (cheb_stack P alpha k) /\ follows P (cheb_stack P alpha k.+1) by case.
elim: k => [|k [IH1 IH2]]; first by split; [exact: follows1|rewrite /=; apply: followsZ].
split=> //.
have -> : cheb_stack P alpha k.+2 = (2%:R / alpha) *: (P - alpha *: 1%:M) *m cheb_stack P alpha k.+1
    + -1 *: cheb_stack P alpha k by rewrite scaleN1r.
apply: followsD; last exact: followsZ.
by apply: followsM => //; apply: followsZ.
Qed.

Lemma follows_approx n (P : 'M[R]_n) c alpha m A : chebyshev_filter_approximate P c alpha m = Ok A -> follows P A.
Proof.
rewrite /chebyshev_filter_approximate; case: ifP => // _; case: ifP => // _ [<-].
by apply: follows_sum => i; apply: followsZ; exact: follows_stack.
Qed.

Lemma follows_freq n (P : 'M[R]_n) c alpha m Qs : chebyshev_frequency_approx P c alpha m = Ok Qs ->
  forall Q, Q \in Qs -> follows P Q.
Proof.
rewrite /chebyshev_frequency_approx.
have : forall Q, Q \in nseq m (0 : 'M[R]_n) -> follows P Q.
  by move=> Q /nseqP[-> _]; exact: follows0.
elim: (iota 0 m) (nseq m 0) => [|k ks IH] S hS; first by case=> <-.
rewrite [foldM _ _ _]/=; case e : chebyshev_filter_approximate => [A|] //=; apply: IH => Q.
rewrite /set_from mem_cat => /orP[/mem_take|/nseqP[-> _]]; [exact: hS|exact: follows_approx e].
Qed.

Variables (nodes : list Z) (E : list (Z * Z)) (T : list (list Z)) (nf : dict Z fdict)
          (ef : dict (Z * Z) fdict) (sc : SC).
Hypothesis H : make_sc nodes E T nf ef = Ok sc.
Hypothesis LC : lstsq_contract lstsq.
Let M := length E.

Lemma cheb_p_valid p s L n cut steep (f : seq R) r :
  cheb_apply eigsh lstsq rint argsort expf chebfun norm_2 sc f p s L n cut steep = Ok r -> p_valid p.
Proof.
rewrite /cheb_apply get_p_matrixE; case: ifP => // _.
change ((let! U := get_eigendecomposition eigsh (Dense (p_array sc "L1")) (eps64 R) in
         Raise ValueError) = Ok r -> false).
by case: (get_eigendecomposition eigsh (Dense (p_array sc "L1")) (eps64 R)).
Qed.

Lemma cheb_unfold p s L n cut steep (f' : seq R) :
  let N := match n with None => L | Some m => if Z.eqb m 0 then L else m end in
  p_valid p -> cheb_apply eigsh lstsq rint argsort expf chebfun norm_2 sc f' p s L n cut steep =
  let! U := get_eigendecomposition eigsh (Dense (p_array sc "L1")) (eps64 R) in
  let! U_l := get_eigendecomposition eigsh (Dense (p_array sc p)) (eps64 R) in
  let! f_true := get_true_signal lstsq rint sc f' s in
  let! h_ideal := get_component_coefficients eigsh argsort sc s in
  let! al := get_alpha R sc p in
  let! coeffs := get_chebyshev_series expf chebfun N 0 al.2 cut steep in
  let! H_rows := get_ideal_frequency eigsh sc h_ideal in
  if Z.ltb L 0 then Raise ValueError
  else
    let! Hs := chebyshev_frequency_approx (toM R (sh0 (p_array sc p)) (sh0 (p_array sc p)) (p_array sc p))
                 coeffs al.1 (Z.to_nat L) in
    let! steps := mapM (cheb_step norm_2 U U_l (\matrix_(i, j) (nth [::] H_rows i)`_j) f' f_true h_ideal) Hs in
    Ok (mkChebRun [seq rows H | H <- Hs] [seq x.1.1.1 | x <- steps] [seq x.1.1.2 | x <- steps]
          [seq x.1.2 | x <- steps] [seq x.2 | x <- steps]).
Proof.
move=> N v; rewrite /cheb_apply get_p_matrixE v; fold N.
transitivity (let! U := get_eigendecomposition eigsh (Dense (p_array sc "L1")) (eps64 R) in
let! U_l := get_eigendecomposition eigsh (Dense (p_array sc p)) (eps64 R) in
let! f_true := get_true_signal lstsq rint sc f' s in
let! h_ideal := get_component_coefficients eigsh argsort sc s in
let! (alpha, lambda_max) := get_alpha R sc p in
let! coeffs := get_chebyshev_series expf chebfun N 0 lambda_max cut steep in
let! H_rows := get_ideal_frequency eigsh sc h_ideal in
if Z.ltb L 0 then Raise ValueError
else
  let! Hs := chebyshev_frequency_approx (toM R (sh0 (p_array sc p)) (sh0 (p_array sc p)) (p_array sc p))
               coeffs alpha (Z.to_nat L) in
  let! steps := mapM (cheb_step norm_2 U U_l (\matrix_(i, j) (nth [::] H_rows i)`_j) f' f_true h_ideal) Hs in
  Ok (mkChebRun [seq rows H | H <- Hs] [seq x.1.1.1 | x <- steps] [seq x.1.1.2 | x <- steps]
        [seq x.1.2 | x <- steps] [seq x.2 | x <- steps])); first by [].
case: (get_eigendecomposition eigsh (Dense (p_array sc "L1")) (eps64 R)) => [U|] //; rewrite !bindOk.
case: (get_eigendecomposition eigsh (Dense (p_array sc p)) (eps64 R)) => [Ul|] //; rewrite !bindOk.
case: (get_true_signal lstsq rint sc f' s) => [t|] //; rewrite !bindOk.
case: (get_component_coefficients eigsh argsort sc s) => [hi|] //; rewrite !bindOk.
by case: (get_alpha R sc p) => [[al lm]|].
Qed.

Lemma cheb_uniform p s L n cut steep (f : seq R) r : size f = M ->
  cheb_apply eigsh lstsq rint argsort expf chebfun norm_2 sc f p s L n cut steep = Ok r ->
  exists Qs : seq 'M[R]_(sh0 (p_array sc p)),
    (forall Q, Q \in Qs -> follows (toM R (sh0 (p_array sc p)) (sh0 (p_array sc p)) (p_array sc p)) Q) /\
    cheb_filter r = [seq rows Q | Q <- Qs] /\
    cheb_estimated r = [seq unvec (Q *m vec (sh0 (p_array sc p)) f) | Q <- Qs] /\
    forall f', size f' = M -> exists r',
      cheb_apply eigsh lstsq rint argsort expf chebfun norm_2 sc f' p s L n cut steep = Ok r' /\
      cheb_filter r' = [seq rows Q | Q <- Qs] /\ cheb_filter_error r' = cheb_filter_error r /\
      cheb_estimated r' = [seq unvec (Q *m vec (sh0 (p_array sc p)) f') | Q <- Qs].
Proof.
move=> sf h; have v := cheb_p_valid h; have [d0 _] := p_dims H p; rewrite -/M in d0.
move: h; rewrite cheb_unfold //; set N := match n with None => L | Some _ => _ end.
case eU : (get_eigendecomposition eigsh (Dense (p_array sc "L1"))) => [U|] //; rewrite bindOk.
case eUl : (get_eigendecomposition eigsh (Dense (p_array sc p))) => [Ul|] //; rewrite bindOk.
case et : get_true_signal => [t|] //; rewrite bindOk; have [st tt] := true_signal H LC et sf.
case eh : get_component_coefficients => [hi|] //; rewrite bindOk.
case ea : get_alpha => [al|] //; rewrite bindOk.
case ec : get_chebyshev_series => [c|] //; rewrite bindOk.
case er : get_ideal_frequency => [Hr|] //; rewrite bindOk.
case eL : Z.ltb => //.
case eQ : chebyshev_frequency_approx => [Qs|] //; rewrite bindOk.
case eM : mapM => [ys|] //; rewrite bindOk => -[<-].
exists Qs; split; first exact: follows_freq eQ.
split=> //; split.
  by have [|//|e _] := cheb_loop eM (f' := f) (t' := t); first by rewrite sf d0.
move=> f' sf'; have [t' et' st'] := tt _ sf'.
have [|//|_ [ys' [eM' [e1 e2]]]] := cheb_loop eM (f' := f') (t' := t'); first by rewrite sf' d0.
  by rewrite st' st.
by eexists; rewrite cheb_unfold // ?eU ?bindOk ?eUl ?bindOk et' ?bindOk ?eh ?bindOk ?ea ?bindOk ?ec ?bindOk ?er ?bindOk ?eL ?eQ ?bindOk eM' ?bindOk; split; first by []; rewrite /= e1 e2.
Qed.
End Cheb.

(** ** Components *)
Section Comp.
Variable R : rcfType.
Variables (nodes : list Z) (E : list (Z * Z)) (T : list (list Z)) (nf : dict Z fdict)
          (ef : dict (Z * Z) fdict) (sc : SC).
Hypothesis H : make_sc nodes E T nf ef = Ok sc.
Hypothesis O : oriented (length nodes) E T.
Notation G := (Gm R nodes E sc).
Notation C := (Cm R E T sc).
Notation LL := (L1Lm R nodes E sc).
Notation LU := (L1Um R E T sc).

Lemma parts : [/\ G *m LL = LL, LL *m G = LL, G *m LU = 0 & LU *m G = 0] /\
  [/\ C *m LU = LU, LU *m C = LU, C *m LL = 0 & LL *m C = 0].
Proof.
have O12 := oriented_B1B2 R H O.
have O21 : (B2m R E T sc)^T *m (B1m R nodes E sc)^T = 0 by rewrite -trmx_mul O12 trmx0.
have sG : G^T = G by exact: proj_sym.
have sC : C^T = C by exact: proj_sym.
have sL : LL^T = LL by exact: L1L_sym.
have sU : LU^T = LU by exact: L1U_sym.
have tr (A B D : 'M[R]_(length E)) : A^T = A -> B^T = B -> D^T = D -> A *m B = D -> B *m A = D.
  by move=> a b d e; rewrite -d -e trmx_mul a b.
have g1 : G *m LL = LL by rewrite /L1Lm mulmxA projA.
have c1 : C *m LU = LU by rewrite /L1Um mulmxA projA.
have g2 : G *m LU = 0.
  apply: mx_ext => v; rewrite mul0mx -mulmxA; apply: proj_perp.
  by rewrite trmxK /L1Um !mulmxA O12 !mul0mx.
have c2 : C *m LL = 0.
  apply: mx_ext => v; rewrite mul0mx -mulmxA; apply: proj_perp.
  by rewrite /L1Lm !mulmxA O21 !mul0mx.
have z : (0 : 'M[R]_(length E))^T = 0 by rewrite trmx0.
by split; split=> //; apply: tr => //.
Qed.

Lemma comp_comm p s : comp_mx R nodes E T sc s *m p_mat R nodes E T sc p = p_mat R nodes E T sc p *m comp_mx R nodes E T sc s.
Proof.
have [[g1 g2 g3 g4] [c1 c2 c3 c4]] := parts.
have gP : G *m p_mat R nodes E T sc p = p_mat R nodes E T sc p *m G.
  rewrite /p_mat; case: ifP => _; first by rewrite mulmxDl mulmxDr g1 g2 g3 g4.
  by case: ifP => _; rewrite ?g1 ?g2 ?g3 ?g4.
have cP : C *m p_mat R nodes E T sc p = p_mat R nodes E T sc p *m C.
  rewrite /p_mat; case: ifP => _; first by rewrite mulmxDl mulmxDr c1 c2 c3 c4.
  by case: ifP => _; rewrite ?c1 ?c2 ?c3 ?c4.
rewrite /comp_mx; case: ifP => _; last by case: ifP.
by rewrite /Hm !mulmxBl !mulmxBr mul1mx mulmx1 gP cP.
Qed.

Lemma comp_follow p s n (Q : 'M[R]_n) (x : seq R) : n = length E -> follows (toM R n n (p_array sc p)) Q ->
  unvec (comp_mx R nodes E T sc s *m vec (length E) (unvec (Q *m vec n x))) =
  unvec (Q *m vec n (unvec (comp_mx R nodes E T sc s *m vec (length E) x))).
Proof.
move=> e; move: Q; rewrite e => Q; rewrite (toM_p R H) => fo.
by rewrite !unvecK !mulmxA (fo _ (comp_comm p s)).
Qed.
End Comp.

(** ** C89 *)

Lemma mul_lin (R : rcfType) n (Q : 'M[R]_n) a (f g : seq R) : size f = n -> size g = n ->
  unvec (Q *m vec n (addf (scalef a f) g)) = addf (scalef a (unvec (Q *m vec n f))) (unvec (Q *m vec n g)).
Proof.
move=> sf sg; rewrite -{1}(vecK sf) -{1}(vecK sg) !scalef_unvec !addf_unvec unvecK.
by rewrite mulmxDr -scalemxAr.
Qed.

Theorem C89_linear :
  forall (R : rcfType) eigsh lstsq rint argsort expf, lstsq_contract lstsq ->
  forall nodes E T nf ef sc, make_sc nodes E T nf ef = Ok sc ->
  forall call, filter_call eigsh lstsq rint argsort expf sc call ->
  forall (f : seq R) r, size f = length E -> call f = Ok r ->
  run_estimated r = rmv (run_filter r) f /\
  forall g, size g = length E -> exists r1, call g = Ok r1 /\
    run_filter r1 = run_filter r /\ run_responses r1 = run_responses r /\
    forall a, exists r2, call (addf (scalef a f) g) = Ok r2 /\
      run_estimated r2 = addf (scalef a (run_estimated r)) (run_estimated r1).
Proof.
move=> R eigsh lstsq rint argsort expf LC nodes E T nf ef sc H call cc f r sf e.
have [p [Q [fo [e1 [e2 e3]]]]] := call_uniform H LC cc sf e.
have [d0 _] := p_dims H p.
split; first by rewrite e1 e2 rmv_rows // sf d0.
move=> g sg; have [r1 [c1 [h1 [h2 h3]]]] := e3 g sg; exists r1; rewrite h1 e1; do 3 split=> //.
move=> a; have [|r2 [c2 [_ [_ k3]]]] := e3 (addf (scalef a f) g).
  by rewrite size_addf size_scalef.
by exists r2; split=> //; rewrite k3 e2 h3 mul_lin // -d0.
Qed.
Print Assumptions C89_linear.

(** Taking a component and filtering can be exchanged. *)
Theorem C89_components :
  forall (R : rcfType) eigsh lstsq rint argsort expf, lstsq_contract lstsq ->
  forall nodes E T nf ef sc, make_sc nodes E T nf ef = Ok sc -> oriented (length nodes) E T ->
  forall call, filter_call eigsh lstsq rint argsort expf sc call ->
  forall (f : seq R) r, size f = length E -> call f = Ok r ->
  forall s, component_name s -> exists c rc,
    get_component_flow lstsq rint sc f s false 2 = Ok c /\ call c = Ok rc /\
    get_component_flow lstsq rint sc (run_estimated r) s false 2 = Ok (run_estimated rc).
Proof.
move=> R eigsh lstsq rint argsort expf LC nodes E T nf ef sc H O call cc f r sf e s cn.
have [p [Q [fo [e1 [e2 e3]]]]] := call_uniform H LC cc sf e.
have [d0 _] := p_dims H p; rewrite (component_Ok H LC) //=.
set c := unvec _; have [|rc [c1 [_ [_ h3]]]] := e3 c; first by rewrite size_unvec.
exists c, rc; do 2 split=> //; rewrite (component_Ok H LC) //= ?h3 ?e2 ?size_unvec //.
by rewrite (comp_follow H O _ _ (esym d0) fo).
Qed.
Print Assumptions C89_components.

Theorem C89_chebyshev :
  forall (R : rcfType) eigsh lstsq rint argsort expf chebfun norm_2, lstsq_contract lstsq ->
  forall nodes E T nf ef sc, make_sc nodes E T nf ef = Ok sc ->
  forall p comp L n cut steep (f : seq R) r, size f = length E ->
  let call f := cheb_apply eigsh lstsq rint argsort expf chebfun norm_2 sc f p comp L n cut steep in
  call f = Ok r ->
  cheb_estimated r = [seq rmv Q f | Q <- cheb_filter r] /\
  (forall g, size g = length E -> exists r1, call g = Ok r1 /\
    cheb_filter r1 = cheb_filter r /\ cheb_filter_error r1 = cheb_filter_error r /\
    forall a, exists r2, call (addf (scalef a f) g) = Ok r2 /\
      cheb_estimated r2 = [seq addf (scalef a x.1) x.2 | x <- zip (cheb_estimated r) (cheb_estimated r1)]) /\
  (oriented (length nodes) E T -> forall s, component_name s -> exists c rc,
    get_component_flow lstsq rint sc f s false 2 = Ok c /\ call c = Ok rc /\
    forall k, (k < size (cheb_estimated r))%N ->
      get_component_flow lstsq rint sc (nth [::] (cheb_estimated r) k) s false 2 =
      Ok (nth [::] (cheb_estimated rc) k)).
Proof.
move=> R eigsh lstsq rint argsort expf chebfun norm_2 LC nodes E T nf ef sc H p comp L n cut steep f r sf call e.
have [Qs [fo [e1 [e2 e3]]]] := cheb_uniform H LC sf e; have [d0 _] := p_dims H p.
split.
  by rewrite e1 e2 -map_comp; apply/eq_map => Q /=; rewrite rmv_rows // sf d0.
split.
  move=> g sg; have [r1 [c1 [h1 [h2 h3]]]] := e3 g sg; exists r1; rewrite h1 e1; do 3 split=> //.
  move=> a; have [|r2 [c2 [_ [_ k3]]]] := e3 (addf (scalef a f) g).
    by rewrite size_addf size_scalef.
  exists r2; split=> //; rewrite k3 e2 h3; elim: (Qs) => //= Q Qs' ->.
  by rewrite mul_lin // -d0.
move=> O s cn; rewrite (component_Ok H LC) //=; set c := unvec _.
have [|rc [c1 [_ [_ h3]]]] := e3 c; first by rewrite size_unvec.
exists c, rc; do 2 split=> //; move=> k; rewrite e2 h3 size_map => kQ.
rewrite !(nth_map 0) // (component_Ok H LC) ?size_unvec //=.
by rewrite (comp_follow H O _ _ (esym d0) (fo _ (mem_nth _ kQ))).
Qed.
Print Assumptions C89_chebyshev.

(** ** C90 *)
Section Mono.
Variable R : rcfType.
Add Field R_fieldL : (mc_field R).
Variables (n : nat) (P : 'M[R]_n).
Hypothesis sP : P^T = P.
Hypothesis pP : forall x : 'cV[R]_n, 0 <= dot x (P *m x).
Variable f : 'cV[R]_n.
Notation A mu := (1%:M + mu *: P).
Notation x mu := (invmx (A mu) *m f).

Lemma shift_balance mu : 0 <= mu ->
  nrm2 f = nrm2 (x mu) + 2%:R * mu * dot (x mu) (P *m x mu) + mu ^+ 2 * nrm2 (P *m x mu).
Proof.
move=> mu0; rewrite -{1}(shift_sol pP mu0 f) nrm2D dotZr mulrA.
by rewrite /nrm2 [dot (mu *: _) (mu *: _)]dotZl dotZr mulrA.
Qed.

Lemma shift_mono mu mu' : 0 <= mu -> mu <= mu' ->
  nrm2 (x mu') <= nrm2 (x mu) /\ dot (x mu') (P *m x mu') <= dot (x mu) (P *m x mu) /\
  nrm2 (f - x mu) <= nrm2 (f - x mu').
Proof.
move=> mu0 le; have mu1 : 0 <= mu' := le_trans mu0 le.
have u0 := shift_unit pP mu0; have u1 := shift_unit pP mu1.
pose w := invmx (A mu') *m x mu.
have xw : x mu = w + mu' *: (P *m w) by rewrite -shiftE mulKVmx.
have com : A mu *m A mu' = A mu' *m A mu.
  rewrite !mulmxDl !mulmxDr !mul1mx !mulmx1 -!scalemxAl -!scalemxAr !scalerA [mu * mu']mulrC.
  by rewrite -!addrA; congr (_ + _); rewrite !addrA; congr (_ + _); rewrite addrC.
have xw' : x mu' = w + mu *: (P *m w).
  rewrite -shiftE; have {1}-> : f = A mu' *m (A mu *m w).
    by rewrite mulmxA -com -mulmxA mulKVmx // mulKVmx.
  by rewrite mulKmx.
have fx : f - x mu = mu *: (P *m x mu) by rewrite -{1}(shift_sol pP mu0 f) addrAC subrr add0r.
have fx' : f - x mu' = mu' *: (P *m x mu') by rewrite -{1}(shift_sol pP mu1 f) addrAC subrr add0r.
rewrite fx fx' xw xw'; set v := P *m w.
have vw : dot v w = dot w v by rewrite dotC.
have wv : dot w (P *m v) = dot v v by rewrite dot_mulmxr sP.
have a0 : 0 <= dot w v := pP w.
have b0 : 0 <= dot v v := dot_ge0 v.
have c0 : 0 <= dot v (P *m v) := pP v.
have e0 : 0 <= dot (P *m v) (P *m v) := dot_ge0 _.
have d0 : 0 <= mu' - mu by rewrite subr_ge0.
have s0 : 0 <= mu + mu' by rewrite addr_ge0.
have Pw : P *m w = v by [].
clear xw xw'; clearbody v; clearbody w.
split; last split; rewrite -subr_ge0.
- have -> : nrm2 (w + mu' *: v) - nrm2 (w + mu *: v) =
      (mu' - mu) * (2%:R * dot w v + (mu + mu') * dot v v).
    by rewrite /nrm2 !dotDl !dotDr !dotZl !dotZr vw; to_r R; ring.
  by rewrite mulr_ge0 // addr_ge0 // mulr_ge0 // ler0n.
- have -> : dot (w + mu' *: v) (P *m (w + mu' *: v)) - dot (w + mu *: v) (P *m (w + mu *: v)) =
      (mu' - mu) * (2%:R * dot v v + (mu + mu') * dot v (P *m v)).
    rewrite !mulmxDr -!scalemxAr !Pw !dotDl !dotDr !dotZl !dotZr wv.
    move: (dot v (P *m v)) (dot v v) (dot w v) => c b a; to_r R; ring.
  by rewrite mulr_ge0 // addr_ge0 // mulr_ge0 // ler0n.
have -> : nrm2 (mu' *: (P *m (w + mu *: v))) - nrm2 (mu *: (P *m (w + mu' *: v))) =
    (mu' - mu) * ((mu + mu') * dot v v + 2%:R * (mu * mu') * dot v (P *m v)).
  rewrite /nrm2 !mulmxDr -!scalemxAr !Pw !dotZl !dotZr !dotDl !dotDr !dotZl !dotZr (dotC (P *m v) v).
  move: (dot v (P *m v)) (dot v v) (dot (P *m v) (P *m v)) => c b a; to_r R; ring.
by rewrite mulr_ge0 // addr_ge0 // mulr_ge0 // mulr_ge0 ?ler0n ?mulr_ge0.
Qed.
End Mono.

Section LowPassRun.
Variable R : rcfType.
Variable eigsh : forall n, 'M[R]_n -> seq (R * 'cV[R]_n).
Variables (nodes : list Z) (E : list (Z * Z)) (T : list (list Z)) (nf : dict Z fdict)
          (ef : dict (Z * Z) fdict) (sc : SC).
Hypothesis H : make_sc nodes E T nf ef = Ok sc.
Hypothesis M0 : (0 < length E)%N.

Lemma denoise_run p P (f t : seq R) mus mu : get_p_matrix sc p = Ok (Csr P) ->
  size f = length E -> size t = length E -> (forall m, m \in rcons mus mu -> 0 <= m) ->
  exists r, edge_flow_denoise eigsh sc f t p (rcons mus mu) = Ok r /\
    run_estimated r = unvec (invmx (1%:M + mu *: p_mat R nodes E T sc p) *m vec (length E) f).
Proof.
move=> /p_of[pv _] sf st nn; rewrite (edge_flowE eigsh H pv M0 sf st nn) map_rcons.
by case: (mus) => [|m ms] /=; rewrite ?last_rcons; eexists.
Qed.
End LowPassRun.

(** The component names on which the matrix [p] vanishes. *)
Definition untouched (p s : string) : Prop :=
  (p = "L1" /\ s = "harmonic" \/ p = "L1L" /\ (s = "curl" \/ s = "harmonic") \/
   p = "L1U" /\ (s = "gradient" \/ s = "harmonic"))%string.

Theorem C90_lowpass_components :
  forall (R : rcfType) eigsh lstsq rint, lstsq_contract lstsq ->
  forall nodes E T nf ef sc, make_sc nodes E T nf ef = Ok sc -> (0 < length E)%N ->
  oriented (length nodes) E T ->
  forall p s, untouched p s ->
  forall (f f_true : seq R), size f = length E -> size f_true = length E ->
  forall mus, mus <> [::] -> (forall m, m \in mus -> 0 <= m) ->
  exists r, edge_flow_denoise eigsh sc f f_true p mus = Ok r /\
    get_component_flow lstsq rint sc (run_estimated r) s false 2 =
    get_component_flow lstsq rint sc f s false 2.
Proof.
move=> R eigsh lstsq rint LC nodes E T nf ef sc H M0 O p s ps f t sf st mus.
case/lastP: mus => // mus mu _ nn.
have [cn gp] : component_name s /\ get_p_matrix sc p = Ok (Csr (p_array sc p)).
  rewrite get_p_matrixE; case: ps => [[-> ->]|[[-> [->|->]]|[-> [->|->]]]]; split=> //;
  by [left|right; left|right; right].
have [r [-> e]] := denoise_run eigsh H M0 gp sf st nn; exists r; split=> //.
have mu0 : 0 <= mu by apply: nn; rewrite mem_rcons mem_head.
have u := shift_unit (p_psd nodes T sc p : forall x : 'cV[R]_(length E), _) mu0.
rewrite e !(component_Ok H LC) ?size_unvec //= unvecK mulmxA; congr (Ok (unvec _)).
suff z : comp_mx R nodes E T sc s *m p_mat R nodes E T sc p = 0.
  have a : comp_mx R nodes E T sc s *m (1%:M + mu *: p_mat R nodes E T sc p) = comp_mx R nodes E T sc s.
    by rewrite mulmxDr mulmx1 -scalemxAr z scaler0 addr0.
  by rewrite -{1}a mulmxK.
have [[g1 g2 g3 g4] [c1 c2 c3 c4]] := parts R H O.
by case: ps => [[-> ->]|[[-> [->|->]]|[-> [->|->]]]]; rewrite /comp_mx /p_mat //= /Hm
  ?mulmxBl ?mulmxDr ?mul1mx ?g1 ?g3 ?c1 ?c3 ?subr0 ?addr0 ?add0r ?subrr // addrAC addrK subrr.
Qed.
Print Assumptions C90_lowpass_components.

(** The energy that the filter takes away, and the comparison of two weights. *)
Theorem C90_lowpass_smoothing :
  forall (R : rcfType) (eigsh : forall n, 'M[R]_n -> seq (R * 'cV[R]_n)),
  forall nodes E T nf ef sc, make_sc nodes E T nf ef = Ok sc -> (0 < length E)%N ->
  forall p P, get_p_matrix sc p = Ok (Csr P) ->
  forall (f f_true : seq R), size f = length E -> size f_true = length E ->
  forall mus mu, (forall m, m \in rcons mus mu -> 0 <= m) ->
  exists r, edge_flow_denoise eigsh sc f f_true p (rcons mus mu) = Ok r /\
    energy f = energy (run_estimated r) + 2%:R * mu * qform P (run_estimated r)
               + mu ^+ 2 * energy (mv P (run_estimated r)) /\
    (p = "L1L"%string -> exists d, get_divergence sc (run_estimated r) = Ok d /\
       2%:R * mu * energy d <= energy f) /\
    (p = "L1U"%string -> exists c, get_curl sc (run_estimated r) = Ok c /\
       2%:R * mu * energy c <= energy f) /\
    forall mus' mu', (forall m, m \in rcons mus' mu' -> 0 <= m) -> mu <= mu' ->
    exists r', edge_flow_denoise eigsh sc f f_true p (rcons mus' mu') = Ok r' /\
      energy (run_estimated r') <= energy (run_estimated r) /\
      qform P (run_estimated r') <= qform P (run_estimated r) /\
      energy (subf f (run_estimated r)) <= energy (subf f (run_estimated r')).
Proof.
move=> R eigsh nodes E T nf ef sc H M0 p P gp f t sf st mus mu nn.
have [pv PE] := p_of gp.
have [r [-> e]] := denoise_run eigsh H M0 gp sf st nn; exists r; split=> //.
have mu0 : 0 <= mu by apply: nn; rewrite mem_rcons mem_head.
have pP : forall x : 'cV[R]_(length E), 0 <= dot x (p_mat R nodes E T sc p *m x) := p_psd nodes T sc p.
have bal := shift_balance pP (vec (length E) f) mu0.
rewrite PE e (qform_p H) (mv_p H) !energy_unvec !unvecK.
have ef' : energy f = nrm2 (vec (length E) f) by rewrite -energy_unvec vecK.
split; first by rewrite ef' bal.
have le : 2%:R * mu * dot (invmx (1%:M + mu *: p_mat R nodes E T sc p) *m vec (length E) f)
     (p_mat R nodes E T sc p *m (invmx (1%:M + mu *: p_mat R nodes E T sc p) *m vec (length E) f)) <= energy f.
  have le3 (a b c : R) : 0 <= a -> 0 <= c -> b <= a + b + c.
    by move=> a0 c0; rewrite addrAC ler_addr addr_ge0.
  by rewrite ef' bal; apply: le3; rewrite ?mulr_ge0 ?sqr_ge0 ?nrm2_ge0.
split.
  move=> pe; rewrite (divergence_Ok H) ?size_unvec //; eexists; split; first by [].
  rewrite energy_unvec unvecK; apply: le_trans le; rewrite pe /p_mat /= /L1Lm.
  by rewrite -[(B1m _ _ _ _)^T *m _ *m _]mulmxA -dot_mulmx.
split.
  move=> pe; rewrite (curl_Ok H) ?size_unvec //; eexists; split; first by [].
  rewrite energy_unvec unvecK; apply: le_trans le; rewrite pe /p_mat /= /L1Um.
  by rewrite -[B2m _ _ _ _ *m _ *m _]mulmxA dot_mulmxr.
move=> mus' mu' nn' lemu.
have [r' [-> e']] := denoise_run eigsh H M0 gp sf st nn'; exists r'; split=> //.
have [h1 [h2 h3]] := shift_mono (p_sym R nodes E T sc p) pP (vec (length E) f) mu0 lemu.
have sub (v : 'cV[R]_(length E)) : subf f (unvec v) = unvec (vec (length E) f - v).
  by rewrite -{1}(vecK sf) subf_unvec.
by rewrite e' (qform_p H) !sub !energy_unvec !unvecK.
Qed.
Print Assumptions C90_lowpass_smoothing.

Section TriNums.
Variable R : rcfType.
Add Field R_fieldT : (mc_field R).
Lemma tri_mv (a b c : R) : mv tLL [:: a; b; c] = [:: 2%:R * a + b - c; a + 2%:R * b + c; - a + b + 2%:R * c].
Proof.
have s0 : sh0 tLL = 3%N by vm_compute. have s1 : sh1 tLL = 3%N by vm_compute.
have v : [seq at2 tLL i.1 i.2 | i <- [seq (i, j) | i <- iota 0 3, j <- iota 0 3]] =
  ([:: 2; 1; -1; 1; 2; 1; -1; 1; 2])%zz by vm_compute.
rewrite mvCE /mvC s0 s1; move: v; move: tLL => A; rewrite /mkseq /=.
case=> -> -> -> -> -> -> -> -> ->.
by congr [:: _; _; _]; rewrite /zmul /= ?mulr1z ?mulrN1z ?mulr_natl ?addr0 ?addrA.
Qed.
Lemma tri_mv_num : mv tLL [:: - 1; 4%:R; - 3%:R] = [:: 5%:R; 4%:R; - 1] :> seq R.
Proof. by rewrite tri_mv; congr [:: _; _; _]; to_r R; ring. Qed.
Lemma tri_add_num : addf [:: - 1; 4%:R; - 3%:R] [:: 5%:R; 4%:R; - 1] = [:: 4%:R; 8%:R; - 4%:R] :> seq R.
Proof. by rewrite /addf /mkseq /=; congr [:: _; _; _]; to_r R; ring. Qed.
Lemma tri_energies : energy [:: 4%:R; 8%:R; - 4%:R : R] = 96%:R /\ energy [:: - 1; 4%:R; - 3%:R : R] = 26%:R /\
  energy [:: 5%:R; 4%:R; - 1 : R] = 42%:R /\ dotp [:: - 1; 4%:R; - 3%:R : R] [:: 5%:R; 4%:R; - 1 : R] = 14%:R.
Proof.
rewrite !energy3 /dotp !big_ord_recl big_ord0 /=; do 3 (split; first by to_r R; ring).
by to_r R; ring.
Qed.
End TriNums.

(** The flow (4, 8, -4) on the filled triangle is the sum of a curl flow (8/3)(-1, 1, -1) and a gradient
    flow (4/3)(5, 4, -1).  Denoising it with L1L and mu = 1 divides the gradient flow by 4 and keeps the
    curl flow: the result is (-1, 4, -3).  Its energy 26 and twice 14 and 42 add up to 96, the energy of
    the flow. *)
Example C89_C90_example :
  let R := realalg_rcfType in
  let f := [:: 4%:R; 8%:R; - 4%:R] : seq R in
  let t := [:: 1; 2%:R; - 1] : seq R in
  lstsq_contract (@ls_min R) /\
  make_sc tri_nodes tri_edges tri_triangles nil nil = Ok tri_sc /\ (0 < length tri_edges)%N /\
  oriented (length tri_nodes) tri_edges tri_triangles /\ untouched "L1L" "curl" /\ component_name "gradient" /\
  get_p_matrix tri_sc "L1L" = Ok (Csr tLL) /\ size f = length tri_edges /\ size t = length tri_edges /\
  (forall m, m \in rcons [::] 1 -> 0 <= m :> R) /\
  forall eigsh rint argsort expf,
  filter_call eigsh (@ls_min R) rint argsort expf tri_sc (fun f => edge_flow_denoise eigsh tri_sc f t "L1L" [:: 1]) /\
  exists r, edge_flow_denoise eigsh tri_sc f t "L1L" [:: 1] = Ok r /\
    run_estimated r = [:: - 1; 4%:R; - 3%:R] /\ mv tLL (run_estimated r) = [:: 5%:R; 4%:R; - 1] /\
    energy f = 96%:R /\ energy (run_estimated r) = 26%:R /\ qform tLL (run_estimated r) = 14%:R /\
    energy (mv tLL (run_estimated r)) = 42%:R.
Proof.
move=> R f t; split; first exact: (proj1 (@ls_min_ok R)).
split; first exact: tri_ok. split; first by []. split; first exact: tri_oriented.
split; first by right; left; split=> //; left.
split; first by left. split; first by []. split; first by []. split; first by [].
have nn : forall m, m \in rcons [::] 1 -> 0 <= m :> R by move=> m; rewrite inE => /eqP ->; exact: ler01.
split=> // eigsh rint argsort expf; split; first exact: CallDenoise.
have gp : get_p_matrix tri_sc "L1L" = Ok (Csr tLL) by [].
have [r [-> e]] := @denoise_run R eigsh _ _ _ _ _ _ tri_ok isT "L1L"%string tLL f t [::] 1 gp erefl erefl nn.
exists r; split=> //.
have pA : p_array tri_sc "L1L" = tLL by [].
have est : unvec (invmx (1%:M + 1 *: p_mat R tri_nodes tri_edges tri_triangles tri_sc "L1L") *m vec (length tri_edges) f)
    = [:: - 1; 4%:R; - 3%:R].
  have u := shift_unit (p_psd tri_nodes tri_triangles tri_sc "L1L" : forall x : 'cV[R]_(length tri_edges), _) (ler01 : 0 <= (1 : R)).
  have sx : size [:: - 1; 4%:R; - 3%:R : R] = length tri_edges by [].
  rewrite -[RHS](vecK sx); congr unvec; rewrite -[RHS](mulKmx u); congr (_ *m _).
  apply: unvec_inj; rewrite shiftE scale1r -addf_unvec -(mv_p tri_ok) !vecK // pA tri_mv_num.
  by rewrite tri_add_num.
rewrite e est tri_mv_num.
have [h1 [h2 [h3 h4]]] := tri_energies R.
do 4 split=> //; split=> //.
have qd (x : seq R) : size x = length tri_edges -> qform tLL x = dotp x (mv tLL x).
  move=> sx; rewrite -pA (qform_p tri_ok) (mv_p tri_ok) -{3}(vecK sx).
  by rewrite dotp_unvec.
by rewrite qd // tri_mv_num.
Qed.
