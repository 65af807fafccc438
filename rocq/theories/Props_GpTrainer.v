(** * Properties of the trainer: the stored model, the mode of the model, build_matern_kernel *)

From Coq Require Import ZArith String List.
From mathcomp Require Import all_ssreflect all_algebra all_real_closed ssrZ zify.
From Coq Require Import Ring Field.
From Verif Require Import RingTac Py PyFacts ReaderFacts Complex ComplexSpec ComplexFacts ExampleData
  LinAlg Spectral Signal SignalSpec Bridge Compute Eigen EigenSpec IntEigen EigenFacts FilterSpec Gp GpSpec GpFacts
  Props_Eigen Props_Gp.

Set Implicit Arguments.
Unset Strict Implicit.
Unset Printing Implicit Defensive.

Import GRing.Theory Num.Theory Order.Theory.
Local Open Scope ring_scope.
Delimit Scope Z_scope with zz.

(** ** Sequences of calls *)

Section Trainer.
Variable R : rcfType.
Variable pow : R -> R -> R.
Variable softplus : R -> R.
Variable eigsh : forall n, 'M[R]_n -> seq (R * 'cV[R]_n).
Variable sc : SC.

Local Notation call1 := (tcall1 pow softplus eigsh sc).
Local Notation calls := (tcalls pow softplus eigsh sc).

(** No call of train in the list [l] with results [rs] was completed. *)
Definition no_training_completed (l : seq (tcall R)) (rs : seq (res (tvalue R))) : Prop :=
  forall n i it st v, List.nth_error l n = Some (CTrain i it st) -> List.nth_error rs n <> Some (Ok v).

(** Optimisation steps do not change the mode of the model. *)
Definition keeps_mode (st : nat -> gpmodel R -> res (gpmodel R)) : Prop :=
  forall n m m', st n m = Ok m' -> m_training m' = m_training m.
Definition steps_keep_mode (l : seq (tcall R)) : Prop :=
  forall i it st, List.In (CTrain i it st) l -> keeps_mode st.

Lemma nth_error_nth (A : Type) (d : A) (l : seq A) n :
  List.nth_error l n = if (n < size l)%N then Some (nth d l n) else None.
Proof. by elim: l n => [|a l IH] [|n] //=; rewrite IH. Qed.

Lemma nth_error_set (A : Type) (l : seq A) i (m : A) j : (i < size l)%N ->
  List.nth_error (set_nth m l i m) j = if j == i then Some m else List.nth_error l j.
Proof.
move=> h; rewrite !(nth_error_nth m) size_set_nth nth_set_nth /=.
have -> : maxn i.+1 (size l) = size l by apply/maxn_idPr.
by case: eqP => [->|//]; rewrite h.
Qed.

Lemma some_lt (A : Type) (l : seq A) i (m : A) : List.nth_error l i = Some m -> (i < size l)%N.
Proof. by rewrite (nth_error_nth m); case: ifP. Qed.

(** What a run of the loop can do. *)
Lemma loopP st i todo done (w : tworld R) w' r : train_loop st i w todo done = (w', r) ->
  tw_model w' = tw_model w /\ size (tw_models w') = size (tw_models w) /\
  (forall j, j <> i -> List.nth_error (tw_models w') j = List.nth_error (tw_models w) j).
Proof.
elim: todo done w => [|k IH] done w /=; first by case=> <- _.
case em: (List.nth_error _ i) => [m|]; last by case=> <- _.
case es: (st done m) => [m'|e]; last by case=> <- _.
move=> /IH /= [-> [-> h]].
have hi := some_lt em.
rewrite size_set_nth; split=> //; split; first by apply/maxn_idPr.
move=> j ji; rewrite h // nth_error_set //; by case: eqP.
Qed.

Lemma loop_mode st i b todo done (w : tworld R) w' r : keeps_mode st -> train_loop st i w todo done = (w', r) ->
  (forall m, List.nth_error (tw_models w) i = Some m -> m_training m = b) ->
  (forall m, List.nth_error (tw_models w') i = Some m -> m_training m = b) /\
  exists k, tw_log w' = tw_log w ++ nseq k (i, b).
Proof.
move=> kp; elim: todo done w => [|k IH] done w /=; first by case=> <- _ h; split; [exact: h|exists 0%N; rewrite cats0].
case em: (List.nth_error _ i) => [m|]; last by case=> <- _ h; split; [move=> m; rewrite em|exists 0%N; rewrite cats0].
case es: (st done m) => [m'|e].
  move=> /IH /= a h; have mb := h _ erefl; have hi := some_lt em.
  case: a => [m1|h1 [n ->]].
    by rewrite nth_error_set // eqxx => -[<-]; rewrite (kp _ _ _ es).
  by split=> //; exists n.+1; rewrite mb cat_rcons.
case=> <- _ h; have mb := h _ erefl; rewrite /= em; split=> //.
by exists 1%N; rewrite mb cats1.
Qed.

Lemma call1_model w c w' r : call1 w c = (w', r) ->
  (size (tw_models w) <= size (tw_models w'))%N /\
  ((exists i it st, c = CTrain i it st /\ r = Ok (VNone R) /\ tw_model w' = Some i) \/
   tw_model w' = tw_model w /\ (forall i it st v, c = CTrain i it st -> r <> Ok v)).
Proof.
case: c => [m|i it st|i o| |] /=.
- by case=> <- <- /=; split; [rewrite size_rcons|right].
- case el: (train_loop _ _ _ _ _) => [w1 [u|e]] [<- <-] /=; case: (loopP el) => a [b _].
    by split; [rewrite b|left; do 3 eexists].
  by split; [rewrite b|right].
- case em: (List.nth_error _ i) => [m|] [<- <-] /=; last by split=> //; right.
  by split; [rewrite size_set_nth leq_maxr|right].
- case e: (tw_model w) => [i|]; last by case=> <- _; rewrite e; split=> //; right.
  by case: (List.nth_error _ i) => [m|] [<- _]; rewrite e; split=> //; right.
- case e: (tw_model w) => [i|]; last by case=> <- _; rewrite e; split=> //; right.
  by case: (List.nth_error _ i) => [m|] [<- _]; rewrite e; split=> //; right.
Qed.

Lemma calls_model l w w' rs : calls w l = (w', rs) ->
  (size (tw_models w) <= size (tw_models w'))%N /\
  (no_training_completed l rs -> tw_model w' = tw_model w).
Proof.
elim: l w w' rs => [|c l IH] w w' rs /=; first by case=> <- _.
case e1: (call1 w c) => [w1 r]; case e2: (calls w1 l) => [w2 rs'] [<- <-].
case: (call1_model e1) => s1 h1; case: (IH _ _ _ e2) => s2 h2; split; first exact: leq_trans s1 s2.
move=> nt; rewrite h2; last by move=> n i it st v a; exact: (nt n.+1 i it st v a).
case: h1 => [[i [it [st [ec [er _]]]]]|[//]].
by case: (nt 0%N i it st (VNone R)) => /=; rewrite ?ec ?er.
Qed.

(** ** C66 *)

(** Until a training has been completed, reading the parameters or building the kernel raises AttributeError (not
    the ValueError the code intends), whatever else is called. *)
Theorem C66_untrained :
  forall ms log l w rs, calls (mkTw ms None log) l = (w, rs) -> no_training_completed l rs ->
  forall n, List.nth_error l n = Some (CParams R) \/ List.nth_error l n = Some (CBuild R) ->
  List.nth_error rs n = Some (Raise AttributeError).
Proof.
move=> ms log l; have : tw_model (mkTw ms None log) = None by [].
move: (mkTw ms None log); elim: l => [|c l IH] w0 m0 w rs /=.
  by case=> _ <- _ [|n] [] //=.
case e1: (call1 w0 c) => [w1 r]; case e2: (calls w1 l) => [w2 rs'] [_ <-] nt.
have nt' : no_training_completed l rs' by move=> n i it st v a; exact: (nt n.+1 i it st v a).
case=> [|n] /=; last first.
  apply: (IH w1 _ _ _ e2 nt' n); case: (call1_model e1) => _ [[i [it [st [ec [er _]]]]]|[-> _]] //.
  by case: (nt 0%N i it st (VNone R)) => /=; rewrite ?ec ?er.
by case=> -[ec]; move: e1; rewrite ec /= m0 => -[_ <-].
Qed.

(** After a completed training of model number i the trainer refers to this model, until another training is completed;
    the results are computed from the hyperparameters the model has when they are asked for. *)
Theorem C66_trained :
  forall w i it st w1 r, (i < size (tw_models w))%N -> call1 w (CTrain i it st) = (w1, Ok r) ->
  forall l w2 rs, calls w1 l = (w2, rs) -> no_training_completed l rs ->
  exists m, List.nth_error (tw_models w2) i = Some m /\
    (call1 w2 (CParams R)).2 = (let! d := model_parameters softplus m in Ok (VParams d)) /\
    (call1 w2 (CBuild R)).2 = (let! K := matern_matrix pow softplus eigsh sc m in Ok (VKernel K)).
Proof.
move=> w i it st w1 r hi e1 l w2 rs e2 nt.
have [s1 h1] := call1_model e1; have [s2 h2] := calls_model e2.
have e : tw_model w2 = Some i.
  rewrite h2 //; case: h1 => [[j [it' [st' [[-> _ _] [_ ->]]]]] //|[_ /(_ i it st r erefl) //]].
have hi2 : (i < size (tw_models w2))%N := leq_trans hi (leq_trans s1 s2).
case em: (List.nth_error (tw_models w2) i) => [m|]; last first.
  by case: (tw_models w2) hi2 em => // a l' hi2; rewrite (nth_error_nth a) hi2.
by exists m; rewrite /= e em.
Qed.

(** For the two Matern classes all hyperparameters, the noise and the scale are read, under the name "raw_..." but with
    the value after the constraint; for the other classes the call raises AttributeError. *)
Theorem C66_parameters :
  (forall m v, reads softplus (m_kernel m) v ->
   k_type (m_kernel m) = Matern \/ k_type (m_kernel m) = MaternNonHC ->
   exists d, model_parameters softplus m = Ok d /\ size d = 11%N /\
     (forall s, List.In s (param_names (k_type (m_kernel m))) ->
        dget String.eqb d (String.append "raw_" s) = Ok (v s)) /\
     dget String.eqb d "raw_noise"%string = Ok (m_noise m) /\
     dget String.eqb d "raw_outputscale"%string = Ok (softplus (m_raw_scale m))) /\
  (forall m, dkeys (k_raw (m_kernel m)) = param_names (k_type (m_kernel m)) ->
   k_type (m_kernel m) <> Matern -> k_type (m_kernel m) <> MaternNonHC ->
   model_parameters softplus m = Raise AttributeError /\
   matern_matrix pow softplus eigsh sc m = Raise AttributeError).
Proof.
split=> [m v r T|m D n1 n2].
  have N : param_names (k_type (m_kernel m)) = param_names Matern by case: T => ->.
  rewrite /model_parameters !r ?N /=; try tauto.
  eexists; split; first by reflexivity.
  split; first by [].
  split; last by [].
  by move=> s /=; do ?[case=> [<-|]].
have ab : forall s, ~ List.In s (param_names (k_type (m_kernel m))) -> get_param softplus (m_kernel m) s = Raise AttributeError.
  by move=> s h; rewrite /get_param dget_not_in // D.
suff e : model_parameters softplus m = Raise AttributeError by rewrite /matern_matrix e.
rewrite /model_parameters.
case T: (k_type (m_kernel m)) n1 n2 => // _ _.
- by rewrite ab // T /=; intuition congruence.
- by rewrite ab // T /=; intuition congruence.
case em: (get_param softplus (m_kernel m) "mu") => [mu|e] /=.
  by rewrite ab // T /=; intuition congruence.
by move: em; rewrite /get_param; case: (dget String.eqb _ _) => // a [->].
Qed.

(** ** C78: the mode of the model *)

Lemma calls_mode i b l w w' rs : calls w l = (w', rs) -> steps_keep_mode l ->
  (b = true -> forall o, ~ List.In (CPredict R i o) l) -> (i < size (tw_models w))%N ->
  (forall m, List.nth_error (tw_models w) i = Some m -> m_training m = b) ->
  (forall m, List.nth_error (tw_models w') i = Some m -> m_training m = b) /\
  exists new, tw_log w' = tw_log w ++ new /\ forall b', (i, b') \in new -> b' = b.
Proof.
elim: l w w' rs => [|c l IH] w w' rs /=.
  by case=> <- _ _ _ _ h; split; [exact: h|exists [::]; rewrite cats0].
case e1: (call1 w c) => [w1 r]; case e2: (calls w1 l) => [w2 rs'] [<- _] kp np hi hm.
have kp' : steps_keep_mode l by move=> j it st h; apply: (kp j it st); right.
have np' : b = true -> forall o, ~ List.In (CPredict R i o) l by move=> hb o h; apply: (np hb o); right.
have [s1 _] := call1_model e1.
have [hm1 [new1 [l1 n1]]] : (forall m, List.nth_error (tw_models w1) i = Some m -> m_training m = b) /\
  exists new, tw_log w1 = tw_log w ++ new /\ forall b', (i, b') \in new -> b' = b.
  have triv : forall w3, tw_models w3 = tw_models w -> tw_log w3 = tw_log w ->
     (forall m, List.nth_error (tw_models w3) i = Some m -> m_training m = b) /\
     exists new, tw_log w3 = tw_log w ++ new /\ forall b', (i, b') \in new -> b' = b.
    by move=> w3 -> ->; split; [exact: hm|exists [::]; rewrite cats0].
  case: c e1 kp np => [m|j it st|j o| |] /= e1 kp np.
  - case: e1 => <- _ /=; split; last by exists [::]; rewrite cats0.
    by move=> m'; rewrite (nth_error_nth m) nth_rcons size_rcons ltnS (ltnW hi) hi => -[<-]; apply: hm; rewrite (nth_error_nth m) hi.
  - case el: (train_loop _ _ _ _ _) e1 => [w3 q] e1.
    have -> : tw_models w1 = tw_models w3 by case: q e1 {el} => [u|e] [<- _].
    have -> : tw_log w1 = tw_log w3 by case: q e1 {el} => [u|e] [<- _].
    have ks : keeps_mode st by apply: (kp j it); left.
    case: (eqVneq j i) => [ji|/eqP ne].
      rewrite ji in el; case: (loop_mode ks el hm) => a [k ->]; split=> //; exists (nseq k (i, b)); split=> //.
      by move=> b' /nseqP[[->]].
    have h3 := proj2 (proj2 (loopP el)) i (nesym ne).
    split; first by move=> m'; rewrite h3; exact: hm.
    have [k [-> al]] : exists new, tw_log w3 = tw_log w ++ new /\ all (fun p => p.1 == j) new.
      clear -el; elim: (Z.to_nat it) 0%N w el => [|k IH] dn w /=; first by case=> <- _; exists [::]; rewrite cats0.
      case: (List.nth_error _ j) => [m|]; last by case=> <- _; exists [::]; rewrite cats0.
      case: (st dn m) => [m'|e]; last by case=> <- _ /=; exists [:: (j, m_training m)]; rewrite cats1 /= eqxx.
      move=> /IH /= [new [-> h]]; exists ((j, m_training m) :: new); by rewrite cat_rcons /= eqxx.
    by exists k; split=> // b' /(allP al) /= /eqP e; case: ne.
  - case: e1; case em: (List.nth_error _ j) => [m|] [<- _] /=; last exact: triv.
    split; last by exists [::]; rewrite cats0.
    have hj := some_lt em.
    move=> m'; rewrite nth_error_set //; case: eqP => [ij|_]; last exact: hm.
    case=> <- /=; case eb: b => //.
    by case: (np eb o); rewrite ij; left.
  - have <- : w = w1 by move: e1; case: (tw_model w) => [k|]; [case: (List.nth_error _ k) => [m|]|]; case.
    exact: triv.
  - have <- : w = w1 by move: e1; case: (tw_model w) => [k|]; [case: (List.nth_error _ k) => [m|]|]; case.
    exact: triv.
case: (IH _ _ _ e2 kp' np' (leq_trans hi s1) hm1) => hm2 [new2 [l2 n2]].
split=> //; exists (new1 ++ new2); rewrite l2 l1 catA; split=> // b'.
by rewrite mem_cat => /orP[/n1|/n2].
Qed.

(** After predict, every later optimisation step on this model is run in evaluation mode, in which the model returns the
    posterior instead of the prior; without predict, in training mode. *)
Theorem C78_mode_after_predict :
  forall w i o w1 r, (i < size (tw_models w))%N -> call1 w (CPredict R i o) = (w1, r) ->
  forall l w2 rs, calls w1 l = (w2, rs) -> steps_keep_mode l ->
  exists new, tw_log w2 = tw_log w1 ++ new /\ forall b, (i, b) \in new -> b = false.
Proof.
move=> w i o w1 r hi e1 l w2 rs e2 kp.
have [s1 _] := call1_model e1.
case: (calls_mode (b := false) (i := i) e2 kp) => //; first exact: leq_trans hi s1.
move=> m; move: e1 => /=; case em: (List.nth_error _ i) => [m'|] [<- _] /=; last by rewrite em.
by rewrite nth_error_set // eqxx => -[<-].
Qed.

Theorem C78_mode_before_predict :
  forall w m w1 r, m_training m = true -> call1 w (CNew m) = (w1, r) ->
  let i := size (tw_models w) in
  forall l w2 rs, calls w1 l = (w2, rs) -> steps_keep_mode l -> (forall o, ~ List.In (CPredict R i o) l) ->
  exists new, tw_log w2 = tw_log w1 ++ new /\ forall b, (i, b) \in new -> b = true.
Proof.
move=> w m w1 r tm [<- _] i l w2 rs e2 kp np.
case: (calls_mode (b := true) (i := i) e2 kp) => //=; first by rewrite size_rcons.
by move=> m'; rewrite (nth_error_nth m) size_rcons ltnSn nth_rcons ltnn eqxx => -[<-].
Qed.

(** A training that completes runs exactly the given number of steps (none if that is negative), numbered from 0, each on
    the result of the one before, and touches no other model. *)
Lemma loop_steps st i w n d w' m : List.nth_error (tw_models w) i = Some m -> train_loop st i w n d = (w', Ok tt) ->
  exists t : seq (gpmodel R), [/\ size t = n, (forall j, (j < n)%N -> st (d + j)%N (nth m (m :: t) j) = Ok (nth m t j)),
    List.nth_error (tw_models w') i = Some (last m t) & tw_log w' = tw_log w ++ [seq (i, m_training x) | x <- belast m t]].
Proof.
elim: n d w m => [|n IH] d w m em /=; first by case=> <-; exists [::]; split; rewrite ?cats0.
rewrite em; case es: (st d m) => [m1|//] /IH /= h.
have {}h := h m1; case: h => [|t [st' ht hl hg]]; first by rewrite nth_error_set ?eqxx //; exact: some_lt em.
exists (m1 :: t); split=> //=; [by rewrite st' | | by rewrite hg cat_rcons].
move=> [|j] hj; first by rewrite addn0.
have hj' : (j < n)%N by [].
have e1 : nth m (m1 :: t) j = nth m1 (m1 :: t) j by apply: set_nth_default; rewrite /= st' ltnW.
have e2 : nth m t j = nth m1 t j by apply: set_nth_default; rewrite st'.
by rewrite addnS -addSn /= -/(nth m (m1 :: t) j) e1 e2 ht.
Qed.

Theorem C78_steps :
  forall w i it st w1 r m, List.nth_error (tw_models w) i = Some m -> call1 w (CTrain i it st) = (w1, Ok r) ->
  exists t : seq (gpmodel R), size t = Z.to_nat it /\
    (forall j, (j < Z.to_nat it)%N -> st j (nth m (m :: t) j) = Ok (nth m t j)) /\
    List.nth_error (tw_models w1) i = Some (last m t) /\
    (forall k, k <> i -> List.nth_error (tw_models w1) k = List.nth_error (tw_models w) k) /\
    tw_log w1 = tw_log w ++ [seq (i, m_training x) | x <- belast m t].
Proof.
move=> w i it st w1 r m em /=; case el: (train_loop _ _ _ _ _) => [w3 [[]|e]] // [<- _] /=.
have [t [h1 h2 h3 h4]] := loop_steps em el.
by exists t; do 3!split=> //; split=> // k hk; apply: (proj2 (proj2 (loopP el))).
Qed.

End Trainer.
Print Assumptions C78_steps.
Print Assumptions C66_untrained.
Print Assumptions C66_trained.
Print Assumptions C66_parameters.
Print Assumptions C78_mode_after_predict.
Print Assumptions C78_mode_before_predict.

(** Training does not always run in training mode: train, predict, train. *)
Theorem C78_training_mode_refuted :
  exists (R : rcfType) (m : gpmodel R) (st : nat -> gpmodel R -> res (gpmodel R)),
  m_training m = true /\ keeps_mode st /\
  forall pow softplus eigsh sc, exists w rs,
    tcalls pow softplus eigsh sc (mkTw [::] None [::])
      [:: CNew m; CTrain 0 1 st; CPredict R 0 (Ok tt); CTrain 0 1 st] = (w, rs) /\
    rs = nseq 4 (Ok (VNone R)) /\ tw_log w = [:: (0%N, true); (0%N, false)].
Proof.
exists realalg_rcfType, (new_model (kernel_ex _ Matern) 1 None), (fun _ m => Ok m).
split=> //; split; first by move=> n m m' [->].
by move=> pow softplus eigsh sc; do 2 eexists; split; first by reflexivity.
Qed.
Print Assumptions C78_training_mode_refuted.

(** Three steps and, for a negative number, none; the noise is raised by one in every step. *)
Example C78_steps_example :
  let R := realalg_rcfType in
  let st := fun (_ : nat) (m : gpmodel R) =>
    Ok (mkModel (m_kernel m) (m_constant m) (m_raw_scale m) (m_noise m + 1) (m_training m)) in
  forall pow softplus eigsh sc, exists w m,
    tcalls pow softplus eigsh sc (mkTw [::] None [::])
      [:: CNew (new_model (kernel_ex _ Matern) 1 None); CTrain 0 3%zz st; CTrain 0 (-2)%zz st] = (w, nseq 3 (Ok (VNone R))) /\
    tw_log w = nseq 3 (0%N, true) /\ tw_models w = [:: m] /\ m_noise m = 1 + 1 + 1 + 1.
Proof. by move=> R st pow softplus eigsh sc; do 2 eexists; split; first by reflexivity. Qed.

(** A model that is trained twice before and twice after a prediction. *)
Example C78_example : let m := new_model (kernel_ex realalg_rcfType Matern) 1 None in
  let st := fun (_ : nat) (m : gpmodel realalg_rcfType) => Ok m in
  m_training m = true /\ steps_keep_mode [:: CTrain 0 2 st; CPredict _ 0 (Ok tt); CTrain 0 2 st] /\
  forall pow eigsh sc, exists w rs,
    tcalls pow (@grow realalg_rcfType) eigsh sc (mkTw [::] None [::])
      [:: CNew m; CTrain 0 2 st; CPredict _ 0 (Ok tt); CTrain 0 2 st] = (w, rs) /\
    tw_log w = [:: (0%N, true); (0%N, true); (0%N, false); (0%N, false)].
Proof.
split=> //; split; last by move=> pow eigsh sc; do 2 eexists; split; first by reflexivity.
by move=> i n st' /= [[_ _ <-]|[//|[[_ _ <-]|//]]] => k m m' [->].
Qed.

(** ** C79: matrices, eigenpairs and prior mean *)

Lemma zsum_big n (f : nat -> Z) : zsum n f = \sum_(i < n) f i.
Proof. by elim: n => [|n IH]; rewrite ?big_ord0 // big_ord_recr /= IH. Qed.

(** The matrices handed to the kernels: dense incidence matrices and the three Laplacians computed from them. *)
Theorem C79_trainer_matrices :
  forall nodes E T nf ef sc, make_sc nodes E T nf ef = Ok sc ->
  exists B1 B2 L Ll Lu,
    get_incidence_matrices sc = Ok [:: Dense B1; Dense B2] /\ get_laplacians sc = Ok [:: Dense L; Dense Ll; Dense Lu] /\
    incidence_matrix sc 1 = Ok (Csr B1) /\ incidence_matrix sc 2 = Ok (Csr B2) /\
    (sh0 B1 = length nodes /\ sh1 B1 = length E /\ sh0 B2 = length E /\ sh1 B2 = length T) /\
    (sh0 L = length E /\ sh1 L = length E /\ sh0 Ll = length E /\ sh1 Ll = length E /\ sh0 Lu = length E /\ sh1 Lu = length E) /\
    forall j k, at2 Ll j k = \sum_(i < length nodes) at2 B1 i j * at2 B1 i k /\
      at2 Lu j k = \sum_(t < length T) at2 B2 j t * at2 B2 k t /\ at2 L j k = at2 Ll j k + at2 Lu j k.
Proof.
move=> nodes E T nf ef sc H.
have [a0 [a1 _]] := sc_B1_spec _ _ _ _ _ _ H; have [b0 [b1 _]] := sc_B2_spec _ _ _ _ _ _ H.
do 5 eexists; split; first by reflexivity. split; first by reflexivity. do 2 (split; first by reflexivity).
split=> //; split=> //= j k.
by rewrite !zsum_big a0 b1.
Qed.
Print Assumptions C79_trainer_matrices.

(** The eigenpairs are those of the three components at the given tolerance; the prior mean is 0 for "zero" and the
    learned constant for every other mean function, which starts at 0; its covariance is the scaled kernel. *)
Theorem C79_eigenpairs_and_prior :
  forall (R : rcfType) (exp : R -> R) (pow : R -> R -> R) (softplus : R -> R) (eigsh : forall n, 'M[R]_n -> seq (R * 'cV[R]_n)) sc,
  (forall t hp gp cp, get_eigenpairs eigsh sc t = Ok (hp, gp, cp) <->
     get_component_eigenpair eigsh sc "harmonic" t = Ok hp /\ get_component_eigenpair eigsh sc "gradient" t = Ok gp /\
     get_component_eigenpair eigsh sc "curl" t = Ok cp) /\
  (forall m x mean K, model_forward exp pow softplus m x = Ok (mean, K) ->
     size mean = size x /\ (forall i, (i < size x)%N -> mean`_i = if m_constant m is Some c then c else 0) /\
     exists K0, forward exp pow softplus (m_kernel m) x (Some x) false = Ok (Mat K0) /\ size K = size K0 /\
       forall i j, (nth [::] K i)`_j = softplus (m_raw_scale m) * (nth [::] K0 i)`_j) /\
  (forall (k : kernel R) noise f, let m := new_model k noise f in
     m_kernel m = k /\ m_noise m = noise /\ m_training m = true /\
     (m_constant m = None <-> f = Some "zero"%string) /\ (m_constant m <> None -> m_constant m = Some 0)).
Proof.
move=> R exp pow softplus eigsh sc; split; [|split].
- move=> t hp gp cp; rewrite /get_eigenpairs.
  case: (get_component_eigenpair eigsh sc "harmonic" t) => [a|e] /=; last by split=> // -[].
  case: (get_component_eigenpair eigsh sc "gradient" t) => [b|e] /=; last by split=> // -[_ []].
  case: (get_component_eigenpair eigsh sc "curl" t) => [c|e] /=; last by split=> // -[_ [_]].
  by split=> [[-> -> ->]|[[->] [[->] [->]]]].
- move=> m x mean K; rewrite /model_forward; case: (forward _ _ _ _ _ _ _) => [[K0|d]|e] //= [<- <-].
  rewrite size_nseq; split=> //; split; first by move=> i hi; rewrite nth_nseq hi; case: (m_constant m).
  exists K0; rewrite size_map; split=> //; split=> // i j.
  case: (ltnP i (size K0)) => hi; last first.
    by rewrite !nth_default ?size_map //= ?nth_nil ?mulr0 // nth_default.
  rewrite (nth_map [::]) //.
  case: (ltnP j (size (nth [::] K0 i))) => hj; first by rewrite (nth_map 0).
  rewrite (@nth_default _ 0 [seq _ | y <- nth [::] K0 i]) ?size_map //.
  by rewrite (@nth_default _ 0 (nth [::] K0 i)) // mulr0.
- move=> k noise [f|] //=; do 3 (split=> //).
  case: String.eqb_spec => [->|ne] /=; first by split.
  by split=> //; split=> // -[].
Qed.
Print Assumptions C79_eigenpairs_and_prior.

Example C79_example : exists sc, make_sc tri_nodes tri_edges tri_triangles nil nil = Ok sc /\
  exists L, get_laplacians sc = Ok L /\ size L = 3%N.
Proof. by exists tri_sc; split; [exact: tri_ok|eexists; split; first by reflexivity]. Qed.

(** Reading the parameters before and after a training, and after a prediction. *)
Example C66_example : let m := new_model (kernel_ex realalg_rcfType Matern) 1 None in
  let st := fun (_ : nat) (m : gpmodel realalg_rcfType) => Ok m in
  keeps_mode st /\ reads (@grow realalg_rcfType) (m_kernel m) (fun _ => 1) /\
  forall pow eigsh sc, exists w d,
    tcalls pow (@grow realalg_rcfType) eigsh sc (mkTw [::] None [::])
      [:: CNew m; CParams _; CTrain 0 2 st; CParams _; CTrain 7 1 st] =
      (w, [:: Ok (VNone _); Raise AttributeError; Ok (VNone _); Ok (VParams d); Raise AttributeError]) /\
    dget String.eqb d "raw_mu_up"%string = Ok 1 /\ tw_log w = [:: (0%N, true); (0%N, true)].
Proof.
have g0 : @grow realalg_rcfType 0 = 1 by rewrite /grow lexx addr0.
split; first by move=> n m m' [->].
split.
  move=> s h; rewrite -g0; exact: (proj1 (proj1 (C77_hyperparameters (@grow_contract realalg_rcfType)) Matern 2%N [::] _ _)).
move=> pow eigsh sc; do 2 eexists; split; first by reflexivity.
by split; [rewrite -g0|].
Qed.
