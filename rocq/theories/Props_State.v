(** * C37-C39, C75: general filters, the history attribute and the history plots *)

From Coq Require Import ZArith String List.
From mathcomp Require Import all_ssreflect all_algebra ssrZ zify.
From Verif Require Import Py PyFacts ExampleData Complex ComplexSpec ComplexFacts LinAlg Spectral Signal
  SignalSpec Bridge SignalFacts Compute Props_Signal Props_Hodge Eigen EigenSpec EigenFacts
  Props_Eigen Filter FilterSpec FilterFacts FilterFacts2 PolyFacts Props_Masks Props_LowPass Props_Poly
  Props_Exact Props_Power FilterState.

Set Implicit Arguments.
Unset Strict Implicit.
Unset Printing Implicit Defensive.

Import GRing.Theory Num.Theory Order.Theory.
Local Open Scope ring_scope.

(** ** Specification vocabulary *)
Section Spec.
Variable R : rcfType.

(** The entry [k] of the dictionary at address [a] / of the current history. *)
Definition entry (s : fobj R) (a : nat) (k : string) : res (hval R) := dget String.eqb (dict_at s a) k.
Definition history (s : fobj R) (k : string) : res (hval R) := entry s (cur s) k.

(** The five entries a completed run leaves in the dictionary at address [a]. *)
Definition holds_run (s : fobj R) (a : nat) (r : run R) : Prop :=
  entry s a "filter" = Ok (HArr2 (run_filter r)) /\
  entry s a "f_estimated" = Ok (HArr1 (run_estimated r)) /\
  entry s a "frequency_responses" = Ok (HArr2 (run_responses r)) /\
  entry s a "extracted_component_error" = Ok (HErr (run_errors r)) /\
  entry s a "filter_error" = Ok (HArr1 [::]).

Definition holds_cheb (s : fobj R) (a : nat) (r : cheb_run R) : Prop :=
  entry s a "filter" = Ok (HArr3 (cheb_filter r)) /\
  entry s a "f_estimated" = Ok (HArr2 (cheb_estimated r)) /\
  entry s a "frequency_responses" = Ok (HArr2 (cheb_responses r)) /\
  entry s a "extracted_component_error" = Ok (HErr (cheb_errors r)) /\
  entry s a "filter_error" = Ok (HArr1 (cheb_filter_error r)).

(** A part of a flow: an array, or the scalar 0. *)
Definition part_at (p : part R) (i : nat) : R := match p with PZero => 0 | PArr x => x`_i end.
Definition part_size (p : part R) (n : nat) : Prop := match p with PZero => True | PArr x => size x = n end.

(** The three parts add up to the flow. *)
Definition splits (f h : seq R) (c g : part R) : Prop :=
  size h = size f /\ part_size c (size f) /\ part_size g (size f) /\
  forall i, h`_i + part_at c i + part_at g i = f`_i.

(** The part is the estimate of the run [m] if the size is positive, and the scalar 0 otherwise. *)
Definition part_of (L : Z) (m : res (run R)) (p : part R) : Prop :=
  if Z.ltb 0 L then exists r, m = Ok r /\ p = PArr (run_estimated r) else p = PZero R.
End Spec.

(** ** Lemmas *)
Section Lemmas.
Variable R : rcfType.
Implicit Types (s : fobj R) (r : run R).

Lemma dget_dset V (d : dict string V) k v k' :
  dget String.eqb (dset String.eqb d k v) k' = if String.eqb k k' then Ok v else dget String.eqb d k'.
Proof.
elim: d => [|[a b] d IH] //=.
case: (String.eqb_spec a k) => [->|ne] /=; first by case: ifP.
by rewrite IH; case: (String.eqb_spec a k') => // e; case: (String.eqb_spec k k') => // e'; case: ne; rewrite e e'.
Qed.

Lemma dict_set s a f1 f2 f3 f4 f5 : a != cur s ->
  dict_at (set_history f1 f2 f3 f4 f5 s) a = dict_at s a.
Proof. by move=> ne; rewrite /dict_at /= nth_set_nth /= (negbTE ne). Qed.

Lemma dict_set_cur s f1 f2 f3 f4 f5 (t := set_history f1 f2 f3 f4 f5 s) :
  dict_at t (cur s) =
  (dset String.eqb (dset String.eqb (dset String.eqb (dset String.eqb (dset String.eqb
    (dict_at s (cur s)) "filter" f1) "f_estimated" f2) "frequency_responses" f3)
    "extracted_component_error" f4) "filter_error" f5)%string.
Proof. by rewrite /t /dict_at /= nth_set_nth /= eqxx. Qed.

Lemma entry_set s f1 f2 f3 f4 f5 (t := set_history f1 f2 f3 f4 f5 s) :
  entry t (cur s) "filter" = Ok f1 /\ entry t (cur s) "f_estimated" = Ok f2 /\
  entry t (cur s) "frequency_responses" = Ok f3 /\ entry t (cur s) "extracted_component_error" = Ok f4 /\
  entry t (cur s) "filter_error" = Ok f5.
Proof. by rewrite /entry dict_set_cur !dget_dset. Qed.

Lemma assign_old d s a : (a < size (heap s))%N -> dict_at (assign_history d s) a = dict_at s a.
Proof. by move=> h; rewrite /dict_at /= nth_rcons h. Qed.
Lemma assign_new d s : dict_at (assign_history d s) (size (heap s)) = d.
Proof. by rewrite /dict_at /= nth_rcons ltnn eqxx. Qed.

Lemma reset_old s a : (a < size (heap s))%N -> dict_at (reset_history s) a = dict_at s a.
Proof. exact: assign_old. Qed.
Lemma dict_finish s a r : a != cur s -> dict_at (finish (Ok r) s).1 a = dict_at s a.
Proof. exact: dict_set. Qed.

Lemma size_reset s : size (heap (reset_history s)) = (size (heap s)).+1.
Proof. by rewrite /= size_rcons. Qed.
Lemma size_finish s r : (cur s < size (heap s))%N -> size (heap (finish (Ok r) s).1) = size (heap s).
Proof. by move=> h; rewrite /= size_set_nth; apply/maxn_idPr. Qed.
Lemma cur_reset s : cur (reset_history s) = size (heap s). Proof. by []. Qed.

Lemma collect_size n (f : seq R) (steps : seq ('M[R]_n * seq R * seq R * fl R)) r :
  (forall x, List.In x steps -> size x.1.1.2 = size f) -> collect steps = Ok r ->
  size (run_estimated r) = size f.
Proof.
case: steps => // x xs h; rewrite /collect.
have : List.In (last x xs) (x :: xs).
  by elim: xs x {h} => [|y ys IH] x /=; [left|right; exact: IH].
by move/h; case: (last x xs) => [[[H e] u] w] /= se [<-].
Qed.

Lemma Forall2_In A B (P : A -> B -> Prop) l l' y : List.Forall2 P l l' -> List.In y l' -> exists x, P x y.
Proof. by elim=> // a b la lb pab _ IH /= [<-|/IH //]; exists a. Qed.

Lemma apply_size lstsq P U f t ev al L r : apply_filter lstsq P U f t ev al L = Ok r ->
  size (run_estimated r) = size f.
Proof.
rewrite /apply_filter; case: ifP => // _ /bind_Ok[steps [/mapM_Ok F]]; apply: collect_size => x /(Forall2_In F)[l].
rewrite /filter_step => /bind_Ok[h [_]] /bind_Ok[e []]; rewrite /mat_dot; case: eqP => // sf [<-].
by move=> /bind_Ok[w [_ [<-]]] /=; rewrite size_unvec.
Qed.

Lemma ls_two_size eigsh lstsq rint sc (f : seq R) c L tol r :
  ls_type_two eigsh lstsq rint sc f c L tol = Ok r -> size (run_estimated r) = size f.
Proof.
move=> /bind_Ok[A [_]] /bind_Ok[B [_]] /bind_Ok[U [_]] /bind_Ok[t [_]]; exact: apply_size.
Qed.

Lemma grid_size eigsh lstsq rint expf sc (f : seq R) c p L num mu cut steep r :
  grid_extraction eigsh lstsq rint expf sc f c p L num mu cut steep = Ok r -> size (run_estimated r) = size f.
Proof.
move=> /bind_Ok[A [_]] /bind_Ok[B [_]] /bind_Ok[U [_]] /bind_Ok[[g xs] [_]] /bind_Ok[t [_]]; exact: apply_size.
Qed.

Lemma np_sub_at n (f g : seq R) : size f = n -> size g = n ->
  exists d, np_sub f g = Ok d /\ size d = n /\ forall i, d`_i = f`_i - g`_i.
Proof.
move=> /seq_vec[u ->] /seq_vec[v ->].
exists (unvec (u - v)); rewrite np_sub_unvec size_unvec; split=> //; split=> // i.
case: (ltnP i n) => h; last by rewrite !nth_default ?size_unvec // subr0.
by rewrite -[i]/(val (Ordinal h)) !nth_unvec !mxE.
Qed.

(** What one block of general_filter does. *)
Lemma block_spec (m : res (run R)) (pre : fobj R -> fobj R) L s :
  general_block (fun s => finish m (pre s)) L s =
  if Z.ltb 0 L then
    match m with
    | Ok r => ((finish (Ok r) (pre s)).1, Ok (PArr (run_estimated r), HDict R (cur (pre s))))
    | Raise e => (pre s, Raise e)
    end
  else (s, Ok (PZero R, HNone R)).
Proof.
rewrite /general_block; case: ifP => // _; case: m => //= r.
have [_ [+ _]] := entry_set (pre s) (HArr2 (run_filter r)) (HArr1 (run_estimated r))
  (HArr2 (run_responses r)) (HErr (run_errors r)) (HArr1 [::]).
by rewrite /entry /read_estimate => ->.
Qed.

Lemma holds_finish r s : holds_run (finish (Ok r) s).1 (cur s) r.
Proof. exact: entry_set. Qed.

Lemma sub_part_at (f : seq R) p n : size f = n -> part_size p n ->
  exists d, sub_part f p = Ok d /\ size d = n /\ forall i, d`_i = f`_i - part_at p i.
Proof.
move=> sf; case: p => [|x] /= sx; first by exists f; split=> //; split=> // i; rewrite subr0.
by exact: np_sub_at.
Qed.

Section General.
Variables (mg mc : res (run R)) (pg pc : fobj R -> fobj R).
Variables (f : seq R) (L1 L2 : Z).
Hypothesis sg : forall r, mg = Ok r -> size (run_estimated r) = size f.
Hypothesis sc : forall r, mc = Ok r -> size (run_estimated r) = size f.
Local Notation body := (general_body (fun s => finish mg (pg s)) (fun s => finish mc (pc s)) f L1 L2).

Lemma body_inv s s' h c g : body s = (s', Ok (h, c, g)) ->
  part_of L1 mg g /\ part_of L2 mc c /\ splits f h c g.
Proof.
rewrite /general_body block_spec /part_of.
have fin (G C : part R) (t : fobj R) d1 d2 : part_size G (size f) -> part_size C (size f) ->
  (match (let! d := sub_part f G in sub_part d C) with
   | Raise e => (t, Raise e)
   | Ok h0 => (assign_history [:: ("L1"%string, d1); ("L2"%string, d2)] t, Ok (h0, C, G))
   end) = (s', Ok (h, c, g)) -> C = c /\ G = g /\ splits f h c g.
  move=> pG pC; have [d [ed [sd hd]]] := sub_part_at (erefl _) pG.
  have [w [ew [sw hw]]] := sub_part_at sd pC; rewrite ed /= ew => -[_ <- <- <-].
  by do 2!split=> //; split=> //; split=> //; split=> // i; rewrite hw hd subrK subrK.
case: ifP => _.
  case: mg sg => [r|e] //= sr; rewrite block_spec; case: ifP => _.
    case: mc sc => [r'|e] //= sr' /fin[||<- [<- sp]]; [exact: sr|exact: sr'|].
    by split; [exists r|split=> //; exists r'].
  by move=> /fin[||<- [<- sp]] //; [exact: sr|split=> //; exists r].
rewrite block_spec; case: ifP => _.
  case: mc sc => [r'|e] //= sr' /fin[||<- [<- sp]] //; first exact: sr'.
  by split=> //; split=> //; exists r'.
by move=> H; have [<- [<- sp]] := fin (PZero R) (PZero R) s (HNone R) (HNone R) I I H.
Qed.

Lemma body_ok s : (Z.ltb 0 L1 -> exists r, mg = Ok r) -> (Z.ltb 0 L2 -> exists r, mc = Ok r) ->
  exists s' h c g, body s = (s', Ok (h, c, g)).
Proof.
move=> hg hc; have [C [eC pC]] : exists t, part_of L2 mc t /\ part_size t (size f).
  rewrite /part_of; case: (Z.ltb 0 L2) hc => hc; last by exists (PZero R).
  by have [r er] := hc isT; exists (PArr (run_estimated r)); split; [exists r|exact: sc].
have [G [eG pG]] : exists t, part_of L1 mg t /\ part_size t (size f).
  rewrite /part_of; case: (Z.ltb 0 L1) hg => hg; last by exists (PZero R).
  by have [r er] := hg isT; exists (PArr (run_estimated r)); split; [exists r|exact: sg].
have [d [ed [sd _]]] := sub_part_at (erefl _) pG; have [w [ew _]] := sub_part_at sd pC.
rewrite /general_body block_spec; move: eG; rewrite /part_of; case: ifP => _.
  move=> [r [-> eg]] /=; rewrite block_spec; move: eC; rewrite /part_of; case: ifP => _.
    by move=> [r' [-> ec]]; move: ed ew; rewrite eg ec /= => -> /= ->; do 4!eexists.
  by move=> ec; move: ed; rewrite eg /= => -> /=; do 4!eexists.
move=> eg; rewrite block_spec; move: eC; rewrite /part_of; case: ifP => _.
  by move=> [r' [-> ec]]; move: ed ew; rewrite eg ec /= => -[<-] ->; do 4!eexists.
by move=> _; do 4!eexists.
Qed.

Lemma body_raise s e : Z.ltb 0 L1 -> mg = Raise e -> (body s).2 = Raise e.
Proof. by move=> l1 eg; rewrite /general_body block_spec l1 eg. Qed.
Lemma body_raise2 s e : (Z.ltb 0 L1 -> exists r, mg = Ok r) -> Z.ltb 0 L2 -> mc = Raise e ->
  (body s).2 = Raise e.
Proof.
move=> hg l2 ec; rewrite /general_body block_spec; case: ifP => [/hg[r ->]|_] /=.
  by rewrite block_spec l2 ec.
by rewrite block_spec l2 ec.
Qed.

Lemma body_state s s' rg rc x : Z.ltb 0 L1 -> Z.ltb 0 L2 -> mg = Ok rg -> mc = Ok rc ->
  body s = (s', Ok x) ->
  let s1 := (finish (Ok rg) (pg s)).1 in let s2 := (finish (Ok rc) (pc s1)).1 in
  s' = assign_history [:: ("L1"%string, HDict R (cur (pg s))); ("L2"%string, HDict R (cur (pc s1)))] s2.
Proof.
move=> l1 l2 eg ec; rewrite /general_body block_spec l1 eg /= block_spec l2 ec /=.
by case: (let! d := _ in _) => // w [<-].
Qed.
End General.
End Lemmas.

(** ** C37 *)

(** What general_filter returns, and that the three parts add up to the flow. *)
Theorem C37_ls_parts :
  forall (R : rcfType) eigsh lstsq rint sc (f : seq R) L1 L2 tol s s' h c g,
  do_ls_general eigsh lstsq rint sc f L1 L2 tol s = (s', Ok (h, c, g)) ->
  part_of L1 (ls_type_two eigsh lstsq rint sc f "gradient" L1 tol) g /\
  part_of L2 (ls_type_two eigsh lstsq rint sc f "curl" L2 tol) c /\ splits f h c g.
Proof.
move=> R eigsh lstsq rint sc f L1 L2 tol s s' h c g.
by apply: body_inv => r; exact: ls_two_size.
Qed.
Print Assumptions C37_ls_parts.

Theorem C37_grid_parts :
  forall (R : rcfType) eigsh lstsq rint expf sc (f : seq R) L1 L2 s s' h c g,
  do_grid_general eigsh lstsq rint expf sc f L1 L2 s = (s', Ok (h, c, g)) ->
  let run s p L := grid_extraction eigsh lstsq rint expf sc f s p L 10 (1 / 2%:R) (1 / 100%:R) 100%:R in
  part_of L1 (run "gradient"%string "L1L"%string L1) g /\
  part_of L2 (run "curl"%string "L1U"%string L2) c /\ splits f h c g.
Proof.
move=> R eigsh lstsq rint expf sc f L1 L2 s s' h c g.
by apply: (@body_inv _ _ _ id id) => r; exact: grid_size.
Qed.
Print Assumptions C37_grid_parts.

(** general_filter completes exactly if the extractions it needs complete; otherwise it raises what
    the first failing one raises. *)
Theorem C37_completes :
  forall (R : rcfType) eigsh lstsq rint expf sc (f : seq R) L1 L2 tol s,
  let two c L := ls_type_two eigsh lstsq rint sc f c L tol in
  let grid c p L := grid_extraction eigsh lstsq rint expf sc f c p L 10 (1 / 2%:R) (1 / 100%:R) 100%:R in
  let check (call : fobj R -> fobj R * res (seq R * part R * part R)) (mg mc : res (run R)) :=
    ((Z.ltb 0 L1 -> exists r, mg = Ok r) -> (Z.ltb 0 L2 -> exists r, mc = Ok r) ->
       exists x, (call s).2 = Ok x) /\
    (forall e, Z.ltb 0 L1 -> mg = Raise e -> (call s).2 = Raise e) /\
    (forall e, (Z.ltb 0 L1 -> exists r, mg = Ok r) -> Z.ltb 0 L2 -> mc = Raise e ->
       (call s).2 = Raise e) in
  check (do_ls_general eigsh lstsq rint sc f L1 L2 tol) (two "gradient"%string L1) (two "curl"%string L2) /\
  check (do_grid_general eigsh lstsq rint expf sc f L1 L2)
    (grid "gradient"%string "L1L"%string L1) (grid "curl"%string "L1U"%string L2).
Proof.
move=> R eigsh lstsq rint expf sc f L1 L2 tol s two grid check.
have gen mg mc (pg pc : fobj R -> fobj R) t :
  (forall r, mg = Ok r -> size (run_estimated r) = size f) ->
  (forall r, mc = Ok r -> size (run_estimated r) = size f) ->
  let call (s : fobj R) := general_body (fun s => finish mg (pg s)) (fun s => finish mc (pc s)) f L1 L2 t in
  check call mg mc.
  move=> sg sc' call; split.
    by move=> hg hc; have [s' [h [c [g e]]]] := body_ok pg pc sg sc' t hg hc; exists (h, c, g); rewrite /call e.
  by split=> e; [exact: body_raise|exact: body_raise2].
split.
  by apply: gen => r; exact: ls_two_size.
by apply: (gen _ _ id id) => r; exact: grid_size.
Qed.
Print Assumptions C37_completes.

(** If each Laplacian has eigenvalue 0 and at most as many eigenvalues as the filter has coefficients,
    the three parts are the Hodge components of the flow. *)
Theorem C37_ls_exact :
  forall (R : rcfType) eigsh lstsq rint, eigsh_contract eigsh -> lstsq_min_contract lstsq ->
  forall nodes E T nf ef sc, make_sc nodes E T nf ef = Ok sc -> (0 < length E)%N ->
  forall A B, get_p_matrix sc "L1L" = Ok (Csr A) -> get_p_matrix sc "L1U" = Ok (Csr B) ->
  forall L1 L2 tol, Z.lt Z0 L1 -> Z.lt Z0 L2 -> (2%:R ^+ 52)^-1 <= tol ->
  below_positive_spectrum A tol -> below_positive_spectrum B tol ->
  eigenvalue_of A (0 : R) -> eigenvalue_of B (0 : R) ->
  eigenvalues_at_most R A (Z.to_nat L1) -> eigenvalues_at_most R B (Z.to_nat L2) ->
  forall (f : seq R) s, size f = length E ->
  exists s' h c g, do_ls_general eigsh lstsq rint sc f L1 L2 tol s = (s', Ok (h, PArr c, PArr g)) /\
    get_component_flow lstsq rint sc f "gradient" false 2 = Ok g /\
    get_component_flow lstsq rint sc f "curl" false 2 = Ok c /\
    get_component_flow lstsq rint sc f "harmonic" false 2 = Ok h.
Proof.
move=> R eigsh lstsq rint EC LC nodes E T nf ef sc H M0 A B pA pB L1 L2 tol L10 L20 et bA bB zA zB mA mB f s sf.
have tg : type_two_laplacian "gradient" "L1L" by left.
have tc : type_two_laplacian "curl" "L1U" by right.
have [rg [eg [fg _]]] := C36_type_two_exact rint EC LC H M0 tg pA L10 et bA zA mA sf.
have [rc [ec [fc _]]] := C36_type_two_exact rint EC LC H M0 tc pB L20 et bB zB mB sf.
have [[ok _] _] := C37_completes eigsh lstsq rint id sc f L1 L2 tol s.
have l1 : Z.ltb 0 L1 by apply/Z.ltb_lt. have l2 : Z.ltb 0 L2 by apply/Z.ltb_lt.
have [|_|[[h c] g]] := ok; [by exists rg|by exists rc|].
case e : do_ls_general => [s' x] /= ex; rewrite ex in e.
exists s', h, (run_estimated rc), (run_estimated rg).
have := C37_ls_parts e; rewrite /part_of l1 l2 eg ec => -[[r1 [[<-] eg']] [[r2 [[<-] ec']] sp]].
rewrite ex eg' ec'; split=> //; split=> //; split=> //.
move: e; rewrite /do_ls_general /general_body block_spec l1 eg /= block_spec l2 ec /=.
move: fg fc; rewrite /get_component_flow /= /get_harmonic_flow => -> -> /=.
by case: (np_sub f (run_estimated rg)) => // d /=; case: (np_sub d _) => // w /= [_ ->].
Qed.
Print Assumptions C37_ls_exact.

(** ** C38 *)

(** LS: the two runs are in two different new dictionaries; no older dictionary is touched. *)
Theorem C38_ls_keeps_both_runs :
  forall (R : rcfType) eigsh lstsq rint sc (f : seq R) L1 L2 tol s s' x,
  Z.lt Z0 L1 -> Z.lt Z0 L2 -> do_ls_general eigsh lstsq rint sc f L1 L2 tol s = (s', Ok x) ->
  exists a b rg rc, a <> b /\
    dict_at s' (cur s') = [:: ("L1"%string, HDict R a); ("L2"%string, HDict R b)] /\
    ls_type_two eigsh lstsq rint sc f "gradient" L1 tol = Ok rg /\ holds_run s' a rg /\
    ls_type_two eigsh lstsq rint sc f "curl" L2 tol = Ok rc /\ holds_run s' b rc /\
    forall i, (i < size (heap s))%N -> dict_at s' i = dict_at s i.
Proof.
move=> R eigsh lstsq rint sc f L1 L2 tol s s' [[h c] g] /Z.ltb_lt l1 /Z.ltb_lt l2 e.
have := C37_ls_parts e; rewrite /part_of l1 l2 => -[[rg [eg _]] [[rc [ec _]] _]].
have := body_state l1 l2 eg ec e; cbv zeta.
set s1 := (finish _ _).1; set s2 := (finish _ _).1 => ->.
have sz1 : size (heap s1) = (size (heap s)).+2.
  by rewrite /s1 size_finish !size_reset // cur_reset size_reset.
have c2 : cur (reset_history s1) = (size (heap s)).+2 by rewrite -sz1.
have sz2 : size (heap s2) = (size (heap s)).+3.
  by rewrite /s2 size_finish !size_reset ?cur_reset sz1.
have c1 : cur (reset_history (reset_history s)) = (size (heap s)).+1 by rewrite /= size_rcons.
exists (size (heap s)).+1, (size (heap s)).+2, rg, rc.
split; first by move/n_Sn.
split; first by rewrite /assign_history assign_new c1 c2.
have d2 i : (i < (size (heap s)).+2)%N -> dict_at s2 i = dict_at s1 i.
  by move=> li; rewrite /s2 dict_finish ?reset_old ?sz1 // c2 ltn_eqF.
split=> //; split.
  have := holds_finish rg (reset_history (reset_history s)); rewrite -/s1 c1 /holds_run /entry.
  by rewrite assign_old ?sz2 // d2.
split=> //; split.
  have := holds_finish rc (reset_history s1); rewrite -/s2 c2 /holds_run /entry.
  by rewrite assign_old ?sz2.
move=> i li; rewrite assign_old ?sz2; last by lia.
rewrite d2; last by lia.
have sr : size (heap (reset_history s)) = (size (heap s)).+1 by rewrite size_rcons.
rewrite /s1 dict_finish; last by rewrite c1; lia.
by rewrite reset_old ?sr ?reset_old //; lia.
Qed.
Print Assumptions C38_ls_keeps_both_runs.

(** Grid: both keys refer to the dictionary that was the history before the call; it holds the curl
    run only. *)
Theorem C38_grid_one_dictionary :
  forall (R : rcfType) eigsh lstsq rint expf sc (f : seq R) L1 L2 s s' x, (cur s < size (heap s))%N ->
  Z.lt Z0 L1 -> Z.lt Z0 L2 -> do_grid_general eigsh lstsq rint expf sc f L1 L2 s = (s', Ok x) ->
  dict_at s' (cur s') = [:: ("L1"%string, HDict R (cur s)); ("L2"%string, HDict R (cur s))] /\
  exists rc, grid_extraction eigsh lstsq rint expf sc f "curl" "L1U" L2 10 (1 / 2%:R) (1 / 100%:R) 100%:R
    = Ok rc /\ holds_run s' (cur s) rc.
Proof.
move=> R eigsh lstsq rint expf sc f L1 L2 s s' [[h c] g] cs /Z.ltb_lt l1 /Z.ltb_lt l2 e.
have := C37_grid_parts e; cbv zeta; rewrite /part_of l1 l2 => -[[rg [eg _]] [[rc [ec _]] _]].
have := @body_state _ _ _ id id f L1 L2 s s' rg rc _ l1 l2 eg ec e; cbv zeta.
set s1 := (finish _ _).1; set s2 := (finish _ _).1 => ->.
have sz1 : size (heap s1) = size (heap s) by rewrite /s1 size_finish.
have sz2 : size (heap s2) = size (heap s) by rewrite /s2 size_finish sz1.
split; first by rewrite assign_new.
exists rc; split=> //; have := holds_finish rc s1; rewrite -/s2 /holds_run /entry.
by rewrite assign_old ?sz2.
Qed.
Print Assumptions C38_grid_one_dictionary.

(** ** C39 *)
Section Runs.
Variable R : rcfType.
Variable eigsh : forall n, 'M[R]_n -> seq (R * 'cV[R]_n).
Variable lstsq : forall m n, 'M[R]_(m, n) -> 'cV[R]_m -> 'cV[R]_n.
Variable rint : R -> int.
Variable argsort : seq R -> seq nat.
Variable expf : R -> R.
Variable chebfun : (R -> R) -> R -> R -> Z -> res (seq R).
Variable norm_2 : forall n, 'M[R]_n -> R.

(** The numerical result of a call of one of the single-run methods. *)
Definition run_of (sc : SC) (c : call R) : option (res (run R)) :=
  match c with
  | CEdgeDenoise f t p mus => Some (edge_flow_denoise eigsh sc f t p mus)
  | CLsOne f c L => Some (ls_type_one eigsh lstsq rint argsort sc f c L)
  | CLsTwo f c L tol => Some (ls_type_two eigsh lstsq rint sc f c L tol)
  | CGridDenoise f t p L mu => Some (grid_denoise eigsh lstsq sc f t p L mu)
  | CGridExtract f c p L num mu cut steep =>
      Some (grid_extraction eigsh lstsq rint expf sc f c p L num mu cut steep)
  | _ => None
  end.

(** Calls of LSFilterDesign methods / single runs of the other classes. *)
Definition is_ls (c : call R) : bool :=
  match c with CLsOne _ _ _ | CLsTwo _ _ _ _ | CLsGeneral _ _ _ _ => true | _ => false end.
Definition is_single (c : call R) : bool :=
  match c with CEdgeDenoise _ _ _ _ | CGridDenoise _ _ _ _ _ | CGridExtract _ _ _ _ _ _ _ _
             | CChebApply _ _ _ _ _ _ _ => true | _ => false end.
End Runs.
Arguments is_ls {R} c.
Arguments is_single {R} c.

Definition five_keys : seq string :=
  [:: "filter"; "f_estimated"; "frequency_responses"; "extracted_component_error"; "filter_error"]%string.

Lemma keys_same (R : rcfType) (d : dict string (hval R)) a b c e f :
  dkeys d = five_keys -> dkeys (dset String.eqb (dset String.eqb (dset String.eqb (dset String.eqb
    (dset String.eqb d "filter" a) "f_estimated" b) "frequency_responses" c)
    "extracted_component_error" e) "filter_error" f)%string = five_keys.
Proof.
case: d => [|[k1 v1] [|[k2 v2] [|[k3 v3] [|[k4 v4] [|[k5 v5] [|]]]]]] //=.
by case=> -> -> -> -> ->.
Qed.

(** Whatever was called before (and whatever failed before), a completed run is what the history holds. *)
Theorem C39_history_is_the_last_run :
  forall (R : rcfType) eigsh lstsq rint argsort expf cheb norm_2 sc cs (c : call R) s0,
  let exec_all := exec_all eigsh lstsq rint argsort expf cheb norm_2 sc in
  let exec := exec eigsh lstsq rint argsort expf cheb norm_2 sc in
  let s := exec_all (rcons cs c) s0 in
  (forall m, run_of eigsh lstsq rint argsort expf sc c = Some m ->
     (forall r, m = Ok r -> (exec c (exec_all cs s0)).2 = Ok None /\ holds_run s (cur s) r) /\
     (forall e, m = Raise e -> (exec c (exec_all cs s0)).2 = Raise e)) /\
  (forall f p k L n cut steep, c = CChebApply f p k L n cut steep ->
     (forall r, cheb_apply eigsh lstsq rint argsort expf cheb norm_2 sc f p k L n cut steep = Ok r ->
        (exec c (exec_all cs s0)).2 = Ok None /\ holds_cheb s (cur s) r) /\
     (forall e, cheb_apply eigsh lstsq rint argsort expf cheb norm_2 sc f p k L n cut steep = Raise e ->
        (exec c (exec_all cs s0)).2 = Raise e)).
Proof.
move=> R eigsh lstsq rint argsort expf cheb norm_2 sc cs c s0 ea ex s.
have -> : s = (ex c (ea cs s0)).1 by rewrite /s /ea /exec_all -cats1 foldl_cat.
move: (ea cs s0) => t; split=> [m|f p k L n cut steep ->]; last first.
  split=> [r er|e er]; rewrite /ex /exec /= /do_cheb_apply er //=.
  split=> //; exact: entry_set.
case: c {s} => //= [f ft p mus|f c L|f c L tol|f ft p L mu|f c p L num mu cut steep] [<-];
  split=> [r er|e er]; rewrite /ex /exec /= ?/do_edge_denoise ?/do_ls_one ?/do_ls_two ?/do_grid_denoise
    ?/do_grid_extraction er //=; split=> //; exact: entry_set.
Qed.
Print Assumptions C39_history_is_the_last_run.

(** A rejected component wipes the results of earlier runs; the new history has four empty entries and
    no frequency_responses. *)
Theorem C39_rejected_component_wipes_history :
  forall (R : rcfType) eigsh lstsq rint sc (f : seq R) c L tol s,
  c <> "gradient"%string -> c <> "curl"%string ->
  exists s', do_ls_two eigsh lstsq rint sc f c L tol s = (s', Raise ValueError) /\
    (forall k, List.In k [:: "filter"; "f_estimated"; "extracted_component_error"; "filter_error"]%string ->
       history s' k = Ok (HNone R)) /\
    history s' "frequency_responses" = Raise KeyError.
Proof.
move=> R eigsh lstsq rint sc f c L tol s ng nc; exists (reset_history s).
have e : ls_type_two eigsh lstsq rint sc f c L tol = Raise ValueError.
  by rewrite /ls_type_two; case: String.eqb_spec => //; case: String.eqb_spec.
rewrite /do_ls_two e; split=> //; rewrite /history /entry /reset_history assign_new.
by split=> // k /= [<-|[<-|[<-|[<-|//]]]].
Qed.
Print Assumptions C39_rejected_component_wipes_history.

(** The methods of the other classes leave the object as it was when they fail. *)
Theorem C39_failed_run_changes_nothing :
  forall (R : rcfType) eigsh lstsq rint argsort expf cheb norm_2 sc (c : call R) s s' e, is_single c ->
  exec eigsh lstsq rint argsort expf cheb norm_2 sc c s = (s', Raise e) -> s' = s.
Proof.
move=> R eigsh lstsq rint argsort expf cheb norm_2 sc c s s' e.
have fin m : ((finish m s).1, bind (finish m s).2 (fun _ => Ok None)) =
    (s', Raise e : res (option (seq R * part R * part R))) -> s' = s by case: m => [r|e'] //= [<-].
case: c => //= [f ft p mus|f ft p L mu|f c p L num mu cut steep|f p c L n cut steep] _; try exact: fin.
by rewrite /do_cheb_apply; case: cheb_apply => [r|e'] //= [<-].
Qed.
Print Assumptions C39_failed_run_changes_nothing.

(** Histories of LSFilterDesign that a caller has kept are never changed by later calls. *)
Theorem C39_ls_histories_are_persistent :
  forall (R : rcfType) eigsh lstsq rint argsort expf cheb norm_2 sc (cs : seq (call R)) s, all is_ls cs ->
  forall a, (a < size (heap s))%N ->
  dict_at (exec_all eigsh lstsq rint argsort expf cheb norm_2 sc cs s) a = dict_at s a.
Proof.
move=> R eigsh lstsq rint argsort expf cheb norm_2 sc cs s; pose keeps (s t : fobj R) := 
  (size (heap s) <= size (heap t))%N /\ forall a, (a < size (heap s))%N -> dict_at t a = dict_at s a.
have trans s1 s2 s3 : keeps s1 s2 -> keeps s2 s3 -> keeps s1 s3.
  move=> [l h] [l' h']; split=> [|a la]; first exact: leq_trans l l'.
  by rewrite h' ?h // (leq_trans la).
have refl t : keeps t t by [].
have asg d t : keeps t (assign_history d t).
  by split=> [|a la]; [rewrite size_rcons|rewrite assign_old].
have fin m t : keeps t (finish m (reset_history t)).1.
  case: m => [r|e]; last exact: asg.
  split=> [|a la]; first by rewrite size_finish size_reset.
  by rewrite dict_finish ?reset_old // cur_reset ltn_eqF.
have blk m L t : keeps t (general_block (fun s => finish m (reset_history s)) L t).1.
  rewrite block_spec; case: ifP => // _; case: m => [r|e] //=; [exact: (fin (Ok r))|exact: asg].
have body mg mc f L1 L2 t : keeps t
  (general_body (fun s => finish mg (reset_history s)) (fun s => finish mc (reset_history s)) f L1 L2 t).1.
  rewrite /general_body; have := blk mg L1 t; case: general_block => t1 [[g h1]|e] //= k1.
  have := blk mc L2 t1; case: general_block => t2 [[c h2]|e] /= k2; last exact: trans k2.
  case: (let! d := _ in _) => [h|e] /=; last exact: trans k2.
  by apply: (trans _ t2) => //; exact: trans k2.
have one c t : is_ls c -> keeps t (exec eigsh lstsq rint argsort expf cheb norm_2 sc c t).1.
  case: c => //= [f c L|f c L tol|f L1 L2 tol] _; [exact: fin|exact: fin|].
  have := body (ls_type_two eigsh lstsq rint sc f "gradient" L1 tol) (ls_type_two eigsh lstsq rint sc f "curl" L2 tol)
    f L1 L2 (reset_history t).
  by apply: trans; exact: asg.
suff h : all is_ls cs -> keeps s (exec_all eigsh lstsq rint argsort expf cheb norm_2 sc cs s).
  by move=> al a la; have [_ ->] := h al.
elim: cs s => [|c cs IH] s //= /andP[lc lcs]; by apply: (trans _ _ _ _ (IH _ lcs)); exact: one.
Qed.
Print Assumptions C39_ls_histories_are_persistent.

(** The single-run methods of the other classes always write into one and the same dictionary, whose
    keys are the five original ones. *)
Theorem C39_one_dictionary_for_all_runs :
  forall (R : rcfType) eigsh lstsq rint argsort expf cheb norm_2 sc (cs : seq (call R)), all is_single cs ->
  let s := exec_all eigsh lstsq rint argsort expf cheb norm_2 sc cs (new_filter R) in
  cur s = 0%N /\ size (heap s) = 1%N /\ dkeys (dict_at s 0) = five_keys.
Proof.
move=> R eigsh lstsq rint argsort expf cheb norm_2 sc cs.
pose inv (s : fobj R) := cur s = 0%N /\ size (heap s) = 1%N /\ dkeys (dict_at s 0) = five_keys.
have st f1 f2 f3 f4 f5 s : inv s -> inv (set_history f1 f2 f3 f4 f5 s).
  move=> [c0 [h1 k]]; split=> //=; rewrite size_set_nth c0 h1; split=> //.
  by have := dict_set_cur s f1 f2 f3 f4 f5; cbv zeta; rewrite c0 => ->; exact: keys_same.
have fin m s : inv s -> inv (finish m s).1 by case: m => [r|e] //; exact: st.
have one c s : is_single c -> inv s -> inv (exec eigsh lstsq rint argsort expf cheb norm_2 sc c s).1.
  case: c => //= [f ft p mus|f ft p L mu|f c p L num mu cut steep|f p c L n cut steep] _; try exact: fin.
  by rewrite /do_cheb_apply; case: cheb_apply => [r|e'] //=; exact: st.
rewrite -/(inv _); have : inv (new_filter R) by [].
elim: cs (new_filter R) => [|c cs IH] s //= i0 /andP[lc lcs]; apply: IH => //; exact: one.
Qed.
Print Assumptions C39_one_dictionary_for_all_runs.

(** A completed grid run after a completed general_filter leaves the entries of the latter in the
    history. *)
Theorem C39_grid_stale_entries :
  forall (R : rcfType) eigsh lstsq rint argsort expf cheb norm_2 sc (f : seq R) L1 L2 s s1 x,
  do_grid_general eigsh lstsq rint expf sc f L1 L2 s = (s1, Ok x) ->
  forall cs, all is_single cs ->
  let s2 := exec_all eigsh lstsq rint argsort expf cheb norm_2 sc cs s1 in
  forall k, k = "L1"%string \/ k = "L2"%string -> exists v, history s1 k = Ok v /\ history s2 k = Ok v.
Proof.
move=> R eigsh lstsq rint argsort expf cheb norm_2 sc f L1 L2 s s1 x e cs al s2 k hk.
have [v hv] : exists v, history s1 k = Ok v.
  move: e; rewrite /do_grid_general /general_body; case: general_block => t [[g h1]|e] //=.
  case: general_block => t2 [[c h2]|e] //=; case: (let! d := _ in _) => [h|e] // [<- _].
  by rewrite /history /entry assign_new; case: hk => ->; eexists.
exists v; split=> //; rewrite -hv /s2 {s2 e hv}.
have st f1 f2 f3 f4 f5 t : history (set_history f1 f2 f3 f4 f5 t) k = history t k.
  by rewrite /history /entry /= dict_set_cur !dget_dset; case: hk => ->.
have fin m t : history (finish m t).1 k = history t k by case: m => [r|e] //; exact: st.
elim: cs s1 al => [|c cs IH] t //= /andP[lc lcs]; rewrite IH {IH lcs} //.
case: c lc => //= [f' ft p mus|f' ft p L mu|f' c p L num mu cut steep|f' p c L n cut steep] _; try exact: fin.
by rewrite /do_cheb_apply; case: cheb_apply => [r|e'] //=; exact: st.
Qed.
Print Assumptions C39_grid_stale_entries.
