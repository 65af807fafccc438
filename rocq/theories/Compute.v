(** * Computable versions of the signal operations, used by the examples only *)

From Coq Require Import ZArith String List.
From mathcomp Require Import all_ssreflect all_algebra ssrZ zify.
From Verif Require Import Py PyFacts Complex ComplexSpec ExampleData LinAlg Signal SignalSpec Bridge SignalFacts.

Set Implicit Arguments.
Unset Strict Implicit.
Unset Printing Implicit Defensive.

Import GRing.Theory Num.Theory Order.Theory.
Local Open Scope ring_scope.

Notation Q := [realFieldType of rat].

Lemma sum_iota (R : ringType) n (F : nat -> R) :
  \sum_(j < n) F j = foldr (fun j s => F j + s) 0 (iota 0 n).
Proof.
by rewrite -(big_mkord xpredT) /index_iota subn0 unlock.
Qed.

Section C.
Variable R : realFieldType.
Definition mvC (A : arr2) (x : seq R) : seq R :=
  mkseq (fun i => foldr (fun j s => zmul (at2 A i j) x`_j + s) 0 (iota 0 (sh1 A))) (sh0 A).
Lemma mvCE A x : mv A x = mvC A x.
Proof. by apply: eq_mkseq => i; rewrite -(sum_iota _ (fun j => zmul (at2 A i j) x`_j)). Qed.

Definition qformC (A : arr2) (x : seq R) : R :=
  foldr (fun i s => foldr (fun j s => x`_i * zmul (at2 A i j) x`_j + s) 0 (iota 0 (sh1 A)) + s) 0
    (iota 0 (sh0 A)).
Lemma qformCE A x : qform A x = qformC A x.
Proof.
rewrite /qform /qformC -(sum_iota _ (fun i => foldr (fun j s => x`_i * zmul (at2 A i j) x`_j + s) 0 (iota 0 (sh1 A)))).
by apply: eq_bigr => i _; rewrite -(sum_iota _ (fun j => x`_i * zmul (at2 A i j) x`_j)).
Qed.

Definition dotpC (x y : seq R) : R := foldr (fun i s => x`_i * y`_i + s) 0 (iota 0 (size x)).
Lemma dotpCE x y : dotp x y = dotpC x y.
Proof. by rewrite /dotp (sum_iota _ (fun i => x`_i * y`_i)). Qed.

Lemma arr_dot_mvC A (x : seq R) : size x = sh1 A -> arr_dot A x = Ok (mvC A x).
Proof.
move=> sx; rewrite (arr_dot_Ok (erefl (sh0 A)) (erefl (sh1 A))) // -mvCE.
by rewrite (@mvE _ A (sh0 A) (sh1 A)).
Qed.

Lemma lower_shiftC sc (f : seq R) s : size f = sh1 (sc_B1 sc) ->
  let L := amul (atr (sc_B1 sc)) (sc_B1 sc) in
  apply_lower_shifting sc f s = Ok (if Z.eqb s 1 then mvC L f else mvC L (mvC L f)).
Proof.
move=> sf L; rewrite /apply_lower_shifting /= -/L (@arr_dot_mvC L) //=.
by case: ifP => // _; rewrite arr_dot_mvC // size_mkseq.
Qed.
Lemma upper_shiftC sc (f : seq R) s : size f = sh0 (sc_B2 sc) ->
  let L := amul (sc_B2 sc) (atr (sc_B2 sc)) in
  apply_upper_shifting sc f s = Ok (if Z.eqb s 1 then mvC L f else mvC L (mvC L f)).
Proof.
move=> sf L; rewrite /apply_upper_shifting /= -/L (@arr_dot_mvC L) //=.
by case: ifP => // _; rewrite arr_dot_mvC // size_mkseq.
Qed.
Lemma divergenceC sc (f : seq R) : size f = sh1 (sc_B1 sc) ->
  get_divergence sc f = Ok (mvC (sc_B1 sc) f).
Proof. by move=> sf; rewrite -arr_dot_mvC. Qed.
Lemma curlC sc (f : seq R) : size f = sh0 (sc_B2 sc) ->
  get_curl sc f = Ok (mvC (atr (sc_B2 sc)) f).
Proof. by move=> sf; rewrite -arr_dot_mvC. Qed.
End C.

Lemma Ok_neq (A : eqType) (x y : A) : x != y -> Ok x <> Ok y.
Proof. by move=> /eqP N [E]. Qed.
Lemma Ok_eq (A : eqType) (x y : A) : x == y -> Ok x = Ok y.
Proof. by move=> /eqP ->. Qed.
Lemma neqP (A : eqType) (x y : A) : x != y -> x <> y.
Proof. by move/eqP. Qed.

(** The complexes of ExampleData.v, built. *)
Definition get_sc (r : res SC) : SC :=
  match r with Ok sc => sc | Raise _ => mkSC nil nil nil nil nil (azeros 0 0) (azeros 0 0) end.
Definition tri_sc := get_sc (make_sc tri_nodes tri_edges tri_triangles nil nil).
Definition twisted_sc := get_sc (make_sc tri_nodes twisted_edges tri_triangles nil nil).
Definition paper_sc := get_sc (make_sc paper_nodes paper_edges paper_triangles nil nil).

Lemma tri_ok : make_sc tri_nodes tri_edges tri_triangles nil nil = Ok tri_sc.
Proof. by vm_compute. Qed.
Lemma twisted_ok : make_sc tri_nodes twisted_edges tri_triangles nil nil = Ok twisted_sc.
Proof. by vm_compute. Qed.
Lemma paper_ok : make_sc paper_nodes paper_edges paper_triangles nil nil = Ok paper_sc.
Proof. by vm_compute. Qed.

Ltac inlist H := repeat (destruct H as [H|H]; [injection H; intros; subst; try lia|]); try destruct H.

Lemma paper_proper : proper_edges (length paper_nodes) paper_edges.
Proof. intros u v H; simpl in H. unfold paper_nodes; simpl length. inlist H. Qed.
Lemma paper_simple : simple_edges paper_edges.
Proof.
split.
- unfold paper_edges; repeat constructor; simpl; intuition congruence.
- unfold paper_edges; simpl; intros u v H.
  repeat (destruct H as [H|H]; [injection H; intros <- <-; intuition congruence|]); destruct H.
Qed.
Lemma paper_proper_triangles : proper_triangles paper_triangles.
Proof.
unfold proper_triangles, paper_triangles; simpl; intros a b c H.
repeat (destruct H as [H|H]; [injection H; intros <- <- <-; lia|]); destruct H.
Qed.
Lemma paper_coherent t : List.In t paper_triangles -> coherent paper_edges t.
Proof.
unfold paper_triangles; simpl; intros H.
repeat (destruct H as [<-|H]; [do 3 eexists; split; [reflexivity|]; left; unfold paper_edges; simpl; auto 20|]);
  destruct H.
Qed.
Lemma paper_oriented : oriented (length paper_nodes) paper_edges paper_triangles.
Proof. split; [exact paper_proper|split; [exact paper_proper_triangles|exact paper_coherent]]. Qed.

Lemma tri_proper : proper_edges (length tri_nodes) tri_edges.
Proof. intros u v H; simpl in H. unfold tri_nodes; simpl length. inlist H. Qed.
Lemma twisted_proper : proper_edges (length tri_nodes) twisted_edges.
Proof. intros u v H; simpl in H. unfold tri_nodes; simpl length. inlist H. Qed.

(** ** Concrete oracles *)

(** Rounding of rationals to the nearest integer, ties to even. *)
Definition rint_rat (x : rat) : int :=
  let n := numq x in let d := denq x in
  let q := ((n *+ 2 + d) %/ (d *+ 2))%Z in
  if (q * (d *+ 2) == n *+ 2 + d) && odd `|q|%N then q - 1 else q.

Lemma rint_rat_ok : rint_contract (R := [realFieldType of rat]) rint_rat.
Proof.
move=> x; rewrite /rint_rat; set n := numq x; set d := denq x.
set q := ((n *+ 2 + d) %/ (d *+ 2))%Z.
have d0 : 0 < d := denq_gt0 x.
have d20 : 0 < d *+ 2 by lia.
have lo : q * (d *+ 2) <= n *+ 2 + d by exact: lez_floor (lt0r_neq0 d20).
have hi : n *+ 2 + d < (q + 1) * (d *+ 2) by exact: ltz_ceil.
have dR : (0 : rat) < d%:~R by rewrite ltr0z.
have diff (k : int) : x - k%:~R = (n - d * k)%:~R / d%:~R.
  by rewrite rmorphB /= rmorphM /= mulrBl divq_num_den mulrAC divff ?mul1r // lt0r_neq0.
have absd (k : int) : `|x - k%:~R| = (`|n - d * k|)%:~R / d%:~R.
  by rewrite diff normrM normfV (gtr0_norm dR) -intr_norm.
have le (k : int) : (`|n - d * k|) *+ 2 <= d -> `|x - k%:~R| <= 2%:R^-1.
  move=> H; rewrite absd ler_pdivr_mulr // -(ler_pmul2l (x := 2%:R)) // mulrA divff // mul1r.
  by rewrite -[2%:R]/(2%:~R) -intrM ler_int; lia.
have eq (k : int) : `|x - k%:~R| = 2%:R^-1 -> (`|n - d * k|) *+ 2 = d.
  rewrite absd => /(congr1 (fun t => t * d%:~R * 2%:R)); rewrite divfK ?lt0r_neq0 //.
  rewrite mulrAC mulVf // mul1r -[2%:R]/(2%:~R) -intrM => /eqP; rewrite eqr_int => /eqP; lia.
case: ifP => [/andP [/eqP tie od]|nt].
  split; first by apply: le; nia.
  by move=> _; lia.
split; first by apply: le; nia.
move=> /eq E; apply/negP => od; move: nt; rewrite od andbT => /eqP; apply; nia.
Qed.

Lemma ls_sol_ok (R : realFieldType) : lstsq_contract (@ls_sol R).
Proof. by move=> m n A b x; apply: is_ls_min; exact: ls_solP. Qed.

(** The contract determines the rounding function. *)
Lemma rint_unique (R : realFieldType) (r r' : R -> int) :
  rint_contract r -> rint_contract r' -> r =1 r'.
Proof.
move=> C C' x; have [a at_] := C x; have [b bt] := C' x.
move: (r x) (r' x) a at_ b bt => k l a at_ b bt.
have half : (2%:R^-1 : R) + 2%:R^-1 = 1 by rewrite [RHS](splitr 1) div1r.
have tri (u v : int) : `|u%:~R - v%:~R : R| <= `|x - v%:~R| + `|x - u%:~R|.
  rewrite (_ : u%:~R - v%:~R = (x - v%:~R) - (x - u%:~R)); first exact: ler_norm_sub.
  by rewrite opprB [x - _]addrC addrACA subrr addr0 addrC.
have d : `|k - l| <= 1.
  rewrite -(ler_int R) intr_norm rmorphB -[X in _ <= X]half.
  by apply: le_trans (tri k l) _; apply: ler_add.
case: (k =P l) => // kl.
have one : 2%:R^-1 + 2%:R^-1 <= `|x - l%:~R| + `|x - k%:~R|.
  rewrite half; apply: le_trans (tri k l).
  by rewrite -rmorphB -intr_norm -[1]/(1%:~R) ler_int; lia.
have ta : `|x - k%:~R| = 2%:R^-1.
  apply/le_anti; rewrite a /= -(ler_add2l 2%:R^-1); apply: le_trans one _.
  by rewrite ler_add2r.
have tb : `|x - l%:~R| = 2%:R^-1.
  by apply/le_anti; rewrite b /=; move: one; rewrite ta ler_add2r.
by have := at_ ta; have := bt tb; lia.
Qed.

(** ** Certificates for least-squares components *)
Section Cert.
Variable R : realFieldType.
Variables (nodes : list Z) (E : list (Z * Z)) (T : list (list Z)) (nf : dict Z fdict)
          (ef : dict (Z * Z) fdict) (sc : SC).
Hypothesis H : make_sc nodes E T nf ef = Ok sc.
Variable lstsq : forall m n, 'M[R]_(m, n) -> 'cV[R]_m -> 'cV[R]_n.
Hypothesis LS : lstsq_contract lstsq.
Variable rint : R -> int.

Lemma proj_cert m n (A : 'M[R]_(m, n)) (b : 'cV[R]_m) (x : 'cV[R]_n) : A^T *m (A *m x) = A^T *m b -> proj A *m b = A *m x.
Proof. by move=> K; have /is_ls_proj -> : is_ls A b x. Qed.

Lemma grad_cert (f p : seq R) rf d : size f = length E ->
  mvC (sc_B1 sc) (mvC (atr (sc_B1 sc)) p) = mvC (sc_B1 sc) f -> size p = length nodes ->
  get_gradient_flow lstsq rint (sc_B1 sc) f rf d = Ok (maybe_round rint rf d (mvC (atr (sc_B1 sc)) p)).
Proof.
move=> sf K sp; move: K; have [h0 h1] := B1_dims H; rewrite (gradient_Ok H LS) //.
rewrite -!mvCE !(@mvE _ (sc_B1 sc) (length nodes) (length E)) //.
rewrite !(@mvE _ (atr (sc_B1 sc)) (length E) (length nodes)) // toM_atr unvecK => /unvec_inj K.
by congr (Ok (maybe_round _ _ _ (unvec _))); apply: proj_cert; rewrite trmxK.
Qed.

Lemma curl_cert (f w : seq R) rf d : size f = length E ->
  mvC (atr (sc_B2 sc)) (mvC (sc_B2 sc) w) = mvC (atr (sc_B2 sc)) f -> size w = length T ->
  get_curl_flow lstsq rint (sc_B2 sc) f rf d = Ok (maybe_round rint rf d (mvC (sc_B2 sc) w)).
Proof.
move=> sf K sp; move: K; have [h0 h1] := B2_dims H; rewrite (curl_flow_Ok H LS) //.
rewrite -!mvCE !(@mvE _ (sc_B2 sc) (length E) (length T)) //.
rewrite !(@mvE _ (atr (sc_B2 sc)) (length T) (length E)) // toM_atr unvecK => /unvec_inj K.
by congr (Ok (maybe_round _ _ _ (unvec _))); apply: proj_cert.
Qed.

Lemma harm_cert (f p w : seq R) rf d : size f = length E ->
  mvC (sc_B1 sc) (mvC (atr (sc_B1 sc)) p) = mvC (sc_B1 sc) f ->
  mvC (atr (sc_B2 sc)) (mvC (sc_B2 sc) w) = mvC (atr (sc_B2 sc)) f ->
  size p = length nodes -> size w = length T ->
  get_harmonic_flow lstsq rint (sc_B1 sc) (sc_B2 sc) f rf d =
  Ok (maybe_round rint rf d
    (mkseq (fun i => f`_i - (mvC (atr (sc_B1 sc)) p)`_i - (mvC (sc_B2 sc) w)`_i) (length E))).
Proof.
move=> sf K1 K2 sp sw; rewrite (harmonic_Ok H LS) //.
have := gradient_Ok H LS rint false 0 sf; rewrite (grad_cert _ _ sf K1 sp) /= => -[->].
have := curl_flow_Ok H LS rint false 0 sf; rewrite (curl_cert _ _ sf K2 sw) /= => -[->].
congr (Ok (maybe_round _ _ _ _)); apply: (@vecP _ (length E)); rewrite ?size_unvec ?size_mkseq // => i Hi.
rewrite nth_mkseq // -[i]/(nat_of_ord (Ordinal Hi)) !nth_unvec /Hm !mulmxBl mul1mx.
by rewrite !mxE.
Qed.
End Cert.
