(** * Facts about the vocabulary of [Py.v] *)

From Coq Require Import ZArith String QArith List Bool Lia Permutation Sorted.
From Verif Require Import Py.
Import ListNotations.
Open Scope Z_scope.

(** ** The result monad *)

Lemma bind_Ok {A B} (m : res A) (k : A -> res B) (b : B) :
  bind m k = Ok b <-> exists a, m = Ok a /\ k a = Ok b.
Proof.
  destruct m as [a|e]; simpl; split.
  - intros H; exists a; auto.
  - intros (a' & H & K); injection H; intros ->; exact K.
  - discriminate.
  - intros (a' & H & _); discriminate.
Qed.

Lemma bind_Raise {A B} (m : res A) (k : A -> res B) e :
  bind m k = Raise e <-> m = Raise e \/ exists a, m = Ok a /\ k a = Raise e.
Proof.
  destruct m as [a|e']; simpl; split.
  - intros H; right; exists a; auto.
  - intros [H|(a' & H & K)]; [discriminate|]. injection H; intros ->; exact K.
  - intros H; left; injection H; intros ->; reflexivity.
  - intros [H|(a' & H & _)]; [injection H; intros ->; reflexivity|discriminate].
Qed.

Lemma mapM_Ok {A B} (f : A -> res B) l ys :
  mapM f l = Ok ys <-> Forall2 (fun x y => f x = Ok y) l ys.
Proof.
  revert ys; induction l as [|x l IH]; intros ys; simpl.
  - split; [intros H; injection H; intros <-; constructor|intros H; inversion H; reflexivity].
  - rewrite bind_Ok; split.
    + intros (y & Hy & H). rewrite bind_Ok in H. destruct H as (zs & Hz & H).
      injection H; intros <-. constructor; [exact Hy|apply IH; exact Hz].
    + intros H; inversion H as [|? y ? zs Hy Hz]; subst.
      exists y; split; [exact Hy|]. rewrite (proj2 (IH zs) Hz). reflexivity.
Qed.

Lemma mapM_pure {A B} (f : A -> B) l : mapM (fun x => Ok (f x)) l = Ok (map f l).
Proof. induction l as [|x l IH]; simpl; [reflexivity|]. rewrite IH; reflexivity. Qed.

Lemma mapM_ext {A B} (f g : A -> res B) l :
  (forall x, In x l -> f x = g x) -> mapM f l = mapM g l.
Proof.
  induction l as [|x l IH]; intros H; simpl; [reflexivity|].
  rewrite (H x (or_introl eq_refl)), IH; [reflexivity|]. intros y Hy; apply H; right; exact Hy.
Qed.

Lemma mapM_Raise_inv {A B} (f : A -> res B) l e :
  mapM f l = Raise e -> exists x, In x l /\ f x = Raise e.
Proof.
  induction l as [|x l IH]; simpl; [discriminate|].
  rewrite bind_Raise. intros [H|(y & Hy & H)].
  - exists x; auto.
  - rewrite bind_Raise in H. destruct H as [H|(ys & _ & H)]; [|discriminate].
    destruct (IH H) as (z & Hz & K); exists z; auto.
Qed.

(** ** enumerate *)

Lemma enumerate_from_length {A} i (l : list A) : length (enumerate_from i l) = length l.
Proof. revert i; induction l; intros i; simpl; auto. Qed.

Lemma enumerate_from_nth {A} i (l : list A) k :
  nth_error (enumerate_from i l) k = option_map (fun x => ((i + k)%nat, x)) (nth_error l k).
Proof.
  revert i k; induction l as [|x l IH]; intros i [|k]; simpl; try reflexivity.
  - rewrite Nat.add_0_r; reflexivity.
  - rewrite IH, Nat.add_succ_r. reflexivity.
Qed.

Lemma in_enumerate_from {A} i (l : list A) j x :
  In (j, x) (enumerate_from i l) <-> (i <= j)%nat /\ nth_error l (j - i) = Some x.
Proof.
  revert i; induction l as [|y l IH]; intros i; simpl.
  - split; [tauto|]. intros (_ & H); destruct (j - i)%nat; discriminate.
  - rewrite IH; split.
    + intros [H|(H & K)].
      * injection H; intros <- <-. split; [lia|]. rewrite Nat.sub_diag; reflexivity.
      * split; [lia|]. replace (j - i)%nat with (S (j - S i)) by lia. exact K.
    + intros (H & K). destruct (Nat.eq_dec i j) as [->|N].
      * left. rewrite Nat.sub_diag in K; injection K; intros <-; reflexivity.
      * right. split; [lia|]. replace (j - i)%nat with (S (j - S i)) in K by lia. exact K.
Qed.

(** ** Indices *)

Lemma np_index_Ok n i k :
  np_index n i = Ok k <->
  (k < n)%nat /\ (i = Z.of_nat k \/ i = Z.of_nat k - Z.of_nat n).
Proof.
  unfold np_index.
  destruct (0 <=? i) eqn:E1; destruct (i <? Z.of_nat n) eqn:E2; simpl;
  destruct (- Z.of_nat n <=? i) eqn:E3; destruct (i <? 0) eqn:E4; simpl;
  rewrite ?Z.leb_le, ?Z.leb_gt, ?Z.ltb_lt, ?Z.ltb_ge in *;
  (split; [intros H; discriminate || (injection H; intros <-; split; lia)
          | intros (H & [K|K]); try f_equal; lia]).
Qed.

Lemma np_index_Raise n i e :
  np_index n i = Raise e <-> e = IndexError /\ ~ (- Z.of_nat n <= i < Z.of_nat n).
Proof.
  unfold np_index.
  destruct (0 <=? i) eqn:E1; destruct (i <? Z.of_nat n) eqn:E2; simpl;
  destruct (- Z.of_nat n <=? i) eqn:E3; destruct (i <? 0) eqn:E4; simpl;
  rewrite ?Z.leb_le, ?Z.leb_gt, ?Z.ltb_lt, ?Z.ltb_ge in *;
  (split; [intros H; try discriminate; injection H; intros <-; (split; [reflexivity|lia])
          | intros (-> & K); try reflexivity; exfalso; apply K; lia]).
Qed.

Lemma np_index_nat n k : (k < n)%nat -> np_index n (Z.of_nat k) = Ok k.
Proof. intros H; apply np_index_Ok; split; [exact H|left; reflexivity]. Qed.

Lemma np_index_inj n i k k' : np_index n i = Ok k -> np_index n i = Ok k' -> k = k'.
Proof. intros H K; rewrite H in K; injection K; auto. Qed.

Lemma py_nth_nat {A} (l : list A) k :
  py_nth l (Z.of_nat k) = match nth_error l k with Some a => Ok a | None => Raise IndexError end.
Proof.
  unfold py_nth. destruct (Nat.lt_ge_cases k (length l)) as [H|H].
  - rewrite np_index_nat by exact H. reflexivity.
  - destruct (np_index (length l) (Z.of_nat k)) as [k'|e] eqn:E.
    + apply np_index_Ok in E. exfalso; lia.
    + apply np_index_Raise in E. destruct E as (-> & _). simpl.
      apply nth_error_None in H. rewrite H. reflexivity.
Qed.

Section Eqb.
  Context {A : Type} (eqb : A -> A -> bool).
  Hypothesis eqb_spec : forall x y, eqb x y = true <-> x = y.

  Lemma py_in_iff x l : py_in eqb x l = true <-> In x l.
  Proof.
    induction l as [|y l IH]; simpl; [split; [discriminate|tauto]|].
    rewrite orb_true_iff, IH, eqb_spec. reflexivity.
  Qed.

  Lemma py_in_false x l : py_in eqb x l = false <-> ~ In x l.
  Proof. rewrite <- py_in_iff. destruct (py_in eqb x l); split; congruence. Qed.

  Lemma py_index_Ok l x k :
    py_index eqb l x = Ok k <->
    nth_error l k = Some x /\ (forall k', (k' < k)%nat -> nth_error l k' <> Some x).
  Proof.
    revert k; induction l as [|y l IH]; intros k; simpl.
    - split; [discriminate|]. intros (H & _); destruct k; discriminate.
    - destruct (eqb y x) eqn:E.
      + apply eqb_spec in E; subst y. split.
        * intros H; injection H; intros <-. split; [reflexivity|]. intros; lia.
        * intros (H & K). destruct k; [reflexivity|].
          exfalso; apply (K O); [lia|reflexivity].
      + assert (N : y <> x) by (intros ->; rewrite (proj2 (eqb_spec x x) eq_refl) in E; discriminate).
        rewrite bind_Ok. split.
        * intros (k0 & H & K). injection K; intros <-. apply IH in H. destruct H as (H & H').
          split; [exact H|]. intros [|k'] L; simpl; [congruence|]. apply H'; lia.
        * intros (H & K). destruct k as [|k]; [simpl in H; congruence|].
          exists k; split; [|reflexivity]. apply IH. split; [exact H|].
          intros k' L. apply (K (S k')); lia.
  Qed.

  Lemma py_index_Raise l x e : py_index eqb l x = Raise e <-> e = ValueError /\ ~ In x l.
  Proof.
    induction l as [|y l IH]; simpl.
    - split; [intros H; injection H; auto|intros (-> & _); reflexivity].
    - destruct (eqb y x) eqn:E.
      + apply eqb_spec in E. split; [discriminate|]. intros (_ & H); exfalso; apply H; auto.
      + assert (N : y <> x) by (intros ->; rewrite (proj2 (eqb_spec x x) eq_refl) in E; discriminate).
        rewrite bind_Raise, IH. split.
        * intros [(-> & H)|(a & _ & H)]; [|discriminate]. split; [reflexivity|].
          intros [K|K]; auto.
        * intros (-> & H). left; split; [reflexivity|]. intros K; apply H; auto.
  Qed.

  Lemma py_index_total l x : In x l -> exists k, py_index eqb l x = Ok k.
  Proof.
    intros H. destruct (py_index eqb l x) as [k|e] eqn:E; [exists k; reflexivity|].
    apply py_index_Raise in E. tauto.
  Qed.

  Lemma in_py_set x l : In x (py_set eqb l) <-> In x l.
  Proof.
    induction l as [|y l IH]; simpl; [reflexivity|].
    destruct (py_in eqb y l) eqn:E.
    - rewrite IH. apply py_in_iff in E. split; [auto|]. intros [->|H]; auto.
    - simpl; rewrite IH; reflexivity.
  Qed.

  Lemma NoDup_py_set l : NoDup (py_set eqb l).
  Proof.
    induction l as [|y l IH]; simpl; [constructor|].
    destruct (py_in eqb y l) eqn:E; [exact IH|].
    apply py_in_false in E. constructor; [|exact IH]. rewrite in_py_set. exact E.
  Qed.
End Eqb.

Lemma pair_eqb_spec (x y : Z * Z) : pair_eqb x y = true <-> x = y.
Proof.
  destruct x as (a, b), y as (c, d); unfold pair_eqb; simpl.
  rewrite andb_true_iff, !Z.eqb_eq. split; [intros (-> & ->); reflexivity|].
  intros H; injection H; auto.
Qed.

Lemma list_eqb_spec (a b : list Z) : list_eqb a b = true <-> a = b.
Proof.
  revert b; induction a as [|x a IH]; intros [|y b]; simpl; try (split; congruence).
  rewrite andb_true_iff, Z.eqb_eq, IH. split; [intros (-> & ->); reflexivity|].
  intros H; injection H; auto.
Qed.

(** ** Sorting *)

Section Sort.
  Context {A : Type} (leb : A -> A -> bool).
  Hypothesis leb_total : forall x y, leb x y = true \/ leb y x = true.
  Hypothesis leb_trans : forall x y z, leb x y = true -> leb y z = true -> leb x z = true.
  Let R x y := leb x y = true.

  Lemma insert_perm x l : Permutation (x :: l) (insert leb x l).
  Proof.
    induction l as [|y l IH]; simpl; [reflexivity|].
    destruct (leb x y); [reflexivity|].
    rewrite perm_swap. constructor. exact IH.
  Qed.

  Lemma py_sorted_perm l : Permutation l (py_sorted leb l).
  Proof.
    induction l as [|x l IH]; simpl; [constructor|].
    rewrite <- insert_perm. constructor; exact IH.
  Qed.

  Lemma insert_sorted x l : StronglySorted R l -> StronglySorted R (insert leb x l).
  Proof.
    induction l as [|y l IH]; intros H; simpl; [repeat constructor|].
    inversion H as [|? ? H1 H2]; subst.
    destruct (leb x y) eqn:E.
    - constructor; [exact H|]. constructor; [exact E|].
      eapply Forall_impl; [|exact H2]. intros z Hz. eapply leb_trans; eassumption.
    - constructor; [apply IH; exact H1|].
      assert (Hyx : R y x) by (destruct (leb_total x y) as [K|K]; [congruence|exact K]).
      eapply Permutation_Forall; [apply insert_perm|]. constructor; assumption.
  Qed.

  Lemma py_sorted_sorted l : StronglySorted R (py_sorted leb l).
  Proof. induction l; simpl; [constructor|]. apply insert_sorted; assumption. Qed.

  Lemma in_py_sorted x l : In x (py_sorted leb l) <-> In x l.
  Proof.
    split; apply Permutation_in; [symmetry|]; apply py_sorted_perm.
  Qed.

  Lemma py_sorted_length l : length (py_sorted leb l) = length l.
  Proof. symmetry; apply Permutation_length, py_sorted_perm. Qed.

  Lemma NoDup_py_sorted l : NoDup l -> NoDup (py_sorted leb l).
  Proof. apply Permutation_NoDup, py_sorted_perm. Qed.

  Lemma insert_id x l : Forall (R x) l -> insert leb x l = x :: l.
  Proof.
    destruct l as [|y l]; simpl; [reflexivity|]. intros H; inversion H as [|? ? H1 _]; subst.
    unfold R in H1; rewrite H1. reflexivity.
  Qed.

  Lemma py_sorted_id l : StronglySorted R l -> py_sorted leb l = l.
  Proof.
    induction 1 as [|x l H IH F]; simpl; [reflexivity|]. rewrite IH. apply insert_id; exact F.
  Qed.

  Hypothesis leb_antisym : forall x y, leb x y = true -> leb y x = true -> x = y.

  Lemma sorted_perm_unique l l' :
    StronglySorted R l -> StronglySorted R l' -> Permutation l l' -> l = l'.
  Proof.
    revert l'; induction l as [|x l IH]; intros l' H K P.
    - apply Permutation_nil in P. subst; reflexivity.
    - destruct l' as [|y l']; [symmetry in P; apply Permutation_nil in P; discriminate|].
      inversion H as [|? ? H1 H2]; subst. inversion K as [|? ? K1 K2]; subst.
      assert (x = y).
      { assert (Hx : In x (y :: l')) by (eapply Permutation_in; [exact P|left; reflexivity]).
        assert (Hy : In y (x :: l)) by (eapply Permutation_in; [symmetry; exact P|left; reflexivity]).
        destruct Hx as [E|Hx]; [auto|]. destruct Hy as [E|Hy]; [auto|].
        rewrite Forall_forall in H2, K2. apply leb_antisym; [apply H2|apply K2]; assumption. }
      subst y. f_equal. apply IH; try assumption. eapply Permutation_cons_inv; exact P.
  Qed.

  Lemma py_sorted_perm_eq l l' : Permutation l l' -> py_sorted leb l = py_sorted leb l'.
  Proof.
    intros P. apply sorted_perm_unique; try apply py_sorted_sorted.
    rewrite <- py_sorted_perm, <- py_sorted_perm. exact P.
  Qed.
End Sort.

Lemma Zleb_total x y : (x <=? y) = true \/ (y <=? x) = true.
Proof. rewrite !Z.leb_le; lia. Qed.
Lemma Zleb_trans x y z : (x <=? y) = true -> (y <=? z) = true -> (x <=? z) = true.
Proof. rewrite !Z.leb_le; lia. Qed.
Lemma Zleb_antisym x y : (x <=? y) = true -> (y <=? x) = true -> x = y.
Proof. rewrite !Z.leb_le; lia. Qed.

Ltac zbool :=
  repeat match goal with
  | H : context [?a <? ?b] |- _ => destruct (Z.ltb_spec a b)
  | |- context [?a <? ?b] => destruct (Z.ltb_spec a b)
  | H : context [?a <=? ?b] |- _ => destruct (Z.leb_spec a b)
  | |- context [?a <=? ?b] => destruct (Z.leb_spec a b)
  end.

Lemma pair_leb_iff a b :
  pair_leb a b = true <-> fst a < fst b \/ (fst a = fst b /\ snd a <= snd b).
Proof.
  unfold pair_leb. zbool; split; intros; try discriminate; try reflexivity; lia.
Qed.
Lemma pair_leb_total x y : pair_leb x y = true \/ pair_leb y x = true.
Proof. rewrite !pair_leb_iff; lia. Qed.
Lemma pair_leb_trans x y z : pair_leb x y = true -> pair_leb y z = true -> pair_leb x z = true.
Proof. rewrite !pair_leb_iff; lia. Qed.
Lemma pair_leb_antisym x y : pair_leb x y = true -> pair_leb y x = true -> x = y.
Proof. rewrite !pair_leb_iff; destruct x, y; simpl; intros; f_equal; lia. Qed.

Lemma lex_leb_total a b : lex_leb a b = true \/ lex_leb b a = true.
Proof.
  revert b; induction a as [|x a IH]; intros [|y b]; simpl; auto.
  destruct (Z.ltb_spec x y); destruct (Z.ltb_spec y x); auto.
Qed.
Lemma lex_leb_antisym a b : lex_leb a b = true -> lex_leb b a = true -> a = b.
Proof.
  revert b; induction a as [|x a IH]; intros [|y b]; simpl; auto; try discriminate.
  destruct (Z.ltb_spec x y); destruct (Z.ltb_spec y x); intros; try discriminate; try lia.
  assert (x = y) by lia; subst; f_equal; auto.
Qed.
Lemma lex_leb_trans a b c : lex_leb a b = true -> lex_leb b c = true -> lex_leb a c = true.
Proof.
  revert b c; induction a as [|x a IH]; intros [|y b] [|z c]; simpl; auto; try discriminate.
  destruct (Z.ltb_spec x y); destruct (Z.ltb_spec y x); destruct (Z.ltb_spec y z);
  destruct (Z.ltb_spec z y); destruct (Z.ltb_spec x z); destruct (Z.ltb_spec z x);
  intros; try discriminate; try lia; auto. eapply IH; eassumption.
Qed.

(** ** Arrays *)

Lemma aset_Ok A i j v A' :
  (j < sh1 A)%nat ->
  aset A i j v = Ok A' <->
  exists k, np_index (sh0 A) i = Ok k /\
    A' = mkArr (sh0 A) (sh1 A) (fun p q => if (Nat.eqb p k && Nat.eqb q j)%bool then v else at2 A p q).
Proof.
  intros H. unfold aset. rewrite bind_Ok. split; intros (k & K & L); exists k; (split; [exact K|]).
  - rewrite np_index_nat in L by exact H. simpl in L. injection L; auto.
  - rewrite np_index_nat by exact H. simpl. rewrite L. reflexivity.
Qed.

Lemma aset_nat A i j v :
  (i < sh0 A)%nat -> (j < sh1 A)%nat ->
  aset A (Z.of_nat i) j v =
  Ok (mkArr (sh0 A) (sh1 A) (fun p q => if (Nat.eqb p i && Nat.eqb q j)%bool then v else at2 A p q)).
Proof.
  intros H K. apply aset_Ok; [exact K|]. exists i; split; [apply np_index_nat; exact H|reflexivity].
Qed.

(** Sums *)
Lemma zsum_ext n f g : (forall i, (i < n)%nat -> f i = g i) -> zsum n f = zsum n g.
Proof.
  induction n as [|n IH]; intros H; simpl; [reflexivity|].
  rewrite H by lia. rewrite IH; [reflexivity|]. intros; apply H; lia.
Qed.
Lemma zsum_0 n : zsum n (fun _ => 0) = 0.
Proof. induction n; simpl; lia. Qed.
Lemma zsum_zero n f : (forall i, (i < n)%nat -> f i = 0) -> zsum n f = 0.
Proof. intros H. rewrite (zsum_ext n f (fun _ => 0)) by exact H. apply zsum_0. Qed.
Lemma zsum_add n f g : zsum n (fun i => f i + g i) = zsum n f + zsum n g.
Proof. induction n; simpl; lia. Qed.
Lemma zsum_sub n f g : zsum n (fun i => f i - g i) = zsum n f - zsum n g.
Proof. induction n; simpl; lia. Qed.
Lemma zsum_opp n f : zsum n (fun i => - f i) = - zsum n f.
Proof. induction n; simpl; lia. Qed.
Lemma zsum_mul_l n c f : zsum n (fun i => c * f i) = c * zsum n f.
Proof. induction n; simpl; lia. Qed.
Lemma zsum_mul_r n c f : zsum n (fun i => f i * c) = zsum n f * c.
Proof. induction n; simpl; lia. Qed.
Lemma zsum_swap n m f :
  zsum n (fun i => zsum m (fun j => f i j)) = zsum m (fun j => zsum n (fun i => f i j)).
Proof.
  induction n as [|n IH]; simpl; [symmetry; apply zsum_0|].
  rewrite IH, <- zsum_add. reflexivity.
Qed.
Lemma zsum_nonneg n f : (forall i, (i < n)%nat -> 0 <= f i) -> 0 <= zsum n f.
Proof.
  induction n as [|n IH]; intros H; simpl; [lia|].
  assert (0 <= f n) by (apply H; lia). assert (0 <= zsum n f) by (apply IH; intros; apply H; lia). lia.
Qed.
Lemma zsum_delta n k f :
  (k < n)%nat -> zsum n (fun i => if Nat.eqb i k then f i else 0) = f k.
Proof.
  induction n as [|n IH]; intros H; [lia|]. simpl.
  destruct (Nat.eqb_spec n k) as [->|N].
  - rewrite zsum_zero; [lia|]. intros i Hi. destruct (Nat.eqb_spec i k); [lia|reflexivity].
  - rewrite IH by lia. lia.
Qed.
(** A sum over a list, in order. *)
Lemma zsum_S_shift n f : zsum (S n) f = f O + zsum n (fun i => f (S i)).
Proof. induction n as [|n IH]; simpl in *; [lia|]. rewrite IH. lia. Qed.

Lemma pair_eq_dec (x y : Z * Z) : {x = y} + {x <> y}.
Proof. decide equality; apply Z.eq_dec. Defined.
Lemma pair_in_dec (E : list (Z * Z)) (e : Z * Z) : {In e E} + {~ In e E}.
Proof. exact (List.in_dec pair_eq_dec e E). Defined.
