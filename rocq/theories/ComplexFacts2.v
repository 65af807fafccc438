(** * Lemmas about the model of simplicial_complex.py: faces, adjacency, Laplacian entries *)

From Coq Require Import ZArith String List Bool Lia Permutation Sorted.
From Verif Require Import Py PyFacts Complex ComplexSpec ComplexFacts.
Import ListNotations.
Open Scope Z_scope.

(** ** Dimension *)

Lemma fold_max_le ns n k : (fold_left Nat.max ns n <= k)%nat <-> (n <= k)%nat /\ forall x, In x ns -> (x <= k)%nat.
Proof.
  revert n; induction ns as [|y ns IH]; intros n; simpl; [split; [tauto|tauto]|].
  rewrite IH. split.
  - intros (H & K). split; [lia|]. intros x [<-|Hx]; [lia|auto].
  - intros (H & K). split; [|auto]. pose proof (K y (or_introl eq_refl)). lia.
Qed.

Lemma fold_max_ge ns n k : (k <= fold_left Nat.max ns n)%nat <-> (k <= n)%nat \/ exists x, In x ns /\ (k <= x)%nat.
Proof.
  revert n; induction ns as [|y ns IH]; intros n; simpl.
  - split; [auto|]. intros [H|(x & [] & _)]; exact H.
  - rewrite IH. split.
    + intros [H|(x & Hx & Kx)]; [|right; exists x; auto].
      destruct (Nat.max_spec n y) as [(L & E)|(L & E)]; rewrite E in H;
        [right; exists y; auto|left; exact H].
    + intros [H|(x & [<-|Hx] & Kx)]; [left; lia|left; lia|right; exists x; auto].
Qed.

Lemma max_dim_lengths sc d :
  max_dim sc = Ok d <->
  simplices sc <> [] /\
  (exists s, In s (simplices sc) /\ Z.of_nat (length s) = d + 1) /\
  (forall s, In s (simplices sc) -> Z.of_nat (length s) <= d + 1).
Proof.
  unfold max_dim. destruct (simplices sc) as [|s0 ss]; simpl.
  - split; [discriminate|]. intros (H & _); congruence.
  - set (m := fold_left Nat.max (map (@length Z) ss) (length s0)).
    assert (Up : forall s, In s (s0 :: ss) -> (length s <= m)%nat).
    { intros s Hs. apply fold_max_ge. destruct Hs as [<-|Hs]; [left; lia|].
      right. exists (length s). split; [apply in_map; exact Hs|lia]. }
    assert (At : exists s, In s (s0 :: ss) /\ length s = m).
    { assert (K := proj1 (fold_max_ge (map (@length Z) ss) (length s0) m) (le_n _)).
      destruct K as [K|(x & Hx & K)].
      - exists s0. split; [left; reflexivity|]. pose proof (Up s0 (or_introl eq_refl)). lia.
      - apply in_map_iff in Hx. destruct Hx as (s & <- & Hs). exists s. split; [right; exact Hs|].
        pose proof (Up s (or_intror Hs)). lia. }
    destruct At as (s & Hs & Es). split.
    + intros H; injection H; intros <-. split; [discriminate|]. split.
      * exists s. split; [exact Hs|lia].
      * intros s' Hs'. pose proof (Up s' Hs'). lia.
    + intros (_ & (s' & Hs' & E') & U). f_equal. pose proof (Up s' Hs'). pose proof (U s Hs). lia.
Qed.

(** ** Faces *)

Lemma combinations_length {A} (l : list A) r f : In f (combinations l r) -> length f = r.
Proof.
  revert r f; induction l as [|x l IH]; intros [|r] f; simpl.
  - intros [<-|[]]; reflexivity.
  - intros [].
  - intros [<-|[]]; reflexivity.
  - rewrite in_app_iff, in_map_iff. intros [(g & <- & Hg)|H]; simpl.
    + f_equal; apply IH; exact Hg.
    + exact (IH _ _ H).
Qed.

Lemma combinations_big {A} (l : list A) r : (length l < r)%nat -> combinations l r = [].
Proof.
  revert r; induction l as [|x l IH]; intros [|r] H; simpl in *; try lia; try reflexivity.
  rewrite !IH by lia. reflexivity.
Qed.

Lemma combinations_full {A} (l : list A) : combinations l (length l) = [l].
Proof.
  induction l as [|x l IH]; simpl; [reflexivity|].
  rewrite IH, combinations_big by lia. reflexivity.
Qed.

Lemma combinations_drop {A} (l : list A) r f : length l = S r ->
  In f (combinations l r) <-> exists pre x post, l = pre ++ x :: post /\ f = pre ++ post.
Proof.
  revert r f; induction l as [|x l IH]; intros r f H; simpl in H; [lia|].
  injection H; intros H'. destruct r as [|r]; simpl.
  - destruct l; [|discriminate]. split.
    + intros [<-|[]]. exists [], x, []. auto.
    + intros (pre & y & post & E & ->). left.
      destruct pre as [|z pre]; injection E.
      * intros <- _; reflexivity.
      * intros K _; destruct pre; discriminate.
  - rewrite in_app_iff, in_map_iff. replace (combinations l (S r)) with [l]
      by (rewrite <- H'; symmetry; apply combinations_full). split.
    + intros [(g & <- & Hg)|[<-|[]]].
      * apply IH in Hg; [|exact H']. destruct Hg as (pre & y & post & -> & ->).
        exists (x :: pre), y, post. auto.
      * exists [], x, l. auto.
    + intros (pre & y & post & E & ->). destruct pre as [|z pre]; injection E.
      * intros <- _. right; left; reflexivity.
      * intros -> ->. left. exists (pre ++ post). split; [reflexivity|]. apply IH; [exact H'|].
        exists pre, y, post; auto.
Qed.

Lemma ascending_sorted l : ascending (py_sorted Z.leb l).
Proof.
  unfold ascending. pose proof (py_sorted_sorted Z.leb Zleb_total Zleb_trans l) as H.
  induction H as [|x m H IH F]; constructor; [exact IH|].
  eapply Forall_impl; [|exact F]. intros y Hy; apply Z.leb_le; exact Hy.
Qed.

Lemma ascending_unique l l' : ascending l -> ascending l' -> Permutation l l' -> l = l'.
Proof.
  intros H K. apply (sorted_perm_unique Z.leb Zleb_antisym).
  - revert H; clear; induction 1 as [|x m H IH F]; constructor; [exact IH|].
    eapply Forall_impl; [|exact F]. intros y Hy; apply Z.leb_le; exact Hy.
  - revert K; clear; induction 1 as [|x m H IH F]; constructor; [exact IH|].
    eapply Forall_impl; [|exact F]. intros y Hy; apply Z.leb_le; exact Hy.
Qed.

Lemma in_get_faces s f : In f (get_faces s) <-> (2 <= length s)%nat /\ facet s f.
Proof.
  unfold get_faces. rewrite in_py_sorted, filter_In, (in_py_set list_eqb list_eqb_spec), in_flat_map.
  rewrite Z.eqb_eq. split.
  - intros ((r & Hr & Hf) & L). rewrite <- in_rev, in_seq in Hr.
    apply in_map_iff in Hf. destruct Hf as (g & <- & Hg).
    rewrite py_sorted_length in L. pose proof (combinations_length _ _ _ Hg) as Lg.
    split; [lia|]. assert (Er : length s = S r) by lia.
    apply (combinations_drop s r g Er) in Hg. destruct Hg as (pre & x & post & E & ->).
    exists pre, x, post. split; [exact E|]. split; [symmetry; apply py_sorted_perm|].
    apply ascending_sorted.
  - intros (L & (pre & x & post & E & P & Sf)).
    assert (Lf : length f = length (pre ++ post)) by (apply Permutation_length; exact P).
    assert (Ls : length s = S (length (pre ++ post))).
    { rewrite E, !app_length. simpl. lia. }
    split; [|lia]. exists (length (pre ++ post)). split.
    + rewrite <- in_rev, in_seq. lia.
    + apply in_map_iff. exists (pre ++ post). split.
      * apply ascending_unique; [apply ascending_sorted|exact Sf|].
        rewrite <- py_sorted_perm. symmetry; exact P.
      * apply combinations_drop; [exact Ls|]. exists pre, x, post; auto.
Qed.

Lemma lex_leb_lt a b : lex_leb a b = true -> a <> b -> lex_lt a b.
Proof.
  revert b; induction a as [|x a IH]; intros [|y b]; simpl; intros H N; try congruence.
  - left. exists y, b. reflexivity.
  - destruct (Z.ltb_spec x y) as [L|L].
    + right. exists [], x, y, a, b. auto.
    + destruct (Z.ltb_spec y x); [discriminate|]. assert (x = y) by lia; subst y.
      destruct (IH b H) as [(z & r & ->)|(p & u & v & r & t & -> & -> & Q)]; [congruence| |].
      * left. exists z, r. reflexivity.
      * right. exists (x :: p), u, v, r, t. auto.
Qed.

Lemma get_faces_sorted s : StronglySorted lex_lt (get_faces s).
Proof.
  unfold get_faces.
  set (l := filter _ _).
  assert (ND : NoDup l) by (apply NoDup_filter, (NoDup_py_set list_eqb list_eqb_spec)).
  pose proof (py_sorted_sorted lex_leb lex_leb_total lex_leb_trans l) as S.
  pose proof (NoDup_py_sorted lex_leb l ND) as ND'.
  revert S ND'. generalize (py_sorted lex_leb l). clear.
  induction 1 as [|x m H IH F]; intros ND; constructor.
  - apply IH. inversion ND; assumption.
  - inversion ND as [|? ? N ND']; subst. rewrite Forall_forall in F |- *. intros y Hy.
    apply lex_leb_lt; [exact (F y Hy)|]. intros ->; contradiction.
Qed.

Lemma lex_lt_irrefl a : ~ lex_lt a a.
Proof.
  intros [(y & r & E)|(p & x & y & r & s & E & E' & L)].
  - assert (length a = length (a ++ y :: r)) by (rewrite <- E; reflexivity).
    rewrite app_length in H; simpl in H; lia.
  - rewrite E in E'. apply app_inv_head in E'. injection E'; intros; lia.
Qed.

Lemma facet_perm s s' f : Permutation s s' -> facet s f -> facet s' f.
Proof.
  intros P (pre & x & post & -> & Pf & S).
  assert (I : In x s') by (eapply Permutation_in; [exact P|]; apply in_elt).
  apply in_split in I. destruct I as (pre' & post' & ->).
  exists pre', x, post'. split; [reflexivity|]. split; [|exact S].
  rewrite Pf. apply Permutation_app_inv in P. exact P.
Qed.

Lemma StronglySorted_ext {A} (R : A -> A -> Prop) (irr : forall a, ~ R a a)
  (asym : forall a b, R a b -> R b a -> False) l l' :
  StronglySorted R l -> StronglySorted R l' -> (forall x, In x l <-> In x l') -> l = l'.
Proof.
  revert l'; induction l as [|x l IH]; intros l' H K E.
  - destruct l' as [|y l']; [reflexivity|]. exfalso. apply (proj2 (E y)); left; reflexivity.
  - destruct l' as [|y l']; [exfalso; apply (proj1 (E x)); left; reflexivity|].
    inversion H as [|? ? H1 H2]; subst. inversion K as [|? ? K1 K2]; subst.
    rewrite Forall_forall in H2, K2.
    assert (x = y).
    { destruct (proj1 (E x) (or_introl eq_refl)) as [Q|Q]; [auto|].
      destruct (proj2 (E y) (or_introl eq_refl)) as [Q'|Q']; [auto|].
      exfalso; exact (asym _ _ (H2 _ Q') (K2 _ Q)). }
    subst y. f_equal. apply IH; try assumption. intros z. split; intros Hz.
    + destruct (proj1 (E z) (or_intror Hz)) as [<-|Q]; [|exact Q].
      exfalso; exact (irr _ (H2 _ Hz)).
    + destruct (proj2 (E z) (or_intror Hz)) as [<-|Q]; [|exact Q].
      exfalso; exact (irr _ (K2 _ Hz)).
Qed.

Lemma get_faces_perm s s' : Permutation s s' -> get_faces s = get_faces s'.
Proof.
  intros P. unfold get_faces.
  set (l := filter _ _). set (l' := filter _ _).
  apply (py_sorted_perm_eq lex_leb lex_leb_total lex_leb_trans lex_leb_antisym).
  apply NoDup_Permutation;
    try (apply NoDup_filter, (NoDup_py_set list_eqb list_eqb_spec)).
  intros f. rewrite <- (in_py_sorted lex_leb f l), <- (in_py_sorted lex_leb f l').
  change (In f (get_faces s) <-> In f (get_faces s')). rewrite !in_get_faces.
  rewrite (Permutation_length P).
  split; intros (H & K); (split; [exact H|]).
  - exact (facet_perm _ _ _ P K).
  - exact (facet_perm _ _ _ (Permutation_sym P) K).
Qed.

(** Counting the faces of a simplex with distinct vertices. *)
Fixpoint dels {A} (pre post : list A) : list (list A) :=
  match post with
  | [] => []
  | x :: post' => rev_append pre post' :: dels (x :: pre) post'
  end.

Lemma dels_length {A} (pre post : list A) : length (dels pre post) = length post.
Proof. revert pre; induction post; intros; simpl; auto. Qed.

Lemma in_dels {A} (f : list A) post : forall pre,
  In f (dels pre post) <-> exists p x q, post = p ++ x :: q /\ f = rev pre ++ p ++ q.
Proof.
  induction post as [|y post IH]; intros pre; simpl.
  - split; [tauto|]. intros (p & x & q & E & _); destruct p; discriminate.
  - rewrite IH. split.
    + intros [<-|(p & x & q & -> & ->)].
      * exists [], y, post. rewrite rev_append_rev. auto.
      * exists (y :: p), x, q. simpl. rewrite <- app_assoc. auto.
    + intros (p & x & q & E & ->). destruct p as [|z p]; injection E.
      * intros <- <-. left. rewrite rev_append_rev. reflexivity.
      * intros -> ->. right. exists p, x, q. simpl. rewrite <- app_assoc. auto.
Qed.

Lemma get_faces_count s : NoDup s -> (2 <= length s)%nat -> length (get_faces s) = length s.
Proof.
  intros ND L.
  transitivity (length (map (py_sorted Z.leb) (dels [] s)));
    [|rewrite map_length; apply dels_length].
  apply Permutation_length, NoDup_Permutation.
  - pose proof (get_faces_sorted s) as S. revert S. generalize (get_faces s).
    induction 1 as [|x m H IH F]; constructor; [|exact IH].
    intros Hx. rewrite Forall_forall in F. exact (lex_lt_irrefl _ (F _ Hx)).
  - (* distinct deletions give distinct sorted faces: the deleted vertex is the one missing *)
    assert (G : forall post pre, NoDup (rev pre ++ post) ->
                NoDup (map (py_sorted Z.leb) (dels pre post)) ).
    { induction post as [|y post IH]; intros pre N; simpl; [constructor|].
      constructor.
      - rewrite in_map_iff. intros (f & E & Hf). apply in_dels in Hf.
        destruct Hf as (p & x & q & -> & ->). simpl in E.
        assert (Hy : In y (py_sorted Z.leb (rev_append pre (p ++ x :: q)))).
        { rewrite <- E. apply in_py_sorted. rewrite !in_app_iff. simpl. tauto. }
        rewrite in_py_sorted, rev_append_rev in Hy.
        apply NoDup_remove_2 in N. contradiction.
      - apply IH. simpl. rewrite <- app_assoc. exact N. }
    apply G. exact ND.
  - intros f. rewrite in_get_faces, in_map_iff. split.
    + intros (_ & (pre & x & post & E & P & S)). exists (pre ++ post). split.
      * apply ascending_unique; [apply ascending_sorted|exact S|].
        rewrite <- py_sorted_perm. symmetry; exact P.
      * apply in_dels. exists pre, x, post. auto.
    + intros (g & <- & Hg). split; [exact L|]. apply in_dels in Hg.
      destruct Hg as (p & x & q & -> & ->). exists p, x, q. split; [reflexivity|].
      split; [symmetry; apply py_sorted_perm|apply ascending_sorted].
Qed.

(** ** Adjacency *)

Lemma seq_sorted s n : StronglySorted lt (seq s n).
Proof.
  revert s; induction n as [|n IH]; intros s; simpl; constructor; [apply IH|].
  rewrite Forall_forall. intros x Hx. apply in_seq in Hx. lia.
Qed.

Lemma filter_sorted {A} (R : A -> A -> Prop) f l : StronglySorted R l -> StronglySorted R (filter f l).
Proof.
  induction 1 as [|x m H IH F]; simpl; [constructor|].
  destruct (f x); [|exact IH]. constructor; [exact IH|].
  rewrite Forall_forall in F |- *. intros y Hy. apply filter_In in Hy. apply F; tauto.
Qed.

Lemma nat_sorted_ext l l' : StronglySorted lt l -> StronglySorted lt l' ->
  (forall x, In x l <-> In x l') -> l = l'.
Proof. apply StronglySorted_ext; intros; lia. Qed.

Definition degenerate (n : nat) (e : Z * Z) : Prop :=
  exists i, addresses n (fst e) i /\ addresses n (snd e) i.

Lemma col_nonzero_spec nodes E T nf ef sc (H : make_sc nodes E T nf ef = Ok sc) k e :
  nth_error E k = Some e ->
  exists ku kv, np_index (length nodes) (fst e) = Ok ku /\ np_index (length nodes) (snd e) = Ok kv /\
  col_nonzero (sc_B1 sc) k =
    if Nat.eqb ku kv then [ku] else [Nat.min ku kv; Nat.max ku kv].
Proof.
  intros Hk.
  pose proof (make_sc_Ok _ _ _ _ _ _ H) as (_ & _ & _ & _ & _ & _ & _ & G & _).
  destruct (sc_B1_spec _ _ _ _ _ _ H) as (D0 & D1 & S).
  destruct e as (u, v). destruct (G u v (nth_error_In _ _ Hk)) as (Gu & Gv).
  apply in_range_np in Gu, Gv. destruct Gu as (ku & Eu). destruct Gv as (kv & Ev).
  exists ku, kv. split; [exact Eu|]. split; [exact Ev|].
  assert (Lu : (ku < length nodes)%nat) by (apply np_index_Ok in Eu; tauto).
  assert (Lv : (kv < length nodes)%nat) by (apply np_index_Ok in Ev; tauto).
  assert (M : forall p, In p (col_nonzero (sc_B1 sc) k) <-> p = ku \/ p = kv).
  { intros p. unfold col_nonzero. rewrite filter_In, in_seq, D0, (S p k _ Hk).
    unfold B1_col, idx_eqb; simpl. rewrite Eu, Ev.
    destruct (Nat.eqb_spec p kv), (Nat.eqb_spec p ku); simpl; split; try tauto; try lia;
      try (intros (_ & X); discriminate). }
  apply nat_sorted_ext.
  - apply filter_sorted, seq_sorted.
  - destruct (Nat.eqb_spec ku kv); repeat constructor. lia.
  - intros p. rewrite M. destruct (Nat.eqb_spec ku kv); simpl; lia.
Qed.

Definition adj_pair (n : nat) (e : Z * Z) (i k : nat) : Prop :=
  (addresses n (fst e) i /\ addresses n (snd e) k) \/ (addresses n (fst e) k /\ addresses n (snd e) i).

Lemma addresses_np n x i : addresses n x i <-> np_index n x = Ok i.
Proof. unfold addresses. rewrite np_index_Ok. reflexivity. Qed.

Lemma adjacency_loop nodes E T nf ef sc (H : make_sc nodes E T nf ef = Ok sc) :
  forall m j A, sh0 A = length nodes -> sh1 A = length nodes -> (j + m = length E)%nat ->
  match foldM (adj_step (sc_B1 sc)) A (seq j m) with
  | Ok A' => sh0 A' = length nodes /\ sh1 A' = length nodes /\
     (forall q e, (j <= q)%nat -> nth_error E q = Some e -> ~ degenerate (length nodes) e) /\
     (forall i k, (exists q e, (j <= q)%nat /\ nth_error E q = Some e /\ adj_pair (length nodes) e i k)
         -> at2 A' i k = 1) /\
     (forall i k, ~ (exists q e, (j <= q)%nat /\ nth_error E q = Some e /\ adj_pair (length nodes) e i k)
         -> at2 A' i k = at2 A i k)
  | Raise e => e = IndexError /\
     exists q e, (j <= q)%nat /\ nth_error E q = Some e /\ degenerate (length nodes) e
  end.
Proof.
  induction m as [|m IH]; intros j A A0 A1 Hm; cbn [seq foldM].
  - split; [exact A0|]. split; [exact A1|].
    assert (N : forall q e, (j <= q)%nat -> nth_error E q = Some e -> False).
    { intros q e Hq K. assert (nth_error E q <> None) by congruence.
      apply nth_error_Some in H0. lia. }
    split; [intros q e Hq K; exfalso; eapply N; eassumption|].
    split; [intros i k (q & e & Hq & K & _); exfalso; eapply N; eassumption|reflexivity].
  - destruct (nth_error E j) as [e|] eqn:Ej; [|apply nth_error_None in Ej; lia].
    destruct (col_nonzero_spec _ _ _ _ _ _ H j e Ej) as (ku & kv & Eu & Ev & C).
    unfold adj_step at 1. rewrite C.
    assert (Lu : (ku < length nodes)%nat) by (apply np_index_Ok in Eu; tauto).
    assert (Lv : (kv < length nodes)%nat) by (apply np_index_Ok in Ev; tauto).
    destruct (Nat.eqb_spec ku kv) as [Q|N].
    + cbn. split; [reflexivity|]. exists j, e. split; [lia|]. split; [exact Ej|].
      exists ku. rewrite !addresses_np. subst; auto.
    + set (p := Nat.min ku kv). set (q := Nat.max ku kv).
      change (py_nth [p; q] 0) with (Ok p). change (py_nth [p; q] 1) with (Ok q).
      cbn [bind]. rewrite aset_nat by (unfold p, q; lia). cbn [bind].
      rewrite aset_nat by (simpl; unfold p, q; lia). cbn [bind sh0 sh1 at2].
      set (A2 := mkArr _ _ _).
      pose proof (IH (S j) A2 A0 A1 ltac:(lia)) as K.
      assert (P0 : forall i k, adj_pair (length nodes) e i k <-> (i = ku /\ k = kv) \/ (i = kv /\ k = ku)).
      { intros i k. unfold adj_pair. rewrite !addresses_np, Eu, Ev. split.
        - intros [(X & Y)|(X & Y)]; injection X; injection Y; intros; subst; auto.
        - intros [(-> & ->)|(-> & ->)]; auto. }
      destruct (foldM (adj_step (sc_B1 sc)) A2 (seq (S j) m)) as [A'|e'].
      * destruct K as (K0 & K1 & Kd & Ks & Ko).
        split; [exact K0|]. split; [exact K1|]. split.
        { intros r e' Hr Er. destruct (Nat.eq_dec r j) as [->|Nr].
          - rewrite Ej in Er; injection Er; intros <-. intros (i & Hi & Hi').
            rewrite addresses_np in Hi, Hi'. congruence.
          - apply (Kd r e'); [lia|exact Er]. }
        assert (A2at : forall i k, at2 A2 i k = if ((Nat.eqb i q && Nat.eqb k p) || (Nat.eqb i p && Nat.eqb k q))%bool then 1 else at2 A i k).
        { intros i k. simpl. destruct (Nat.eqb i q && Nat.eqb k p)%bool; simpl; reflexivity. }
        assert (Dec : forall i k,
           (exists r e0, (S j <= r)%nat /\ nth_error E r = Some e0 /\ adj_pair (length nodes) e0 i k) \/
           ~ (exists r e0, (S j <= r)%nat /\ nth_error E r = Some e0 /\ adj_pair (length nodes) e0 i k)).
        { intros i k.
          assert (D : forall l, (exists r e0, nth_error l r = Some e0 /\ adj_pair (length nodes) e0 i k) \/
                     ~ (exists r e0, nth_error l r = Some e0 /\ adj_pair (length nodes) e0 i k)).
          { induction l as [|e0 l IHl].
            - right. intros (r & e0 & X & _). destruct r; discriminate.
            - destruct IHl as [(r & e1 & X & Y)|IHl].
              + left. exists (S r), e1. auto.
              + assert (D0 : adj_pair (length nodes) e0 i k \/ ~ adj_pair (length nodes) e0 i k).
                { unfold adj_pair. rewrite !addresses_np.
                  assert (Dn : forall x y, np_index (length nodes) x = Ok y \/ np_index (length nodes) x <> Ok y).
                  { intros x y. destruct (np_index (length nodes) x) as [z|]; [|right; discriminate].
                    destruct (Nat.eq_dec z y) as [->|]; [left; reflexivity|right; congruence]. }
                  destruct (Dn (fst e0) i), (Dn (snd e0) k), (Dn (fst e0) k), (Dn (snd e0) i); tauto. }
                destruct D0 as [D0|D0]; [left; exists O, e0; auto|].
                right. intros (r & e1 & X & Y). destruct r as [|r]; simpl in X.
                * injection X; intros ->; contradiction.
                * apply IHl. exists r, e1; auto. }
          destruct (D (skipn (S j) E)) as [(r & e0 & X & Y)|N'].
          - left. exists (S j + r)%nat, e0. split; [lia|]. split; [|exact Y].
            rewrite <- X. rewrite <- (firstn_skipn (S j) E) at 1.
            rewrite nth_error_app2 by (rewrite firstn_length; lia).
            f_equal. rewrite firstn_length. lia.
          - right. intros (r & e0 & Lr & X & Y). apply N'. exists (r - S j)%nat, e0. split; [|exact Y].
            rewrite <- X. rewrite <- (firstn_skipn (S j) E) at 2.
            rewrite (nth_error_app2 (firstn (S j) E)) by (rewrite firstn_length; lia).
            f_equal. rewrite firstn_length. lia. }
        split.
        { intros i k (r & e' & Hr & Er & Pr). destruct (Dec i k) as [D|D]; [apply Ks; exact D|].
          rewrite (Ko i k D), A2at. destruct (Nat.eq_dec r j) as [->|Nr].
          - rewrite Ej in Er; injection Er; intros <-. apply P0 in Pr.
            assert (X : ((i =? q)%nat && (k =? p)%nat || (i =? p)%nat && (k =? q)%nat)%bool = true).
            { rewrite orb_true_iff, !andb_true_iff, !Nat.eqb_eq. unfold p, q. lia. }
            rewrite X. reflexivity.
          - exfalso; apply D. exists r, e'. split; [lia|]. auto. }
        { intros i k NP. rewrite Ko.
          - rewrite A2at.
            destruct ((i =? q)%nat && (k =? p)%nat || (i =? p)%nat && (k =? q)%nat)%bool eqn:X; [|reflexivity].
            exfalso. apply NP. exists j, e. split; [lia|]. split; [exact Ej|]. apply P0.
            rewrite orb_true_iff, !andb_true_iff, !Nat.eqb_eq in X. unfold p, q in X. lia.
          - intros (r & e' & Hr & X). apply NP. exists r, e'. split; [lia|exact X]. }
      * destruct K as (-> & r & e0 & Hr & X). split; [reflexivity|]. exists r, e0. split; [lia|exact X].
Qed.

(** ** Laplacian entries *)

Lemma zsum_list {A} (l : list A) (f : nat -> Z) (g : A -> Z) :
  (forall j x, nth_error l j = Some x -> f j = g x) -> zsum (length l) f = lsum g l.
Proof.
  revert f; induction l as [|x l IH]; intros f H; [reflexivity|].
  cbn [length]. rewrite zsum_S_shift. simpl. rewrite (H O x eq_refl). f_equal.
  apply IH. intros j y Hj. apply (H (S j) y Hj).
Qed.

Lemma lsum_ext {A} (f g : A -> Z) l : (forall x, In x l -> f x = g x) -> lsum f l = lsum g l.
Proof.
  induction l as [|x l IH]; intros H; simpl; [reflexivity|].
  rewrite (H x (or_introl eq_refl)), IH; [reflexivity|]. intros y Hy; apply H; right; exact Hy.
Qed.

Lemma lsum_count {A} (f : A -> bool) l : lsum (fun x => ind (f x)) l = count f l.
Proof.
  unfold count. induction l as [|x l IH]; [reflexivity|]. simpl. rewrite IH.
  destruct (f x); cbn [ind length]; lia.
Qed.

Lemma lsum_opp {A} (f : A -> Z) l : lsum (fun x => - f x) l = - lsum f l.
Proof. induction l; simpl; lia. Qed.
Lemma lsum_add {A} (f g : A -> Z) l : lsum (fun x => f x + g x) l = lsum f l + lsum g l.
Proof. induction l; simpl; lia. Qed.

Lemma L0_entry nodes E T nf ef sc (H : make_sc nodes E T nf ef = Ok sc) :
  proper_edges (length nodes) E -> forall i k, (i < length nodes)%nat -> (k < length nodes)%nat ->
  at2 (amul (sc_B1 sc) (atr (sc_B1 sc))) i k =
  if Nat.eqb i k then count (fun e => touchesb e (Z.of_nat i)) E
  else - count (fun e => joinsb e (Z.of_nat i) (Z.of_nat k)) E.
Proof.
  intros P i k Hi Hk. destruct (make_sc_Ok _ _ _ _ _ _ H) as (_ & _ & _ & _ & _ & HB & _).
  destruct (sc_B1_spec _ _ _ _ _ _ H) as (_ & D1 & _). simpl. rewrite D1.
  rewrite (zsum_list E _ (fun e => bnd (fst e) (snd e) i * bnd (fst e) (snd e) k)).
  - destruct (Nat.eqb_spec i k) as [->|N].
    + rewrite <- lsum_count. apply lsum_ext. intros (u, v) Hin. destruct (P u v Hin) as (_ & _ & N).
      unfold bnd, touchesb, ind; simpl.
      destruct (Z.eqb_spec v (Z.of_nat k)), (Z.eqb_spec u (Z.of_nat k)); simpl; lia.
    + rewrite <- lsum_count, <- lsum_opp. apply lsum_ext. intros (u, v) Hin.
      destruct (P u v Hin) as (_ & _ & N').
      unfold bnd, joinsb, ind; simpl.
      destruct (Z.eqb_spec v (Z.of_nat k)), (Z.eqb_spec u (Z.of_nat k)),
        (Z.eqb_spec v (Z.of_nat i)), (Z.eqb_spec u (Z.of_nat i)); simpl; lia.
  - intros j (u, v) Hj. simpl.
    rewrite !(B1_entry _ _ _ HB P _ j u v) by assumption. reflexivity.
Qed.

(** Column sums of B1. *)
Lemma zsum_ind n x : 0 <= x < Z.of_nat n -> zsum n (fun p => ind (x =? Z.of_nat p)) = 1.
Proof.
  intros H. rewrite (zsum_ext n _ (fun p => if Nat.eqb p (Z.to_nat x) then 1 else 0)).
  - rewrite (zsum_delta n (Z.to_nat x) (fun _ => 1)); [reflexivity|lia].
  - intros p Hp. unfold ind. destruct (Z.eqb_spec x (Z.of_nat p)), (Nat.eqb_spec p (Z.to_nat x)); lia.
Qed.

Lemma B1_column_sum nodes E T nf ef sc (H : make_sc nodes E T nf ef = Ok sc) :
  proper_edges (length nodes) E -> forall j, (j < length E)%nat ->
  zsum (length nodes) (fun i => at2 (sc_B1 sc) i j) = 0.
Proof.
  intros P j Hj. destruct (make_sc_Ok _ _ _ _ _ _ H) as (_ & _ & _ & _ & _ & HB & _).
  destruct (nth_error E j) as [(u, v)|] eqn:Ej; [|apply nth_error_None in Ej; lia].
  destruct (P u v (nth_error_In _ _ Ej)) as (Hu & Hv & _).
  rewrite (zsum_ext _ _ (fun i => ind (v =? Z.of_nat i) - ind (u =? Z.of_nat i))).
  - rewrite zsum_sub, !zsum_ind by assumption. reflexivity.
  - intros i Hi. apply (B1_entry _ _ _ HB P); assumption.
Qed.

Lemma L0_row_sum nodes E T nf ef sc (H : make_sc nodes E T nf ef = Ok sc) :
  proper_edges (length nodes) E -> forall i,
  zsum (length nodes) (fun k => at2 (amul (sc_B1 sc) (atr (sc_B1 sc))) i k) = 0.
Proof.
  intros P i. destruct (sc_B1_spec _ _ _ _ _ _ H) as (_ & D1 & _). simpl. rewrite D1.
  rewrite zsum_swap. apply zsum_zero. intros j Hj. rewrite zsum_mul_l.
  rewrite (B1_column_sum _ _ _ _ _ _ H P j Hj). lia.
Qed.

Lemma L1L_entry nodes E T nf ef sc (H : make_sc nodes E T nf ef = Ok sc) :
  proper_edges (length nodes) E -> forall j k u v u' v',
  nth_error E j = Some (u, v) -> nth_error E k = Some (u', v') ->
  at2 (amul (atr (sc_B1 sc)) (sc_B1 sc)) j k =
  ind (v =? v') + ind (u =? u') - ind (v =? u') - ind (u =? v').
Proof.
  intros P j k u v u' v' Hj Hk.
  destruct (make_sc_Ok _ _ _ _ _ _ H) as (_ & _ & _ & _ & _ & HB & _).
  destruct (sc_B1_spec _ _ _ _ _ _ H) as (D0 & _ & _). simpl. rewrite D0.
  destruct (P u v (nth_error_In _ _ Hj)) as (Hu & Hv & _).
  destruct (P u' v' (nth_error_In _ _ Hk)) as (Hu' & Hv' & _).
  assert (Q : forall x y, 0 <= x < Z.of_nat (length nodes) ->
     zsum (length nodes) (fun p => ind (x =? Z.of_nat p) * ind (y =? Z.of_nat p)) = ind (x =? y)).
  { intros x y Hx.
    rewrite (zsum_ext _ _ (fun p => if Nat.eqb p (Z.to_nat x) then ind (x =? y) else 0)).
    - apply (zsum_delta (length nodes) (Z.to_nat x) (fun _ => ind (x =? y))). lia.
    - intros p Hp. unfold ind. destruct (Z.eqb_spec x (Z.of_nat p)), (Z.eqb_spec y (Z.of_nat p)),
        (Nat.eqb_spec p (Z.to_nat x)), (Z.eqb_spec x y); lia. }
  rewrite <- (Q v v' Hv), <- (Q u u' Hu), <- (Q v u' Hv), <- (Q u v' Hu).
  rewrite <- zsum_add, <- !zsum_sub. apply zsum_ext. intros p Hp.
  rewrite (B1_entry _ _ _ HB P p j u v Hp Hj), (B1_entry _ _ _ HB P p k u' v' Hp Hk). lia.
Qed.

(** *** B2 entries for simple edge lists *)

Lemma simple_first_at (E : list (Z * Z)) x k : NoDup E -> (first_at E x k <-> nth_error E k = Some x).
Proof.
  intros ND. split; [intros (H & _); exact H|]. intros H. split; [exact H|].
  intros k' L K. rewrite NoDup_nth_error in ND.
  assert (k' = k); [|lia]. apply ND; [apply nth_error_Some; congruence|congruence].
Qed.

Lemma simple_stored_at E u v k : simple_edges E ->
  (stored_at E u v k <-> nth_error E k = Some (u, v) \/ nth_error E k = Some (v, u)).
Proof.
  intros (ND & A). split; [apply stored_at_nth|]. unfold stored_at. rewrite !simple_first_at by exact ND.
  intros [H|H]; [left; exact H|]. right. split; [|exact H].
  intros I. exact (A _ _ I (nth_error_In _ _ H)).
Qed.

Lemma joinsb_iff e x y : joinsb e x y = true <-> e = (x, y) \/ e = (y, x).
Proof.
  destruct e as (u, v). unfold joinsb; simpl. rewrite orb_true_iff, !andb_true_iff, !Z.eqb_eq.
  split; [intros [(-> & ->)|(-> & ->)]; auto|]. intros [K|K]; injection K; auto.
Qed.

Lemma simple_st_eqb E u v k e : simple_edges E -> nth_error E k = Some e ->
  st_eqb E u v k = joinsb e u v.
Proof.
  intros S K. apply eq_true_iff_eq. rewrite st_eqb_iff, joinsb_iff, simple_stored_at by exact S.
  rewrite K. split; intros [H|H]; try (injection H; auto); subst; auto.
Qed.

Lemma B2_entry_sign nodes E T nf ef sc (H : make_sc nodes E T nf ef = Ok sc) :
  simple_edges E -> proper_triangles T -> forall k e j t,
  nth_error E k = Some e -> nth_error T j = Some t ->
  at2 (sc_B2 sc) k j = tri_sign t e.
Proof.
  intros S P k e j t Hk Hj. destruct (sc_B2_spec _ _ _ _ _ _ H) as (_ & _ & B).
  rewrite (B k j t Hj). unfold B2_col, tri_sign.
  destruct t as [|a [|b [|c [|d t]]]]; try reflexivity.
  rewrite !(simple_st_eqb E _ _ k e S Hk).
  destruct (P a b c (nth_error_In _ _ Hj)) as (Nab & Nbc & Nac).
  destruct (joinsb e a b) eqn:J1, (joinsb e b c) eqn:J2, (joinsb e a c) eqn:J3; try reflexivity;
    rewrite joinsb_iff in *; exfalso;
    repeat match goal with X : _ \/ _ |- _ => destruct X end; subst; congruence.
Qed.

Lemma tri_sign_sq t e : (exists a b c, t = [a; b; c] /\ a <> b /\ b <> c /\ a <> c) ->
  fst e <> snd e -> tri_sign t e * tri_sign t e = ind (edge_of_tri t e).
Proof.
  intros (a & b & c & -> & Nab & Nbc & Nac) Ne. destruct e as (u, v).
  unfold tri_sign, edge_of_tri, joinsb, ind; simpl in *.
  destruct (Z.eqb_spec u a), (Z.eqb_spec u b), (Z.eqb_spec u c),
    (Z.eqb_spec v a), (Z.eqb_spec v b), (Z.eqb_spec v c); simpl; lia.
Qed.

Lemma L1U_entry nodes E T nf ef sc (H : make_sc nodes E T nf ef = Ok sc) :
  simple_edges E -> proper_triangles T -> forall j k e e',
  nth_error E j = Some e -> nth_error E k = Some e' ->
  at2 (amul (sc_B2 sc) (atr (sc_B2 sc))) j k = lsum (fun t => tri_sign t e * tri_sign t e') T.
Proof.
  intros S P j k e e' Hj Hk. destruct (sc_B2_spec _ _ _ _ _ _ H) as (_ & D1 & _). simpl. rewrite D1.
  apply zsum_list. intros q t Hq.
  rewrite (B2_entry_sign _ _ _ _ _ _ H S P j e q t Hj Hq),
          (B2_entry_sign _ _ _ _ _ _ H S P k e' q t Hk Hq). reflexivity.
Qed.

Lemma L1U_diag nodes E T nf ef sc (H : make_sc nodes E T nf ef = Ok sc) :
  simple_edges E -> proper_triangles T -> forall j e,
  nth_error E j = Some e -> fst e <> snd e ->
  at2 (amul (sc_B2 sc) (atr (sc_B2 sc))) j j = count (fun t => edge_of_tri t e) T.
Proof.
  intros S P j e Hj N. rewrite (L1U_entry _ _ _ _ _ _ H S P j j e e Hj Hj), <- lsum_count.
  apply lsum_ext. intros t Ht. apply tri_sign_sq; [|exact N].
  destruct (make_sc_Ok _ _ _ _ _ _ H) as (_ & _ & _ & _ & _ & _ & _ & _ & G).
  destruct (G t Ht) as (a & b & c & -> & _). exists a, b, c. split; [reflexivity|]. exact (P a b c Ht).
Qed.

Lemma L2_diag nodes E T nf ef sc (H : make_sc nodes E T nf ef = Ok sc) :
  proper_triangles T -> forall j, (j < length T)%nat ->
  at2 (amul (atr (sc_B2 sc)) (sc_B2 sc)) j j = 3.
Proof.
  intros P j Hj. destruct (make_sc_Ok _ _ _ _ _ _ H) as (_ & _ & _ & _ & _ & _ & HB & _ & G).
  destruct (sc_B2_spec _ _ _ _ _ _ H) as (D0 & _ & B).
  destruct (nth_error T j) as [t|] eqn:Ej; [|apply nth_error_None in Ej; lia].
  destruct (G t (nth_error_In _ _ Ej)) as (a & b & c & -> & La & Lb & Lc).
  destruct (P a b c (nth_error_In _ _ Ej)) as (Nab & Nbc & Nac).
  destruct (linked_stored _ _ _ La) as (ka & Ka). destruct (linked_stored _ _ _ Lb) as (kb & Kb).
  destruct (linked_stored _ _ _ Lc) as (kc & Kc).
  destruct (three_positions _ _ _ _ _ _ _ Nab Nbc Nac Ka Kb Kc) as (N1 & N2 & N3).
  simpl. rewrite D0.
  rewrite (B2_column_sum E T _ HB j a b c ka kb kc (fun k => at2 (sc_B2 sc) k j) Nab Nbc Nac Ej Ka Kb Kc).
  rewrite !(B _ j _ Ej), !(B2_col_st _ _ _ _ _ _ _ _ Ka Kb Kc).
  destruct (Nat.eqb_spec ka kb), (Nat.eqb_spec ka kc), (Nat.eqb_spec kc kb), (Nat.eqb_spec kb kb),
    (Nat.eqb_spec kc kc), (Nat.eqb_spec ka ka), (Nat.eqb_spec kb kc), (Nat.eqb_spec kb ka); lia.
Qed.

(** ** Symmetry and quadratic forms of Gram products over Z *)

Lemma gram_sym A i j : at2 (amul A (atr A)) i j = at2 (amul A (atr A)) j i.
Proof. simpl. apply zsum_ext. intros; lia. Qed.
Lemma gram_sym' A i j : at2 (amul (atr A) A) i j = at2 (amul (atr A) A) j i.
Proof. simpl. apply zsum_ext. intros; lia. Qed.
