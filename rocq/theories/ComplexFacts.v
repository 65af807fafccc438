(** * Lemmas about the model of simplicial_complex.py: construction and boundary maps *)

From Coq Require Import ZArith String List Bool Lia Permutation Sorted.
From Verif Require Import Py PyFacts Complex ComplexSpec.
Import ListNotations.
Open Scope Z_scope.

(** ** A loop that writes column [j] for the [j]-th list element *)

Section ColumnLoop.
  Context {X : Type} (step : arr2 -> nat * X -> res arr2) (n m : nat)
          (good : X -> Prop) (err : exn) (col : X -> nat -> Z -> Z).
  Hypothesis step_spec : forall A j x, sh0 A = n -> sh1 A = m -> (j < m)%nat ->
    match step A (j, x) with
    | Ok A' => good x /\ sh0 A' = n /\ sh1 A' = m /\
        (forall p q, q <> j -> at2 A' p q = at2 A p q) /\
        (forall p, at2 A' p j = col x p (at2 A p j))
    | Raise e => e = err /\ ~ good x
    end.

  Lemma column_loop l : forall j0 A, sh0 A = n -> sh1 A = m -> (j0 + length l <= m)%nat ->
    match foldM step A (enumerate_from j0 l) with
    | Ok A' => (forall x, In x l -> good x) /\ sh0 A' = n /\ sh1 A' = m /\
        (forall p q, (q < j0)%nat \/ (j0 + length l <= q)%nat -> at2 A' p q = at2 A p q) /\
        (forall p k x, nth_error l k = Some x ->
           at2 A' p (j0 + k)%nat = col x p (at2 A p (j0 + k)%nat))
    | Raise e => e = err /\ ~ (forall x, In x l -> good x)
    end.
  Proof.
    induction l as [|x l IH]; intros j0 A H0 H1 HL; simpl.
    - split; [intros x []|]. split; [exact H0|]. split; [exact H1|]. split; [reflexivity|].
      intros p k x Hk; destruct k; discriminate.
    - simpl in HL.
      pose proof (step_spec A j0 x H0 H1 ltac:(lia)) as S.
      destruct (step A (j0, x)) as [A'|e]; simpl.
      + destruct S as (Gx & S0 & S1 & So & Sc).
        pose proof (IH (S j0) A' S0 S1 ltac:(lia)) as K.
        destruct (foldM step A' (enumerate_from (S j0) l)) as [A''|e].
        * destruct K as (G & K0 & K1 & Ko & Kc).
          split; [intros y [<-|Hy]; auto|]. split; [exact K0|]. split; [exact K1|]. split.
          -- intros p q Hq. rewrite Ko by lia. apply So; lia.
          -- intros p [|k] y Hk; simpl in Hk.
             ++ injection Hk; intros <-. rewrite Nat.add_0_r. rewrite Ko by lia. apply Sc.
             ++ replace (j0 + S k)%nat with (S j0 + k)%nat by lia.
                rewrite (Kc p k y Hk). f_equal. apply So; lia.
        * destruct K as (-> & K). split; [reflexivity|]. intros G; apply K.
          intros y Hy; apply G; right; exact Hy.
      + destruct S as (-> & S). split; [reflexivity|]. intros G; apply S, G; left; reflexivity.
  Qed.
End ColumnLoop.

(** ** B1 *)

Definition B1_good (n : nat) (e : Z * Z) : Prop := in_range n (fst e) /\ in_range n (snd e).

Definition idx_eqb (n : nat) (x : Z) (p : nat) : bool :=
  match np_index n x with Ok k => Nat.eqb p k | Raise _ => false end.

Definition B1_col (n : nat) (e : Z * Z) (p : nat) (old : Z) : Z :=
  if idx_eqb n (snd e) p then 1 else if idx_eqb n (fst e) p then -1 else old.

Lemma in_range_np n x : in_range n x <-> exists k, np_index n x = Ok k.
Proof.
  unfold in_range. split.
  - intros H. destruct (np_index n x) as [k|e] eqn:E; [exists k; reflexivity|].
    apply np_index_Raise in E; tauto.
  - intros (k & H). apply np_index_Ok in H. lia.
Qed.

Lemma idx_eqb_iff n x p : idx_eqb n x p = true <-> addresses n x p.
Proof.
  unfold idx_eqb, addresses. destruct (np_index n x) as [k|e] eqn:E.
  - pose proof E as E'. apply np_index_Ok in E. rewrite Nat.eqb_eq. split.
    + intros ->. exact E.
    + intros H. apply np_index_Ok in H. eapply np_index_inj; eassumption.
  - split; [discriminate|]. intros H. apply np_index_Ok in H. congruence.
Qed.

Lemma B1_step_spec n m A j e : sh0 A = n -> sh1 A = m -> (j < m)%nat ->
  match B1_step A (j, e) with
  | Ok A' => B1_good n e /\ sh0 A' = n /\ sh1 A' = m /\
      (forall p q, q <> j -> at2 A' p q = at2 A p q) /\
      (forall p, at2 A' p j = B1_col n e p (at2 A p j))
  | Raise e' => e' = IndexError /\ ~ B1_good n e
  end.
Proof.
  intros H0 H1 Hj. destruct e as (u, v). unfold B1_step, B1_good, B1_col, idx_eqb; simpl.
  unfold aset. rewrite H0, H1, (np_index_nat m j Hj).
  destruct (np_index n u) as [ku|eu] eqn:Eu; simpl.
  - rewrite ?H0, ?H1, ?(np_index_nat m j Hj).
    destruct (np_index n v) as [kv|ev] eqn:Ev; simpl.
    + split; [rewrite !in_range_np; eauto|]. split; [reflexivity|]. split; [reflexivity|]. split.
      * intros p q Hq. apply Nat.eqb_neq in Hq. rewrite Hq, !andb_false_r. reflexivity.
      * intros p. rewrite Nat.eqb_refl, !andb_true_r. reflexivity.
    + pose proof Ev as Ev2. apply np_index_Raise in Ev2. destruct Ev2 as (-> & _). split; [reflexivity|].
      rewrite !in_range_np. intros (_ & (k & K)); congruence.
  - pose proof Eu as Eu2. apply np_index_Raise in Eu2. destruct Eu2 as (-> & _). split; [reflexivity|].
    rewrite !in_range_np. intros ((k & K) & _); congruence.
Qed.

Lemma edges_to_B1_spec E n :
  match edges_to_B1 E n with
  | Ok B => good_edges n E /\ sh0 B = n /\ sh1 B = length E /\
      forall p k e, nth_error E k = Some e -> at2 B p k = B1_col n e p 0
  | Raise e => e = IndexError /\ ~ good_edges n E
  end.
Proof.
  unfold edges_to_B1, enumerate.
  pose proof (column_loop B1_step n (length E) (B1_good n) IndexError (B1_col n)
                (fun A j x => B1_step_spec n (length E) A j x) E 0 (azeros n (length E))
                eq_refl eq_refl ltac:(lia)) as H.
  destruct (foldM _ _ _) as [B|e].
  - destruct H as (G & H0 & H1 & _ & H). split; [|split; [exact H0|split; [exact H1|]]].
    + intros u v K. exact (G (u, v) K).
    + intros p k e K. exact (H p k e K).
  - destruct H as (-> & H). split; [reflexivity|]. intros G; apply H.
    intros (u, v) K. exact (G u v K).
Qed.

(** ** B2 *)

Lemma first_at_index (E : list (Z * Z)) x k :
  py_index pair_eqb E x = Ok k <-> first_at E x k.
Proof. apply py_index_Ok. exact pair_eqb_spec. Qed.

Lemma first_at_fun {A} (l : list A) x k k' : first_at l x k -> first_at l x k' -> k = k'.
Proof.
  intros (H1 & H2) (K1 & K2). destruct (Nat.lt_trichotomy k k') as [L|[L|L]]; [|exact L|].
  - exfalso; exact (K2 k L H1).
  - exfalso; exact (H2 k' L K1).
Qed.

Lemma first_at_In {A} (l : list A) x k : first_at l x k -> In x l.
Proof. intros (H & _). eapply nth_error_In; exact H. Qed.

Lemma stored_at_fun E u v k k' : stored_at E u v k -> stored_at E u v k' -> k = k'.
Proof.
  intros [H|(N & H)] [K|(M & K)].
  - eapply first_at_fun; eassumption.
  - apply first_at_In in H; contradiction.
  - apply first_at_In in K; contradiction.
  - eapply first_at_fun; eassumption.
Qed.

Lemma edge_index_Ok E u v k : edge_index E u v = Ok k <-> stored_at E u v k.
Proof.
  unfold edge_index, stored_at.
  destruct (py_index pair_eqb E (u, v)) as [k0|e] eqn:H; simpl.
  - apply first_at_index in H. split.
    + intros K; injection K; intros <-. left; exact H.
    + intros [K|(N & _)]; [f_equal; eapply first_at_fun; eassumption|].
      apply first_at_In in H; contradiction.
  - apply (py_index_Raise pair_eqb pair_eqb_spec) in H. destruct H as (-> & H).
    rewrite first_at_index. split.
    + intros K; right; auto.
    + intros [K|(_ & K)]; [apply first_at_In in K; contradiction|exact K].
Qed.

Lemma edge_index_Raise E u v e : edge_index E u v = Raise e <-> e = ValueError /\ ~ linked E u v.
Proof.
  unfold edge_index, linked.
  destruct (py_index pair_eqb E (u, v)) as [k0|e0] eqn:H; simpl.
  - apply first_at_index, first_at_In in H. split; [discriminate|]. tauto.
  - apply (py_index_Raise pair_eqb pair_eqb_spec) in H. destruct H as (-> & H).
    rewrite (py_index_Raise pair_eqb pair_eqb_spec). tauto.
Qed.

Lemma stored_at_linked E u v k : stored_at E u v k -> linked E u v.
Proof. intros [H|(_ & H)]; apply first_at_In in H; [left|right]; exact H. Qed.

Lemma linked_stored E u v : linked E u v -> exists k, stored_at E u v k.
Proof.
  intros H. destruct (edge_index E u v) as [k|e] eqn:K.
  - exists k. apply edge_index_Ok; exact K.
  - apply edge_index_Raise in K. tauto.
Qed.

Lemma stored_at_nth E u v k :
  stored_at E u v k -> nth_error E k = Some (u, v) \/ nth_error E k = Some (v, u).
Proof. intros [(H & _)|(_ & (H & _))]; auto. Qed.

Lemma stored_at_lt E u v k : stored_at E u v k -> (k < length E)%nat.
Proof.
  intros H. apply stored_at_nth in H. apply nth_error_Some. destruct H as [->| ->]; discriminate.
Qed.

Definition st_eqb (E : list (Z * Z)) (u v : Z) (k : nat) : bool :=
  match edge_index E u v with Ok k' => Nat.eqb k k' | Raise _ => false end.

Lemma st_eqb_iff E u v k : st_eqb E u v k = true <-> stored_at E u v k.
Proof.
  unfold st_eqb. destruct (edge_index E u v) as [k'|e] eqn:H.
  - rewrite Nat.eqb_eq. apply edge_index_Ok in H. split; [intros ->; exact H|].
    intros K; eapply stored_at_fun; eassumption.
  - split; [discriminate|]. intros K; apply edge_index_Ok in K; congruence.
Qed.

Definition B2_col (E : list (Z * Z)) (t : list Z) (p : nat) (old : Z) : Z :=
  match t with
  | [a; b; c] =>
      if st_eqb E b c p then 1 else if st_eqb E a c p then -1 else if st_eqb E a b p then 1 else old
  | _ => old
  end.

Lemma closed_triangle_3 E a b c :
  closed_triangle E [a; b; c] <-> linked E a b /\ linked E b c /\ linked E a c.
Proof.
  split; [|intros H; exists a, b, c; auto].
  intros (a' & b' & c' & H & K). injection H; intros -> -> ->. exact K.
Qed.

Lemma edge_index_lt E u v k : edge_index E u v = Ok k -> (k < length E)%nat.
Proof. rewrite edge_index_Ok. apply stored_at_lt. Qed.

Lemma B2_step_spec E m A j t : sh0 A = length E -> sh1 A = m -> (j < m)%nat ->
  match B2_step E A (j, t) with
  | Ok A' => closed_triangle E t /\ sh0 A' = length E /\ sh1 A' = m /\
      (forall p q, q <> j -> at2 A' p q = at2 A p q) /\
      (forall p, at2 A' p j = B2_col E t p (at2 A p j))
  | Raise e' => e' = ValueError /\ ~ closed_triangle E t
  end.
Proof.
  intros H0 H1 Hj. unfold B2_step.
  assert (N : forall x, (forall a b c, t <> [a; b; c]) -> x = true -> ~ closed_triangle E t).
  { intros _ H _ (a & b & c & K & _). exact (H a b c K). }
  destruct t as [|a [|b [|c [|d t]]]];
    try (split; [reflexivity|]; apply (N true); [intros; discriminate|reflexivity]).
  clear N. pose proof (closed_triangle_3 E a b c) as CT. unfold B2_col, st_eqb.
  destruct (edge_index E a b) as [ka|e] eqn:Ea; simpl.
  2: { apply edge_index_Raise in Ea. destruct Ea; split; tauto. }
  destruct (edge_index E b c) as [kb|e] eqn:Eb; simpl.
  2: { apply edge_index_Raise in Eb. destruct Eb; split; tauto. }
  destruct (edge_index E a c) as [kc|e] eqn:Ec; simpl.
  2: { apply edge_index_Raise in Ec. destruct Ec; split; tauto. }
  pose proof (edge_index_lt _ _ _ _ Ea). pose proof (edge_index_lt _ _ _ _ Eb).
  pose proof (edge_index_lt _ _ _ _ Ec).
  rewrite aset_nat by lia. simpl. rewrite aset_nat by (simpl; lia). simpl.
  rewrite aset_nat by (simpl; lia). simpl.
  apply edge_index_Ok, stored_at_linked in Ea, Eb, Ec.
  split; [tauto|]. split; [exact H0|]. split; [exact H1|]. split.
  - intros p q Hq. apply Nat.eqb_neq in Hq. rewrite Hq, !andb_false_r. reflexivity.
  - intros p. rewrite Nat.eqb_refl, !andb_true_r. reflexivity.
Qed.

Lemma triangles_to_B2_spec T E :
  match triangles_to_B2 T E with
  | Ok B => good_triangles E T /\ sh0 B = length E /\ sh1 B = length T /\
      forall p k t, nth_error T k = Some t -> at2 B p k = B2_col E t p 0
  | Raise e => e = ValueError /\ ~ good_triangles E T
  end.
Proof.
  unfold triangles_to_B2, enumerate.
  pose proof (column_loop (B2_step E) (length E) (length T) (closed_triangle E) ValueError
                (B2_col E) (fun A j x => B2_step_spec E (length T) A j x) T 0
                (azeros (length E) (length T)) eq_refl eq_refl ltac:(lia)) as H.
  destruct (foldM _ _ _) as [B|e].
  - destruct H as (G & H0 & H1 & _ & H). split; [exact G|]. split; [exact H0|]. split; [exact H1|].
    intros p k t K. exact (H p k t K).
  - destruct H as (-> & H). split; [reflexivity|exact H].
Qed.

(** ** The constructor *)

Lemma make_sc_Ok nodes E T nf ef sc :
  make_sc nodes E T nf ef = Ok sc ->
  sc_nodes sc = nodes /\ sc_edges sc = E /\ sc_triangles sc = T /\
  sc_node_features sc = nf /\ sc_edge_features sc = ef /\
  edges_to_B1 E (length nodes) = Ok (sc_B1 sc) /\ triangles_to_B2 T E = Ok (sc_B2 sc) /\
  good_edges (length nodes) E /\ good_triangles E T.
Proof.
  unfold make_sc. pose proof (edges_to_B1_spec E (length nodes)) as H1.
  pose proof (triangles_to_B2_spec T E) as H2.
  destruct (edges_to_B1 E (length nodes)) as [B1|e]; simpl; [|discriminate].
  destruct (triangles_to_B2 T E) as [B2|e]; simpl; [|discriminate].
  intros H; injection H; intros <-; simpl. tauto.
Qed.

Lemma make_sc_cases nodes E T nf ef :
  match make_sc nodes E T nf ef with
  | Ok sc => good_edges (length nodes) E /\ good_triangles E T
  | Raise e => (e = IndexError /\ ~ good_edges (length nodes) E) \/
               (e = ValueError /\ good_edges (length nodes) E /\ ~ good_triangles E T)
  end.
Proof.
  unfold make_sc. pose proof (edges_to_B1_spec E (length nodes)) as H1.
  pose proof (triangles_to_B2_spec T E) as H2.
  destruct (edges_to_B1 E (length nodes)) as [B1|e]; simpl; [|tauto].
  destruct (triangles_to_B2 T E) as [B2|e]; simpl; tauto.
Qed.

(** Dimensions and entries of the stored matrices *)
Lemma sc_B1_spec nodes E T nf ef sc :
  make_sc nodes E T nf ef = Ok sc ->
  sh0 (sc_B1 sc) = length nodes /\ sh1 (sc_B1 sc) = length E /\
  forall p k e, nth_error E k = Some e -> at2 (sc_B1 sc) p k = B1_col (length nodes) e p 0.
Proof.
  intros H. apply make_sc_Ok in H. destruct H as (_ & _ & _ & _ & _ & H & _).
  pose proof (edges_to_B1_spec E (length nodes)) as K. rewrite H in K. tauto.
Qed.

Lemma sc_B2_spec nodes E T nf ef sc :
  make_sc nodes E T nf ef = Ok sc ->
  sh0 (sc_B2 sc) = length E /\ sh1 (sc_B2 sc) = length T /\
  forall p k t, nth_error T k = Some t -> at2 (sc_B2 sc) p k = B2_col E t p 0.
Proof.
  intros H. apply make_sc_Ok in H. destruct H as (_ & _ & _ & _ & _ & _ & H & _).
  pose proof (triangles_to_B2_spec T E) as K. rewrite H in K. tauto.
Qed.

(** Entries of B1 for a proper edge list, as an arithmetic expression. *)
Lemma addresses_proper n u p :
  0 <= u < Z.of_nat n -> (p < n)%nat -> (addresses n u p <-> u = Z.of_nat p).
Proof. unfold addresses; intros; split; [intros (_ & [H1|H1])|]; lia. Qed.

Lemma idx_eqb_proper n u p :
  0 <= u < Z.of_nat n -> (p < n)%nat -> idx_eqb n u p = (u =? Z.of_nat p).
Proof.
  intros H K. apply eq_true_iff_eq. rewrite idx_eqb_iff, Z.eqb_eq.
  apply addresses_proper; assumption.
Qed.

Lemma B1_entry n E sc_B1 (H : edges_to_B1 E n = Ok sc_B1) :
  proper_edges n E -> forall p k u v, (p < n)%nat -> nth_error E k = Some (u, v) ->
  at2 sc_B1 p k = ind (v =? Z.of_nat p) - ind (u =? Z.of_nat p).
Proof.
  intros P p k u v Hp K. pose proof (edges_to_B1_spec E n) as S. rewrite H in S.
  destruct S as (_ & _ & _ & S). rewrite (S p k _ K). unfold B1_col; simpl.
  destruct (P u v (nth_error_In _ _ K)) as (Hu & Hv & N).
  rewrite !idx_eqb_proper by assumption. unfold ind.
  destruct (Z.eqb_spec v (Z.of_nat p)), (Z.eqb_spec u (Z.of_nat p)); lia.
Qed.

(** Distinct vertex pairs are stored at distinct positions. *)
Lemma stored_at_pair E u v u' v' k :
  stored_at E u v k -> stored_at E u' v' k -> (u = u' /\ v = v') \/ (u = v' /\ v = u').
Proof.
  intros H K. apply stored_at_nth in H, K.
  destruct H as [H|H], K as [K|K]; rewrite H in K; injection K; intros; subst; auto.
Qed.

(** A sum supported on three distinct positions. *)
Lemma zsum_three n f ka kb kc (wa wb wc : Z) :
  (ka < n)%nat -> (kb < n)%nat -> (kc < n)%nat -> ka <> kb -> kb <> kc -> ka <> kc ->
  zsum n (fun k => f k * (if Nat.eqb k kb then wb else if Nat.eqb k kc then wc
                          else if Nat.eqb k ka then wa else 0))
  = f ka * wa + f kb * wb + f kc * wc.
Proof.
  intros Ha Hb Hc Nab Nbc Nac.
  rewrite <- (zsum_delta n ka (fun k => f k * wa) Ha).
  rewrite <- (zsum_delta n kb (fun k => f k * wb) Hb).
  rewrite <- (zsum_delta n kc (fun k => f k * wc) Hc).
  rewrite <- !zsum_add. apply zsum_ext. intros k _.
  destruct (Nat.eqb_spec k ka), (Nat.eqb_spec k kb), (Nat.eqb_spec k kc); subst; lia.
Qed.

Lemma B2_col_st E a b c ka kb kc p :
  stored_at E a b ka -> stored_at E b c kb -> stored_at E a c kc ->
  B2_col E [a; b; c] p 0 =
  if Nat.eqb p kb then 1 else if Nat.eqb p kc then -1 else if Nat.eqb p ka then 1 else 0.
Proof.
  intros Ha Hb Hc. unfold B2_col, st_eqb.
  apply edge_index_Ok in Ha, Hb, Hc. rewrite Ha, Hb, Hc. reflexivity.
Qed.

Lemma three_positions E a b c ka kb kc :
  a <> b -> b <> c -> a <> c ->
  stored_at E a b ka -> stored_at E b c kb -> stored_at E a c kc ->
  ka <> kb /\ kb <> kc /\ ka <> kc.
Proof.
  intros Nab Nbc Nac Ha Hb Hc. repeat split; intros ->.
  - destruct (stored_at_pair _ _ _ _ _ _ Ha Hb) as [(? & ?)|(? & ?)]; congruence.
  - destruct (stored_at_pair _ _ _ _ _ _ Hb Hc) as [(? & ?)|(? & ?)]; congruence.
  - destruct (stored_at_pair _ _ _ _ _ _ Ha Hc) as [(? & ?)|(? & ?)]; congruence.
Qed.

(** Sum of a weight over a B2 column. *)
Lemma B2_column_sum E T B2 (H : triangles_to_B2 T E = Ok B2) j a b c ka kb kc f :
  a <> b -> b <> c -> a <> c -> nth_error T j = Some [a; b; c] ->
  stored_at E a b ka -> stored_at E b c kb -> stored_at E a c kc ->
  zsum (length E) (fun k => f k * at2 B2 k j) = f ka + f kb - f kc.
Proof.
  intros Nab Nbc Nac Hj Ha Hb Hc.
  pose proof (triangles_to_B2_spec T E) as S. rewrite H in S. destruct S as (_ & _ & _ & S).
  destruct (three_positions _ _ _ _ _ _ _ Nab Nbc Nac Ha Hb Hc) as (N1 & N2 & N3).
  transitivity (f ka * 1 + f kb * 1 + f kc * -1); [|lia].
  rewrite <- (zsum_three (length E) f ka kb kc 1 1 (-1)); eauto using stored_at_lt.
  apply zsum_ext. intros k _. rewrite (S k j _ Hj).
  rewrite (B2_col_st _ _ _ _ _ _ _ _ Ha Hb Hc). reflexivity.
Qed.

(** ** Boundary of a boundary *)

Definition bnd (u v : Z) (p : nat) : Z := ind (v =? Z.of_nat p) - ind (u =? Z.of_nat p).

(** Column entry of the stored edge for the pair (u,v): +- the boundary of (u,v). *)
Lemma B1_stored n E B1 (H : edges_to_B1 E n = Ok B1) u v k :
  proper_edges n E -> stored_at E u v k ->
  exists s, ((In (u, v) E /\ s = 1) \/ (~ In (u, v) E /\ s = -1)) /\
    forall p, (p < n)%nat -> at2 B1 p k = s * bnd u v p.
Proof.
  intros P S. unfold bnd. destruct S as [S|(N & S)].
  - exists 1. split; [left; split; [eapply first_at_In; exact S|reflexivity]|].
    intros p Hp. destruct S as (S & _).
    rewrite (B1_entry n E B1 H P p k u v Hp S). lia.
  - exists (-1). split; [right; auto|]. intros p Hp. destruct S as (S & _).
    rewrite (B1_entry n E B1 H P p k v u Hp S). lia.
Qed.

Lemma bnd_tail u v p : u <> v -> u = Z.of_nat p -> bnd u v p = -1.
Proof.
  intros N H. unfold bnd, ind.
  destruct (Z.eqb_spec v (Z.of_nat p)), (Z.eqb_spec u (Z.of_nat p)); lia.
Qed.
Lemma bnd_head u v p : u <> v -> v = Z.of_nat p -> bnd u v p = 1.
Proof.
  intros N H. unfold bnd, ind.
  destruct (Z.eqb_spec v (Z.of_nat p)), (Z.eqb_spec u (Z.of_nat p)); lia.
Qed.
Lemma bnd_off u v p : u <> Z.of_nat p -> v <> Z.of_nat p -> bnd u v p = 0.
Proof.
  intros N H. unfold bnd, ind.
  destruct (Z.eqb_spec v (Z.of_nat p)), (Z.eqb_spec u (Z.of_nat p)); lia.
Qed.
Lemma bnd_cycle a b c p : bnd a b p + bnd b c p - bnd a c p = 0.
Proof. unfold bnd. lia. Qed.

Lemma coherent_3 E a b c : coherent E [a; b; c] <->
  ((In (a, b) E /\ In (b, c) E /\ In (a, c) E) \/
   (~ In (a, b) E /\ ~ In (b, c) E /\ ~ In (a, c) E)).
Proof.
  split; [intros (a' & b' & c' & Q & K); injection Q; intros -> -> ->; exact K|].
  intros K; exists a, b, c; auto.
Qed.

Lemma boundary_column n E T B1 B2 (H1 : edges_to_B1 E n = Ok B1) (H2 : triangles_to_B2 T E = Ok B2)
  (P : proper_edges n E) j a b c :
  a <> b -> b <> c -> a <> c -> nth_error T j = Some [a; b; c] ->
  (forall i, (i < n)%nat -> at2 (amul B1 B2) i j = 0) <-> coherent E [a; b; c].
Proof.
  intros Nab Nbc Nac Hj.
  pose proof (edges_to_B1_spec E n) as S1. rewrite H1 in S1. destruct S1 as (_ & D0 & D1 & _).
  pose proof (triangles_to_B2_spec T E) as S2. rewrite H2 in S2.
  destruct S2 as (G & _ & _ & _).
  destruct (proj1 (closed_triangle_3 _ _ _ _) (G _ (nth_error_In _ _ Hj))) as (La & Lb & Lc).
  destruct (linked_stored _ _ _ La) as (ka & Ka). destruct (linked_stored _ _ _ Lb) as (kb & Kb).
  destruct (linked_stored _ _ _ Lc) as (kc & Kc).
  assert (S : forall i, at2 (amul B1 B2) i j = at2 B1 i ka + at2 B1 i kb - at2 B1 i kc).
  { intros i. simpl. rewrite D1.
    exact (B2_column_sum E T B2 H2 j a b c ka kb kc (fun k => at2 B1 i k) Nab Nbc Nac Hj Ka Kb Kc). }
  assert (R : forall u v, linked E u v -> 0 <= u < Z.of_nat n /\ 0 <= v < Z.of_nat n).
  { intros u v [H|H]; apply P in H; tauto. }
  destruct (R _ _ La) as (Ra & Rb). destruct (R _ _ Lb) as (_ & Rc).
  destruct (B1_stored n E B1 H1 _ _ _ P Ka) as (sa & Da & Va).
  destruct (B1_stored n E B1 H1 _ _ _ P Kb) as (sb & Db & Vb).
  destruct (B1_stored n E B1 H1 _ _ _ P Kc) as (sc & Dc & Vc).
  assert (S' : forall i, (i < n)%nat ->
            at2 (amul B1 B2) i j = sa * bnd a b i + sb * bnd b c i - sc * bnd a c i).
  { intros i Hi. rewrite S, Va, Vb, Vc by exact Hi. reflexivity. }
  clear S Va Vb Vc. rewrite coherent_3. split.
  - intros Z0.
    assert (Za := Z0 (Z.to_nat a) ltac:(lia)). rewrite S' in Za by lia.
    assert (Zb := Z0 (Z.to_nat b) ltac:(lia)). rewrite S' in Zb by lia.
    rewrite (bnd_tail a b), (bnd_off b c), (bnd_tail a c) in Za by lia.
    rewrite (bnd_head a b), (bnd_tail b c), (bnd_off a c) in Zb by lia.
    destruct Da as [(? & ->)|(? & ->)], Db as [(? & ->)|(? & ->)], Dc as [(? & ->)|(? & ->)];
      try lia; tauto.
  - intros K i Hi. rewrite S' by exact Hi.
    pose proof (bnd_cycle a b c i) as Z0.
    destruct Da as [(? & ->)|(? & ->)], Db as [(? & ->)|(? & ->)], Dc as [(? & ->)|(? & ->)];
      try tauto; lia.
Qed.
