(** * Properties C05-C07: the builder *)

From Coq Require Import ZArith String QArith List Bool Lia Permutation Sorted.
From Verif Require Import Py PyFacts Complex ComplexSpec ComplexFacts Builder BuilderSpec BuilderFacts ExampleData Props_Complex.
Import ListNotations.
Open Scope Z_scope.

Lemma sorted3 a b c t : Permutation t [a; b; c] -> a < b -> b < c -> py_sorted Z.leb t = [a; b; c].
Proof.
  intros P H1 H2.
  assert (S1 := py_sorted_sorted Z.leb Zleb_total Zleb_trans t).
  assert (P1 : Permutation (py_sorted Z.leb t) [a; b; c]).
  { rewrite <- (py_sorted_perm Z.leb t). exact P. }
  pose proof (Permutation_length P1) as L. destruct (py_sorted Z.leb t) as [|x [|y [|z [|]]]]; try discriminate.
  inversion S1 as [|? ? S2 F1]; subst. inversion S2 as [|? ? S3 F2]; subst.
  inversion F1 as [|? ? K1 F3]; subst. inversion F3 as [|? ? K2 _]; subst.
  inversion F2 as [|? ? K3 _]; subst.
  apply Z.leb_le in K1, K2, K3.
  assert (In x [a;b;c] /\ In y [a;b;c] /\ In z [a;b;c]) as (Ix & Iy & Iz).
  { repeat split; eapply Permutation_in; try exact P1; simpl; tauto. }
  assert (ND : NoDup [x; y; z]).
  { eapply Permutation_NoDup; [apply Permutation_sym; exact P1|].
    repeat constructor; simpl; intuition lia. }
  inversion ND as [|? ? N1 ND2]; subst. inversion ND2 as [|? ? N2 _]; subst. simpl in *.
  assert (x = a /\ y = b /\ z = c) as (-> & -> & ->) by intuition lia. reflexivity.
Qed.

Lemma linked_sym E u v : linked E u v -> linked E v u.
Proof. unfold linked; tauto. Qed.

Lemma clique3 E a b c : clique E [a; b; c] = true <-> linked E a b /\ linked E a c /\ linked E b c.
Proof.
  simpl. rewrite !andb_true_iff, !has_edge_iff. tauto.
Qed.

Lemma clique_pairwise E t : clique E t = true <-> pairwise_linked E t.
Proof.
  induction t as [|u t IH]; simpl.
  - split; [|reflexivity]. intros _ i j u v _ H. destruct i; discriminate.
  - rewrite andb_true_iff, IH, forallb_forall. split.
    + intros [H1 H2] [|i] [|j] x y L Hx Hy; try lia; simpl in *.
      * injection Hx; intros <-. apply has_edge_iff, H1. eapply nth_error_In; eauto.
      * eapply (H2 i j); eauto; lia.
    + intros H. split.
      * intros x Hx. apply has_edge_iff. apply In_nth_error in Hx. destruct Hx as [n Hn].
        apply (H O (S n)); auto; lia.
      * intros i j x y L Hx Hy. apply (H (S i) (S j)); auto; lia.
Qed.

(** Any set of graph nodes is found as an in-order selection. *)
Lemma pick_all : forall (l s : list Z), NoDup l -> NoDup s -> (forall x, In x s -> In x l) ->
  exists t, subseq t l /\ Permutation t s.
Proof.
  induction l as [|x l IH]; intros s NL NS I.
  - exists []. split; [constructor|]. destruct s as [|y s]; [constructor|].
    destruct (I y (or_introl eq_refl)).
  - inversion NL; subst. destruct (in_dec Z.eq_dec x s) as [K|K].
    + apply in_split in K. destruct K as (s1 & s2 & ->).
      apply NoDup_remove in NS. destruct NS as [NS N].
      destruct (IH (s1 ++ s2)) as (t & T1 & T2); auto.
      * intros y Hy. destruct (I y) as [->|C]; auto; [|tauto].
        apply in_app_iff in Hy. apply in_app_iff. simpl. tauto.
      * exists (x :: t). split; [apply sub_keep; auto|].
        rewrite T2. apply Permutation_middle.
    + destruct (IH s) as (t & T1 & T2); auto.
      * intros y Hy. destruct (I y Hy) as [->|C]; [tauto|exact C].
      * exists t. split; [apply sub_skip; auto|auto].
Qed.

Lemma triangles_eq E : triangles E =
  map (py_sorted Z.leb) (filter (clique E) (combinations (graph_nodes E) 3)).
Proof. unfold triangles. rewrite (cliques_of_size E 2). reflexivity. Qed.

(** ** C05: every three-clique once, ascending, nothing else *)
Theorem C05_exactly_the_three_cliques :
  forall E, NoDup (triangles E) /\
  forall t, In t (triangles E) <-> exists a b c, t = [a; b; c] /\ three_clique E a b c.
Proof.
  intros E. rewrite triangles_eq.
  set (V := graph_nodes E). pose proof (graph_nodes_NoDup E) as NV. fold V in NV.
  assert (K : forall c, In c (filter (clique E) (combinations V 3)) ->
    subseq c V /\ exists x y z, c = [x; y; z] /\ NoDup [x; y; z] /\
      linked E x y /\ linked E x z /\ linked E y z).
  { intros c Hc. apply filter_In in Hc. destruct Hc as [Hc Q].
    apply combos_subseq in Hc. destruct Hc as [Hc L]. split; [exact Hc|].
    destruct c as [|x [|y [|z [|]]]]; try discriminate. exists x, y, z.
    split; [reflexivity|]. split; [exact (subseq_NoDup _ _ Hc NV)|]. apply clique3, Q. }
  split.
  - assert (N : NoDup (filter (clique E) (combinations V 3))) by apply NoDup_filter, combos_NoDup, NV.
    revert K N. generalize (filter (clique E) (combinations V 3)) as A.
    induction A as [|c A IH]; intros K N; simpl; [constructor|]. inversion N; subst.
    constructor; [|apply IH; auto; intros; apply K; right; auto].
    intros C. apply in_map_iff in C. destruct C as (d & Q & Hd). apply H1.
    replace c with d; [exact Hd|]. apply (subseq_same_members V); auto.
    + apply K; right; auto.
    + apply K; left; auto.
    + rewrite (py_sorted_perm Z.leb d), Q. symmetry. apply py_sorted_perm.
  - intros t. rewrite in_map_iff. split.
    + intros (c & <- & Hc). destruct (K c Hc) as [_ (x & y & z & -> & ND & L1 & L2 & L3)].
      inversion ND as [|? ? N1 ND2]; subst. inversion ND2 as [|? ? N2 _]; subst. simpl in N1, N2.
      assert (x < y \/ y < x) as [A|A] by lia; assert (x < z \/ z < x) as [B|B] by lia;
      assert (y < z \/ z < y) as [C|C] by lia; try lia;
      [exists x, y, z|exists x, z, y|exists z, x, y|exists y, x, z|exists y, z, x|exists z, y, x];
      (split; [apply sorted3; [|lia|lia]|
               unfold three_clique; repeat split; auto using linked_sym]).
      all: apply NoDup_Permutation; [exact ND|repeat constructor; simpl; intuition lia|intros w; simpl; tauto].
    + intros (a & b & c & -> & H1 & H2 & L1 & L2 & L3).
      destruct (pick_all V [a; b; c]) as (t & T1 & T2); auto.
      * repeat constructor; simpl; intuition lia.
      * intros x Hx. apply graph_nodes_In. destruct Hx as [<-|[<-|[<-|[]]]]; eauto using linked_sym.
      * exists t. split; [apply sorted3; auto|]. apply filter_In.
        pose proof (Permutation_length T2) as L. simpl in L. split.
        { rewrite <- L. apply subseq_combos, T1. }
        { destruct t as [|x [|y [|z [|]]]]; try discriminate. apply clique3.
          assert (NT : NoDup [x; y; z]) by exact (subseq_NoDup _ _ T1 NV).
          inversion NT as [|? ? N1 ND2]; subst. inversion ND2 as [|? ? N2 _]; subst. simpl in N1, N2.
          assert (In x [a;b;c] /\ In y [a;b;c] /\ In z [a;b;c]) as (Ix & Iy & Iz).
          { repeat split; eapply Permutation_in; try exact T2; simpl; tauto. }
          simpl in Ix, Iy, Iz.
          destruct Ix as [<-|[<-|[<-|[]]]]; destruct Iy as [<-|[<-|[<-|[]]]];
          destruct Iz as [<-|[<-|[<-|[]]]]; try (exfalso; tauto); repeat split; auto using linked_sym. }
Qed.
Print Assumptions C05_exactly_the_three_cliques.

(** Edge order, edge direction, repeated edges and self-loops do not matter. *)
Theorem C05_presentation_independent :
  forall E E', (forall u v, u <> v -> (linked E u v <-> linked E' u v)) ->
  Permutation (triangles E) (triangles E').
Proof.
  intros E E' H. destruct (C05_exactly_the_three_cliques E) as [N1 I1].
  destruct (C05_exactly_the_three_cliques E') as [N2 I2].
  apply NoDup_Permutation; auto. intros t. rewrite I1, I2. unfold three_clique.
  split; intros (a & b & c & -> & K1 & K2 & L1 & L2 & L3); exists a, b, c;
  repeat split; auto; apply H; auto; lia.
Qed.
Print Assumptions C05_presentation_independent.

(** Order of the result (it fixes the column order of B2): the node triples in the lexicographic
    order of positions, nodes being numbered by first appearance in the edge list. *)
Lemma first_seen_order l : forall seen V1 x V2, first_seen seen l = V1 ++ x :: V2 ->
  exists l1 l2, l = l1 ++ x :: l2 /\ ~ In x l1 /\ forall y, In y l1 -> In y V1 \/ In y seen.
Proof.
  induction l as [|y l IH]; intros seen V1 x V2; simpl; [destruct V1; discriminate|].
  destruct (py_in Z.eqb y seen) eqn:K.
  - apply pyin_Z in K. intros H. destruct (IH _ _ _ _ H) as (l1 & l2 & -> & N & I).
    exists (y :: l1), l2. split; [reflexivity|]. split.
    + simpl. intros [->|C]; [|tauto].
      assert (In x (first_seen seen (l1 ++ x :: l2))) as J by (rewrite H, in_app_iff; simpl; tauto).
      apply first_seen_In in J. tauto.
    + intros z [->|Hz]; auto.
  - destruct V1 as [|v V1]; simpl; intros H; injection H; intros; subst.
    + exists [], l. simpl. tauto.
    + destruct (IH _ _ _ _ H0) as (l1 & l2 & -> & N & I).
      exists (v :: l1), l2. split; [reflexivity|]. split.
      * simpl. intros [->|C]; [|tauto].
        assert (In x (first_seen (x :: seen) (l1 ++ x :: l2))) as J by (rewrite H0, in_app_iff; simpl; tauto).
        apply first_seen_In in J. simpl in J. tauto.
      * intros z [->|Hz]; [left; left; auto|]. destruct (I z Hz) as [C|[->|C]]; simpl; auto.
Qed.

Theorem C05_enumeration_order :
  forall E, exists V cliques, in_order_of (endpoints E) V /\
    triangles E = map (py_sorted Z.leb) cliques /\
    exists p, (forall t, p t = true <-> pairwise_linked E t) /\
      cliques = filter p (combinations V 3).
Proof.
  intros E. exists (graph_nodes E), (filter (clique E) (combinations (graph_nodes E) 3)).
  split; [|split; [apply triangles_eq|]].
  - split; [apply graph_nodes_NoDup|]. split.
    + intros x. unfold graph_nodes. rewrite first_seen_In. unfold endpoints. simpl. tauto.
    + intros V1 x V2 H. destruct (first_seen_order _ _ _ _ _ H) as (l1 & l2 & K & N & I).
      exists l1, l2. repeat split; auto. intros y Hy. destruct (I y Hy) as [C|[]]; auto.
  - exists (clique E). split; [intros t; apply clique_pairwise|reflexivity].
Qed.
Print Assumptions C05_enumeration_order.

(** Two cliques sharing an edge, edges in mixed directions, one repeated, one self-loop. *)
Example C05_example :
  triangles [(5, 2); (2, 7); (7, 5); (5, 2); (3, 3); (3, 2); (7, 3)] = [[2; 5; 7]; [2; 3; 7]].
Proof. vm_compute. reflexivity. Qed.
Example C05_example_paper :
  triangles paper_edges = [[0; 1; 2]; [0; 2; 3]; [4; 5; 6]].
Proof. vm_compute. reflexivity. Qed.

(** ** C06: building with all triangles *)
Lemma three_clique_closed E a b c : three_clique E a b c -> closed_triangle E [a; b; c].
Proof. intros (_ & _ & H1 & H2 & H3). exists a, b, c. auto. Qed.

Theorem C06_all_triangles :
  forall nodes E nf ef col eps, good_edges (length nodes) E ->
  exists sc, to_simplicial_complex nodes E nf ef "all" col eps None = Ok sc /\
    sc_nodes sc = nodes /\ sc_edges sc = E /\ sc_node_features sc = nf /\ sc_edge_features sc = ef /\
    NoDup (sc_triangles sc) /\
    (forall t, In t (sc_triangles sc) <-> exists a b c, t = [a; b; c] /\ three_clique E a b c) /\
    (forall t, In t (sc_triangles sc) -> closed_triangle E t).
Proof.
  intros nodes E nf ef col eps G. destruct (C05_exactly_the_three_cliques E) as [N I].
  assert (GT : good_triangles E (triangles E)).
  { intros t Ht. apply I in Ht. destruct Ht as (a & b & c & -> & H). apply three_clique_closed, H. }
  destruct (C02_outcomes nodes E (triangles E) nf ef) as [(sc & H & H1 & H2 & H3 & H4 & H5)|[H|H]].
  - exists sc. unfold to_simplicial_complex. simpl. rewrite H. rewrite H3. auto 10.
  - apply C02_index_error_iff in H. tauto.
  - apply C02_value_error_iff in H. tauto.
Qed.
Print Assumptions C06_all_triangles.

(** The only way to fail is an endpoint outside the node range. *)
Theorem C06_all_triangles_fails_iff :
  forall nodes E nf ef col eps,
  (exists e, to_simplicial_complex nodes E nf ef "all" col eps None = Raise e) <->
  ~ good_edges (length nodes) E.
Proof.
  intros nodes E nf ef col eps. split.
  - intros (e & H) G. destruct (C06_all_triangles nodes E nf ef col eps G) as (sc & K & _). congruence.
  - intros G. exists IndexError. apply C02_index_error_iff. exact G.
Qed.
Print Assumptions C06_all_triangles_fails_iff.

(** Supplied triangles are used verbatim, whatever condition, column and threshold. *)
Theorem C06_given_triangles :
  forall nodes E nf ef cond col eps ts sc,
  to_simplicial_complex nodes E nf ef cond col eps (Some ts) = Ok sc ->
  sc_triangles sc = ts /\ sc_nodes sc = nodes /\ sc_edges sc = E /\
  sc_node_features sc = nf /\ sc_edge_features sc = ef.
Proof.
  intros nodes E nf ef cond col eps ts sc H. apply make_sc_Ok in H. tauto.
Qed.
Print Assumptions C06_given_triangles.
Theorem C06_given_triangles_succeeds_iff :
  forall nodes E nf ef cond col eps ts,
  (exists sc, to_simplicial_complex nodes E nf ef cond col eps (Some ts) = Ok sc) <->
  good_edges (length nodes) E /\ good_triangles E ts.
Proof. intros nodes E nf ef cond col eps ts. apply (C02_accepts_iff nodes E ts nf ef). Qed.
Print Assumptions C06_given_triangles_succeeds_iff.

(** Chain-complex law for built complexes: guaranteed for ascending edge lists ... *)
Theorem C06_ascending_chain_complex :
  forall nodes E nf ef col eps sc, proper_edges (length nodes) E ->
  (forall u v, In (u, v) E -> u < v) ->
  to_simplicial_complex nodes E nf ef "all" col eps None = Ok sc ->
  forall B1 B2, incidence_matrix sc 1 = Ok (Csr B1) -> incidence_matrix sc 2 = Ok (Csr B2) ->
  forall i j, (i < length nodes)%nat -> (j < length (sc_triangles sc))%nat -> at2 (amul B1 B2) i j = 0.
Proof.
  intros nodes E nf ef col eps sc P A H B1 B2 HB1 HB2.
  pose proof (make_sc_Ok _ _ _ _ _ _ H) as K.
  assert (sc_triangles sc = triangles E) as -> by tauto.
  destruct (C05_exactly_the_three_cliques E) as [_ I].
  apply (C04_boundary_zero_iff nodes E (triangles E) nf ef sc H P); auto.
  - intros a b c T. apply I in T. destruct T as (a' & b' & c' & Q & T1 & T2 & _).
    injection Q; intros; subst. lia.
  - intros t T. apply I in T. destruct T as (a & b & c & -> & T1 & T2 & L1 & L2 & L3).
    exists a, b, c. split; [reflexivity|]. left.
    unfold linked in *. repeat split.
    + destruct L1 as [L|L]; auto. apply A in L. lia.
    + destruct L2 as [L|L]; auto. apply A in L. lia.
    + destruct L3 as [L|L]; auto. apply A in L. lia.
Qed.
Print Assumptions C06_ascending_chain_complex.

(** ... and lost as soon as an edge of a clique is stored in descending order: the builder sorts
    the triangle, not the edge. *)
Theorem C06_chain_complex_refuted :
  exists nodes E sc, proper_edges (length nodes) E /\ simple_edges E /\
    to_simplicial_complex nodes E [] [] "all" "distance" (3 # 2) None = Ok sc /\
    exists i j, (i < length nodes)%nat /\ (j < length (sc_triangles sc))%nat /\
      at2 (amul (sc_B1 sc) (sc_B2 sc)) i j <> 0.
Proof.
  exists tri_nodes, twisted_edges. eexists. split; [|split; [split|split; [vm_compute; reflexivity|]]].
  - unfold proper_edges, twisted_edges; simpl. intros u v H.
    repeat (destruct H as [H|H]; [injection H; intros <- <-; lia|]); destruct H.
  - unfold twisted_edges. repeat constructor; simpl; intuition congruence.
  - unfold twisted_edges; simpl. intros u v H.
    repeat (destruct H as [H|H]; [injection H; intros <- <-; intuition congruence|]); destruct H.
  - exists 1%nat, 0%nat. split; [simpl; lia|]. split; [simpl; lia|]. vm_compute. discriminate.
Qed.
Print Assumptions C06_chain_complex_refuted.

Example C06_example : exists sc,
  good_edges (length paper_nodes) paper_edges /\
  to_simplicial_complex paper_nodes paper_edges [] [] "all" "x" 0 None = Ok sc /\
  shape sc = (7%nat, 10%nat, 3%nat).
Proof.
  eexists. split; [|split; [vm_compute; reflexivity|reflexivity]].
  intros u v H. unfold in_range. simpl in *.
  repeat (destruct H as [H|H]; [injection H; intros <- <-; lia|]); destruct H.
Qed.

(** ** C07: distance-based selection *)
Lemma feature_eq ef u v col x : feature ef u v col x <-> edge_feature ef u v col = Ok x.
Proof.
  unfold feature, edge_feature. split.
  - intros (f & -> & H). simpl. exact H.
  - intros H. apply bind_Ok in H. exact H.
Qed.

Definition nearb (eps : Q) (x : fval) : bool :=
  match x with FNum q => negb (Qeq_bool q 0) && negb (Qle_bool eps q) | _ => false end.
Lemma nearb_iff eps x : nearb eps x = true <-> near eps x.
Proof.
  unfold near. destruct x as [q| |s]; simpl; try (split; [discriminate|]; intros (q & K & _); discriminate).
  rewrite andb_true_iff, !negb_true_iff, <- !not_true_iff_false, Qeq_bool_iff, Qle_bool_iff.
  split.
  - intros [H1 H2]. exists q. repeat split; auto. apply Qnot_le_lt; auto.
  - intros (q' & K & H1 & H2). injection K; intros <-. split; auto. apply Qlt_not_le; auto.
Qed.

Lemma foldM_filter {A} (f : A -> res bool) (p : A -> bool) l : forall acc,
  (forall x, In x l -> f x = Ok (p x)) ->
  foldM (fun acc t => let! k := f t in Ok (if k then acc ++ [t] else acc)) acc l =
  Ok (acc ++ filter p l).
Proof.
  induction l as [|x l IH]; intros acc H; simpl; [rewrite app_nil_r; reflexivity|].
  rewrite (H x (or_introl eq_refl)). simpl. rewrite IH; [|intros; apply H; right; auto].
  destruct (p x); [rewrite <- app_assoc|]; reflexivity.
Qed.

Lemma keep_near ef col eps a b c x y z :
  edge_feature ef a b col = Ok x -> edge_feature ef b c col = Ok y -> edge_feature ef a c col = Ok z ->
  ~ is_string x -> ~ is_string y -> ~ is_string z ->
  keep_triangle ef col eps [a; b; c] = Ok (nearb eps x && nearb eps y && nearb eps z).
Proof.
  unfold keep_triangle, is_string. intros -> -> -> Sx Sy Sz. simpl.
  destruct x as [qx| |sx]; [| |exfalso; eauto]; destruct y as [qy| |sy]; try (exfalso; eauto; fail);
  destruct z as [qz| |sz]; try (exfalso; eauto; fail); simpl;
  repeat match goal with |- context [Qeq_bool ?q 0] => destruct (Qeq_bool q 0); simpl end;
  repeat match goal with |- context [Qle_bool ?q ?r] => destruct (Qle_bool q r); simpl end; reflexivity.
Qed.

(** With a (non-string) value recorded under the ascending key of every clique edge, the result is
    the sub-list of the enumeration whose three values are non-zero numbers below the threshold. *)
Theorem C07_selection :
  forall E ef col eps (dist : Z -> Z -> fval),
  (forall a b c, three_clique E a b c ->
     feature ef a b col (dist a b) /\ feature ef b c col (dist b c) /\ feature ef a c col (dist a c) /\
     ~ is_string (dist a b) /\ ~ is_string (dist b c) /\ ~ is_string (dist a c)) ->
  exists p l, triangles_dist_based E ef col eps = Ok l /\ l = filter p (triangles E) /\
    (forall a b c, p [a; b; c] = true <->
       near eps (dist a b) /\ near eps (dist b c) /\ near eps (dist a c)) /\
    (forall t, In t l <-> exists a b c, t = [a; b; c] /\ three_clique E a b c /\
       near eps (dist a b) /\ near eps (dist b c) /\ near eps (dist a c)).
Proof.
  intros E ef col eps dist H.
  set (p := fun t => match t with
    | [a; b; c] => nearb eps (dist a b) && nearb eps (dist b c) && nearb eps (dist a c)
    | _ => false end).
  assert (P : forall a b c, p [a; b; c] = true <->
       near eps (dist a b) /\ near eps (dist b c) /\ near eps (dist a c)).
  { intros a b c. simpl. rewrite !andb_true_iff, !nearb_iff. tauto. }
  destruct (C05_exactly_the_three_cliques E) as [_ I].
  exists p, (filter p (triangles E)). split; [|split; [reflexivity|split; [exact P|]]].
  - unfold triangles_dist_based. rewrite (foldM_filter _ p); [reflexivity|].
    intros t Ht. apply I in Ht. destruct Ht as (a & b & c & -> & T).
    destruct (H a b c T) as (F1 & F2 & F3 & S1 & S2 & S3). apply feature_eq in F1, F2, F3.
    apply keep_near; auto.
  - intros t. rewrite filter_In, I. split.
    + intros [(a & b & c & -> & T) K]. apply P in K. exists a, b, c. tauto.
    + intros (a & b & c & -> & T & K). split; [exists a, b, c; auto|]. apply P, K.
Qed.
Print Assumptions C07_selection.

(** Any condition string other than "all" selects by distance. *)
Theorem C07_any_other_condition :
  forall nodes E nf ef cond col eps l sc, cond <> "all"%string ->
  triangles_dist_based E ef col eps = Ok l ->
  to_simplicial_complex nodes E nf ef cond col eps None = Ok sc -> sc_triangles sc = l.
Proof.
  intros nodes E nf ef cond col eps l sc N H K. unfold to_simplicial_complex in K.
  apply String.eqb_neq in N. rewrite N, H in K. apply make_sc_Ok in K. tauto.
Qed.
Print Assumptions C07_any_other_condition.

(** A clique edge without a value under its ascending key makes the call fail with KeyError (all
    recorded values being non-zero numbers or nan, so that no lookup is skipped). *)
Theorem C07_missing_key :
  forall E ef col eps,
  (forall u v x, feature ef u v col x -> x = FNaN \/ exists q, x = FNum q /\ ~ (q == 0)%Q) ->
  (exists a b c, three_clique E a b c /\
     ((forall x, ~ feature ef a b col x) \/ (forall x, ~ feature ef b c col x) \/
      (forall x, ~ feature ef a c col x))) ->
  triangles_dist_based E ef col eps = Raise KeyError.
Proof.
  intros E ef col eps NZ (a & b & c & T & M).
  assert (DK : forall (K V : Type) (eqb : K -> K -> bool) (d : dict K V) k e, dget eqb d k = Raise e -> e = KeyError).
  { clear. intros K V eqb d k e. induction d as [|[k' v] d IH]; simpl; [congruence|].
    destruct (eqb k' k); [discriminate|auto]. }
  assert (EK : forall u v e, edge_feature ef u v col = Raise e -> e = KeyError).
  { intros u v e H. unfold edge_feature in H. apply bind_Raise in H.
    destruct H as [H|(f & _ & H)]; eapply DK; eauto. }
  assert (EV : forall u v x, edge_feature ef u v col = Ok x -> truthy x = true /\ exists r, flt x eps = Ok r).
  { intros u v x H. apply feature_eq in H. apply NZ in H. destruct H as [->|(q & -> & H)]; [split; eexists; reflexivity|].
    split; [|eexists; reflexivity]. simpl. apply negb_true_iff, not_true_iff_false. rewrite Qeq_bool_iff. exact H. }
  assert (S : forall t, In t (triangles E) ->
    keep_triangle ef col eps t = Raise KeyError \/ exists k, keep_triangle ef col eps t = Ok k).
  { intros t Ht. apply C05_exactly_the_three_cliques in Ht. destruct Ht as (x & y & z & -> & _).
    unfold keep_triangle.
    destruct (edge_feature ef x y col) as [v1|e1] eqn:K1; simpl; [|left; f_equal; eauto].
    destruct (EV _ _ _ K1) as (-> & r1 & R1). simpl.
    destruct (edge_feature ef y z col) as [v2|e2] eqn:K2; simpl; [|left; f_equal; eauto].
    destruct (EV _ _ _ K2) as (-> & r2 & R2). simpl.
    destruct (edge_feature ef x z col) as [v3|e3] eqn:K3; simpl; [|left; f_equal; eauto].
    destruct (EV _ _ _ K3) as (-> & r3 & R3). simpl.
    right. rewrite R1, R2, R3. destruct r1, r2; simpl; eauto. }
  assert (B : keep_triangle ef col eps [a; b; c] = Raise KeyError).
  { unfold keep_triangle.
    assert (X : forall u v, (forall x, ~ feature ef u v col x) -> edge_feature ef u v col = Raise KeyError).
    { intros u v Z. destruct (edge_feature ef u v col) as [x|e] eqn:Y; [|f_equal; eauto].
      exfalso. apply feature_eq in Y. eapply Z; eauto. }
    destruct (edge_feature ef a b col) as [v1|e1] eqn:K1; simpl; [|f_equal; eauto].
    destruct (EV _ _ _ K1) as (-> & r1 & R1). simpl.
    destruct (edge_feature ef b c col) as [v2|e2] eqn:K2; simpl; [|f_equal; eauto].
    destruct (EV _ _ _ K2) as (-> & r2 & R2). simpl.
    destruct M as [M|[M|M]]; apply X in M; [congruence|congruence|]. rewrite M. reflexivity. }
  assert (I : In [a; b; c] (triangles E)).
  { apply C05_exactly_the_three_cliques. exists a, b, c. auto. }
  unfold triangles_dist_based. match goal with |- foldM _ ?n _ = _ => generalize n at 2 as acc end.
  revert S I. generalize (triangles E) as l. induction l as [|t l IH]; intros S I acc; [destruct I|].
  simpl. destruct I as [->|I].
  - rewrite B. reflexivity.
  - destruct (S t (or_introl eq_refl)) as [->|[k ->]]; simpl; [reflexivity|].
    apply IH; auto. intros; apply S; right; auto.
Qed.
Print Assumptions C07_missing_key.

(** Distances given as text are not converted: comparing one with the threshold is a TypeError, unless an
    empty text or a zero skips the comparison. *)
Theorem C07_text_distance :
  forall E ef col eps (dist : Z -> Z -> fval),
  (forall a b c, three_clique E a b c ->
     feature ef a b col (dist a b) /\ feature ef b c col (dist b c) /\ feature ef a c col (dist a c)) ->
  (exists a b c s, three_clique E a b c /\ dist a b = FStr s /\ s <> ""%string /\
     (forall q, dist b c = FNum q \/ dist a c = FNum q -> ~ (q == 0)%Q) /\
     dist b c <> FStr "" /\ dist a c <> FStr "") ->
  triangles_dist_based E ef col eps = Raise TypeError.
Proof.
  intros E ef col eps dist H (a & b & c & s & T & D & Ns & NZ & E1 & E2).
  assert (F : forall x, flt x eps = Raise TypeError \/ exists r, flt x eps = Ok r).
  { intros [q| |w]; simpl; eauto. }
  assert (S : forall t, In t (triangles E) ->
    keep_triangle ef col eps t = Raise TypeError \/ exists k, keep_triangle ef col eps t = Ok k).
  { intros t Ht. apply C05_exactly_the_three_cliques in Ht. destruct Ht as (x & y & z & -> & Q).
    destruct (H _ _ _ Q) as (F1 & F2 & F3). apply feature_eq in F1, F2, F3.
    unfold keep_triangle. rewrite F1, F2, F3. simpl.
    destruct (truthy (dist x y)); simpl; eauto. destruct (truthy (dist y z)); simpl; eauto.
    destruct (truthy (dist x z)); simpl; eauto.
    destruct (F (dist x y)) as [->|[[] ->]]; simpl; eauto.
    destruct (F (dist y z)) as [->|[[] ->]]; simpl; eauto. }
  assert (B : keep_triangle ef col eps [a; b; c] = Raise TypeError).
  { destruct (H _ _ _ T) as (F1 & F2 & F3). apply feature_eq in F1, F2, F3.
    assert (TR : forall x, (x = dist b c \/ x = dist a c) -> truthy x = true).
    { intros [q| |w] Y; simpl; auto; apply negb_true_iff, not_true_iff_false.
      - rewrite Qeq_bool_iff. apply NZ. destruct Y as [->| ->]; auto.
      - rewrite String.eqb_eq. intros ->. destruct Y as [Y|Y]; [apply E1|apply E2]; auto. }
    unfold keep_triangle. rewrite F1, F2, F3, D. simpl. apply String.eqb_neq in Ns. rewrite Ns. simpl.
    rewrite !TR by auto. reflexivity. }
  assert (I : In [a; b; c] (triangles E)).
  { apply C05_exactly_the_three_cliques. exists a, b, c. auto. }
  unfold triangles_dist_based. match goal with |- foldM _ ?n _ = _ => generalize n at 2 as acc end.
  revert S I. generalize (triangles E) as l. induction l as [|t l IH]; intros S I acc; [destruct I|].
  simpl. destruct I as [->|I].
  - rewrite B. reflexivity.
  - destruct (S t (or_introl eq_refl)) as [->|[k ->]]; simpl; [reflexivity|].
    apply IH; auto. intros; apply S; right; auto.
Qed.
Print Assumptions C07_text_distance.

(** Documented condition "d(a,b) < eps, d(a,c) < eps, d(b,c) < eps", with all distances recorded
    under the keys of the edge list: a clique satisfying it can be left out (a zero distance) ... *)
Theorem C07_documented_condition_refuted :
  exists E ef col eps l, (forall u v, In (u, v) E -> exists q, feature ef u v col (FNum q) /\ (q < eps)%Q) /\
    (forall u v, In (u, v) E -> u < v) /\
    three_clique E 0 1 2 /\ triangles_dist_based E ef col eps = Ok l /\ ~ In [0; 1; 2] l.
Proof.
  exists tri_edges,
    [((0, 1), [("d"%string, FNum 0)]); ((0, 2), [("d"%string, FNum 1)]); ((1, 2), [("d"%string, FNum 1)])],
    "d"%string, 2%Q. eexists. split; [|split; [|split; [|split; [vm_compute; reflexivity|]]]].
  - intros u v [H|[H|[H|[]]]]; injection H; intros <- <-.
    + exists 0%Q. split; [|reflexivity]. eexists; split; reflexivity.
    + exists 1%Q. split; [|reflexivity]. eexists; split; reflexivity.
    + exists 1%Q. split; [|reflexivity]. eexists; split; reflexivity.
  - intros u v [H|[H|[H|[]]]]; injection H; intros; lia.
  - unfold three_clique, linked; simpl. repeat split; try lia; tauto.
  - simpl. tauto.
Qed.
Print Assumptions C07_documented_condition_refuted.

(** ... and the call can fail although every edge has its distance (edge stored descending). *)
Theorem C07_descending_edge_refuted :
  exists E ef col eps, (forall u v, In (u, v) E -> exists q, feature ef u v col (FNum q) /\ (0 < q < eps)%Q) /\
    triangles_dist_based E ef col eps = Raise KeyError.
Proof.
  exists twisted_edges,
    [((0, 1), [("d"%string, FNum 1)]); ((0, 2), [("d"%string, FNum 1)]); ((2, 1), [("d"%string, FNum 1)])],
    "d"%string, 2%Q. split; [|vm_compute; reflexivity].
  intros u v [H|[H|[H|[]]]]; injection H; intros <- <-; exists 1%Q; (split; [|split; reflexivity]);
    eexists; split; reflexivity.
Qed.
Print Assumptions C07_descending_edge_refuted.

Definition ex07_ef : dict (Z * Z) fdict :=
  map (fun kv => (fst kv, [("d"%string, snd kv)]))
    [((0,1), FNum 1); ((0,2), FNum (1#2)); ((0,3), FNum 3); ((1,2), FNum 1); ((2,3), FNum 1);
     ((4,5), FNum 1); ((4,6), FNaN); ((5,6), FNum 1)].
Example C07_example :
  triangles_dist_based paper_edges ex07_ef "d" (3#2) = Ok [[0; 1; 2]] /\
  (* one distance missing, next to a nan *)
  triangles_dist_based tri_edges [((0, 1), [("d"%string, FNaN)]); ((0, 2), [("e"%string, FNum 1)]);
    ((1, 2), [("d"%string, FNum 1)])] "d" 2 = Raise KeyError /\
  (* a distance given as text *)
  triangles_dist_based tri_edges [((0, 1), [("d"%string, FStr "1")]); ((0, 2), [("d"%string, FNum 1)]);
    ((1, 2), [("d"%string, FNaN)])] "d" 2 = Raise TypeError.
Proof. vm_compute. repeat split. Qed.
