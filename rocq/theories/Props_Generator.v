(** * Properties of the random complex generator *)

From Coq Require Import ZArith QArith String List Bool Lia Sorted.
From Verif Require Import Py PyFacts Complex ComplexSpec ComplexFacts ComplexFacts2 Builder BuilderSpec
  BuilderFacts Reader ReaderSpec ReaderFacts Loader LoaderSpec Generator ExampleData Props_Complex Props_Builder
  Props_Reader Props_Incidence Props_Loader Props_Dataset.
Import ListNotations.
Open Scope Z_scope.

(** [l] lists the ascending pairs of 0..n-1 in lexicographic order. *)
Definition all_pairs (n : nat) (l : list (Z * Z)) : Prop :=
  StronglySorted pair_lt l /\ forall u v, In (u, v) l <-> 0 <= u /\ u < v /\ v < Z.of_nat n.

(** ** Pairs *)

Fixpoint pairs_of (l : list Z) : list (Z * Z) :=
  match l with [] => [] | x :: l' => map (pair x) l' ++ pairs_of l' end.

Lemma combinations_1 (l : list Z) : combinations l 1 = map (fun y => [y]) l.
Proof. induction l as [|x l IH]; [reflexivity|]. simpl. rewrite IH. destruct l; reflexivity. Qed.

Lemma node_pairs_of n : node_pairs n = pairs_of (py_range n).
Proof.
  unfold node_pairs. generalize (py_range n) as l. induction l as [|x l IH]; [reflexivity|].
  change (combinations (x :: l) 2) with (map (cons x) (combinations l 1) ++ combinations l 2).
  rewrite flat_map_app, IH. change (pairs_of (x :: l)) with (map (pair x) l ++ pairs_of l). f_equal.
  rewrite combinations_1. clear IH. induction l as [|y l IH]; simpl; [reflexivity|]. rewrite IH. reflexivity.
Qed.

Lemma sorted_app {A} (R : A -> A -> Prop) l l' : StronglySorted R l -> StronglySorted R l' ->
  (forall x y, In x l -> In y l' -> R x y) -> StronglySorted R (l ++ l').
Proof.
  intros S S' H. induction S as [|x l S IH F]; simpl; [exact S'|]. constructor.
  - apply IH. intros a b I J. apply H; [right; exact I|exact J].
  - apply Forall_app. split; [exact F|]. rewrite Forall_forall. intros y J. apply H; [left; reflexivity|exact J].
Qed.

Lemma pairs_spec l : StronglySorted Z.lt l ->
  StronglySorted pair_lt (pairs_of l) /\ forall u v, In (u, v) (pairs_of l) <-> In u l /\ In v l /\ u < v.
Proof.
  induction 1 as [|x l S (IH1 & IH2) F]; simpl; [split; [constructor|tauto]|].
  rewrite Forall_forall in F. split.
  - apply sorted_app; [|exact IH1|].
    + clear - S. induction S as [|y l S IH F]; simpl; constructor; [exact IH|].
      rewrite Forall_forall in *. intros e I. apply in_map_iff in I. destruct I as (z & <- & I).
      specialize (F z I). unfold pair_lt; simpl; lia.
    + intros e (u, v) I J. apply in_map_iff in I. destruct I as (y & <- & I). apply IH2 in J.
      destruct J as (J & _). specialize (F u J). unfold pair_lt; simpl; lia.
  - intros u v. rewrite in_app_iff, in_map_iff, IH2. split.
    + intros [(y & E & I)|(I & J & L)]; [injection E; intros <- <-; specialize (F y I); auto|auto].
    + intros ([<-|I] & [<-|J] & L); try lia.
      * left. exists v. auto.
      * specialize (F u I). lia.
      * auto.
Qed.

Lemma range_sorted n : StronglySorted Z.lt (py_range n) /\ forall x, In x (py_range n) <-> 0 <= x < Z.of_nat n.
Proof.
  unfold py_range. split.
  - generalize O as s. induction n as [|n IH]; intros s; simpl; constructor; [apply IH|].
    rewrite Forall_forall. intros x I. apply in_map_iff in I. destruct I as (k & <- & I). apply in_seq in I. lia.
  - intros x. rewrite in_map_iff. split.
    + intros (k & <- & I). apply in_seq in I. lia.
    + intros H. exists (Z.to_nat x). split; [lia|]. apply in_seq. lia.
Qed.

Lemma node_pairs_all n : all_pairs n (node_pairs n).
Proof.
  rewrite node_pairs_of. destruct (range_sorted n) as (S & I). destruct (pairs_spec _ S) as (P1 & P2).
  split; [exact P1|]. intros u v. rewrite P2, !I. lia.
Qed.

Lemma filter_sorted {A} (R : A -> A -> Prop) p l : StronglySorted R l -> StronglySorted R (filter p l).
Proof.
  induction 1 as [|x l S IH F]; simpl; [constructor|]. destruct (p x); [|exact IH].
  constructor; [exact IH|]. rewrite Forall_forall in *. intros y I. apply filter_In in I. apply F; tauto.
Qed.

Lemma in_enumerate {A} (l : list A) i k x : In (k, x) (enumerate_from i l) <-> exists j, (k = i + j)%nat /\ nth_error l j = Some x.
Proof.
  revert i; induction l as [|y l IH]; intros i; simpl.
  - split; [intros []|]. intros (j & _ & H); destruct j; discriminate.
  - rewrite IH. split.
    + intros [E|(j & -> & H)]; [injection E; intros <- <-; exists O; split; [lia|reflexivity]|].
      exists (S j). split; [lia|exact H].
    + intros ([|j] & -> & H); simpl in H; [left; f_equal; [lia|congruence]|].
      right. exists j. split; [lia|exact H].
Qed.

Lemma enumerate_sorted (R : Z * Z -> Z * Z -> Prop) l : forall i, StronglySorted R l ->
  StronglySorted (fun a b => R (snd a) (snd b)) (enumerate_from i l).
Proof.
  induction l as [|x l IH]; intros i H; simpl; constructor; inversion H as [|? ? H' F]; subst; [apply IH; exact H'|].
  rewrite Forall_forall in *. intros (k, y) I. apply in_enumerate in I. destruct I as (j & _ & I).
  apply F. eapply nth_error_In; exact I.
Qed.

Lemma map_snd_sorted {B} (R : Z * Z -> Z * Z -> Prop) (l : list (B * (Z * Z))) :
  StronglySorted (fun a b => R (snd a) (snd b)) l -> StronglySorted R (map snd l).
Proof.
  induction 1 as [|x l S IH F]; simpl; constructor; [exact IH|]. rewrite Forall_forall in *.
  intros y I. apply in_map_iff in I. destruct I as (z & <- & I). apply F; exact I.
Qed.

(** ** C60: the drawn graph *)

Lemma Qlt_negb p q : negb (Qle_bool p q) = true <-> (q < p)%Q.
Proof.
  rewrite negb_true_iff. split; intros H.
  - apply Qnot_le_lt. intros K. apply Qle_bool_iff in K. congruence.
  - apply not_true_is_false. rewrite Qle_bool_iff. apply Qlt_not_le; exact H.
Qed.

(** The edges are ascending pairs in lexicographic order; between the extremes p <= 0 (no edge) and
    p >= 1 (every pair) the k-th pair is an edge iff the k-th draw is below p. *)
Theorem C60_edges :
  forall n p draw pairs, all_pairs n pairs ->
  StronglySorted pair_lt (erdos_renyi n p draw) /\
  ((p <= 0)%Q -> erdos_renyi n p draw = []) /\
  ((1 <= p)%Q -> erdos_renyi n p draw = pairs) /\
  ((0 < p)%Q -> (p < 1)%Q -> forall e,
     In e (erdos_renyi n p draw) <-> exists k, nth_error pairs k = Some e /\ (draw k < p)%Q).
Proof.
  intros n p draw pairs (PS & PI). destruct (node_pairs_all n) as (NS & NI).
  assert (pairs = node_pairs n) as ->.
  { apply strict_unique; [exact PS|exact NS|]. intros (u, v). rewrite PI, NI. reflexivity. }
  unfold erdos_renyi. split; [|split; [|split]].
  - destruct (Qle_bool p 0); [constructor|]. destruct (Qle_bool 1 p); [exact NS|].
    apply map_snd_sorted, filter_sorted, enumerate_sorted. exact NS.
  - intros H. apply Qle_bool_iff in H. rewrite H. reflexivity.
  - intros H. destruct (Qle_bool p 0) eqn:E.
    + apply Qle_bool_iff in E. exfalso. apply (Qle_not_lt 1 0); [eapply Qle_trans; eassumption|reflexivity].
    + apply Qle_bool_iff in H. rewrite H. reflexivity.
  - intros H0 H1 e. apply Qlt_negb in H0, H1. rewrite negb_true_iff in H0, H1. rewrite H0, H1.
    rewrite in_map_iff. split.
    + intros ((k, e') & <- & I). apply filter_In in I. destruct I as (I & L). simpl in *. apply Qlt_negb in L.
      apply in_enumerate in I. destruct I as (j & -> & I). exists j. auto.
    + intros (k & I & L). exists (k, e). split; [reflexivity|]. apply filter_In. split.
      * apply in_enumerate. exists k. auto.
      * apply Qlt_negb. exact L.
Qed.
Print Assumptions C60_edges.

(** With the same draws a larger p only adds edges. *)
Theorem C60_monotone_in_p :
  forall n p p' draw, (p <= p')%Q -> forall e, In e (erdos_renyi n p draw) -> In e (erdos_renyi n p' draw).
Proof.
  intros n p p' draw L (u, v) I. pose proof (node_pairs_all n) as N.
  destruct (C60_edges n p draw _ N) as (_ & A0 & A1 & A2).
  destruct (C60_edges n p' draw _ N) as (_ & B0 & B1 & B2).
  destruct (Qlt_le_dec 0 p) as [P0|P0]; [|rewrite A0 in I by exact P0; destruct I].
  assert (X : In (u, v) (node_pairs n)).
  { destruct (Qlt_le_dec p 1) as [P1|P1]; [|rewrite A1 in I by exact P1; exact I].
    apply A2 in I; [|exact P0|exact P1]. destruct I as (k & I & _). eapply nth_error_In; exact I. }
  destruct (Qlt_le_dec p' 1) as [P1|P1]; [|rewrite B1 by exact P1; exact X].
  apply B2; [eapply Qlt_le_trans; eassumption|exact P1|].
  apply A2 in I; [|exact P0|eapply Qle_lt_trans; eassumption]. destruct I as (k & I & D).
  exists k. split; [exact I|]. eapply Qlt_le_trans; eassumption.
Qed.
Print Assumptions C60_monotone_in_p.

(** ** C60: weights *)

Lemma weight_features_eq weight E : NoDup E ->
  weight_features weight E = map (fun ie => (snd ie, [("distance"%string, FNum (weight (fst ie)))])) (enumerate E).
Proof.
  unfold weight_features, enumerate. intros ND.
  assert (L : forall E i d, NoDup E -> (forall e, In e E -> ~ In e (dkeys d)) ->
    fold_left (fun d ie => dset pair_eqb d (snd ie) [("distance"%string, FNum (weight (fst ie)))]) (enumerate_from i E) d =
    d ++ map (fun ie => (snd ie, [("distance"%string, FNum (weight (fst ie)))])) (enumerate_from i E)).
  { clear. induction E as [|e E IH]; intros i d ND HD; simpl; [rewrite app_nil_r; reflexivity|].
    inversion ND as [|? ? N1 N2]; subst. rewrite (dkeys_dset_new pair_eqb).
    2:{ intros k' I. destruct (pair_eqb k' e) eqn:X; [|reflexivity]. apply pair_eqb_spec in X. subst k'.
        exfalso. apply (HD e); [left; reflexivity|exact I]. }
    rewrite IH; [rewrite <- app_assoc; reflexivity|exact N2|].
    intros e' I. unfold dkeys. rewrite map_app, in_app_iff. simpl. intros [J|[<-|[]]]; [|auto].
    apply (HD e'); [right; exact I|exact J]. }
  apply (L E O []); [exact ND|]. intros e _ [].
Qed.

Lemma weight_feature weight E k u v : NoDup E -> nth_error E k = Some (u, v) ->
  feature (weight_features weight E) u v "distance" (FNum (weight k)).
Proof.
  intros ND H. rewrite weight_features_eq by exact ND. exists [("distance"%string, FNum (weight k))].
  split; [|reflexivity]. unfold enumerate. change k with (0 + k)%nat. revert k H. generalize O as i.
  induction E as [|e E IH]; intros i k H; [destruct k; discriminate|]. simpl.
  inversion ND as [|? ? N1 N2]; subst. destruct k as [|k]; simpl in H.
  - injection H; intros ->. rewrite (proj2 (pair_eqb_spec (u, v) (u, v)) eq_refl), Nat.add_0_r. reflexivity.
  - destruct (pair_eqb e (u, v)) eqn:X.
    + apply pair_eqb_spec in X. subst e. exfalso. apply N1. eapply nth_error_In; exact H.
    + rewrite Nat.add_succ_r. apply (IH N2 (S i) k H).
Qed.

Lemma feature_fun ef u v c x y : feature ef u v c x -> feature ef u v c y -> x = y.
Proof. intros (f & F1 & F2) (g & G1 & G2). rewrite F1 in G1. injection G1; intros <-. congruence. Qed.

(** A positive number of nodes, any probability, any threshold, any random numbers: the call succeeds.
    The nodes are 0..n-1, the edges are the drawn ones in ascending order, the i-th edge has the i-th
    weight as distance, the triangles are the 3-cliques whose weights are all non-zero and below the
    threshold (listed once), B1 B2 = 0, and each node has one position. *)
Theorem C60_random_complex :
  forall spring draw weight n p eps, spring_contract spring ->
  exists sc c, generate_random_simplicial_complex spring draw weight n p eps = Ok (sc, c) /\
    counts_to (Z.of_nat n - 1) (sc_nodes sc) /\ sc_edges sc = erdos_renyi n p draw /\
    (forall u v, In (u, v) (sc_edges sc) -> 0 <= u < v /\ v < Z.of_nat n) /\
    dkeys c = map (fun z => FNum (inject_Z z)) (sc_nodes sc) /\
    (forall k u v, nth_error (sc_edges sc) k = Some (u, v) ->
       feature (sc_edge_features sc) u v "distance" (FNum (weight k))) /\
    NoDup (sc_triangles sc) /\
    (forall t, In t (sc_triangles sc) <-> exists a b c i j k, t = [a; b; c] /\ a < b < c /\
       nth_error (sc_edges sc) i = Some (a, b) /\ nth_error (sc_edges sc) j = Some (b, c) /\
       nth_error (sc_edges sc) k = Some (a, c) /\
       forall m, In m [i; j; k] -> ~ (weight m == 0)%Q /\ (weight m < eps)%Q) /\
    (forall B1 B2, incidence_matrix sc 1 = Ok (Csr B1) -> incidence_matrix sc 2 = Ok (Csr B2) ->
       forall i j, (i < length (sc_nodes sc))%nat -> (j < length (sc_triangles sc))%nat -> at2 (amul B1 B2) i j = 0).
Proof.
  intros spring draw weight n p eps SP. unfold generate_random_simplicial_complex.
  set (E := erdos_renyi n p draw).
  assert (ES : StronglySorted pair_lt E /\ forall u v, In (u, v) E -> 0 <= u < v /\ v < Z.of_nat n).
  { pose proof (node_pairs_all n) as N. destruct (C60_edges n p draw _ N) as (S & A0 & A1 & A2). fold E in S, A0, A1, A2.
    split; [exact S|]. intros u v I. destruct N as (_ & N). assert (K : In (u, v) (node_pairs n)).
    { destruct (Qlt_le_dec 0 p) as [P0|P0]; [|rewrite A0 in I by exact P0; destruct I].
      destruct (Qlt_le_dec p 1) as [P1|P1]; [|rewrite A1 in I by exact P1; exact I].
      apply A2 in I; [|exact P0|exact P1]. destruct I as (k & I & _). eapply nth_error_In; exact I. }
    apply N in K. lia. }
  clearbody E. destruct ES as (ES & EA). destruct (C58_ascending E ES) as (ND & _).
  assert (AL : forall a b, linked E a b -> a < b -> In (a, b) E).
  { intros a b [I|I] L; [exact I|]. apply EA in I. lia. }
  assert (LN : length (py_range n) = n) by (unfold py_range; rewrite map_length, seq_length; reflexivity).
  assert (PE : proper_edges (length (py_range n)) E).
  { intros u v I. apply EA in I. rewrite LN. lia. }
  set (ef := weight_features weight E).
  set (dist := fun a b => match py_index pair_eqb E (a, b) with Ok k => FNum (weight k) | Raise _ => FNaN end).
  assert (DI : forall k a b, nth_error E k = Some (a, b) -> dist a b = FNum (weight k)).
  { intros k a b H. unfold dist. destruct (py_index pair_eqb E (a, b)) as [k'|e] eqn:X.
    - apply (py_index_Ok pair_eqb pair_eqb_spec) in X. destruct X as (X & _).
      assert (k' = k) as ->; [|reflexivity].
      apply (proj1 (NoDup_nth_error E) ND); [apply nth_error_Some; congruence|congruence].
    - apply (py_index_Raise pair_eqb pair_eqb_spec) in X. destruct X as (_ & X). exfalso. apply X. eapply nth_error_In; exact H. }
  assert (DF : forall a b, linked E a b -> a < b -> feature ef a b "distance" (dist a b) /\ ~ is_string (dist a b)).
  { intros a b L O. apply (AL a b L) in O. apply In_nth_error in O. destruct O as (k & O). rewrite (DI k a b O).
    split; [apply weight_feature; assumption|]. intros (s & Q); discriminate. }
  destruct (C07_selection E ef "distance" eps dist) as (q & l & HL & HF & _ & HI).
  { intros a b c (L1 & L2 & K1 & K2 & K3). assert (L3 : a < c) by lia.
    pose proof (DF a b K1 L1). pose proof (DF b c K2 L2). pose proof (DF a c K3 L3). tauto. }
  destruct (C05_exactly_the_three_cliques E) as (NT & IT).
  assert (GT : good_triangles E l).
  { intros t I. rewrite HF in I. apply filter_In in I. destruct I as (I & _). apply IT in I.
    destruct I as (a & b & c & -> & I). apply three_clique_closed, I. }
  assert (GE : good_edges (length (py_range n)) E).
  { intros u v I. apply PE in I. unfold in_range. lia. }
  destruct (proj2 (C02_accepts_iff (py_range n) E l [] ef) (conj GE GT)) as (sc & HS).
  unfold to_simplicial_complex. change (String.eqb "distance" "all") with false. cbv iota.
  rewrite HL. cbn [bind]. rewrite HS. cbn [bind].
  pose proof (make_sc_Ok _ _ _ _ _ _ HS) as (S1 & S2 & S3 & S4 & S5 & _).
  do 2 eexists. split; [reflexivity|]. rewrite S1, S2, S3, S5.
  split.
  { split; [rewrite LN; lia|]. intros i x H. unfold py_range in H. rewrite nth_error_map in H.
    destruct (nth_error (List.seq 0 n) i) eqn:Q; [|discriminate]. injection H; intros <-. f_equal.
    assert (i < length (List.seq 0 n))%nat by (apply nth_error_Some; congruence). rewrite seq_length in *.
    apply nth_error_nth with (d := O) in Q. rewrite seq_nth in Q by assumption. symmetry; exact Q. }
  split; [reflexivity|]. split; [exact EA|].
  split; [apply combine_keys; rewrite map_length; apply SP|].
  split; [intros k u v H; apply weight_feature; assumption|].
  split; [rewrite HF; apply NoDup_filter; exact NT|]. split.
  - intros t. rewrite HI. split.
    + intros (a & b & c & -> & (L1 & L2 & K1 & K2 & K3) & N1 & N2 & N3). exists a, b, c.
      assert (L3 : a < c) by lia.
      pose proof (In_nth_error _ _ (AL _ _ K1 L1)) as (i & Hi). pose proof (In_nth_error _ _ (AL _ _ K2 L2)) as (j & Hj).
      pose proof (In_nth_error _ _ (AL _ _ K3 L3)) as (k & Hk). exists i, j, k.
      split; [reflexivity|]. split; [lia|]. split; [exact Hi|]. split; [exact Hj|]. split; [exact Hk|].
      rewrite (DI _ _ _ Hi) in N1. rewrite (DI _ _ _ Hj) in N2. rewrite (DI _ _ _ Hk) in N3.
      intros m [<-|[<-|[<-|[]]]]; [destruct N1 as (x & Q & N)|destruct N2 as (x & Q & N)|destruct N3 as (x & Q & N)];
        injection Q; intros <-; exact N.
    + intros (a & b & c & i & j & k & -> & L & Hi & Hj & Hk & W). exists a, b, c.
      split; [reflexivity|]. split.
      { repeat split; try lia; left; eapply nth_error_In; eassumption. }
      rewrite (DI _ _ _ Hi), (DI _ _ _ Hj), (DI _ _ _ Hk).
      repeat split; eexists; (split; [reflexivity|]); apply W; simpl; auto.
  - assert (PT : proper_triangles l).
    { intros a b c I. apply HI in I. destruct I as (a' & b' & c' & Q & (L1 & L2 & _) & _).
      injection Q; intros -> -> ->. lia. }
    intros B1 B2 HB1 HB2. apply (proj2 (C04_boundary_zero_iff _ _ _ _ _ _ HS PE PT B1 B2 HB1 HB2)).
    intros t I. apply HI in I. destruct I as (a & b & c & -> & (L1 & L2 & K1 & K2 & K3) & _).
    exists a, b, c. split; [reflexivity|]. left. assert (L3 : a < c) by lia. auto.
Qed.
Print Assumptions C60_random_complex.

(** With the same random numbers a larger threshold only adds triangles. *)
Theorem C60_monotone_in_threshold :
  forall spring draw weight n p eps eps' sc c sc' c', spring_contract spring -> (eps <= eps')%Q ->
  generate_random_simplicial_complex spring draw weight n p eps = Ok (sc, c) ->
  generate_random_simplicial_complex spring draw weight n p eps' = Ok (sc', c') ->
  sc_edges sc = sc_edges sc' /\ forall t, In t (sc_triangles sc) -> In t (sc_triangles sc').
Proof.
  intros spring draw weight n p eps eps' sc c sc' c' SP L H H'.
  destruct (C60_random_complex spring draw weight n p eps SP) as (s1 & c1 & G & _ & E1 & _ & _ & _ & _ & T1 & _).
  rewrite H in G. injection G; intros <- <-.
  destruct (C60_random_complex spring draw weight n p eps' SP) as (s2 & c2 & G2 & _ & E2 & _ & _ & _ & _ & T2 & _).
  rewrite H' in G2. injection G2; intros <- <-.
  split; [congruence|]. intros t. rewrite T1, T2, E1, E2.
  intros (a & b & c0 & i & j & k & Q & O & Hi & Hj & Hk & W). exists a, b, c0, i, j, k.
  repeat (split; [assumption|]). intros m I. destruct (W m I) as (W1 & W2). split; [exact W1|].
  eapply Qlt_le_trans; eassumption.
Qed.
Print Assumptions C60_monotone_in_threshold.

(** The seed fixes the draws but not the weights: with the same draws, two runs can have different
    triangles. *)
Theorem C60_same_seed_refuted :
  exists spring draw weight weight' n p eps sc c sc' c', spring_contract spring /\
    generate_random_simplicial_complex spring draw weight n p eps = Ok (sc, c) /\
    generate_random_simplicial_complex spring draw weight' n p eps = Ok (sc', c') /\
    sc_edges sc = sc_edges sc' /\ sc_triangles sc = [[0; 1; 2]] /\ sc_triangles sc' = [].
Proof.
  exists spring0, (fun _ => 1 # 4)%Q, (fun _ => 1 # 4)%Q, (fun _ => 3 # 4)%Q, 3%nat, (1 # 2)%Q, (1 # 2)%Q.
  do 4 eexists. split; [intros ns es; apply map_length|].
  split; [vm_compute; reflexivity|]. split; [vm_compute; reflexivity|]. repeat split.
Qed.
Print Assumptions C60_same_seed_refuted.

Example C60_example :
  exists sc c, generate_random_simplicial_complex spring0 (fun k => Z.of_nat k # 6)%Q (fun k => Z.of_nat k # 10)%Q
     4 (5 # 6) (1 # 2) = Ok (sc, c) /\
    sc_edges sc = [(0,1); (0,2); (0,3); (1,2); (1,3)] /\ sc_triangles sc = [] /\
    all_pairs 4 [(0,1); (0,2); (0,3); (1,2); (1,3); (2,3)] /\
    exists sc' c', generate_random_simplicial_complex spring0 (fun k => Z.of_nat k # 6)%Q (fun k => Z.of_nat (S k) # 10)%Q
     4 (5 # 6) (1 # 2) = Ok (sc', c') /\ sc_triangles sc' = [[0; 1; 2]].
Proof.
  do 2 eexists. split; [vm_compute; reflexivity|]. split; [reflexivity|]. split; [reflexivity|].
  split; [exact (node_pairs_all 4)|]. do 2 eexists. split; [vm_compute; reflexivity|]. reflexivity.
Qed.
