(** * Properties of SimplicialComplex: construction, incidence, adjacency, Laplacian entries *)

From Coq Require Import ZArith QArith String List Bool Lia Permutation Sorted.
From Verif Require Import Py PyFacts Complex ComplexSpec ComplexFacts ComplexFacts2 ExampleData.
Import ListNotations.
Open Scope Z_scope.

(** ** C01 *)

Theorem C01_incidence_entries :
  forall nodes E T nf ef sc, make_sc nodes E T nf ef = Ok sc ->
  exists B1, incidence_matrix sc 1 = Ok (Csr B1) /\
    sh0 B1 = length nodes /\ sh1 B1 = length E /\
    forall j u v i, nth_error E j = Some (u, v) -> (i < length nodes)%nat ->
      (addresses (length nodes) v i -> at2 B1 i j = 1) /\
      (addresses (length nodes) u i -> ~ addresses (length nodes) v i -> at2 B1 i j = -1) /\
      (~ addresses (length nodes) u i -> ~ addresses (length nodes) v i -> at2 B1 i j = 0).
Proof.
  intros nodes E T nf ef sc H. exists (sc_B1 sc). split; [reflexivity|].
  destruct (sc_B1_spec _ _ _ _ _ _ H) as (D0 & D1 & S).
  split; [exact D0|]. split; [exact D1|]. intros j u v i Hj Hi. rewrite (S i j _ Hj).
  unfold B1_col; simpl. rewrite <- !idx_eqb_iff.
  destruct (idx_eqb (length nodes) v i), (idx_eqb (length nodes) u i);
    repeat split; intros; try congruence; try reflexivity.
Qed.
Print Assumptions C01_incidence_entries.

(** For properly numbered loop-free edges: -1 at the tail, +1 at the head, columns sum to 0. *)
Theorem C01_incidence_proper :
  forall nodes E T nf ef sc, make_sc nodes E T nf ef = Ok sc -> proper_edges (length nodes) E ->
  exists B1, incidence_matrix sc 1 = Ok (Csr B1) /\
    (forall j u v, nth_error E j = Some (u, v) ->
       at2 B1 (Z.to_nat u) j = -1 /\ at2 B1 (Z.to_nat v) j = 1 /\
       forall i, (i < length nodes)%nat -> i <> Z.to_nat u -> i <> Z.to_nat v -> at2 B1 i j = 0) /\
    (forall j, (j < length E)%nat -> zsum (length nodes) (fun i => at2 B1 i j) = 0).
Proof.
  intros nodes E T nf ef sc H P. exists (sc_B1 sc). split; [reflexivity|]. split.
  - intros j u v Hj. destruct (P u v (nth_error_In _ _ Hj)) as (Hu & Hv & N).
    destruct (make_sc_Ok _ _ _ _ _ _ H) as (_ & _ & _ & _ & _ & HB & _).
    assert (X : forall i, (i < length nodes)%nat ->
       at2 (sc_B1 sc) i j = ind (v =? Z.of_nat i) - ind (u =? Z.of_nat i)).
    { intros i Hi. apply (B1_entry _ _ _ HB P); assumption. }
    unfold ind in X. split; [|split].
    + rewrite X by lia. rewrite (proj2 (Z.eqb_neq v _)), (proj2 (Z.eqb_eq u _)) by lia. reflexivity.
    + rewrite X by lia. rewrite (proj2 (Z.eqb_eq v _)), (proj2 (Z.eqb_neq u _)) by lia. reflexivity.
    + intros i Hi Nu Nv. rewrite X by lia.
      rewrite (proj2 (Z.eqb_neq v _)), (proj2 (Z.eqb_neq u _)) by lia. reflexivity.
  - intros j Hj. exact (B1_column_sum _ _ _ _ _ _ H P j Hj).
Qed.
Print Assumptions C01_incidence_proper.

(** A self-loop has a lone +1: its column does not sum to 0. *)
Theorem C01_self_loop_refuted :
  exists nodes E sc B1, make_sc nodes E [] [] [] = Ok sc /\ good_edges (length nodes) E /\
    incidence_matrix sc 1 = Ok (Csr B1) /\ zsum (length nodes) (fun i => at2 B1 i 0) = 1.
Proof.
  exists [0; 1], [(1, 1)]. do 2 eexists. split; [vm_compute; reflexivity|]. split.
  - intros u v [K|[]]. injection K; intros <- <-. unfold in_range; simpl; lia.
  - split; [reflexivity|]. vm_compute. reflexivity.
Qed.
Print Assumptions C01_self_loop_refuted.

Example C01_example :
  exists sc B1, make_sc paper_nodes paper_edges paper_triangles [] [] = Ok sc /\
    proper_edges (length paper_nodes) paper_edges /\
    incidence_matrix sc 1 = Ok (Csr B1) /\ at2 B1 2 5 = -1 /\ at2 B1 5 5 = 1 /\ at2 B1 3 5 = 0.
Proof.
  do 2 eexists. split; [vm_compute; reflexivity|]. split.
  - unfold proper_edges, paper_edges; simpl. intros u v H.
    repeat (destruct H as [H|H]; [injection H; intros <- <-; lia|]); destruct H.
  - split; [reflexivity|]. vm_compute. auto.
Qed.

(** ** C02 *)

Theorem C02_accepts_iff :
  forall nodes E T nf ef,
  (exists sc, make_sc nodes E T nf ef = Ok sc) <->
  (good_edges (length nodes) E /\ good_triangles E T).
Proof.
  intros nodes E T nf ef. pose proof (make_sc_cases nodes E T nf ef) as H.
  destruct (make_sc nodes E T nf ef) as [sc|e]; split.
  - intros _; exact H.
  - intros _; exists sc; reflexivity.
  - intros (sc & K); discriminate.
  - tauto.
Qed.
Print Assumptions C02_accepts_iff.

Theorem C02_index_error_iff :
  forall nodes E T nf ef,
  make_sc nodes E T nf ef = Raise IndexError <-> ~ good_edges (length nodes) E.
Proof.
  intros nodes E T nf ef. pose proof (make_sc_cases nodes E T nf ef) as H.
  destruct (make_sc nodes E T nf ef) as [sc|e].
  - split; [discriminate|tauto].
  - destruct H as [(-> & H)|(-> & H & _)]; split; try tauto; discriminate.
Qed.
Print Assumptions C02_index_error_iff.

Theorem C02_value_error_iff :
  forall nodes E T nf ef,
  make_sc nodes E T nf ef = Raise ValueError <->
  (good_edges (length nodes) E /\ ~ good_triangles E T).
Proof.
  intros nodes E T nf ef. pose proof (make_sc_cases nodes E T nf ef) as H.
  destruct (make_sc nodes E T nf ef) as [sc|e].
  - split; [discriminate|tauto].
  - destruct H as [(-> & H)|(-> & H)]; split; try tauto; discriminate.
Qed.
Print Assumptions C02_value_error_iff.

(** No other exception, and a success stores its arguments. *)
Theorem C02_outcomes :
  forall nodes E T nf ef,
  (exists sc, make_sc nodes E T nf ef = Ok sc /\ sc_nodes sc = nodes /\ sc_edges sc = E /\
     sc_triangles sc = T /\ sc_node_features sc = nf /\ sc_edge_features sc = ef) \/
  make_sc nodes E T nf ef = Raise IndexError \/ make_sc nodes E T nf ef = Raise ValueError.
Proof.
  intros nodes E T nf ef. pose proof (make_sc_cases nodes E T nf ef) as H.
  destruct (make_sc nodes E T nf ef) as [sc|e] eqn:K.
  - left. exists sc. apply make_sc_Ok in K. tauto.
  - right. destruct H as [(-> & _)|(-> & _)]; auto.
Qed.
Print Assumptions C02_outcomes.

Example C02_example_ok : exists sc, make_sc tri_nodes twisted_edges tri_triangles [] [] = Ok sc.
Proof. eexists. vm_compute. reflexivity. Qed.
Example C02_example_index_error : make_sc [0; 1] [(0, 2)] [[5]] [] [] = Raise IndexError.
Proof. reflexivity. Qed.
Example C02_example_value_error : make_sc [0; 1; 2] [(0, 1); (1, -1)] [[0; 1; 2]] [] [] = Raise ValueError.
Proof. reflexivity. Qed.

(** ** C03 *)

Theorem C03_triangle_column :
  forall nodes E T nf ef sc, make_sc nodes E T nf ef = Ok sc ->
  exists B2, incidence_matrix sc 2 = Ok (Csr B2) /\ sh0 B2 = length E /\ sh1 B2 = length T /\
    forall j a b c, nth_error T j = Some [a; b; c] -> a <> b -> b <> c -> a <> c ->
    exists ka kb kc, stored_at E a b ka /\ stored_at E b c kb /\ stored_at E a c kc /\
      at2 B2 ka j = 1 /\ at2 B2 kb j = 1 /\ at2 B2 kc j = -1 /\
      forall k, k <> ka -> k <> kb -> k <> kc -> at2 B2 k j = 0.
Proof.
  intros nodes E T nf ef sc H. exists (sc_B2 sc). split; [reflexivity|].
  destruct (sc_B2_spec _ _ _ _ _ _ H) as (D0 & D1 & S).
  split; [exact D0|]. split; [exact D1|]. intros j a b c Hj Nab Nbc Nac.
  destruct (make_sc_Ok _ _ _ _ _ _ H) as (_ & _ & _ & _ & _ & _ & _ & _ & G).
  destruct (proj1 (closed_triangle_3 _ _ _ _) (G _ (nth_error_In _ _ Hj))) as (La & Lb & Lc).
  destruct (linked_stored _ _ _ La) as (ka & Ka). destruct (linked_stored _ _ _ Lb) as (kb & Kb).
  destruct (linked_stored _ _ _ Lc) as (kc & Kc).
  destruct (three_positions _ _ _ _ _ _ _ Nab Nbc Nac Ka Kb Kc) as (N1 & N2 & N3).
  exists ka, kb, kc. split; [exact Ka|]. split; [exact Kb|]. split; [exact Kc|].
  assert (X : forall k, at2 (sc_B2 sc) k j =
     if Nat.eqb k kb then 1 else if Nat.eqb k kc then -1 else if Nat.eqb k ka then 1 else 0).
  { intros k. rewrite (S k j _ Hj). apply (B2_col_st E); assumption. }
  split; [|split; [|split]].
  - rewrite X, (proj2 (Nat.eqb_neq ka kb)), (proj2 (Nat.eqb_neq ka kc)), Nat.eqb_refl by assumption.
    reflexivity.
  - rewrite X, Nat.eqb_refl. reflexivity.
  - rewrite X, (proj2 (Nat.eqb_neq kc kb)), Nat.eqb_refl by auto. reflexivity.
  - intros k Ha Hb Hc. rewrite X, !(proj2 (Nat.eqb_neq k _)) by assumption. reflexivity.
Qed.
Print Assumptions C03_triangle_column.

(** Without repeated undirected edges the entry depends on the edge only, not on its direction. *)
Theorem C03_triangle_signs :
  forall nodes E T nf ef sc, make_sc nodes E T nf ef = Ok sc ->
  simple_edges E -> proper_triangles T ->
  exists B2, incidence_matrix sc 2 = Ok (Csr B2) /\
    forall k e j t, nth_error E k = Some e -> nth_error T j = Some t -> at2 B2 k j = tri_sign t e.
Proof.
  intros nodes E T nf ef sc H S P. exists (sc_B2 sc). split; [reflexivity|].
  exact (B2_entry_sign _ _ _ _ _ _ H S P).
Qed.
Print Assumptions C03_triangle_signs.

Example C03_example :
  exists sc, make_sc paper_nodes paper_edges paper_triangles [] [] = Ok sc /\
    simple_edges paper_edges /\ proper_triangles paper_triangles /\
    map (fun k => at2 (sc_B2 sc) k 1) (seq 0 10) = [0; 1; -1; 0; 1; 0; 0; 0; 0; 0].
Proof.
  eexists. split; [vm_compute; reflexivity|]. split; [split|split].
  - unfold paper_edges. repeat constructor; simpl; intuition congruence.
  - unfold paper_edges; simpl. intros u v H.
    repeat (destruct H as [H|H]; [injection H; intros <- <-; intuition congruence|]); destruct H.
  - unfold proper_triangles, paper_triangles; simpl. intros a b c H.
    repeat (destruct H as [H|H]; [injection H; intros <- <- <-; lia|]); destruct H.
  - vm_compute. reflexivity.
Qed.

(** ** C04 *)

Theorem C04_boundary_zero_iff :
  forall nodes E T nf ef sc, make_sc nodes E T nf ef = Ok sc ->
  proper_edges (length nodes) E -> proper_triangles T ->
  forall B1 B2, incidence_matrix sc 1 = Ok (Csr B1) -> incidence_matrix sc 2 = Ok (Csr B2) ->
  (forall i j, (i < length nodes)%nat -> (j < length T)%nat -> at2 (amul B1 B2) i j = 0) <->
  (forall t, In t T -> coherent E t).
Proof.
  intros nodes E T nf ef sc H P PT B1 B2 HB1 HB2.
  injection HB1; intros <-. injection HB2; intros <-.
  destruct (make_sc_Ok _ _ _ _ _ _ H) as (_ & _ & _ & _ & _ & E1 & E2 & _ & G). split.
  - intros Z0 t Ht. destruct (G t Ht) as (a & b & c & -> & _).
    destruct (PT a b c Ht) as (Nab & Nbc & Nac).
    destruct (In_nth_error _ _ Ht) as (j & Hj).
    apply (boundary_column _ _ _ _ _ E1 E2 P j a b c Nab Nbc Nac Hj).
    intros i Hi. apply Z0; [exact Hi|]. apply nth_error_Some; congruence.
  - intros C i j Hi Hj.
    destruct (nth_error T j) as [t|] eqn:Ej; [|apply nth_error_None in Ej; lia].
    assert (Ht := nth_error_In _ _ Ej). destruct (G t Ht) as (a & b & c & -> & _).
    destruct (PT a b c Ht) as (Nab & Nbc & Nac).
    apply (boundary_column _ _ _ _ _ E1 E2 P j a b c Nab Nbc Nac Ej); [|exact Hi].
    apply C; exact Ht.
Qed.
Print Assumptions C04_boundary_zero_iff.

(** The unconditional identity fails for a simple edge list (with one edge stored descending). *)
Theorem C04_boundary_zero_refuted :
  exists nodes E T sc, make_sc nodes E T [] [] = Ok sc /\
    proper_edges (length nodes) E /\ simple_edges E /\ proper_triangles T /\
    exists i j, (i < length nodes)%nat /\ (j < length T)%nat /\
      at2 (amul (sc_B1 sc) (sc_B2 sc)) i j <> 0.
Proof.
  exists tri_nodes, twisted_edges, tri_triangles. eexists.
  split; [vm_compute; reflexivity|]. split; [|split; [split|split]].
  - unfold proper_edges, twisted_edges; simpl. intros u v H.
    repeat (destruct H as [H|H]; [injection H; intros <- <-; lia|]); destruct H.
  - unfold twisted_edges. repeat constructor; simpl; intuition congruence.
  - unfold twisted_edges; simpl. intros u v H.
    repeat (destruct H as [H|H]; [injection H; intros <- <-; intuition congruence|]); destruct H.
  - unfold proper_triangles, tri_triangles; simpl. intros a b c H.
    repeat (destruct H as [H|H]; [injection H; intros <- <- <-; lia|]); destruct H.
  - exists 1%nat, 0%nat. split; [simpl; lia|]. split; [simpl; lia|]. vm_compute. discriminate.
Qed.
Print Assumptions C04_boundary_zero_refuted.

Example C04_example :
  exists sc, make_sc paper_nodes paper_edges paper_triangles [] [] = Ok sc /\
    (forall t, In t paper_triangles -> coherent paper_edges t) /\
    alist (amul (sc_B1 sc) (sc_B2 sc)) = repeat (repeat 0 3) 7.
Proof.
  eexists. split; [vm_compute; reflexivity|]. split.
  - unfold paper_triangles; simpl. intros t H.
    repeat (destruct H as [<-|H]; [apply coherent_3; left; unfold paper_edges; simpl; auto 20|]);
      destruct H.
  - vm_compute. reflexivity.
Qed.

(** ** C08 *)

Theorem C08_simplices :
  forall nodes E T nf ef sc, make_sc nodes E T nf ef = Ok sc ->
  simplices sc = map (fun v => [v]) nodes ++ map (fun e => [fst e; snd e]) E ++ T /\
  shape sc = (length nodes, length E, length T) /\
  length (simplices sc) = (length nodes + length E + length T)%nat.
Proof.
  intros nodes E T nf ef sc H. destruct (make_sc_Ok _ _ _ _ _ _ H) as (Hn & HE & HT & _).
  unfold simplices, shape. rewrite Hn, HE, HT. split; [reflexivity|]. split; [reflexivity|].
  rewrite !app_length, !map_length. lia.
Qed.
Print Assumptions C08_simplices.

Theorem C08_max_dim :
  forall nodes E T nf ef sc, make_sc nodes E T nf ef = Ok sc ->
  (T <> [] -> max_dim sc = Ok 2) /\
  (T = [] -> E <> [] -> max_dim sc = Ok 1) /\
  (T = [] -> E = [] -> nodes <> [] -> max_dim sc = Ok 0) /\
  (T = [] -> E = [] -> nodes = [] -> max_dim sc = Raise ValueError).
Proof.
  intros nodes E T nf ef sc H. destruct (make_sc_Ok _ _ _ _ _ _ H) as (Hn & HE & HT & _ & _ & _ & _ & _ & G).
  assert (S : simplices sc = map (fun v => [v]) nodes ++ map (fun e => [fst e; snd e]) E ++ T).
  { unfold simplices. rewrite Hn, HE, HT. reflexivity. }
  assert (L : forall s, In s (simplices sc) ->
     (exists v, In v nodes /\ s = [v]) \/ (exists e, In e E /\ s = [fst e; snd e]) \/
     (In s T /\ length s = 3%nat)).
  { intros s. rewrite S, !in_app_iff, !in_map_iff. intros [(v & <- & K)|[(e & <- & K)|K]].
    - left; eauto.
    - right; left; eauto.
    - right; right. split; [exact K|]. destruct (G s K) as (a & b & c & -> & _). reflexivity. }
  split; [|split; [|split]].
  - intros N. destruct T as [|t T]; [congruence|]. apply max_dim_lengths.
    assert (It : In t (simplices sc)).
    { rewrite S, !in_app_iff. right; right; left; reflexivity. }
    split; [intros K; rewrite K in It; destruct It|]. split.
    + exists t. split; [exact It|]. destruct (G t (or_introl eq_refl)) as (a & b & c & -> & _). reflexivity.
    + intros s Hs. destruct (L s Hs) as [(v & _ & ->)|[(e & _ & ->)|(_ & ->)]]; simpl; lia.
  - intros -> N. destruct E as [|e E]; [congruence|]. apply max_dim_lengths.
    assert (It : In [fst e; snd e] (simplices sc)).
    { rewrite S, !in_app_iff. right; left; left; reflexivity. }
    split; [intros K; rewrite K in It; destruct It|]. split.
    + exists [fst e; snd e]. split; [exact It|reflexivity].
    + intros s Hs. destruct (L s Hs) as [(v & _ & ->)|[(e' & _ & ->)|(K & _)]]; simpl; [lia|lia|destruct K].
  - intros -> -> N. destruct nodes as [|v nodes]; [congruence|]. apply max_dim_lengths.
    assert (It : In [v] (simplices sc)).
    { rewrite S, !in_app_iff. left; left; reflexivity. }
    split; [intros K; rewrite K in It; destruct It|]. split.
    + exists [v]. split; [exact It|reflexivity].
    + intros s Hs. destruct (L s Hs) as [(v' & _ & ->)|[(e' & K & _)|(K & _)]]; simpl; [lia|destruct K|destruct K].
  - intros -> -> ->. unfold max_dim. rewrite S. reflexivity.
Qed.
Print Assumptions C08_max_dim.

Example C08_example : exists sc, make_sc paper_nodes paper_edges paper_triangles [] [] = Ok sc /\
  shape sc = (7, 10, 3)%nat /\ max_dim sc = Ok 2 /\ length (simplices sc) = 20%nat.
Proof. eexists. split; [vm_compute; reflexivity|]. vm_compute. auto. Qed.

(** ** C09 *)

Theorem C09_faces :
  forall s f, In f (get_faces s) <-> (2 <= length s)%nat /\ facet s f.
Proof. exact in_get_faces. Qed.
Print Assumptions C09_faces.

Theorem C09_faces_ordered : forall s, StronglySorted lex_lt (get_faces s).
Proof. exact get_faces_sorted. Qed.
Print Assumptions C09_faces_ordered.

Theorem C09_faces_count :
  forall s, NoDup s -> (2 <= length s)%nat -> length (get_faces s) = length s.
Proof. exact get_faces_count. Qed.
Print Assumptions C09_faces_count.

Theorem C09_faces_order_independent :
  forall s s', Permutation s s' -> get_faces s = get_faces s'.
Proof. exact get_faces_perm. Qed.
Print Assumptions C09_faces_order_independent.

Example C09_example :
  get_faces [7; 2; 5; 3] = [[2; 3; 5]; [2; 3; 7]; [2; 5; 7]; [3; 5; 7]] /\ get_faces [4] = [] /\
  NoDup [7; 2; 5; 3] /\ Permutation [7; 2; 5; 3] [3; 2; 5; 7].
Proof.
  split; [reflexivity|]. split; [reflexivity|]. split; [repeat constructor; simpl; intuition congruence|].
  apply NoDup_Permutation; [repeat constructor; simpl; intuition congruence..|simpl; intuition].
Qed.

(** ** C10 *)

Theorem C10_adjacency_failure_iff :
  forall nodes E T nf ef sc, make_sc nodes E T nf ef = Ok sc ->
  (adjacency_matrix sc = Raise IndexError <->
   exists u v i, In (u, v) E /\ addresses (length nodes) u i /\ addresses (length nodes) v i) /\
  (forall e, adjacency_matrix sc = Raise e -> e = IndexError).
Proof.
  intros nodes E T nf ef sc H. destruct (sc_B1_spec _ _ _ _ _ _ H) as (D0 & D1 & _).
  unfold adjacency_matrix. rewrite D0, D1.
  pose proof (adjacency_loop _ _ _ _ _ _ H (length E) O (azeros (length nodes) (length nodes))
                eq_refl eq_refl eq_refl) as K.
  destruct (foldM _ _ _) as [A|e]; simpl.
  - split; [|discriminate]. split; [discriminate|]. intros (u & v & i & Hin & Hu & Hv).
    destruct K as (_ & _ & K & _). destruct (In_nth_error _ _ Hin) as (q & Hq).
    exfalso. apply (K q (u, v)); [lia|exact Hq|]. exists i. auto.
  - destruct K as (-> & q & (u, v) & _ & Hq & i & Hu & Hv).
    split; [|intros e K; injection K; auto]. split; [|reflexivity].
    intros _. exists u, v, i. split; [eapply nth_error_In; exact Hq|]. auto.
Qed.
Print Assumptions C10_adjacency_failure_iff.

Theorem C10_adjacency_entries :
  forall nodes E T nf ef sc, make_sc nodes E T nf ef = Ok sc -> proper_edges (length nodes) E ->
  exists A, adjacency_matrix sc = Ok (Csr A) /\ sh0 A = length nodes /\ sh1 A = length nodes /\
    forall i k, (i < length nodes)%nat -> (k < length nodes)%nat ->
      (linked E (Z.of_nat i) (Z.of_nat k) -> at2 A i k = 1) /\
      (~ linked E (Z.of_nat i) (Z.of_nat k) -> at2 A i k = 0) /\
      at2 A i k = at2 A k i /\ at2 A i i = 0.
Proof.
  intros nodes E T nf ef sc H P. destruct (sc_B1_spec _ _ _ _ _ _ H) as (D0 & D1 & _).
  unfold adjacency_matrix. rewrite D0, D1.
  pose proof (adjacency_loop _ _ _ _ _ _ H (length E) O (azeros (length nodes) (length nodes))
                eq_refl eq_refl eq_refl) as K.
  destruct (foldM _ _ _) as [A|e]; simpl.
  2: { exfalso. destruct K as (_ & q & (u, v) & _ & Hq & i & Hu & Hv).
       destruct (P u v (nth_error_In _ _ Hq)) as (Ru & Rv & N). simpl in Hu, Hv.
       assert (Li : (i < length nodes)%nat) by (destruct Hu; assumption).
       rewrite addresses_proper in Hu, Hv by assumption. congruence. }
  destruct K as (K0 & K1 & _ & K2 & K3). exists A. split; [reflexivity|].
  split; [exact K0|]. split; [exact K1|].
  assert (Q : forall i k, (i < length nodes)%nat -> (k < length nodes)%nat ->
     (linked E (Z.of_nat i) (Z.of_nat k) <->
      exists q e, (0 <= q)%nat /\ nth_error E q = Some e /\ adj_pair (length nodes) e i k)).
  { intros i k Hi Hk. split.
    - intros [I|I]; destruct (In_nth_error _ _ I) as (q & Hq); destruct (P _ _ I) as (Ru & Rv & _).
      + exists q, (Z.of_nat i, Z.of_nat k). split; [lia|]. split; [exact Hq|]. left; simpl.
        rewrite !addresses_proper by assumption. auto.
      + exists q, (Z.of_nat k, Z.of_nat i). split; [lia|]. split; [exact Hq|]. right; simpl.
        rewrite !addresses_proper by assumption. auto.
    - intros (q & (u, v) & _ & Hq & AP). assert (I := nth_error_In _ _ Hq).
      destruct (P _ _ I) as (Ru & Rv & _). unfold adj_pair in AP; simpl in AP.
      rewrite !addresses_proper in AP by assumption.
      destruct AP as [(-> & ->)|(-> & ->)]; [left|right]; exact I. }
  assert (V1 : forall i k, (i < length nodes)%nat -> (k < length nodes)%nat ->
     linked E (Z.of_nat i) (Z.of_nat k) -> at2 A i k = 1).
  { intros i k Hi Hk L. apply K2. apply Q; assumption. }
  assert (V0 : forall i k, (i < length nodes)%nat -> (k < length nodes)%nat ->
     ~ linked E (Z.of_nat i) (Z.of_nat k) -> at2 A i k = 0).
  { intros i k Hi Hk L. rewrite K3; [reflexivity|]. rewrite <- Q; assumption. }
  intros i k Hi Hk.
  assert (DI : forall e, {In e E} + {~ In e E}).
  { exact (pair_in_dec E). }
  split; [apply V1; assumption|]. split; [apply V0; assumption|]. split.
  - destruct (DI (Z.of_nat i, Z.of_nat k)) as [I|I]; [|destruct (DI (Z.of_nat k, Z.of_nat i)) as [J|J]].
    + rewrite (V1 i k), (V1 k i); auto; [right|left]; exact I.
    + rewrite (V1 i k), (V1 k i); auto; [left|right]; exact J.
    + rewrite (V0 i k), (V0 k i); auto; intros [L|L]; contradiction.
  - apply V0; try assumption. intros [L|L]; apply P in L; tauto.
Qed.
Print Assumptions C10_adjacency_entries.

Example C10_example : exists sc A, make_sc tri_nodes twisted_edges [] [] [] = Ok sc /\
  adjacency_matrix sc = Ok (Csr A) /\ alist A = [[0; 1; 1]; [1; 0; 1]; [1; 1; 0]].
Proof. do 2 eexists. split; [vm_compute; reflexivity|]. split; vm_compute; reflexivity. Qed.
Example C10_example_loop : exists sc, make_sc [0; 1] [(0, 1); (1, -1)] [] [] [] = Ok sc /\
  adjacency_matrix sc = Raise IndexError.
Proof. eexists. split; [vm_compute; reflexivity|]. vm_compute; reflexivity. Qed.

(** ** C11 *)

Theorem C11_node_laplacian :
  forall nodes E T nf ef sc, make_sc nodes E T nf ef = Ok sc -> proper_edges (length nodes) E ->
  exists L, laplacian_matrix sc = Csr L /\ sh0 L = length nodes /\ sh1 L = length nodes /\
    (forall i k, (i < length nodes)%nat -> (k < length nodes)%nat ->
       (i = k -> at2 L i k = count (fun e => touchesb e (Z.of_nat i)) E) /\
       (i <> k -> at2 L i k = - count (fun e => joinsb e (Z.of_nat i) (Z.of_nat k)) E)) /\
    (forall i, (i < length nodes)%nat -> zsum (length nodes) (fun k => at2 L i k) = 0) /\
    (forall k, (k < length nodes)%nat -> zsum (length nodes) (fun i => at2 L i k) = 0).
Proof.
  intros nodes E T nf ef sc H P. exists (amul (sc_B1 sc) (atr (sc_B1 sc))).
  destruct (sc_B1_spec _ _ _ _ _ _ H) as (D0 & D1 & _).
  split; [reflexivity|]. split; [exact D0|]. split; [exact D0|]. split; [|split].
  - intros i k Hi Hk. rewrite (L0_entry _ _ _ _ _ _ H P i k Hi Hk).
    destruct (Nat.eqb_spec i k); split; intros; congruence || reflexivity.
  - intros i _. exact (L0_row_sum _ _ _ _ _ _ H P i).
  - intros k _. rewrite <- (L0_row_sum _ _ _ _ _ _ H P k). apply zsum_ext.
    intros i _. apply gram_sym.
Qed.
Print Assumptions C11_node_laplacian.

(** For a simple graph: L0 = D - A with A the matrix returned by adjacency_matrix(). *)
Theorem C11_degree_minus_adjacency :
  forall nodes E T nf ef sc, make_sc nodes E T nf ef = Ok sc -> proper_edges (length nodes) E ->
  simple_edges E ->
  exists L A, laplacian_matrix sc = Csr L /\ adjacency_matrix sc = Ok (Csr A) /\
    forall i k, (i < length nodes)%nat -> (k < length nodes)%nat ->
      at2 L i k = (if Nat.eqb i k then zsum (length nodes) (fun q => at2 A i q) else 0) - at2 A i k.
Proof.
  intros nodes E T nf ef sc H P (ND & AS).
  destruct (C11_node_laplacian _ _ _ _ _ _ H P) as (L & HL & _ & _ & Le & Lr & _).
  destruct (C10_adjacency_entries _ _ _ _ _ _ H P) as (A & HA & _ & _ & Ae).
  exists L, A. split; [exact HL|]. split; [exact HA|].
  assert (Off : forall i k, (i < length nodes)%nat -> (k < length nodes)%nat -> i <> k ->
             at2 L i k = - at2 A i k).
  { intros i k Hi Hk N. rewrite (proj2 (Le i k Hi Hk) N).
    destruct (Ae i k Hi Hk) as (A1 & A0 & _ & _). f_equal. unfold count.
    set (x := Z.of_nat i) in *. set (y := Z.of_nat k) in *.
    assert (Nxy : x <> y) by lia.
    assert (DI : forall e, {In e E} + {~ In e E}) by (exact (pair_in_dec E)).
    assert (F : forall e, linked E x y -> (In (x, y) E -> e = (x, y)) -> (In (y, x) E -> e = (y, x)) ->
        filter (fun e => joinsb e x y) E = [e] ).
    { intros e Lk E1 E2.
      assert (NF : NoDup (filter (fun e => joinsb e x y) E)) by (apply NoDup_filter; exact ND).
      assert (M : forall e', In e' (filter (fun e => joinsb e x y) E) <-> e' = e).
      { intros e'. rewrite filter_In, joinsb_iff. split.
        - intros (I & [->| ->]); symmetry; auto.
        - intros ->. destruct Lk as [I|I].
          + rewrite (E1 I). auto.
          + rewrite (E2 I). auto. }
      destruct (filter _ E) as [|a [|b r]].
      - exfalso. apply (proj2 (M e)); reflexivity.
      - f_equal. apply M. left; reflexivity.
      - exfalso. inversion NF as [|? ? Na _]; subst. apply Na.
        assert (a = e) by (apply M; left; reflexivity).
        assert (b = e) by (apply M; right; left; reflexivity). subst. left; reflexivity. }
    destruct (DI (x, y)) as [I|I]; [|destruct (DI (y, x)) as [J|J]].
    - rewrite (F (x, y)), A1; [reflexivity|left; exact I|left; exact I|reflexivity|].
      intros J. exfalso; exact (AS _ _ I J).
    - rewrite (F (y, x)), A1; [reflexivity|right; exact J|right; exact J|contradiction|reflexivity].
    - rewrite A0 by (intros [?|?]; contradiction).
      assert (Em : filter (fun e => joinsb e x y) E = []).
      { destruct (filter _ E) as [|e r] eqn:Fe; [reflexivity|].
        assert (Ie : In e (filter (fun e => joinsb e x y) E)) by (rewrite Fe; left; reflexivity).
        apply filter_In in Ie. rewrite joinsb_iff in Ie. destruct Ie as (Ie & [->| ->]); contradiction. }
      rewrite Em. reflexivity. }
  intros i k Hi Hk. destruct (Nat.eqb_spec i k) as [<-|N].
  - destruct (Ae i i Hi Hi) as (_ & _ & _ & ->).
    pose proof (Lr i Hi) as R.
    assert (S : zsum (length nodes) (fun q => at2 L i q)
              = zsum (length nodes) (fun q => (if Nat.eqb q i then at2 L i q else 0) + - at2 A i q)).
    { apply zsum_ext. intros q Hq. destruct (Nat.eqb_spec q i) as [->|Nq].
      - destruct (Ae i i Hi Hi) as (_ & _ & _ & ->). lia.
      - rewrite (Off i q Hi Hq); lia. }
    rewrite S, zsum_add, zsum_opp in R.
    rewrite (zsum_delta (length nodes) i (fun q => at2 L i q) Hi) in R. cbv beta in R. change (fun q : nat => at2 A i q) with (at2 A i). lia.
  - rewrite Off by assumption. lia.
Qed.
Print Assumptions C11_degree_minus_adjacency.

Example C11_example : exists sc L, make_sc paper_nodes paper_edges paper_triangles [] [] = Ok sc /\
  laplacian_matrix sc = Csr L /\ map (fun i => at2 L i i) (seq 0 7) = [3; 2; 4; 3; 3; 3; 2] /\
  at2 L 2 5 = -1 /\ at2 L 1 5 = 0.
Proof. do 2 eexists. split; [vm_compute; reflexivity|]. split; [reflexivity|]. vm_compute; auto. Qed.

(** ** C12 *)

Theorem C12_lower_laplacian_entries :
  forall nodes E T nf ef sc, make_sc nodes E T nf ef = Ok sc -> proper_edges (length nodes) E ->
  exists L, lower_laplacian_matrix sc 1 = Ok (Csr L) /\ sh0 L = length E /\ sh1 L = length E /\
    (forall j k u v u' v', nth_error E j = Some (u, v) -> nth_error E k = Some (u', v') ->
       at2 L j k = ind (v =? v') + ind (u =? u') - ind (v =? u') - ind (u =? v')) /\
    (forall j, (j < length E)%nat -> at2 L j j = 2).
Proof.
  intros nodes E T nf ef sc H P. exists (amul (atr (sc_B1 sc)) (sc_B1 sc)).
  destruct (sc_B1_spec _ _ _ _ _ _ H) as (D0 & D1 & _).
  split; [reflexivity|]. split; [exact D1|]. split; [exact D1|]. split.
  - exact (L1L_entry _ _ _ _ _ _ H P).
  - intros j Hj. destruct (nth_error E j) as [(u, v)|] eqn:Ej; [|apply nth_error_None in Ej; lia].
    rewrite (L1L_entry _ _ _ _ _ _ H P j j u v u v Ej Ej). unfold ind.
    destruct (P u v (nth_error_In _ _ Ej)) as (_ & _ & N).
    rewrite !Z.eqb_refl, (proj2 (Z.eqb_neq v u)), (proj2 (Z.eqb_neq u v)) by auto. reflexivity.
Qed.
Print Assumptions C12_lower_laplacian_entries.

Example C12_example : exists sc L, make_sc paper_nodes paper_edges paper_triangles [] [] = Ok sc /\
  lower_laplacian_matrix sc 1 = Ok (Csr L) /\
  map (fun k => at2 L 0 k) (seq 0 10) = [2; 1; 1; -1; 0; 0; 0; 0; 0; 0].
Proof. do 2 eexists. split; [vm_compute; reflexivity|]. split; [reflexivity|]. vm_compute; auto. Qed.

(** ** C13 *)

Theorem C13_upper_laplacian_entries :
  forall nodes E T nf ef sc, make_sc nodes E T nf ef = Ok sc ->
  simple_edges E -> proper_triangles T ->
  exists L, upper_laplacian_matrix sc 1 = Ok (Csr L) /\ sh0 L = length E /\ sh1 L = length E /\
    (forall j k e e', nth_error E j = Some e -> nth_error E k = Some e' ->
       at2 L j k = lsum (fun t => tri_sign t e * tri_sign t e') T /\
       ((forall t, In t T -> edge_of_tri t e = true -> edge_of_tri t e' = true -> False) ->
        at2 L j k = 0)) /\
    (forall j e, nth_error E j = Some e -> fst e <> snd e ->
       at2 L j j = count (fun t => edge_of_tri t e) T).
Proof.
  intros nodes E T nf ef sc H S P. exists (amul (sc_B2 sc) (atr (sc_B2 sc))).
  destruct (sc_B2_spec _ _ _ _ _ _ H) as (D0 & D1 & _).
  split; [reflexivity|]. split; [exact D0|]. split; [exact D0|]. split.
  - intros j k e e' Hj Hk. rewrite (L1U_entry _ _ _ _ _ _ H S P j k e e' Hj Hk).
    split; [reflexivity|]. intros N.
    assert (Z0 : forall t e0, edge_of_tri t e0 = false -> tri_sign t e0 = 0).
    { intros t (x, y) F. unfold tri_sign. destruct t as [|a [|b [|c [|d t]]]]; try reflexivity.
      unfold edge_of_tri in F; simpl in F. unfold joinsb; simpl.
      destruct (Z.eqb_spec x a), (Z.eqb_spec x b), (Z.eqb_spec x c), (Z.eqb_spec y a),
        (Z.eqb_spec y b), (Z.eqb_spec y c); simpl in *; congruence. }
    transitivity (lsum (fun _ : list Z => 0) T).
    + apply lsum_ext. intros t Ht. destruct (edge_of_tri t e) eqn:F1.
      * destruct (edge_of_tri t e') eqn:F2; [exfalso; exact (N t Ht F1 F2)|].
        rewrite (Z0 t e' F2). lia.
      * rewrite (Z0 t e F1). lia.
    + clear. induction T; simpl; lia.
  - exact (L1U_diag _ _ _ _ _ _ H S P).
Qed.
Print Assumptions C13_upper_laplacian_entries.

Theorem C13_triangle_laplacian_diagonal :
  forall nodes E T nf ef sc, make_sc nodes E T nf ef = Ok sc -> proper_triangles T ->
  exists L, lower_laplacian_matrix sc 2 = Ok (Csr L) /\ sh0 L = length T /\ sh1 L = length T /\
    forall j, (j < length T)%nat -> at2 L j j = 3.
Proof.
  intros nodes E T nf ef sc H P. exists (amul (atr (sc_B2 sc)) (sc_B2 sc)).
  destruct (sc_B2_spec _ _ _ _ _ _ H) as (D0 & D1 & _).
  split; [reflexivity|]. split; [exact D1|]. split; [exact D1|].
  exact (L2_diag _ _ _ _ _ _ H P).
Qed.
Print Assumptions C13_triangle_laplacian_diagonal.

Example C13_example : exists sc L, make_sc paper_nodes paper_edges paper_triangles [] [] = Ok sc /\
  upper_laplacian_matrix sc 1 = Ok (Csr L) /\
  map (fun k => at2 L k k) (seq 0 10) = [1; 2; 1; 1; 1; 0; 0; 1; 1; 1] /\ at2 L 0 1 = -1 /\ at2 L 0 2 = 0.
Proof. do 2 eexists. split; [vm_compute; reflexivity|]. split; [reflexivity|]. vm_compute; auto. Qed.

(** ** C15 (rank checks and splitting; the annihilation part is in Props_Hodge) *)

Theorem C15_hodge_splits :
  forall nodes E T nf ef sc, make_sc nodes E T nf ef = Ok sc ->
  exists L Ll Lu, hodge_laplacian_matrix sc 1 = Ok (Csr L) /\
    lower_laplacian_matrix sc 1 = Ok (Csr Ll) /\ upper_laplacian_matrix sc 1 = Ok (Csr Lu) /\
    sh0 L = length E /\ sh1 L = length E /\
    forall j k, at2 L j k = at2 Ll j k + at2 Lu j k.
Proof.
  intros nodes E T nf ef sc H. do 3 eexists. split; [reflexivity|]. split; [reflexivity|].
  split; [reflexivity|]. destruct (sc_B1_spec _ _ _ _ _ _ H) as (D0 & D1 & _).
  split; [exact D1|]. split; [exact D1|]. reflexivity.
Qed.
Print Assumptions C15_hodge_splits.

Theorem C15_ranks :
  forall sc rank,
  (incidence_matrix sc rank = Raise ValueError <-> ~ (0 <= rank <= 2)) /\
  (lower_laplacian_matrix sc rank = Raise ValueError <-> ~ (1 <= rank <= 2)) /\
  (upper_laplacian_matrix sc rank = Raise ValueError <-> ~ (0 <= rank <= 1)) /\
  (hodge_laplacian_matrix sc rank = Raise ValueError <-> ~ (0 <= rank <= 1)) /\
  hodge_laplacian_matrix sc 0 = Ok (laplacian_matrix sc) /\
  upper_laplacian_matrix sc 0 = Ok (laplacian_matrix sc).
Proof.
  intros sc rank.
  unfold hodge_laplacian_matrix, incidence_matrix, lower_laplacian_matrix, upper_laplacian_matrix.
  destruct (Z.eqb_spec rank 0), (Z.eqb_spec rank 1), (Z.eqb_spec rank 2); try lia; simpl;
    repeat split; intros; try discriminate; try reflexivity; lia.
Qed.
Print Assumptions C15_ranks.

(** Rank 0 of incidence_matrix is a one for each node, and identity_matrix() has a row and a column for each node
    (so that it is neutral for the rank 0 Laplacian). *)
Theorem C15_rank0 :
  forall nodes E T nf ef sc, make_sc nodes E T nf ef = Ok sc ->
  (exists l, incidence_matrix sc 0 = Ok (Vec l) /\ length l = length nodes /\ forall x, In x l -> x = 1) /\
  exists I L, identity_matrix sc = Dense I /\ laplacian_matrix sc = Csr L /\
    sh0 I = length nodes /\ sh1 I = length nodes /\ sh0 L = length nodes /\ sh1 L = length nodes /\
    (forall i k, at2 I i k = if Nat.eqb i k then 1 else 0) /\
    forall i k, (i < length nodes)%nat -> (k < length nodes)%nat ->
      at2 (amul I L) i k = at2 L i k /\ at2 (amul L I) i k = at2 L i k.
Proof.
  intros nodes E T nf ef sc H. destruct (sc_B1_spec _ _ _ _ _ _ H) as (D0 & D1 & _).
  assert (N : sc_nodes sc = nodes) by (apply make_sc_Ok in H; tauto).
  split.
  - eexists. split; [reflexivity|]. rewrite repeat_length, N. split; [reflexivity|]. intros x I. eapply repeat_spec; exact I.
  - do 2 eexists. split; [reflexivity|]. split; [reflexivity|]. rewrite N. cbn -[Nat.eqb amul].
    split; [reflexivity|]. split; [reflexivity|]. split; [exact D0|]. split; [exact D0|].
    split; [reflexivity|]. intros i k Hi Hk. split.
    + unfold amul at 1. cbn [at2 sh0 sh1].
      rewrite (zsum_ext _ _ (fun m => if Nat.eqb m i then at2 (amul (sc_B1 sc) (atr (sc_B1 sc))) m k else 0)).
      * apply (zsum_delta _ i (fun m => at2 (amul (sc_B1 sc) (atr (sc_B1 sc))) m k)). exact Hi.
      * intros m _. rewrite Nat.eqb_sym. destruct (Nat.eqb m i); lia.
    + unfold amul at 1. cbn [at2 sh0 sh1].
      change (sh1 (amul (sc_B1 sc) (atr (sc_B1 sc)))) with (sh0 (sc_B1 sc)). rewrite D0.
      rewrite (zsum_ext _ _ (fun m => if Nat.eqb m k then at2 (amul (sc_B1 sc) (atr (sc_B1 sc))) i m else 0)).
      * apply (zsum_delta _ k (fun m => at2 (amul (sc_B1 sc) (atr (sc_B1 sc))) i m)). exact Hk.
      * intros m _. destruct (Nat.eqb m k); lia.
Qed.
Print Assumptions C15_rank0.

(** The docstring of hodge_laplacian_matrix promises rank 2; it always raises. *)
Theorem C15_hodge_rank2_refuted :
  exists nodes E T sc, make_sc nodes E T [] [] = Ok sc /\ T <> [] /\
    hodge_laplacian_matrix sc 2 = Raise ValueError.
Proof.
  exists tri_nodes, tri_edges, tri_triangles. eexists. split; [vm_compute; reflexivity|].
  split; [discriminate|reflexivity].
Qed.
Print Assumptions C15_hodge_rank2_refuted.

Example C15_rank0_example : exists sc, make_sc tri_nodes tri_edges tri_triangles [] [] = Ok sc /\
  incidence_matrix sc 0 = Ok (Vec [1; 1; 1]) /\
  match identity_matrix sc with Dense A => alist A = [[1; 0; 0]; [0; 1; 0]; [0; 0; 1]] | _ => False end.
Proof. eexists. split; [vm_compute; reflexivity|]. split; vm_compute; reflexivity. Qed.

Example C15_example : exists sc L, make_sc tri_nodes tri_edges tri_triangles [] [] = Ok sc /\
  hodge_laplacian_matrix sc 1 = Ok (Csr L) /\ alist L = [[3; 0; 0]; [0; 3; 0]; [0; 0; 3]].
Proof. do 2 eexists. split; [vm_compute; reflexivity|]. split; [reflexivity|]. vm_compute; auto. Qed.

(** ** C73 *)

Theorem C73_feature_by_name :
  forall sc name, name <> EmptyString ->
  (forall d, get_edge_features sc (Some name) = Ok (inr d) ->
     dkeys d = dkeys (sc_edge_features sc) /\
     forall k e v, nth_error (sc_edge_features sc) k = Some (e, v) ->
       exists x, dget String.eqb v name = Ok x /\ nth_error d k = Some (e, x)) /\
  (get_edge_features sc (Some name) = Raise KeyError <->
     exists e v, In (e, v) (sc_edge_features sc) /\ dget String.eqb v name = Raise KeyError) /\
  (forall e, get_edge_features sc (Some name) = Raise e -> e = KeyError).
Proof.
  intros sc name N.
  assert (U : get_edge_features sc (Some name) =
              let! d := get_edge_features_named sc name in Ok (inr d)).
  { destruct name; [congruence|reflexivity]. }
  rewrite U; clear U. unfold get_edge_features_named.
  assert (KE : forall (v : fdict) e, dget String.eqb v name = Raise e -> e = KeyError).
  { induction v as [|(a, b) v IH]; simpl; intros e; [intros K; injection K; auto|].
    destruct (String.eqb a name); [discriminate|apply IH]. }
  generalize (sc_edge_features sc). clear sc. intros d0.
  match goal with |- context [mapM ?f d0] => destruct (mapM f d0) as [d|e] eqn:M end; simpl.
  - apply mapM_Ok in M. split; [|split].
    + intros d' K; injection K; intros <-. clear K. induction M as [|(e, v) (e', x) l l' H M IH].
      * split; [reflexivity|]. intros k e v K; destruct k; discriminate.
      * apply bind_Ok in H. destruct H as (x' & Hx & K). injection K; intros -> ->. clear K.
        destruct IH as (IH1 & IH2). split; [unfold dkeys in *; simpl; congruence|].
        intros [|k] e0 v0 K; simpl in K.
        -- injection K; intros <- <-. exists x. auto.
        -- exact (IH2 k e0 v0 K).
    + split; [discriminate|]. intros (e & v & I & K). exfalso.
      induction M as [|(e1, v1) y l l' H M IH]; [destruct I|].
      destruct I as [I|I]; [|auto]. injection I; intros -> ->. simpl in H. rewrite K in H. discriminate.
    + discriminate.
  - apply mapM_Raise_inv in M. destruct M as ((e1, v1) & I & K). apply bind_Raise in K.
    destruct K as [K|(x & _ & K)]; [|discriminate]. simpl in K.
    pose proof (KE _ _ K) as ->. split; [discriminate|]. split.
    + split; [|reflexivity]. intros _. exists e1, v1. auto.
    + intros e K'; injection K'; auto.
Qed.
Print Assumptions C73_feature_by_name.

Theorem C73_feature_default :
  forall sc,
  get_edge_features sc None = Ok (inl (sc_edge_features sc)) /\
  get_edge_features sc (Some EmptyString) = Ok (inl (sc_edge_features sc)) /\
  (sc_edge_features sc = [] -> edge_feature_names sc = []) /\
  (forall e f r, sc_edge_features sc = (e, f) :: r -> edge_feature_names sc = dkeys f).
Proof.
  intros sc. split; [reflexivity|]. split; [reflexivity|]. unfold edge_feature_names. split.
  - intros ->; reflexivity.
  - intros e f r ->; reflexivity.
Qed.
Print Assumptions C73_feature_default.

(** The features of a new complex are those given to the constructor. *)
Theorem C73_stored_features :
  forall nodes E T nf ef sc, make_sc nodes E T nf ef = Ok sc ->
  get_node_features sc = nf /\ get_edge_features sc None = Ok (inl ef) /\
  edge_feature_names sc = match ef with [] => [] | (_, f) :: _ => map fst f end.
Proof.
  intros nodes E T nf ef sc H. destruct (make_sc_Ok _ _ _ _ _ _ H) as (_ & _ & _ & Hn & He & _).
  unfold get_node_features, get_edge_features, edge_feature_names. rewrite Hn, He.
  split; [reflexivity|]. split; reflexivity.
Qed.
Print Assumptions C73_stored_features.

Example C73_example :
  let ef := [((0, 1), [("d"%string, FNum (1#1))]); ((1, 2), [("d"%string, FNum (7#1))])] in
  let nf := [(0, [("x"%string, FNum (5#1))])] in
  exists sc, make_sc tri_nodes tri_edges [] nf ef = Ok sc /\ get_node_features sc = nf /\
    get_edge_features sc (Some "d"%string) = Ok (inr [((0, 1), FNum (1#1)); ((1, 2), FNum (7#1))]) /\
    get_edge_features sc (Some "x"%string) = Raise KeyError /\
    edge_feature_names sc = ["d"%string].
Proof. eexists. split; [vm_compute; reflexivity|]. vm_compute. auto. Qed.
