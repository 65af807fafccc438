(** * Properties of the incidence-matrix reader *)

From Coq Require Import ZArith QArith String List Bool Lia Permutation Sorted.
From Verif Require Import Py PyFacts Complex ComplexSpec ComplexFacts ComplexFacts2 Builder BuilderSpec
  BuilderFacts Reader ReaderSpec ReaderFacts ExampleData Props_Complex Props_Builder Props_Reader.
Import ListNotations.
Open Scope Z_scope.

(** The contents of a csv file holding the integer matrix [A]. *)
Definition file_of (A : arr2) : list (list fval) :=
  map (fun i => map (fun j => FNum (inject_Z (at2 A i j))) (List.seq 0 (sh1 A))) (List.seq 0 (sh0 A)).

Definition pair_le (a b : Z * Z) : Prop := fst a < fst b \/ (fst a = fst b /\ snd a <= snd b).

Ltac ascending_pairs :=
  repeat (apply SSorted_nil || apply SSorted_cons || apply Forall_nil || apply Forall_cons);
  unfold pair_le; simpl; lia.

(** ** Positions of matching cells *)

Lemma where_from (f : fval -> bool) (l : list fval) : forall i,
  map fst (filter (fun iv => f (snd iv)) (enumerate_from i l)) =
  map (Nat.add i) (map fst (filter (fun iv => f (snd iv)) (enumerate_from 0 l))).
Proof.
  induction l as [|v l IH]; intros i; simpl; [reflexivity|].
  destruct (f v); simpl; rewrite (IH (S i)), (IH 1%nat), ?Nat.add_0_r, !map_map; [f_equal|];
    apply map_ext; intros k; lia.
Qed.

Lemma where_cons f v l : np_where f (v :: l) = (if f v then [O] else []) ++ map S (np_where f l).
Proof.
  unfold np_where, enumerate. simpl. destruct (f v); simpl; rewrite (where_from f l 1); reflexivity.
Qed.

Lemma in_where f l k : In k (np_where f l) <-> exists v, nth_error l k = Some v /\ f v = true.
Proof.
  revert k; induction l as [|v l IH]; intros k.
  - split; [intros []|]. intros (v & H & _); destruct k; discriminate.
  - rewrite where_cons, in_app_iff, in_map_iff. split.
    + intros [H|(k' & <- & H)].
      * destruct (f v) eqn:E; [|destruct H]. destruct H as [<-|[]]. exists v. auto.
      * apply IH in H. exact H.
    + intros (w & H & K). destruct k as [|k].
      * simpl in H. injection H; intros ->. rewrite K. left; left; reflexivity.
      * right. exists k. split; [reflexivity|]. apply IH. exists w. auto.
Qed.

Lemma where_first f l k : py_nth (np_where f l) 0 = Ok k <->
  (exists v, nth_error l k = Some v /\ f v = true) /\
  forall k' v, (k' < k)%nat -> nth_error l k' = Some v -> f v = false.
Proof.
  change 0 with (Z.of_nat 0). rewrite py_nth_nat. revert k; induction l as [|v l IH]; intros k.
  - split; [discriminate|]. intros ((v & H & _) & _); destruct k; discriminate.
  - rewrite where_cons. destruct (f v) eqn:E; simpl.
    + split.
      * intros H; injection H; intros <-. split; [exists v; auto|]. intros; lia.
      * intros (_ & H). destruct k as [|k]; [reflexivity|]. specialize (H O v).
        rewrite H in E; [discriminate|lia|reflexivity].
    + split.
      * destruct (np_where f l) as [|k0 w]; simpl; [discriminate|]. intros H; injection H; intros <-.
        destruct (proj1 (IH k0) eq_refl) as (H1 & H2). split; [exact H1|].
        intros [|k'] w' L K; simpl in K; [congruence|]. eapply (H2 k'); [lia|exact K].
      * intros (H1 & H2). destruct k as [|k].
        { destruct H1 as (w & H1 & H3). simpl in H1. congruence. }
        assert (X : match nth_error (np_where f l) 0 with Some a => Ok a | None => Raise IndexError end = Ok k).
        { apply IH. split; [exact H1|]. intros k' w L K. apply (H2 (S k')); [lia|exact K]. }
        destruct (np_where f l) as [|k0 w]; simpl in *; [discriminate|]. congruence.
Qed.

Lemma where_none f l e : py_nth (np_where f l) 0 = Raise e <->
  e = IndexError /\ forall v, In v l -> f v = false.
Proof.
  change 0 with (Z.of_nat 0). rewrite py_nth_nat.
  destruct (np_where f l) as [|k w] eqn:E; simpl.
  - split.
    + intros H; injection H; intros <-. split; [reflexivity|]. intros v I.
      destruct (f v) eqn:F; [|reflexivity]. apply In_nth_error in I. destruct I as (k & I).
      assert (X : In k (np_where f l)) by (apply in_where; exists v; auto). rewrite E in X. destruct X.
    + intros (-> & _). reflexivity.
  - split; [discriminate|]. intros (_ & H). exfalso.
    assert (X : In k (np_where f l)) by (rewrite E; left; reflexivity).
    apply in_where in X. destruct X as (v & I & F). rewrite (H v) in F; [discriminate|].
    eapply nth_error_In; exact I.
Qed.

(** ** C56: columns of B1 *)

Definition is_cell (z : Z) (v : fval) : Prop := exists q, v = FNum q /\ (q == inject_Z z)%Q.

Lemma cell_is_iff z v : cell_is z v = true <-> is_cell z v.
Proof.
  unfold is_cell. destruct v as [q| |s]; simpl.
  - rewrite Qeq_bool_iff. split; [intros H; exists q; auto|intros (q' & E & H); injection E; intros ->; exact H].
  - split; [discriminate|]. intros (q & E & _); discriminate.
  - split; [discriminate|]. intros (q & E & _); discriminate.
Qed.

(** The edge read from a column runs from the first row holding -1 to the first row holding 1; a column
    without -1 or without 1 raises IndexError, everything else in it is ignored. *)
Theorem C56_columns :
  forall col,
  (forall u v, read_edge col = Ok (u, v) <->
     exists i j, u = Z.of_nat i /\ v = Z.of_nat j /\
       (exists x, nth_error col i = Some x /\ is_cell (-1) x) /\
       (forall i' x, (i' < i)%nat -> nth_error col i' = Some x -> ~ is_cell (-1) x) /\
       (exists x, nth_error col j = Some x /\ is_cell 1 x) /\
       (forall j' x, (j' < j)%nat -> nth_error col j' = Some x -> ~ is_cell 1 x)) /\
  (forall e, read_edge col = Raise e <->
     e = IndexError /\ ((forall x, In x col -> ~ is_cell (-1) x) \/ (forall x, In x col -> ~ is_cell 1 x))).
Proof.
  intros col. unfold read_edge. split.
  - intros u v. rewrite bind_Ok. split.
    + intros (i & Hi & H). rewrite bind_Ok in H. destruct H as (j & Hj & H). injection H; intros <- <-.
      apply where_first in Hi, Hj. exists i, j. split; [reflexivity|]. split; [reflexivity|].
      destruct Hi as ((x & I1 & I2) & I3), Hj as ((y & J1 & J2) & J3).
      split; [exists x; rewrite <- cell_is_iff; auto|].
      split; [intros i' z L K; rewrite <- cell_is_iff, (I3 i' z L K); discriminate|].
      split; [exists y; rewrite <- cell_is_iff; auto|].
      intros j' z L K; rewrite <- cell_is_iff, (J3 j' z L K); discriminate.
    + intros (i & j & -> & -> & (x & I1 & I2) & I3 & (y & J1 & J2) & J3). exists i. split.
      * apply where_first. split; [exists x; rewrite cell_is_iff; auto|].
        intros i' z L K. apply not_true_is_false. rewrite cell_is_iff. eauto.
      * rewrite bind_Ok. exists j. split; [|reflexivity].
        apply where_first. split; [exists y; rewrite cell_is_iff; auto|].
        intros i' z L K. apply not_true_is_false. rewrite cell_is_iff. eauto.
  - intros e. rewrite bind_Raise. split.
    + intros [H|(i & _ & H)].
      * apply where_none in H. destruct H as (-> & H). split; [reflexivity|]. left.
        intros x I. rewrite <- cell_is_iff, (H x I). discriminate.
      * rewrite bind_Raise in H. destruct H as [H|(j & _ & H)]; [|discriminate].
        apply where_none in H. destruct H as (-> & H). split; [reflexivity|]. right.
        intros x I. rewrite <- cell_is_iff, (H x I). discriminate.
    + intros (-> & H).
      destruct (py_nth (np_where (cell_is (-1)) col) 0) as [i|e] eqn:E.
      * right. exists i. split; [reflexivity|]. rewrite bind_Raise. left. apply where_none.
        split; [reflexivity|]. destruct H as [H|H].
        -- exfalso. apply where_first in E. destruct E as ((x & I1 & I2) & _).
           apply (H x); [eapply nth_error_In; exact I1|]. apply cell_is_iff; exact I2.
        -- intros v I. apply not_true_is_false. rewrite cell_is_iff. auto.
      * left. apply where_none in E. destruct E as (-> & _). reflexivity.
Qed.
Print Assumptions C56_columns.

(** ** C56: the sign of an entry of B2 is not used *)

Theorem C56_signs_ignored :
  forall B2t B2t' E,
  Forall2 (Forall2 (fun v v' => is_cell 0 v <-> is_cell 0 v')) B2t B2t' ->
  read_B2 (Ok B2t) E = read_B2 (Ok B2t') E.
Proof.
  intros B2t B2t' E H. unfold read_B2; cbn [bind].
  induction H as [|r r' l l' K H IH]; [reflexivity|]. simpl. rewrite IH.
  assert (read_triangle E r = read_triangle E r') as ->; [|reflexivity].
  unfold read_triangle.
  assert (np_where (fun v => negb (cell_is 0 v)) r = np_where (fun v => negb (cell_is 0 v)) r') as ->; [|reflexivity].
  clear - K. induction K as [|v v' r r' X K IH]; [reflexivity|]. rewrite !where_cons, IH.
  assert (cell_is 0 v = cell_is 0 v') as ->; [|reflexivity].
  rewrite <- !cell_is_iff in X. destruct (cell_is 0 v), (cell_is 0 v'); try reflexivity;
    [symmetry; apply X; reflexivity|apply X; reflexivity].
Qed.
Print Assumptions C56_signs_ignored.

(** ** C56: round trip *)

Lemma nth_row A i : (i < sh0 A)%nat ->
  nth_error (file_of A) i = Some (map (fun j => FNum (inject_Z (at2 A i j))) (List.seq 0 (sh1 A))).
Proof.
  intros L. unfold file_of. rewrite nth_error_map.
  rewrite (nth_error_nth' _ O) by (rewrite seq_length; exact L). rewrite seq_nth by exact L. reflexivity.
Qed.

Lemma file_col A j : (j < sh1 A)%nat ->
  table_col (file_of A) j = map (fun i => FNum (inject_Z (at2 A i j))) (List.seq 0 (sh0 A)).
Proof.
  intros L. unfold table_col, file_of. rewrite map_map. apply map_ext. intros i.
  rewrite (nth_indep _ _ (FNum (inject_Z (at2 A i 0)))) by (rewrite map_length, seq_length; exact L).
  rewrite (map_nth (fun j => FNum (inject_Z (at2 A i j)))). rewrite seq_nth by exact L. reflexivity.
Qed.

Lemma cell_int z x : is_cell z (FNum (inject_Z x)) <-> x = z.
Proof.
  unfold is_cell, inject_Z, Qeq. split.
  - intros (q & E & H). injection E; intros <-. simpl in H. lia.
  - intros ->. eexists; split; [reflexivity|]. reflexivity.
Qed.

Lemma nth_mapseq {A} (g : nat -> A) n i x : nth_error (map g (List.seq 0 n)) i = Some x <-> (i < n)%nat /\ x = g i.
Proof.
  rewrite nth_error_map. destruct (Compare_dec.lt_dec i n) as [L|L].
  - rewrite (nth_error_nth' _ O) by (rewrite seq_length; exact L). rewrite seq_nth by exact L. simpl.
    split; [intros H; injection H; auto|]. intros (_ & ->). reflexivity.
  - destruct (nth_error (List.seq 0 n) i) eqn:E; simpl.
    + assert (i < length (List.seq 0 n))%nat by (apply nth_error_Some; congruence).
      rewrite seq_length in *. lia.
    + split; [discriminate|]. intros (? & _); lia.
Qed.

Lemma read_column nodes E T nf ef sc (H : make_sc nodes E T nf ef = Ok sc) (P : proper_edges (length nodes) E) :
  forall j e, nth_error E j = Some e -> read_edge (table_col (file_of (sc_B1 sc)) j) = Ok e.
Proof.
  intros j (u, v) Hj. destruct (C01_incidence_proper _ _ _ _ _ _ H P) as (B1 & HB & HE & _).
  injection HB; intros <-. destruct (HE j u v Hj) as (Hu & Hv & Ho).
  destruct (sc_B1_spec _ _ _ _ _ _ H) as (D0 & D1 & _).
  destruct (P u v (nth_error_In _ _ Hj)) as (Ru & Rv & N).
  assert (Lj : (j < sh1 (sc_B1 sc))%nat) by (rewrite D1; apply nth_error_Some; congruence).
  apply (proj1 (C56_columns _)). rewrite (file_col _ _ Lj), D0.
  exists (Z.to_nat u), (Z.to_nat v). split; [lia|]. split; [lia|].
  assert (X : forall i z x, nth_error (map (fun i => FNum (inject_Z (at2 (sc_B1 sc) i j))) (List.seq 0 (length nodes))) i = Some x ->
    (is_cell z x <-> at2 (sc_B1 sc) i j = z)).
  { intros i z x K. apply nth_mapseq in K. destruct K as (_ & ->). apply cell_int. }
  split; [|split; [|split]].
  - eexists. split; [apply nth_mapseq; split; [lia|reflexivity]|]. apply cell_int. exact Hu.
  - intros i x L K. rewrite (X _ _ _ K). apply nth_mapseq in K. destruct K as (K & _).
    destruct (Nat.eq_dec i (Z.to_nat v)) as [->|M]; [rewrite Hv; discriminate|].
    rewrite Ho by lia. discriminate.
  - eexists. split; [apply nth_mapseq; split; [lia|reflexivity]|]. apply cell_int. exact Hv.
  - intros i x L K. rewrite (X _ _ _ K). apply nth_mapseq in K. destruct K as (K & _).
    destruct (Nat.eq_dec i (Z.to_nat u)) as [->|M]; [rewrite Hu; discriminate|].
    rewrite Ho by lia. discriminate.
Qed.

Lemma mapM_seq {A} (g : nat -> res A) (l : list A) :
  (forall j x, nth_error l j = Some x -> g j = Ok x) -> mapM g (List.seq 0 (length l)) = Ok l.
Proof.
  intros H. assert (K : forall s, (forall j x, nth_error l j = Some x -> g (s + j)%nat = Ok x) ->
    mapM g (List.seq s (length l)) = Ok l).
  { clear H. induction l as [|x l IH]; intros s H; simpl; [reflexivity|].
    pose proof (H O x eq_refl) as H0. rewrite Nat.add_0_r in H0. rewrite H0. simpl.
    rewrite IH; [reflexivity|]. intros j y K. rewrite Nat.add_succ_comm. apply H. exact K. }
  apply K. exact H.
Qed.

Lemma ascending_members l a b c : a < b < c ->
  NoDup l -> (forall x, In x l <-> x = a \/ x = b \/ x = c) -> py_sorted Z.leb l = [a; b; c].
Proof.
  intros H ND M. apply sorted_perm_unique with (leb := Z.leb).
  - exact Zleb_antisym.
  - apply py_sorted_sorted; [exact Zleb_total|exact Zleb_trans].
  - repeat constructor; apply Z.leb_le; lia.
  - rewrite <- py_sorted_perm. apply NoDup_Permutation; [exact ND| |].
    + repeat constructor; simpl; lia.
    + intros x. rewrite M. simpl. split; intros X; repeat (destruct X as [X|X]); subst; auto; try tauto.
Qed.

Lemma stored_ends E u v k e : stored_at E u v k -> nth_error E k = Some e ->
  forall x, In x [fst e; snd e] <-> x = u \/ x = v.
Proof.
  intros [(H & _)|(_ & H & _)] K x; rewrite H in K; injection K; intros <-; simpl.
  - split; [intros [<-|[<-|[]]]; auto|intros [->| ->]; auto].
  - split; [intros [<-|[<-|[]]]; auto|intros [->| ->]; auto].
Qed.

Lemma read_tri nodes E T nf ef sc (H : make_sc nodes E T nf ef = Ok sc) :
  forall j a b c, nth_error T j = Some [a; b; c] -> a < b < c ->
  read_triangle E (map (fun k => FNum (inject_Z (at2 (sc_B2 sc) k j))) (List.seq 0 (length E))) = Ok [a; b; c].
Proof.
  intros j a b c Hj L. destruct (C03_triangle_column _ _ _ _ _ _ H) as (B2 & HB & _ & _ & HC).
  injection HB; intros <-. destruct (HC j a b c Hj) as (ka & kb & kc & Ka & Kb & Kc & Va & Vb & Vc & V0); try lia.
  unfold read_triangle.
  set (ones := np_where _ _).
  assert (IN : forall k, In k ones <-> k = ka \/ k = kb \/ k = kc).
  { intros k. unfold ones. rewrite in_where. split.
    - intros (x & K & F). apply nth_mapseq in K. destruct K as (_ & ->).
      destruct (Nat.eq_dec k ka); [auto|]. destruct (Nat.eq_dec k kb); [auto|]. destruct (Nat.eq_dec k kc); [auto|].
      exfalso. rewrite V0 in F by assumption. discriminate.
    - intros K. eexists. split; [apply nth_mapseq; split; [|reflexivity]|].
      + destruct K as [->|[->| ->]]; eapply stored_at_lt; eassumption.
      + destruct K as [->|[->| ->]]; [rewrite Va|rewrite Vb|rewrite Vc]; reflexivity. }
  clearbody ones.
  assert (OK : exists es, mapM (fun i => py_nth E (Z.of_nat i)) ones = Ok es /\
     forall e, In e es <-> exists k, In k ones /\ nth_error E k = Some e).
  { assert (LT : forall k, In k ones -> (k < length E)%nat).
    { intros k K. apply IN in K. destruct K as [->|[->| ->]]; eapply stored_at_lt; eassumption. }
    clear - LT. induction ones as [|k ones IH].
    - exists []. split; [reflexivity|]. intros e; split; [intros []|]. intros (k & [] & _).
    - destruct IH as (es & H1 & H2); [intros k' I; apply LT; right; exact I|].
      simpl. rewrite py_nth_nat. destruct (nth_error E k) as [e0|] eqn:E0.
      2:{ apply nth_error_None in E0. specialize (LT k (or_introl eq_refl)). lia. }
      simpl. rewrite H1. simpl. exists (e0 :: es). split; [reflexivity|]. intros e. simpl. rewrite H2. split.
      + intros [<-|(k' & I & J)]; [exists k; auto|exists k'; auto].
      + intros (k' & [<-|I] & J); [left; congruence|right; exists k'; auto]. }
  destruct OK as (es & HM & HE). rewrite HM. cbn [bind]. f_equal.
  apply ascending_members; [exact L|apply (NoDup_py_set Z.eqb Z.eqb_eq)|].
  intros x. rewrite (in_py_set Z.eqb Z.eqb_eq), in_flat_map. split.
  - intros (e & I & J). apply HE in I. destruct I as (k & I & K). apply IN in I.
    destruct I as [->|[->| ->]].
    + apply (stored_ends _ _ _ _ _ Ka K) in J. tauto.
    + apply (stored_ends _ _ _ _ _ Kb K) in J. tauto.
    + apply (stored_ends _ _ _ _ _ Kc K) in J. tauto.
  - intros X.
    assert (Ea : exists e, nth_error E ka = Some e).
    { destruct (nth_error E ka) eqn:Q; [eexists; reflexivity|]. apply nth_error_None in Q. apply stored_at_lt in Ka. lia. }
    assert (Ec : exists e, nth_error E kc = Some e).
    { destruct (nth_error E kc) eqn:Q; [eexists; reflexivity|]. apply nth_error_None in Q. apply stored_at_lt in Kc. lia. }
    destruct Ea as (ea & Ea), Ec as (ec & Ec).
    destruct X as [->|[->| ->]].
    + exists ea. split; [apply HE; exists ka; split; [apply IN; auto|exact Ea]|].
      apply (stored_ends _ _ _ _ _ Ka Ea). auto.
    + exists ea. split; [apply HE; exists ka; split; [apply IN; auto|exact Ea]|].
      apply (stored_ends _ _ _ _ _ Ka Ea). auto.
    + exists ec. split; [apply HE; exists kc; split; [apply IN; auto|exact Ec]|].
      apply (stored_ends _ _ _ _ _ Kc Ec). auto.
Qed.

(** Writing B1 and the transpose of B2 to files and reading them back gives the complex again, if its
    edges are loop-free and listed in ascending order (in either direction each), its triangles list
    their vertices in ascending order, and the last node has an edge. *)
Theorem C56_round_trip :
  forall nodes E T nf ef sc, make_sc nodes E T nf ef = Ok sc ->
  counts_to (Z.of_nat (length nodes) - 1) nodes -> proper_edges (length nodes) E ->
  In (Z.of_nat (length nodes) - 1) (endpoints E) -> StronglySorted pair_le E ->
  (forall t, In t T -> exists a b c, t = [a; b; c] /\ a < b < c) ->
  exists B1 B2 b sc',
    incidence_matrix sc 1 = Ok (Csr B1) /\ incidence_matrix sc 2 = Ok (Csr B2) /\
    read_B1_B2 (Ok (file_of B1)) (Ok (file_of (atr B2))) = Ok (b, T) /\
    b_nodes b = nodes /\ b_edges b = E /\
    to_simplicial_complex (b_nodes b) (b_edges b) (b_node_features b) (b_edge_features b)
      "all" "distance" (3 # 2) (Some T) = Ok sc' /\
    forall r, incidence_matrix sc' r = incidence_matrix sc r.
Proof.
  intros nodes E T nf ef sc H HN P HL HS HT. exists (sc_B1 sc), (sc_B2 sc).
  destruct (sc_B1_spec _ _ _ _ _ _ H) as (D0 & D1 & _).
  destruct (sc_B2_spec _ _ _ _ _ _ H) as (F0 & F1 & _).
  exists (mkBuilder nodes E [] []).
  destruct (make_sc_Ok _ _ _ _ _ _ H) as (S1 & S2 & S3 & S4 & S5 & HB1 & HB2 & _).
  assert (M : exists sc', make_sc nodes E T [] [] = Ok sc' /\ forall r, incidence_matrix sc' r = incidence_matrix sc r).
  { unfold make_sc in *. rewrite HB1. cbn [bind]. rewrite HB2. cbn [bind]. eexists. split; [reflexivity|].
    intros r. unfold incidence_matrix. simpl. rewrite S1. reflexivity. }
  destruct M as (sc' & M & MI). exists sc'.
  split; [reflexivity|]. split; [reflexivity|]. split; [|split; [reflexivity|split; [reflexivity|split; [exact M|exact MI]]]].
  unfold read_B1_B2; cbn [bind].
  assert (W : table_width (file_of (sc_B1 sc)) = length E).
  { destruct nodes as [|x nodes].
    - exfalso. destruct E as [|(u, v) E]; [destruct HL|]. destruct (P u v (or_introl eq_refl)) as (X & _). simpl in X. lia.
    - unfold table_width, file_of. rewrite D0. simpl. rewrite map_length, seq_length, D1. reflexivity. }
  unfold read_B1. rewrite W, (mapM_seq _ E); [|exact (read_column _ _ _ _ _ _ H P)]. cbn [bind].
  fold (endpoints E).
  rewrite (proj2 (py_max_Ok (endpoints E) (Z.of_nat (length nodes) - 1))).
  2:{ split; [exact HL|]. intros y I. unfold endpoints in I. apply in_flat_map in I. destruct I as ((u, v) & I & J).
      destruct (P u v I) as (X & Y & _). simpl in J. destruct J as [<-|[<-|[]]]; lia. }
  cbn [bind]. rewrite <- (counts_unique _ _ HN).
  rewrite (py_sorted_id pair_leb E).
  2:{ clear - HS. induction HS as [|a l S IH F]; constructor; [exact IH|]. eapply Forall_impl; [|exact F].
      intros b K. apply pair_leb_iff. exact K. }
  assert (B : file_of (atr (sc_B2 sc)) =
    map (fun j => map (fun k => FNum (inject_Z (at2 (sc_B2 sc) k j))) (List.seq 0 (length E))) (List.seq 0 (length T))).
  { unfold file_of. simpl. rewrite F0, F1. reflexivity. }
  unfold read_B2. cbn [bind]. rewrite B.
  assert (R : mapM (read_triangle E) (map (fun j => map (fun k => FNum (inject_Z (at2 (sc_B2 sc) k j))) (List.seq 0 (length E))) (List.seq 0 (length T))) = Ok T).
  { rewrite <- (mapM_seq (fun j => read_triangle E (map (fun k => FNum (inject_Z (at2 (sc_B2 sc) k j))) (List.seq 0 (length E)))) T).
    - generalize (List.seq 0 (length T)). intros l. induction l as [|j l IH]; simpl; [reflexivity|]. rewrite IH. reflexivity.
    - intros j t Hj. destruct (HT t (nth_error_In _ _ Hj)) as (a & b & c & -> & L).
      apply (read_tri _ _ _ _ _ _ H); assumption. }
  rewrite R. reflexivity.
Qed.
Print Assumptions C56_round_trip.

(** Columns that are not in ascending order: the reader sorts the edges but takes the triangles from the
    rows of B2 in file order, so the triangle 0,1,2 comes back as the four vertices 0,1,2,3. *)
Theorem C56_unsorted_columns_refuted :
  exists nodes E T sc B1 B2 b T',
    make_sc nodes E T [] [] = Ok sc /\ proper_edges (length nodes) E /\ simple_edges E /\
    incidence_matrix sc 1 = Ok (Csr B1) /\ incidence_matrix sc 2 = Ok (Csr B2) /\
    read_B1_B2 (Ok (file_of B1)) (Ok (file_of (atr B2))) = Ok (b, T') /\
    T = [[0; 1; 2]] /\ T' = [[0; 1; 2; 3]] /\
    make_sc (b_nodes b) (b_edges b) T' [] [] = Raise ValueError.
Proof.
  exists [0; 1; 2; 3], [(2,3); (0,1); (0,2); (1,2)], [[0; 1; 2]]. do 5 eexists.
  split; [vm_compute; reflexivity|]. split.
  { intros u v I. simpl in I. repeat (destruct I as [I|I]; [injection I; intros <- <-; simpl; lia|]). destruct I. }
  split.
  { split; [repeat constructor; simpl; intuition congruence|].
    intros u v I J. simpl in I, J.
    repeat (destruct I as [I|I]; [injection I; intros <- <-; intuition congruence|]). destruct I. }
  split; [reflexivity|]. split; [reflexivity|]. split; [vm_compute; reflexivity|].
  repeat split.
Qed.
Print Assumptions C56_unsorted_columns_refuted.

(** Nodes after the last one with an edge are lost. *)
Theorem C56_isolated_last_node_refuted :
  exists nodes E T sc B1 B2 b T',
    make_sc nodes E T [] [] = Ok sc /\ StronglySorted pair_le E /\ proper_edges (length nodes) E /\
    incidence_matrix sc 1 = Ok (Csr B1) /\ incidence_matrix sc 2 = Ok (Csr B2) /\
    read_B1_B2 (Ok (file_of B1)) (Ok (file_of (atr B2))) = Ok (b, T') /\
    length nodes = 4%nat /\ length (b_nodes b) = 3%nat.
Proof.
  exists [0; 1; 2; 3], [(0,1); (0,2); (1,2)], [[0; 1; 2]]. do 5 eexists.
  split; [vm_compute; reflexivity|].
  split; [ascending_pairs|]. split.
  { intros u v I. simpl in I. repeat (destruct I as [I|I]; [injection I; intros <- <-; simpl; lia|]). destruct I. }
  split; [reflexivity|]. split; [reflexivity|]. split; [vm_compute; reflexivity|]. split; reflexivity.
Qed.
Print Assumptions C56_isolated_last_node_refuted.

(** The hypotheses of the round trip hold of the paper complex, and of a complex whose edges run from the
    larger to the smaller node (as in the bundled foreign-exchange and Chicago files). *)
Example C56_example :
  (exists sc, make_sc paper_nodes paper_edges paper_triangles [] [] = Ok sc) /\
  counts_to 6 paper_nodes /\ proper_edges 7 paper_edges /\ In 6 (endpoints paper_edges) /\
  StronglySorted pair_le paper_edges /\
  (forall t, In t paper_triangles -> exists a b c, t = [a; b; c] /\ a < b < c).
Proof.
  split; [eexists; vm_compute; reflexivity|].
  split; [exact (counts_range 6)|]. split.
  { intros u v I. simpl in I. repeat (destruct I as [I|I]; [injection I; intros <- <-; simpl; lia|]). destruct I. }
  split; [simpl; tauto|]. split; [ascending_pairs|].
  intros t I. simpl in I. destruct I as [<-|[<-|[<-|[]]]]; do 3 eexists; (split; [reflexivity|lia]).
Qed.

Example C56_descending_example :
  exists sc B1 B2 b, make_sc [0; 1; 2] [(1,0); (2,0); (2,1)] [[0; 1; 2]] [] [] = Ok sc /\
    StronglySorted pair_le [(1,0); (2,0); (2,1)] /\
    incidence_matrix sc 1 = Ok (Csr B1) /\ incidence_matrix sc 2 = Ok (Csr B2) /\
    read_B1_B2 (Ok (file_of B1)) (Ok (file_of (atr B2))) = Ok (b, [[0; 1; 2]]).
Proof.
  do 4 eexists. split; [vm_compute; reflexivity|]. split; [ascending_pairs|].
  split; [reflexivity|]. split; [reflexivity|]. vm_compute; reflexivity.
Qed.
