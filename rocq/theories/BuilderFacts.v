(** * Facts about the builder model: the clique enumeration *)

From Coq Require Import ZArith String QArith List Bool Lia Permutation Sorted.
From Verif Require Import Py PyFacts Complex ComplexSpec Builder.
Import ListNotations.
Open Scope Z_scope.

Lemma pyin_Z x l : py_in Z.eqb x l = true <-> In x l.
Proof.
  induction l as [|y l IH]; simpl; [split; [discriminate|tauto]|].
  rewrite orb_true_iff, IH, Z.eqb_eq. intuition.
Qed.
Lemma pyin_pair x l : py_in pair_eqb x l = true <-> In x l.
Proof.
  induction l as [|y l IH]; simpl; [split; [discriminate|tauto]|].
  rewrite orb_true_iff, IH, pair_eqb_spec. intuition.
Qed.
Lemma has_edge_iff E u v : has_edge E u v = true <-> linked E u v.
Proof. unfold has_edge, linked. rewrite orb_true_iff, !pyin_pair. tauto. Qed.
Lemma has_edge_sym E u v : has_edge E u v = has_edge E v u.
Proof. unfold has_edge. apply orb_comm. Qed.

(** ** Graph nodes *)
Lemma first_seen_In l : forall seen x, In x (first_seen seen l) <-> In x l /\ ~ In x seen.
Proof.
  induction l as [|y l IH]; intros seen x; simpl; [tauto|].
  destruct (py_in Z.eqb y seen) eqn:K.
  - apply pyin_Z in K. rewrite IH. split; [tauto|]. intros [[->|H] N]; tauto.
  - assert (~ In y seen) by (intros C; apply pyin_Z in C; congruence).
    simpl. rewrite IH. simpl. split.
    + intros [->|[H1 H2]]; tauto.
    + intros [[->|H1] H2]; [tauto|]. destruct (Z.eq_dec y x); [tauto|]. right; tauto.
Qed.
Lemma first_seen_NoDup l : forall seen, NoDup (first_seen seen l).
Proof.
  induction l as [|y l IH]; intros seen; simpl; [constructor|].
  destruct (py_in Z.eqb y seen); [apply IH|]. constructor; [|apply IH].
  rewrite first_seen_In. simpl. tauto.
Qed.
Lemma graph_nodes_In E x : In x (graph_nodes E) <-> exists y, linked E x y.
Proof.
  unfold graph_nodes. rewrite first_seen_In, in_flat_map. unfold linked. split.
  - intros [[[u v] [H [K|[K|[]]]]] _]; simpl in K; subst; [exists v|exists u]; tauto.
  - intros [y [H|H]]; (split; [|intros []]); [exists (x, y)|exists (y, x)]; simpl; tauto.
Qed.
Lemma graph_nodes_NoDup E : NoDup (graph_nodes E).
Proof. apply first_seen_NoDup. Qed.

(** ** Forward neighbours *)
Lemma nbrs_table_get V E : forall l index pre u,
  NoDup (pre ++ l) -> (forall x, In x index <-> In x pre) ->
  forall l1 l2, l = l1 ++ u :: l2 ->
  nbrs_of (nbrs_table V E index l) u =
  filter (fun v => has_edge E u v && negb (py_in Z.eqb v (u :: rev (pre ++ l1)))) V.
Proof.
  induction l as [|x l IH]; intros index pre u ND HI l1 l2 K; [destruct l1; discriminate|].
  unfold nbrs_of; simpl. destruct l1 as [|y l1]; simpl in K; injection K; intros; subst.
  - rewrite Z.eqb_refl. apply filter_ext. intros v. f_equal. f_equal. simpl. f_equal.
    apply eq_true_iff_eq. rewrite !pyin_Z, HI, <- in_rev, app_nil_r. tauto.
  - assert (y <> u).
    { intros ->. apply NoDup_remove_2 in ND. apply ND. rewrite in_app_iff. right.
      rewrite in_app_iff. right. left. reflexivity. }
    destruct (y =? u) eqn:C; [apply Z.eqb_eq in C; congruence|].
    fold (nbrs_of (nbrs_table V E (y :: index) (l1 ++ u :: l2)) u).
    rewrite (IH (y :: index) (pre ++ [y]) u) with (l1 := l1) (l2 := l2).
    + rewrite <- !app_assoc. reflexivity.
    + rewrite <- app_assoc. exact ND.
    + intros z. simpl. rewrite in_app_iff, HI. simpl. tauto.
    + reflexivity.
Qed.

(** For v strictly after u in graph order, membership in [nbrs[u]] is adjacency. *)
Lemma nbrs_after E l1 u l2 v : graph_nodes E = l1 ++ u :: l2 -> In v l2 ->
  py_in Z.eqb v (nbrs_of (nbrs_table (graph_nodes E) E [] (graph_nodes E)) u) = has_edge E u v.
Proof.
  intros HV Hv. pose proof (graph_nodes_NoDup E) as ND.
  rewrite (nbrs_table_get _ _ _ [] [] u) with (l1 := l1) (l2 := l2); simpl; auto; [|tauto].
  apply eq_true_iff_eq. rewrite pyin_Z, filter_In, andb_true_iff, negb_true_iff.
  rewrite HV in ND.
  assert (py_in Z.eqb v (u :: rev l1) = false).
  { apply not_true_iff_false. rewrite pyin_Z. simpl. rewrite <- in_rev.
    apply NoDup_remove in ND. destruct ND as [ND N]. intros [->|C].
    - apply N. rewrite in_app_iff. tauto.
    - assert (~ In v l2); [|tauto]. clear - ND C. induction l1; simpl in *; [tauto|].
      inversion ND; subst. destruct C as [->|C]; [|auto]. rewrite in_app_iff in H1. tauto. }
  simpl in H. rewrite H. split; [tauto|]. intros K. split; [|tauto].
  rewrite HV, in_app_iff. simpl. tauto.
Qed.

(** The initial candidate list of node u: the neighbours of u among the nodes after it. *)
Lemma initial_candidates E l1 u l2 : graph_nodes E = l1 ++ u :: l2 ->
  sort_by_index (graph_nodes E) (nbrs_of (nbrs_table (graph_nodes E) E [] (graph_nodes E)) u) =
  filter (has_edge E u) l2.
Proof.
  intros HV. pose proof (graph_nodes_NoDup E) as ND.
  unfold sort_by_index.
  rewrite (filter_ext_in _ (fun v => has_edge E u v && negb (py_in Z.eqb v (u :: rev l1)))).
  - rewrite HV in ND |- *. rewrite filter_app. simpl.
    rewrite Z.eqb_refl. simpl. rewrite andb_false_r.
    rewrite (filter_ext_in _ (fun _ => false) l1), (filter_ext_in _ (has_edge E u) l2).
    + replace (filter (fun _ => false) l1) with (@nil Z); [reflexivity|].
      clear. induction l1; simpl; auto.
    + intros v Hv. destruct (has_edge E u v); simpl; auto. apply negb_true_iff.
      apply not_true_iff_false. rewrite orb_true_iff, pyin_Z, Z.eqb_eq, <- in_rev.
      apply NoDup_remove in ND. destruct ND as [ND N]. intros [->|C].
      * apply N. rewrite in_app_iff. tauto.
      * assert (~ In v l2); [|tauto]. clear - ND C. induction l1; simpl in *; [tauto|].
        inversion ND; subst. destruct C as [->|C]; [|auto]. rewrite in_app_iff in H1. tauto.
    + intros v Hv. assert (py_in Z.eqb v (rev l1) = true) as ->.
      { rewrite pyin_Z, <- in_rev. exact Hv. }
      rewrite orb_true_r, andb_false_r. reflexivity.
  - intros v Hv.
    rewrite (nbrs_table_get _ _ _ [] [] u) with (l1 := l1) (l2 := l2); simpl; auto; [|tauto].
    apply eq_true_iff_eq. rewrite pyin_Z, filter_In. simpl. tauto.
Qed.

(** ** Breadth-first order *)
Fixpoint level (nbrs : dict Z (list Z)) (k : nat) (q : list (list Z * list Z)) :=
  match k with
  | O => q
  | S k' => level nbrs k' (flat_map (fun bc => extensions nbrs (fst bc) (snd bc)) q)
  end.

Lemma nsum_app l1 l2 : nsum (l1 ++ l2) = (nsum l1 + nsum l2)%nat.
Proof. induction l1; simpl; lia. Qed.
Lemma queue_work_app q1 q2 : queue_work (q1 ++ q2) = (queue_work q1 + queue_work q2)%nat.
Proof. unfold queue_work. rewrite map_app, nsum_app. reflexivity. Qed.
Lemma filter_len {A} (f : A -> bool) l : (length (filter f l) <= length l)%nat.
Proof. induction l; simpl; [lia|]. destruct (f a); simpl; lia. Qed.
Lemma pow2_pos n : (1 <= 2 ^ n)%nat.
Proof. induction n; simpl; lia. Qed.
Lemma ext_work nbrs base c : (S (queue_work (extensions nbrs base c)) <= 2 ^ length c)%nat.
Proof.
  induction c as [|u c IH]; [unfold queue_work; simpl; lia|]. simpl extensions.
  change (queue_work ((base ++ [u], filter (fun v => py_in Z.eqb v (nbrs_of nbrs u)) c)
           :: extensions nbrs base c)) with
    (2 ^ length (filter (fun v => py_in Z.eqb v (nbrs_of nbrs u)) c)
       + queue_work (extensions nbrs base c))%nat.
  pose proof (filter_len (fun v => py_in Z.eqb v (nbrs_of nbrs u)) c) as H.
  apply (Nat.pow_le_mono_r 2) in H; [|lia]. simpl length. rewrite Nat.pow_succ_r'. lia.
Qed.

(** Processing a whole prefix of the queue. *)
Lemma loop_prefix nbrs : forall l fuel acc, (queue_work (l ++ acc) <= fuel)%nat ->
  exists fuel', clique_loop nbrs fuel (l ++ acc) =
    map fst l ++ clique_loop nbrs fuel'
      (acc ++ flat_map (fun bc => extensions nbrs (fst bc) (snd bc)) l)
  /\ (queue_work (acc ++ flat_map (fun bc => extensions nbrs (fst bc) (snd bc)) l) <= fuel')%nat
  /\ (fuel' + length l <= fuel)%nat.
Proof.
  induction l as [|[b c] l IH]; intros fuel acc H; simpl.
  - exists fuel. rewrite app_nil_r. simpl in H. repeat split; auto. lia.
  - simpl in H. change ((b, c) :: l ++ acc) with ([(b, c)] ++ (l ++ acc)) in H.
    rewrite queue_work_app in H. unfold queue_work in H at 1. simpl in H.
    pose proof (ext_work nbrs b c) as W. pose proof (pow2_pos (length c)).
    destruct fuel as [|fuel]; [lia|]. simpl.
    destruct (IH fuel (acc ++ extensions nbrs b c)) as (f' & K1 & K2 & K3).
    { rewrite app_assoc, queue_work_app. lia. }
    exists f'. rewrite <- app_assoc, K1, <- app_assoc. rewrite <- app_assoc in K2.
    repeat split; auto. lia.
Qed.

Definition base_len (n : nat) (q : list (list Z * list Z)) :=
  forall bc, In bc q -> length (fst bc) = n.
Lemma ext_base nbrs base c bc : In bc (extensions nbrs base c) ->
  length (fst bc) = S (length base).
Proof.
  induction c as [|u c IH]; simpl; [tauto|]. intros [<-|H]; [|auto].
  simpl. rewrite app_length. simpl. lia.
Qed.
Lemma base_len_next nbrs n q : base_len n q ->
  base_len (S n) (flat_map (fun bc => extensions nbrs (fst bc) (snd bc)) q).
Proof.
  intros H bc K. apply in_flat_map in K. destruct K as (x & Hx & K).
  apply ext_base in K. rewrite K, (H x Hx). reflexivity.
Qed.
Lemma filter_none {A} (f : A -> bool) l : (forall x, In x l -> f x = false) -> filter f l = [].
Proof.
  induction l as [|a l IH]; simpl; auto. intros H. rewrite (H a), IH; auto.
Qed.
Lemma filter_all {A} (f : A -> bool) l : (forall x, In x l -> f x = true) -> filter f l = l.
Proof.
  induction l as [|a l IH]; simpl; auto. intros H. rewrite (H a), IH; auto.
Qed.
Lemma loop_nil nbrs fuel : clique_loop nbrs fuel [] = [].
Proof. destruct fuel; reflexivity. Qed.

(** Deeper levels contribute nothing of smaller length. *)
Lemma loop_longer nbrs n : forall fuel q, (forall bc, In bc q -> n < length (fst bc))%nat ->
  forall x, In x (clique_loop nbrs fuel q) -> (n < length x)%nat.
Proof.
  induction fuel as [|fuel IH]; intros q H x; simpl; [tauto|].
  destruct q as [|[b c] q]; simpl; [tauto|]. intros [<-|K].
  - exact (H (b, c) (or_introl eq_refl)).
  - eapply IH; [|exact K]. intros bc. rewrite in_app_iff. intros [L|L].
    + apply H. right; exact L.
    + apply ext_base in L. rewrite L. specialize (H (b, c) (or_introl eq_refl)). simpl in H. lia.
Qed.

(** With enough fuel, the members of length n+k of the output are exactly level k. *)
Lemma loop_level nbrs : forall k n q fuel, base_len n q -> (queue_work q <= fuel)%nat ->
  filter (fun x => Nat.eqb (length x) (n + k)) (clique_loop nbrs fuel q) =
  map fst (level nbrs k q).
Proof.
  induction k as [|k IH]; intros n q fuel H W.
  - destruct (loop_prefix nbrs q fuel []) as (f' & K1 & K2 & K3); [rewrite app_nil_r; exact W|].
    rewrite app_nil_r in K1. simpl in K1. rewrite K1, filter_app.
    rewrite filter_all, filter_none; [simpl; apply app_nil_r| |].
    + intros x Hx. apply Nat.eqb_neq. apply (loop_longer nbrs n) in Hx; [lia|].
      intros bc Hbc. pose proof (base_len_next nbrs n q H bc Hbc). lia.
    + intros x Hx. apply in_map_iff in Hx. destruct Hx as (bc & <- & Hbc).
      apply Nat.eqb_eq. rewrite (H bc Hbc). lia.
  - destruct (loop_prefix nbrs q fuel []) as (f' & K1 & K2 & K3); [rewrite app_nil_r; exact W|].
    rewrite app_nil_r in K1. simpl in K1, K2. rewrite K1, filter_app.
    rewrite filter_none; simpl.
    + rewrite <- (IH (S n) _ f'); [|apply base_len_next; exact H|exact K2].
      apply filter_ext. intros x. f_equal. lia.
    + intros x Hx. apply in_map_iff in Hx. destruct Hx as (bc & <- & Hbc).
      apply Nat.eqb_neq. rewrite (H bc Hbc). lia.
Qed.

(** The loop empties its queue: more fuel changes nothing. *)
Lemma bfs_fuel nbrs : forall fuel q fuel', (queue_work q <= fuel)%nat -> (fuel <= fuel')%nat ->
  clique_loop nbrs fuel' q = clique_loop nbrs fuel q.
Proof.
  induction fuel as [|fuel IH]; intros q fuel' W L.
  - destruct q as [|[b c] q]; [rewrite !loop_nil; reflexivity|].
    unfold queue_work in W; simpl in W. pose proof (pow2_pos (length c)). lia.
  - destruct fuel' as [|fuel']; [lia|]. destruct q as [|[b c] q]; [reflexivity|].
    simpl. f_equal. apply IH; [|lia]. rewrite queue_work_app.
    unfold queue_work in W at 1; simpl in W. fold (queue_work q) in W.
    pose proof (ext_work nbrs b c). lia.
Qed.

(** ** Levels are cliques *)
Fixpoint clique (E : list (Z * Z)) (l : list Z) : bool :=
  match l with
  | [] => true
  | u :: r => forallb (has_edge E u) r && clique E r
  end.

Lemma combos_filter (p : Z -> bool) : forall l k,
  combinations (filter p l) k = filter (forallb p) (combinations l k).
Proof.
  induction l as [|x l IH]; intros [|k]; auto.
  - simpl. destruct (p x), (filter p l); reflexivity.
  - simpl filter at 1. simpl combinations at 2. rewrite filter_app, <- IH.
  destruct (p x) eqn:K; simpl combinations.
  + rewrite !IH. f_equal. simpl. clear IH. induction (combinations l k) as [|c cs IHc]; simpl; auto.
    rewrite K; simpl. destruct (forallb p c); simpl; rewrite <- IHc; auto.
  + rewrite (filter_none _ (map _ _)); auto. intros c Hc. apply in_map_iff in Hc.
    destruct Hc as (y & <- & _). simpl. rewrite K. reflexivity.
Qed.

Lemma level_app nbrs k : forall q1 q2, level nbrs k (q1 ++ q2) = level nbrs k q1 ++ level nbrs k q2.
Proof.
  induction k as [|k IH]; intros q1 q2; simpl; auto. rewrite flat_map_app. apply IH.
Qed.
Lemma level_nil nbrs k : level nbrs k [] = [].
Proof. induction k; simpl; auto. Qed.

(** [c] occurs in [V] in order. *)
Inductive subseq : list Z -> list Z -> Prop :=
| sub_nil l : subseq [] l
| sub_skip x l1 l2 : subseq l1 l2 -> subseq l1 (x :: l2)
| sub_keep x l1 l2 : subseq l1 l2 -> subseq (x :: l1) (x :: l2).
Lemma subseq_filter p : forall l, subseq (filter p l) l.
Proof. induction l; simpl; [constructor|]. destruct (p a); [apply sub_keep|apply sub_skip]; auto. Qed.
Lemma subseq_trans l1 l2 l3 : subseq l1 l2 -> subseq l2 l3 -> subseq l1 l3.
Proof.
  intros H1 H2. revert l1 H1. induction H2; intros l0 H1.
  - inversion H1; constructor.
  - apply sub_skip; auto.
  - inversion H1; subst; [constructor|apply sub_skip; auto|apply sub_keep; auto].
Qed.
Lemma subseq_cons_l x l1 l2 : subseq (x :: l1) l2 -> subseq l1 l2.
Proof.
  intros H. eapply subseq_trans; [|exact H]. apply sub_skip.
  clear. induction l1; [constructor|apply sub_keep; auto].
Qed.
Lemma subseq_split x l1 l2 : subseq (x :: l1) l2 ->
  exists a b, l2 = a ++ x :: b /\ subseq l1 b.
Proof.
  intros H. remember (x :: l1) as l eqn:K. induction H; try discriminate.
  - destruct (IHsubseq K) as (a & b & -> & H2). exists (x0 :: a), b. auto.
  - injection K; intros; subst. exists [], l2. auto.
Qed.
Lemma subseq_In l1 l2 x : subseq l1 l2 -> In x l1 -> In x l2.
Proof. induction 1; simpl; tauto. Qed.
Lemma subseq_refl l : subseq l l.
Proof. induction l; [constructor|apply sub_keep; auto]. Qed.

Lemma level_cliques E : let V := graph_nodes E in let nbrs := nbrs_table V E [] V in
  forall k base c, subseq c V ->
  map fst (level nbrs k [(base, c)]) =
  map (app base) (filter (clique E) (combinations c k)).
Proof.
  intros V nbrs. induction k as [|k IHk]; intros base c Hc.
  - destruct c; simpl; rewrite app_nil_r; reflexivity.
  - induction c as [|u c IHc]; simpl; [rewrite level_nil; reflexivity|].
    rewrite app_nil_r.
    change (?x :: ?y) with ([x] ++ y) at 1. rewrite level_app, map_app, filter_app, map_app.
    destruct (subseq_split _ _ _ Hc) as (a & b & HV & Hb).
    rewrite (filter_ext_in _ (has_edge E u)).
    + rewrite IHk.
      * f_equal.
        -- rewrite combos_filter. clear.
           induction (combinations c k) as [|x xs IH]; simpl; auto.
           destruct (forallb (has_edge E u) x) eqn:K; simpl.
           ++ destruct (clique E x); simpl; rewrite IH; auto.
              rewrite <- app_assoc. reflexivity.
           ++ exact IH.
        -- specialize (IHc (subseq_cons_l _ _ _ Hc)). simpl in IHc. rewrite app_nil_r in IHc.
           exact IHc.
      * eapply subseq_trans; [apply subseq_filter|]. eapply subseq_cons_l; eauto.
    + intros v Hv. apply nbrs_after with (l1 := a) (l2 := b); auto.
      eapply subseq_In; eauto.
Qed.

(** The cliques of size k+1 in the order of enumeration. *)
Lemma cliques_of_size E k :
  filter (fun x => Nat.eqb (length x) (S k)) (enumerate_all_cliques E) =
  filter (clique E) (combinations (graph_nodes E) (S k)).
Proof.
  unfold enumerate_all_cliques. cbv zeta.
  set (V := graph_nodes E). set (nbrs := nbrs_table V E [] V).
  set (q := map _ V).
  change (fun x : list Z => Nat.eqb (length x) (S k)) with (fun x : list Z => Nat.eqb (length x) (1 + k)).
  rewrite loop_level; [|intros bc Hbc; apply in_map_iff in Hbc; destruct Hbc as (u & <- & _); reflexivity|lia].
  subst q.
  assert (G : forall l2 l1, V = l1 ++ l2 ->
    map fst (level nbrs k (map (fun u => ([u], sort_by_index V (nbrs_of nbrs u))) l2)) =
    filter (clique E) (combinations l2 (S k))).
  { induction l2 as [|u l2 IH]; intros l1 HV; [simpl; rewrite level_nil; reflexivity|].
    rewrite map_cons. change (?x :: ?y) with ([x] ++ y) at 1. rewrite level_app, map_app.
    simpl combinations. rewrite filter_app. f_equal.
    - unfold nbrs, V. rewrite (initial_candidates E l1 u l2 HV), level_cliques.
      + rewrite combos_filter. simpl. clear.
        induction (combinations l2 k) as [|x xs IH]; simpl; auto.
        destruct (forallb (has_edge E u) x) eqn:K; simpl; auto.
        destruct (clique E x); simpl; rewrite IH; auto.
      + eapply subseq_trans; [apply subseq_filter|]. fold V. rewrite HV.
        clear. induction l1; simpl; apply sub_skip; auto. apply subseq_refl.
    - apply (IH (l1 ++ [u])). rewrite <- app_assoc. exact HV. }
  apply (G V []). reflexivity.
Qed.

(** ** Combinations *)
Lemma combos_subseq : forall (l : list Z) k c, In c (combinations l k) -> subseq c l /\ length c = k.
Proof.
  induction l as [|x l IH]; intros [|k] c; simpl; try tauto.
  - intros [<-|[]]; split; constructor.
  - intros [<-|[]]; split; [constructor|reflexivity].
  - rewrite in_app_iff, in_map_iff. intros [(y & <- & H)|H].
    + apply IH in H. destruct H; split; [apply sub_keep; auto|simpl; lia].
    + apply IH in H. destruct H; split; [apply sub_skip; auto|auto].
Qed.
Lemma subseq_combos c l : subseq c l -> In c (combinations l (length c)).
Proof.
  induction 1; simpl.
  - destruct l; simpl; auto.
  - destruct l1 as [|y l1]; simpl; [auto|]. apply in_or_app. right. exact IHsubseq.
  - apply in_or_app. left. apply in_map. exact IHsubseq.
Qed.
Lemma combos_NoDup : forall (l : list Z) k, NoDup l -> NoDup (combinations l k).
Proof.
  induction l as [|x l IH]; intros [|k] ND; simpl; try (repeat constructor; intros []; fail).
  inversion ND; subst.
  assert (D : forall c, In c (map (cons x) (combinations l k)) -> ~ In c (combinations l (S k))).
  { intros c Hc K. apply in_map_iff in Hc. destruct Hc as (y & <- & _).
    apply combos_subseq in K. destruct K as [K _]. apply H1. eapply subseq_In; [exact K|left; auto]. }
  assert (NoDup (map (cons x) (combinations l k))).
  { apply FinFun.Injective_map_NoDup; [|auto]. intros a b E. congruence. }
  revert H D. generalize (map (cons x) (combinations l k)) as A.
  induction A as [|a A IHA]; intros HN D; simpl; [auto|].
  inversion HN; subst. constructor.
  - rewrite in_app_iff. intros [C|C]; [tauto|]. eapply D; [left; reflexivity|exact C].
  - apply IHA; auto. intros c Hc. apply D. right; exact Hc.
Qed.

(** Two in-order selections with the same members coincide. *)
Lemma subseq_NoDup c l : subseq c l -> NoDup l -> NoDup c.
Proof.
  induction 1; intros ND; [constructor| |]; inversion ND; subst; auto.
  constructor; auto. intros C. eapply subseq_In in C; eauto.
Qed.
Lemma subseq_same_members : forall l c d, NoDup l -> subseq c l -> subseq d l ->
  Permutation c d -> c = d.
Proof.
  induction l as [|x l IH]; intros c d ND Hc Hd P.
  - inversion Hc; subst. apply Permutation_nil in P. auto.
  - inversion ND; subst. inversion Hc; subst.
    + apply Permutation_nil in P. auto.
    + inversion Hd; subst.
      * apply Permutation_sym, Permutation_nil in P. auto.
      * auto.
      * exfalso. apply H1. eapply subseq_In; [exact H3|].
        eapply Permutation_in; [apply Permutation_sym; exact P|]. left; auto.
    + inversion Hd; subst.
      * apply Permutation_sym, Permutation_nil in P. auto.
      * exfalso. apply H1. eapply subseq_In; [exact H4|].
        eapply Permutation_in; [exact P|]. left; auto.
      * f_equal. apply IH; auto. eapply Permutation_cons_inv; eauto.
Qed.
