(** * C74: who sees a feature that is written through an object *)

From Coq Require Import ZArith String List Bool Lia.
From Verif Require Import Py PyFacts ReaderFacts Sharing.
Import ListNotations.
Local Open Scope nat_scope.

(** ** Executions *)

Lemma exec_app w l l' : exec w (l ++ l') = let! w' := exec w l in exec w' l'.
Proof.
  unfold exec. revert w; induction l as [|a l IH]; intros w; simpl; [reflexivity|].
  destruct (exec1 w a); simpl; [apply IH|reflexivity].
Qed.

Lemma update_length {A} (l : list A) i f : length (update l i f) = length l.
Proof. revert i; induction l as [|x l IH]; intros [|i]; simpl; auto. Qed.

Lemma update_nth {A} (l : list A) i f j :
  nth_error (update l i f) j = if Nat.eqb i j then option_map f (nth_error l j) else nth_error l j.
Proof.
  revert i j; induction l as [|x l IH]; intros [|i] [|j]; simpl; auto; try apply IH.
  destruct (Nat.eqb i j); reflexivity.
Qed.

(** Every stored reference points into the heap. *)
Definition valid (w : world) : Prop :=
  4 <= length (w_heap w) /\
  forall o, In o (w_objs w) -> o_nodes o < length (w_heap w) /\ o_edges o < length (w_heap w).

Lemma exec1_grows w a w' : valid w -> exec1 w a = Ok w' ->
  valid w' /\ (exists l, w_objs w' = w_objs w ++ l) /\ length (w_heap w) <= length (w_heap w').
Proof.
  intros (V0 & V) H. destruct a as [d|k nf ef|b|o key v|o key v]; simpl in H.
  - injection H; intros <-. split; [|split; [exists []; rewrite app_nil_r; reflexivity|simpl; rewrite app_length; lia]].
    split; simpl; rewrite app_length; [lia|]. intros o I. specialize (V o I). simpl. lia.
  - destruct (ref_ok w nf && ref_ok w ef) eqn:R; [|discriminate]. injection H; intros <-.
    apply andb_true_iff in R. destruct R as (R1 & R2).
    split; [|split; [eexists; reflexivity|reflexivity]]. split; [exact V0|]. simpl.
    intros o I. apply in_app_iff in I. destruct I as [I|[<-|[]]]; [apply V; exact I|]. simpl.
    destruct nf as [r|], ef as [s|]; simpl in *; rewrite ?Nat.ltb_lt in *; destruct k; simpl; lia.
  - unfold get_obj in H. destruct (nth_error (w_objs w) b) as [o|] eqn:E; [|discriminate]. simpl in H.
    destruct (o_kind o); [|discriminate]. injection H; intros <-.
    split; [|split; [eexists; reflexivity|reflexivity]]. split; [exact V0|]. simpl.
    intros o' I. apply in_app_iff in I. destruct I as [I|[<-|[]]]; [apply V; exact I|]. simpl.
    apply V. eapply nth_error_In; exact E.
  - unfold get_obj in H. destruct (nth_error (w_objs w) o) as [x|] eqn:E; [|discriminate]. simpl in H.
    injection H; intros <-. unfold valid; simpl. rewrite update_length. split; [split; assumption|].
    split; [exists []; rewrite app_nil_r; reflexivity|reflexivity].
  - unfold get_obj in H. destruct (nth_error (w_objs w) o) as [x|] eqn:E; [|discriminate]. simpl in H.
    injection H; intros <-. unfold valid; simpl. rewrite update_length. split; [split; assumption|].
    split; [exists []; rewrite app_nil_r; reflexivity|reflexivity].
Qed.

Lemma exec_grows l : forall w w', valid w -> exec w l = Ok w' ->
  valid w' /\ (exists l, w_objs w' = w_objs w ++ l) /\ length (w_heap w) <= length (w_heap w').
Proof.
  induction l as [|a l IH]; intros w w' V H.
  - injection H; intros <-. split; [exact V|]. split; [exists []; rewrite app_nil_r; reflexivity|reflexivity].
  - unfold exec in H. simpl in H. rewrite bind_Ok in H. destruct H as (w1 & H1 & H2).
    destruct (exec1_grows _ _ _ V H1) as (V1 & (l1 & L1) & G1).
    destruct (IH _ _ V1 H2) as (V2 & (l2 & L2) & G2). split; [exact V2|]. split; [|lia].
    exists (l1 ++ l2). rewrite L2, L1, app_assoc. reflexivity.
Qed.

Lemma valid_initial : valid initial.
Proof. split; [simpl; lia|]. intros o []. Qed.

Lemma kept w w' o x : (exists l, w_objs w' = w_objs w ++ l) -> nth_error (w_objs w) o = Some x -> nth_error (w_objs w') o = Some x.
Proof.
  intros (l & ->) H. rewrite nth_error_app1; [exact H|]. apply nth_error_Some. congruence.
Qed.

Lemma new_obj w k nf ef w' : exec1 w (New k nf ef) = Ok w' ->
  nth_error (w_objs w') (length (w_objs w)) = Some (mkObj k (pass (default_node k) nf) (pass (default_edge k) ef)).
Proof.
  simpl. destruct (ref_ok w nf && ref_ok w ef); [|discriminate]. intros H; injection H; intros <-. simpl.
  rewrite nth_error_app2 by lia. rewrite Nat.sub_diag. reflexivity.
Qed.

Lemma build_obj w b x w' : nth_error (w_objs w) b = Some x -> exec1 w (Build b) = Ok w' ->
  nth_error (w_objs w') (length (w_objs w)) = Some (mkObj KComplex (o_nodes x) (o_edges x)).
Proof.
  intros E. simpl. unfold get_obj. rewrite E. simpl. destruct (o_kind x); [|discriminate].
  intros H; injection H; intros <-. simpl. rewrite nth_error_app2 by lia. rewrite Nat.sub_diag. reflexivity.
Qed.

(** ** Sharing *)

(** After any program, with two objects of the same class made without feature arguments anywhere in it
    (the second one after an arbitrary middle part), both always show the same features. *)
Theorem C74_defaults_are_shared :
  forall k p q r w1 w2 w3,
  exec initial p = Ok w1 ->
  exec w1 (New k None None :: q) = Ok w2 ->
  exec w2 (New k None None :: r) = Ok w3 ->
  let o1 := length (w_objs w1) in let o2 := length (w_objs w2) in
  o1 <> o2 /\
  node_features_of w3 o1 = node_features_of w3 o2 /\
  edge_features_of_obj w3 o1 = edge_features_of_obj w3 o2 /\
  exists d d', node_features_of w3 o1 = Ok d /\ edge_features_of_obj w3 o1 = Ok d'.
Proof.
  intros k p q r w1 w2 w3 H1 H2 H3 o1 o2.
  destruct (exec_grows _ _ _ valid_initial H1) as (V1 & _).
  unfold exec in H2, H3. cbn [foldM] in H2, H3. rewrite bind_Ok in H2, H3.
  destruct H2 as (u & U & H2), H3 as (v & U' & H3).
  destruct (exec1_grows _ _ _ V1 U) as (Vu & (lu & Lu) & _).
  destruct (exec_grows _ _ _ Vu H2) as (V2 & G2 & _).
  destruct (exec1_grows _ _ _ V2 U') as (Vv & Gv & _).
  destruct (exec_grows _ _ _ Vv H3) as (V3 & G3 & _).
  pose proof (new_obj _ _ _ _ _ U) as N1. pose proof (new_obj _ _ _ _ _ U') as N2. fold o1 in N1. fold o2 in N2.
  assert (LT : o1 < o2).
  { unfold o2. apply (kept _ _ _ _ G2) in N1. apply nth_error_Some. congruence. }
  apply (kept _ _ _ _ G2) in N1. apply (kept _ _ _ _ Gv) in N1. apply (kept _ _ _ _ G3) in N1.
  apply (kept _ _ _ _ G3) in N2.
  unfold node_features_of, edge_features_of_obj, get_obj. rewrite N1, N2. simpl.
  split; [lia|]. split; [reflexivity|]. split; [reflexivity|].
  destruct V3 as (V3 & _).
  destruct (nth_error (w_heap w3) (default_node k)) as [d|] eqn:D.
  2:{ apply nth_error_None in D. destruct k; simpl in D; lia. }
  destruct (nth_error (w_heap w3) (default_edge k)) as [d'|] eqn:D'.
  2:{ apply nth_error_None in D'. destruct k; simpl in D'; lia. }
  exists d, d'. auto.
Qed.
Print Assumptions C74_defaults_are_shared.

Lemma list_eqb_iff a b : list_eqb a b = true <-> a = b.
Proof.
  revert b; induction a as [|x a IH]; intros [|y b]; simpl; try (split; congruence).
  rewrite andb_true_iff, Z.eqb_eq, IH. split; [intros (-> & ->); reflexivity|]. intros H; injection H; auto.
Qed.

Lemma le_sym a b : list_eqb a b = list_eqb b a.
Proof.
  destruct (list_eqb a b) eqn:E, (list_eqb b a) eqn:F; try reflexivity.
  - apply list_eqb_iff in E. symmetry in E. apply list_eqb_iff in E. congruence.
  - apply list_eqb_iff in F. symmetry in F. apply list_eqb_iff in F. congruence.
Qed.

Lemma le_trans' a b c : list_eqb a b = true -> list_eqb b c = true -> list_eqb a c = true.
Proof. rewrite !list_eqb_iff. congruence. Qed.

(** A feature written through one of them is visible through the other. *)
Theorem C74_write_is_visible :
  forall k p q w1 w2 w3 key v,
  exec initial p = Ok w1 ->
  exec w1 (New k None None :: q) = Ok w2 ->
  let o1 := length (w_objs w1) in let o2 := length (w_objs w2) in
  exec w2 [New k None None; SetEdge o1 key v] = Ok w3 ->
  exists d, edge_features_of_obj w3 o2 = Ok d /\ dget list_eqb d key = Ok v.
Proof.
  intros k p q w1 w2 w3 key v H1 H2 o1 o2 H3.
  destruct (C74_defaults_are_shared k p q [SetEdge o1 key v] w1 w2 w3 H1 H2 H3) as (_ & _ & E & _ & d & _ & D).
  fold o1 o2 in E, D. exists d. split; [congruence|]. clear E.
  unfold exec in H3. cbn [foldM] in H3. rewrite bind_Ok in H3. destruct H3 as (u & _ & H3).
  rewrite bind_Ok in H3. destruct H3 as (x & S & H3). injection H3; intros <-. clear H3.
  unfold exec1 in S. rewrite bind_Ok in S. destruct S as (ob & O & S). injection S; intros <-. clear S.
  unfold edge_features_of_obj, get_obj in *. cbn [w_objs w_heap] in D.
  destruct (nth_error (w_objs u) o1) as [y|]; [|discriminate]. injection O; intros ->. cbn [bind] in D.
  rewrite update_nth, Nat.eqb_refl in D. destruct (nth_error (w_heap u) (o_edges ob)); [|discriminate].
  simpl in D. injection D; intros <-. rewrite (dget_dset _ le_sym le_trans').
  rewrite (proj2 (list_eqb_iff key key) eq_refl). reflexivity.
Qed.
Print Assumptions C74_write_is_visible.

(** A complex made by to_simplicial_complex shares both dictionaries with its builder, whatever happens
    afterwards; so complexes of two builders without features share them as well. *)
Theorem C74_complex_shares_with_builder :
  forall p q b w1 w2, exec initial p = Ok w1 -> exec w1 (Build b :: q) = Ok w2 ->
  let c := length (w_objs w1) in
  node_features_of w2 b = node_features_of w2 c /\ edge_features_of_obj w2 b = edge_features_of_obj w2 c.
Proof.
  intros p q b w1 w2 H1 H2 c. destruct (exec_grows _ _ _ valid_initial H1) as (V1 & _).
  unfold exec in H2. cbn [foldM] in H2. rewrite bind_Ok in H2. destruct H2 as (u & U & H2).
  destruct (exec1_grows _ _ _ V1 U) as (Vu & Gu & _). destruct (exec_grows _ _ _ Vu H2) as (_ & G2 & _).
  destruct (nth_error (w_objs w1) b) as [x|] eqn:E.
  2:{ simpl in U. unfold get_obj in U. rewrite E in U. discriminate. }
  pose proof (build_obj _ _ _ _ E U) as N. fold c in N.
  apply (kept _ _ _ _ Gu) in E. apply (kept _ _ _ _ G2) in E. apply (kept _ _ _ _ G2) in N.
  unfold node_features_of, edge_features_of_obj, get_obj. rewrite E, N. split; reflexivity.
Qed.
Print Assumptions C74_complex_shares_with_builder.

(** ** Independence *)

(** Nothing is written through other dictionaries: an operation changes the edge features shown by an
    object only if it is an assignment through an object that refers to the same dictionary. *)
Theorem C74_frame :
  forall w a w' o x d, valid w -> exec1 w a = Ok w' -> nth_error (w_objs w) o = Some x ->
  edge_features_of_obj w o = Ok d ->
  edge_features_of_obj w' o = Ok d \/
  exists o' y key v, nth_error (w_objs w) o' = Some y /\
    ((a = SetEdge o' key v /\ o_edges y = o_edges x) \/ (a = SetNode o' key v /\ o_nodes y = o_edges x)).
Proof.
  intros w a w' o x d V H E D.
  destruct (exec1_grows _ _ _ V H) as (_ & G & _). pose proof (kept _ _ _ _ G E) as E'.
  unfold edge_features_of_obj, get_obj in *. rewrite E in D. rewrite E'. simpl in *.
  destruct (nth_error (w_heap w) (o_edges x)) as [d0|] eqn:D0; [|discriminate]. injection D; intros ->. clear D.
  destruct a as [n|k nf ef|b|o' key v|o' key v]; simpl in H.
  - injection H; intros <-. simpl. left. rewrite nth_error_app1; [rewrite D0; reflexivity|]. apply nth_error_Some. congruence.
  - destruct (ref_ok w nf && ref_ok w ef); [|discriminate]. injection H; intros <-. simpl. rewrite D0. auto.
  - unfold get_obj in H. destruct (nth_error (w_objs w) b) as [y|]; [|discriminate]. simpl in H.
    destruct (o_kind y); [|discriminate]. injection H; intros <-. simpl. rewrite D0. auto.
  - unfold get_obj in H. destruct (nth_error (w_objs w) o') as [y|] eqn:Y; [|discriminate]. simpl in H.
    injection H; intros <-. simpl. rewrite update_nth. destruct (Nat.eqb_spec (o_nodes y) (o_edges x)) as [Q|Q].
    + right. exists o', y, key, v. auto.
    + rewrite D0. auto.
  - unfold get_obj in H. destruct (nth_error (w_objs w) o') as [y|] eqn:Y; [|discriminate]. simpl in H.
    injection H; intros <-. simpl. rewrite update_nth. destruct (Nat.eqb_spec (o_edges y) (o_edges x)) as [Q|Q].
    + right. exists o', y, key, v. auto.
    + rewrite D0. auto.
Qed.
Print Assumptions C74_frame.

(** The four default dictionaries are four objects: of a builder and a complex made without feature arguments,
    writing node or edge features through one changes neither the features of the other nor its own features
    of the other kind. *)
Theorem C74_defaults_are_distinct :
  forall p q w1 w2, exec initial p = Ok w1 ->
  exec w1 (New KBuilder None None :: New KComplex None None :: q) = Ok w2 ->
  let b := length (w_objs w1) in let c := S b in
  forall o o' key v w3, (o = b /\ o' = c) \/ (o = c /\ o' = b) ->
  (exec1 w2 (SetNode o key v) = Ok w3 ->
     node_features_of w3 o' = node_features_of w2 o' /\ edge_features_of_obj w3 o' = edge_features_of_obj w2 o' /\
     edge_features_of_obj w3 o = edge_features_of_obj w2 o) /\
  (exec1 w2 (SetEdge o key v) = Ok w3 ->
     node_features_of w3 o' = node_features_of w2 o' /\ edge_features_of_obj w3 o' = edge_features_of_obj w2 o' /\
     node_features_of w3 o = node_features_of w2 o).
Proof.
  intros p q w1 w2 H1 H2 b c. destruct (exec_grows _ _ _ valid_initial H1) as (V1 & _).
  unfold exec in H2. cbn [foldM] in H2. rewrite bind_Ok in H2. destruct H2 as (u & U & H2).
  rewrite bind_Ok in H2. destruct H2 as (x & X & H2).
  destruct (exec1_grows _ _ _ V1 U) as (Vu & _ & _). destruct (exec1_grows _ _ _ Vu X) as (Vx & Gx & _).
  destruct (exec_grows _ _ _ Vx H2) as (_ & G2 & _).
  pose proof (new_obj _ _ _ _ _ U) as N1. pose proof (new_obj _ _ _ _ _ X) as N2.
  apply (kept _ _ _ _ Gx) in N1. apply (kept _ _ _ _ G2) in N1. apply (kept _ _ _ _ G2) in N2. fold b in N1.
  assert (Lu : length (w_objs u) = c).
  { injection U; intros <-. simpl. rewrite app_length. simpl. unfold c, b. lia. }
  rewrite Lu in N2. clear - N1 N2.
  intros o o' key v w3 [(-> & ->)|(-> & ->)]; split; intros H; cbn [exec1] in H; unfold get_obj in H;
    rewrite ?N1, ?N2 in H; injection H; intros <-; clear H;
    unfold node_features_of, edge_features_of_obj, get_obj; cbn [w_objs w_heap]; rewrite N1, N2;
    cbn [bind o_nodes o_edges pass default_node default_edge]; rewrite !update_nth; auto.
Qed.
Print Assumptions C74_defaults_are_distinct.

(** Two builders made independently, without features: one gets a feature through the other. *)
Theorem C74_independent_builders_refuted :
  exists p w d, exec initial p = Ok w /\
    p = [New KBuilder None None; New KBuilder None None; SetEdge 0 [0; 1]%Z [("distance"%string, FNum (QArith_base.Qmake 2 1))]] /\
    edge_features_of_obj w 1 = Ok d /\ d <> [].
Proof.
  do 3 eexists. split; [|split; [reflexivity|]]; [vm_compute; reflexivity|].
  split; [vm_compute; reflexivity|discriminate].
Qed.
Print Assumptions C74_independent_builders_refuted.

(** With dictionaries of their own, builders are independent. *)
Example C74_example :
  exists w d, exec initial [NewDict []; NewDict []; New KBuilder None (Some 4); New KBuilder None (Some 5);
      SetEdge 0 [0; 1]%Z [("distance"%string, FNum (QArith_base.Qmake 2 1))]; Build 1] = Ok w /\
    edge_features_of_obj w 0 = Ok d /\ d <> [] /\ edge_features_of_obj w 1 = Ok [] /\ edge_features_of_obj w 2 = Ok [].
Proof.
  do 2 eexists. split; [vm_compute; reflexivity|]. split; [vm_compute; reflexivity|]. split; [discriminate|].
  split; vm_compute; reflexivity.
Qed.

(** The hypotheses of the sharing theorems are met by a program with other activity in between. *)
Example C74_sharing_example :
  exists w1 w2 w3, exec initial [NewDict []; New KBuilder None (Some 4)] = Ok w1 /\
    exec w1 (New KBuilder None None :: [Build 0; SetEdge 1 [0; 1]%Z []]) = Ok w2 /\
    exec w2 [New KBuilder None None; SetEdge 1 [1; 2]%Z [("distance"%string, FNum (QArith_base.Qmake 2 1))]] = Ok w3.
Proof. do 3 eexists. split; [vm_compute; reflexivity|]. split; vm_compute; reflexivity. Qed.

(** The hypotheses of C74_defaults_are_distinct are met, and the writes do change something. *)
Example C74_distinct_example :
  exists w2 w3 d, exec initial [New KBuilder None None; New KComplex None None; SetNode 1 [2]%Z []] = Ok w2 /\
    exec1 w2 (SetNode 0 [1]%Z [("weight"%string, FNum (QArith_base.Qmake 2 1))]) = Ok w3 /\
    node_features_of w3 0 = Ok d /\ node_features_of w2 0 = Ok [] /\ d <> [] /\ node_features_of w3 1 = Ok [([2]%Z, [])].
Proof. do 3 eexists. repeat split; try (vm_compute; reflexivity). discriminate. Qed.
