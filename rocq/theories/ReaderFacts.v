(** * Facts about the model of the readers *)

From Coq Require Import ZArith QArith String List Bool Lia Permutation Sorted.
From Verif Require Import Py PyFacts Complex ComplexSpec ComplexFacts ComplexFacts2 Builder BuilderFacts BuilderSpec
  Reader ReaderSpec.
Import ListNotations.
Open Scope Z_scope.

(** ** Cells *)

Lemma dget_combine (ks : list string) (vs : list fval) k v :
  dget String.eqb (combine ks vs) k = Ok v <->
  exists i, first_at ks k i /\ nth_error vs i = Some v.
Proof.
  revert vs; induction ks as [|k' ks IH]; intros vs; simpl.
  - split; [discriminate|]. intros (i & (H & _) & _); destruct i; discriminate.
  - destruct vs as [|v' vs]; simpl.
    + split; [discriminate|]. intros (i & _ & H); destruct i; discriminate.
    + destruct (String.eqb_spec k' k) as [->|N].
      * split.
        -- intros H; injection H; intros <-. exists O. split; [|reflexivity].
           split; [reflexivity|]. intros; lia.
        -- intros (i & (H & K) & L). destruct i as [|i]; [simpl in L; congruence|].
           exfalso. apply (K O); [lia|reflexivity].
      * rewrite IH. split.
        -- intros (i & (H & K) & L). exists (S i). split; [|exact L]. split; [exact H|].
           intros [|j] J; simpl; [congruence|]. apply K; lia.
        -- intros (i & (H & K) & L). destruct i as [|i]; [simpl in H; congruence|].
           exists i. split; [|exact L]. split; [exact H|]. intros j J. apply (K (S j)); lia.
Qed.

Lemma row_get_Ok df r col v : row_get df r col = Ok v <-> has_cell df r col v.
Proof. apply dget_combine. Qed.

Lemma dget_Raise {V} (d : dict string V) k e :
  dget String.eqb d k = Raise e -> e = KeyError /\ ~ In k (dkeys d).
Proof.
  induction d as [|(k', v) d IH]; simpl.
  - intros H; injection H; auto.
  - destruct (String.eqb_spec k' k) as [->|N]; [discriminate|]. intros H.
    destruct (IH H) as (-> & K). split; [reflexivity|]. intros [L|L]; auto.
Qed.

Lemma dget_not_in {V} (d : dict string V) k : ~ In k (dkeys d) -> dget String.eqb d k = Raise KeyError.
Proof.
  induction d as [|(k', v) d IH]; simpl; [reflexivity|].
  intros H. destruct (String.eqb_spec k' k) as [->|N]; [exfalso; auto|]. apply IH; auto.
Qed.

Lemma dkeys_combine {A B} (ks : list A) (vs : list B) : length vs = length ks ->
  map fst (combine ks vs) = ks.
Proof.
  revert vs; induction ks as [|k ks IH]; intros [|v vs]; simpl; intros H; try reflexivity; try discriminate.
  f_equal. apply IH. lia.
Qed.

Lemma row_get_Raise df r col e : row_get df r col = Raise e -> e = KeyError.
Proof. intros H. apply dget_Raise in H. tauto. Qed.

Lemma row_get_missing df r col : ~ In col (f_cols df) -> row_get df r col = Raise KeyError.
Proof.
  intros H. apply dget_not_in. intros K. apply H. unfold dkeys in K.
  rewrite in_map_iff in K. destruct K as ((c, v) & <- & K). simpl. eapply in_combine_l; exact K.
Qed.

Lemma row_get_present df r col : rectangular df -> In r (f_rows df) -> In col (f_cols df) ->
  exists v, row_get df r col = Ok v.
Proof.
  intros R I C. destruct (row_get df r col) as [v|e] eqn:E; [exists v; reflexivity|].
  apply dget_Raise in E. destruct E as (_ & E). exfalso; apply E.
  unfold dkeys, row_dict. rewrite dkeys_combine; [exact C|]. apply R; exact I.
Qed.

(** ** Node ids *)

Lemma truncates_quot q z : truncates_to q z <-> z = Z.quot (Qnum q) (Zpos (Qden q)).
Proof.
  destruct q as [n d]. unfold truncates_to, Qle, Qlt, inject_Z; simpl.
  rewrite !Z.mul_1_r. split.
  - intros [(H0 & H1 & H2)|(H0 & H1 & H2)].
    + apply Z.quot_unique with (r := n - Zpos d * z); lia.
    + assert (- z = Z.quot (- n) (Zpos d)) as K by (apply Z.quot_unique with (r := Zpos d * z - n); lia).
      rewrite Z.quot_opp_l in K by discriminate. lia.
  - intros ->. pose proof (Z.quot_rem' n (Zpos d)) as Q. destruct (Z_lt_le_dec n 0) as [H|H].
    + right. assert (0 <= Z.rem (- n) (Zpos d) < Zpos d) as B by (apply Z.rem_bound_pos; lia).
      rewrite Z.rem_opp_l in B by discriminate.
      set (q := Z.quot n (Zpos d)) in *. set (r := Z.rem n (Zpos d)) in *. clearbody q r. lia.
    + left. assert (0 <= Z.rem n (Zpos d) < Zpos d) as B by (apply Z.rem_bound_pos; lia).
      set (q := Z.quot n (Zpos d)) in *. set (r := Z.rem n (Zpos d)) in *. clearbody q r. lia.
Qed.

Lemma py_int_Ok atoi v z : py_int atoi v = Ok z <-> denotes atoi v z.
Proof.
  destruct v as [q| |s]; simpl.
  - rewrite truncates_quot. split; [intros H; injection H; auto|intros ->; reflexivity].
  - split; [discriminate|tauto].
  - destruct (atoi s); split; congruence.
Qed.

Lemma py_int_Raise atoi v e : py_int atoi v = Raise e -> e = ValueError.
Proof. destruct v; simpl; [discriminate|congruence|]. destruct (atoi s); congruence. Qed.

(** ** The extraction loop *)

(** The loop on pairs of ids. *)
Definition add_pair (E : list (Z * Z)) (p : Z * Z) : list (Z * Z) :=
  if has_edge E (fst p) (snd p) then E else E ++ [p].
Definition shift (sz : bool) (p : Z * Z) : Z * Z := if sz then p else minus_one p.

Lemma extract_loop atoi df src dest sz rows : forall st st',
  foldM (extract_step atoi df src dest sz) st rows = Ok st' <->
  exists P, Forall2 (row_ids atoi df src dest) rows P /\
    st' = (fst st ++ endpoints (map (shift sz) P), fold_left add_pair (map (shift sz) P) (snd st)).
Proof.
  induction rows as [|r rows IH]; intros (N, E) st'; simpl.
  - split.
    + intros H; injection H; intros <-. exists []. split; [constructor|]. simpl. rewrite app_nil_r. reflexivity.
    + intros (P & H & ->). inversion H; subst. simpl. rewrite app_nil_r. reflexivity.
  - rewrite bind_Ok. split.
    + intros (st1 & H1 & H2). apply IH in H2. destruct H2 as (P & HP & ->).
      rewrite bind_Ok in H1. destruct H1 as (a & Ha & H1).
      rewrite bind_Ok in H1. destruct H1 as (u & Hu & H1).
      rewrite bind_Ok in H1. destruct H1 as (b & Hb & H1).
      rewrite bind_Ok in H1. destruct H1 as (v & Hv & H1).
      exists ((u, v) :: P). split.
      * constructor; [|exact HP]. exists a, b. simpl.
        rewrite <- !row_get_Ok, <- !py_int_Ok. auto.
      * assert (st1 = (N ++ [fst (shift sz (u, v)); snd (shift sz (u, v))], add_pair E (shift sz (u, v)))) as ->.
        { unfold add_pair, has_edge. destruct sz; simpl in H1 |- *;
            match type of H1 with (if ?b then _ else _) = _ => destruct b end;
            injection H1; intros <-; reflexivity. }
        simpl. rewrite <- app_assoc. reflexivity.
    + intros (P & HP & ->). inversion HP as [|? (u, v) ? P' Hr HP']; subst.
      destruct Hr as (a & b & Ha & Hu & Hb & Hv). simpl in Hu, Hv.
      rewrite <- row_get_Ok in Ha, Hb. rewrite <- py_int_Ok in Hu, Hv.
      rewrite Ha; simpl; rewrite Hu; simpl; rewrite Hb; simpl; rewrite Hv; simpl.
      exists (N ++ [fst (shift sz (u, v)); snd (shift sz (u, v))], add_pair E (shift sz (u, v))).
      split.
      * unfold add_pair, has_edge. destruct sz; simpl;
          match goal with |- (if ?b then _ else _) = _ => destruct b end; reflexivity.
      * apply IH. exists P'. split; [exact HP'|]. simpl. rewrite <- app_assoc. reflexivity.
Qed.

Lemma linked_app E E' u v : linked (E ++ E') u v <-> linked E u v \/ linked E' u v.
Proof. unfold linked. rewrite !in_app_iff. tauto. Qed.

Lemma linked_sym E u v : linked E u v <-> linked E v u.
Proof. unfold linked. tauto. Qed.

Lemma linked_dec E u v : {linked E u v} + {~ linked E u v}.
Proof.
  destruct (pair_in_dec E (u, v)) as [H|H]; [left; left; exact H|].
  destruct (pair_in_dec E (v, u)) as [K|K]; [left; right; exact K|].
  right; intros [L|L]; tauto.
Qed.

(** [E] holds the pairs of [P] in the direction of their first mention, once each. *)
Definition collected (P E : list (Z * Z)) : Prop :=
  NoDup E /\ (forall u v, In (u, v) E <-> first_direction P u v).

Lemma first_direction_snoc P p u v :
  first_direction (P ++ [p]) u v <-> first_direction P u v \/ ((u, v) = p /\ ~ linked P u v).
Proof.
  split.
  - intros (P1 & P2 & H & K).
    destruct P2 as [|q P2] using rev_ind.
    + apply app_inj_tail in H. destruct H as (-> & <-). right. auto.
    + clear IHP2. rewrite app_comm_cons, app_assoc in H. apply app_inj_tail in H. destruct H as (-> & _).
      left. exists P1, P2. auto.
  - intros [(P1 & P2 & -> & K)|(<- & K)].
    + exists P1, (P2 ++ [p]). rewrite <- app_assoc. auto.
    + exists P, []. auto.
Qed.

Lemma first_direction_linked P u v : linked P u v <-> first_direction P u v \/ first_direction P v u.
Proof.
  induction P as [|p P IH] using rev_ind.
  - unfold linked, first_direction; simpl. split; [tauto|].
    intros [(P1 & P2 & H & _)|(P1 & P2 & H & _)]; destruct P1; discriminate.
  - rewrite linked_app, !first_direction_snoc, IH. unfold linked at 1; simpl. split.
    + intros [H|[[H|[]]|[H|[]]]]; [tauto| |].
      * destruct (linked_dec P u v) as [L|L]; [rewrite IH in L; tauto|]. left; right. split; [congruence|tauto].
      * destruct (linked_dec P v u) as [L|L]; [rewrite linked_sym, IH in L; tauto|]. right; right. split; [congruence|exact L].
    + intros [[H|(H & _)]|[H|(H & _)]]; try (subst p); auto 6.
Qed.

Lemma add_pairs P E0 P0 : collected P0 E0 -> collected (P0 ++ P) (fold_left add_pair P E0).
Proof.
  revert P0 E0; induction P as [|p P IH]; intros P0 E0 H; simpl.
  - rewrite app_nil_r. exact H.
  - replace (P0 ++ p :: P) with ((P0 ++ [p]) ++ P) by (rewrite <- app_assoc; reflexivity).
    apply IH. destruct H as (ND & H).
    assert (L : forall u v, linked E0 u v <-> linked P0 u v).
    { intros u v. rewrite (first_direction_linked P0). unfold linked. rewrite !H. reflexivity. }
    unfold add_pair. destruct (has_edge E0 (fst p) (snd p)) eqn:HE.
    + apply has_edge_iff in HE. rewrite L in HE. split; [exact ND|].
      intros u v. rewrite first_direction_snoc, H. split; [tauto|].
      intros [K|(<- & K)]; [exact K|]. simpl in HE. tauto.
    + assert (N : ~ linked P0 (fst p) (snd p)).
      { rewrite <- L, <- has_edge_iff. congruence. }
      split.
      * apply (Permutation_NoDup (Permutation_cons_append E0 p)). constructor; [|exact ND].
        intros K. apply N. rewrite <- L. left. destruct p; exact K.
      * intros u v. rewrite first_direction_snoc, in_app_iff, H. simpl. split.
        -- intros [K|[->|[]]]; [auto|]. right; auto.
        -- intros [K|(<- & K)]; auto.
Qed.

Lemma collect P : collected P (fold_left add_pair P []).
Proof.
  change P with ([] ++ P) at 1. apply add_pairs. split; [constructor|].
  intros u v; split; [intros []|]. intros (P1 & P2 & H & _); destruct P1; discriminate.
Qed.

(** ** Largest node, ascending edges *)

Lemma fold_max l : forall x, (In (fold_left Z.max l x) (x :: l)) /\ forall y, In y (x :: l) -> y <= fold_left Z.max l x.
Proof.
  induction l as [|z l IH]; intros x; simpl.
  - split; [auto|]. intros y [->|[]]; lia.
  - destruct (IH (Z.max x z)) as (H & K). split.
    + destruct H as [H|H]; [|auto]. rewrite <- H. destruct (Z.max_spec x z) as [(_ & ->)|(_ & ->)]; auto.
    + intros y Hy. specialize (K (Z.max x z) (or_introl eq_refl)).
      destruct Hy as [->|[->|Hy]]; [lia|lia|].
      destruct (IH (Z.max x z)) as (_ & K'). apply K'. right; exact Hy.
Qed.

Lemma py_max_Ok l m : py_max l = Ok m <-> In m l /\ forall y, In y l -> y <= m.
Proof.
  destruct l as [|x l]; simpl.
  - split; [discriminate|]. intros ([] & _).
  - destruct (fold_max l x) as (H & K). split.
    + intros E; injection E; intros <-. split; assumption.
    + intros (I & J). f_equal. apply Z.le_antisymm; [apply J; exact H|apply K; exact I].
Qed.

Lemma counts_range m : counts_to m (py_range (Z.to_nat (m + 1))).
Proof.
  unfold counts_to, py_range. rewrite map_length, seq_length. split; [lia|].
  intros i x H. rewrite nth_error_map in H.
  destruct (nth_error (seq 0 (Z.to_nat (m + 1))) i) as [y|] eqn:E; simpl in H; [|discriminate].
  injection H; intros <-. f_equal.
  assert (i < Z.to_nat (m + 1))%nat as L.
  { rewrite <- (seq_length (Z.to_nat (m + 1)) 0). apply nth_error_Some. congruence. }
  rewrite (nth_error_nth' _ 0%nat) in E by (rewrite seq_length; exact L).
  rewrite seq_nth in E by exact L. injection E; auto.
Qed.

Lemma nth_error_ext {A} (l l' : list A) : (forall i, nth_error l i = nth_error l' i) -> l = l'.
Proof.
  revert l'; induction l as [|x l IH]; intros [|y l'] H; [reflexivity|specialize (H O); discriminate..|].
  pose proof (H O) as H0; injection H0; intros ->. f_equal. apply IH. intros i; exact (H (S i)).
Qed.

Lemma counts_unique m l : counts_to m l -> l = py_range (Z.to_nat (m + 1)).
Proof.
  intros (HL & HN). destruct (counts_range m) as (KL & KN).
  apply nth_error_ext. intros i.
  destruct (nth_error l i) as [x|] eqn:E.
  - assert (i < length (py_range (Z.to_nat (m + 1))))%nat as L.
    { assert (i < length l)%nat by (apply nth_error_Some; congruence). lia. }
    destruct (nth_error (py_range (Z.to_nat (m + 1))) i) as [y|] eqn:F.
    + rewrite (HN i x E), (KN i y F). reflexivity.
    + apply nth_error_None in F. lia.
  - symmetry. apply nth_error_None. apply nth_error_None in E. lia.
Qed.

Lemma pair_lt_irrefl a : ~ pair_lt a a.
Proof. unfold pair_lt. lia. Qed.

Lemma pair_lt_trans a b c : pair_lt a b -> pair_lt b c -> pair_lt a c.
Proof. unfold pair_lt. lia. Qed.

Lemma pair_lt_leb a b : pair_lt a b -> pair_leb a b = true.
Proof. rewrite pair_leb_iff. unfold pair_lt. lia. Qed.

Lemma pair_leb_lt a b : pair_leb a b = true -> a <> b -> pair_lt a b.
Proof.
  rewrite pair_leb_iff. destruct a as (x, y), b as (x', y'); unfold pair_lt; simpl.
  intros H N. assert (x <> x' \/ y <> y'); [|lia].
  destruct (Z.eq_dec x x') as [->|]; [|auto]. destruct (Z.eq_dec y y') as [->|]; [|auto]. congruence.
Qed.

Lemma sorted_strict E : NoDup E -> StronglySorted pair_lt (py_sorted pair_leb E).
Proof.
  intros ND.
  assert (S : StronglySorted (fun a b => pair_leb a b = true) (py_sorted pair_leb E)).
  { apply py_sorted_sorted; [apply pair_leb_total|apply pair_leb_trans]. }
  assert (ND' : NoDup (py_sorted pair_leb E)) by (apply NoDup_py_sorted; exact ND).
  induction S as [|a l S IH F]; [constructor|].
  inversion ND' as [|? ? N1 N2]; subst. constructor; [apply IH; exact N2|].
  rewrite Forall_forall in F |- *. intros b Hb. apply pair_leb_lt; [apply F; exact Hb|].
  intros ->. auto.
Qed.

Lemma strict_sorted E : StronglySorted pair_lt E -> py_sorted pair_leb E = E.
Proof.
  intros S. apply py_sorted_id. induction S as [|a l S IH F]; constructor; [exact IH|].
  eapply Forall_impl; [|exact F]. apply pair_lt_leb.
Qed.

Lemma strict_unique E E' : StronglySorted pair_lt E -> StronglySorted pair_lt E' ->
  (forall p, In p E <-> In p E') -> E = E'.
Proof.
  intros S S'. apply StronglySorted_ext with (R := pair_lt); auto using pair_lt_irrefl.
  unfold pair_lt; intros; lia.
Qed.

Lemma endpoints_nil P : endpoints P = [] <-> P = [].
Proof. destruct P; simpl; split; congruence. Qed.

(** What the extraction returns, and when. *)
Lemma extract_spec atoi df src dest sz nodes E :
  extract_nodes_edges atoi df src dest sz = Ok (nodes, E) <->
  exists P, table_ids atoi df src dest P /\ network_of (map (shift sz) P) nodes E.
Proof.
  unfold extract_nodes_edges. rewrite bind_Ok. split.
  - intros (st & H & K). apply extract_loop in H. destruct H as (P & HP & ->). simpl in K.
    rewrite bind_Ok in K. destruct K as (m & Hm & K). injection K; intros <- <-.
    apply py_max_Ok in Hm. exists P. split; [exact HP|].
    destruct (collect (map (shift sz) P)) as (ND & H).
    split; [exists m; split; [exact Hm|apply counts_range]|].
    split; [apply sorted_strict; exact ND|].
    intros u v. rewrite <- H. apply in_py_sorted.
  - intros (P & HP & (m & Hm & Hc) & S & HE).
    destruct (collect (map (shift sz) P)) as (ND & H).
    exists (endpoints (map (shift sz) P), fold_left add_pair (map (shift sz) P) []).
    split; [apply extract_loop; exists P; auto|].
    rewrite (proj2 (py_max_Ok _ m) Hm). simpl. f_equal. f_equal.
    + symmetry. apply counts_unique. exact Hc.
    + apply strict_unique; [apply sorted_strict; exact ND|exact S|].
      intros (u, v). rewrite in_py_sorted, H, HE. reflexivity.
Qed.

(** ** Dictionaries *)

Section Dict.
  Context {K V : Type} (eqb : K -> K -> bool).
  Hypothesis eqb_sym : forall a b, eqb a b = eqb b a.
  Hypothesis eqb_trans : forall a b c, eqb a b = true -> eqb b c = true -> eqb a c = true.

  Lemma eqb_same a b c : eqb a b = true -> eqb a c = eqb b c.
  Proof.
    intros H. destruct (eqb b c) eqn:E; [eapply eqb_trans; eassumption|].
    destruct (eqb a c) eqn:F; [|reflexivity]. rewrite eqb_sym in H.
    rewrite <- E. symmetry. eapply eqb_trans; eassumption.
  Qed.

  Lemma dget_dset (d : dict K V) k v k' :
    dget eqb (dset eqb d k v) k' = if eqb k k' then Ok v else dget eqb d k'.
  Proof.
    induction d as [|(k0, v0) d IH]; simpl; [reflexivity|].
    destruct (eqb k0 k) eqn:E; simpl.
    - rewrite (eqb_same k0 k k' E). destruct (eqb k k'); reflexivity.
    - destruct (eqb k0 k') eqn:F; [|exact IH].
      destruct (eqb k k') eqn:G; [|reflexivity].
      rewrite eqb_sym in G. rewrite (eqb_trans k0 k' k F G) in E. discriminate.
  Qed.

  (** [dget] of [dict l]: the last pair with that key. *)
  Lemma dget_dict_of (l : list (K * V)) k v :
    dget eqb (dict_of eqb l) k = Ok v <->
    exists l1 k0 l2, l = l1 ++ (k0, v) :: l2 /\ eqb k0 k = true /\
      forall kv, In kv l2 -> eqb (fst kv) k = false.
  Proof.
    induction l as [|(k1, v1) l IH] using rev_ind.
    - simpl. split; [discriminate|]. intros (l1 & k0 & l2 & H & _); destruct l1; discriminate.
    - unfold dict_of. rewrite fold_left_app. simpl. fold (dict_of eqb l). rewrite dget_dset.
      destruct (eqb k1 k) eqn:E.
      + split.
        * intros H; injection H; intros <-. exists l, k1, []. split; [reflexivity|].
          split; [exact E|]. intros kv [].
        * intros (l1 & k0 & l2 & H & H0 & H2).
          destruct l2 as [|q l2] using rev_ind.
          -- apply app_inj_tail in H. destruct H as (_ & H). injection H; intros -> _. reflexivity.
          -- clear IHl2. rewrite app_comm_cons, app_assoc in H. apply app_inj_tail in H.
             destruct H as (_ & <-). specialize (H2 (k1, v1)). simpl in H2.
             rewrite H2 in E; [discriminate|]. apply in_app_iff. right; left; reflexivity.
      + rewrite IH. split.
        * intros (l1 & k0 & l2 & -> & H0 & H2). exists l1, k0, (l2 ++ [(k1, v1)]).
          rewrite <- app_assoc. split; [reflexivity|]. split; [exact H0|].
          intros kv I. apply in_app_iff in I. destruct I as [I|[<-|[]]]; [apply H2; exact I|exact E].
        * intros (l1 & k0 & l2 & H & H0 & H2).
          destruct l2 as [|q l2] using rev_ind.
          -- apply app_inj_tail in H. destruct H as (_ & H). injection H; intros _ ->. congruence.
          -- clear IHl2. rewrite app_comm_cons, app_assoc in H. apply app_inj_tail in H.
             destruct H as (-> & _). exists l1, k0, l2. split; [reflexivity|]. split; [exact H0|].
             intros kv I. apply H2. apply in_app_iff; left; exact I.
  Qed.

  Lemma dget_Raise_gen (d : dict K V) k e : dget eqb d k = Raise e -> e = KeyError.
  Proof.
    induction d as [|(k', v) d IH]; simpl; [congruence|]. destruct (eqb k' k); [discriminate|exact IH].
  Qed.

  Lemma dkeys_dset_new (d : dict K V) k v : (forall k', In k' (dkeys d) -> eqb k' k = false) ->
    dset eqb d k v = d ++ [(k, v)].
  Proof.
    induction d as [|(k', v') d IH]; simpl; intros H; [reflexivity|].
    rewrite (H k' (or_introl eq_refl)). f_equal. apply IH. intros k1 H1. apply H; right; exact H1.
  Qed.
End Dict.

Lemma str_sym a b : String.eqb a b = String.eqb b a.
Proof. apply String.eqb_sym. Qed.
Lemma str_trans a b c : String.eqb a b = true -> String.eqb b c = true -> String.eqb a c = true.
Proof. rewrite !String.eqb_eq. congruence. Qed.
Lemma pair_sym a b : pair_eqb a b = pair_eqb b a.
Proof. unfold pair_eqb. rewrite (Z.eqb_sym (fst a)), (Z.eqb_sym (snd a)). reflexivity. Qed.
Lemma pair_trans a b c : pair_eqb a b = true -> pair_eqb b c = true -> pair_eqb a c = true.
Proof. rewrite !pair_eqb_spec. congruence. Qed.
Lemma key_sym a b : key_eqb a b = key_eqb b a.
Proof.
  destruct a as [p| |s], b as [q| |t]; simpl; try reflexivity; [|apply String.eqb_sym].
  destruct (Qeq_bool p q) eqn:E, (Qeq_bool q p) eqn:F; try reflexivity.
  - apply Qeq_bool_iff in E. symmetry in E. apply Qeq_bool_iff in E. congruence.
  - apply Qeq_bool_iff in F. symmetry in F. apply Qeq_bool_iff in F. congruence.
Qed.
Lemma key_trans a b c : key_eqb a b = true -> key_eqb b c = true -> key_eqb a c = true.
Proof.
  destruct a as [p| |s], b as [q| |t], c as [r| |w]; simpl; try discriminate.
  - rewrite !Qeq_bool_iff. intros -> ->. reflexivity.
  - rewrite !String.eqb_eq. congruence.
Qed.

(** ** Edge features *)

Lemma row_select_Ok df r cols f : row_select df r cols = Ok f ->
  forall c v, dget String.eqb f c = Ok v <-> In c cols /\ has_cell df r c v.
Proof.
  unfold row_select. rewrite bind_Ok. intros (kvs & H & K). injection K; intros <-.
  apply mapM_Ok in H. intros c v. rewrite (dget_dict_of _ str_sym str_trans).
  assert (A : forall c v, In (c, v) kvs <-> In c cols /\ row_get df r c = Ok v).
  { clear c v K. induction H as [|c0 (c1, v1) cols kvs H F IH]; intros c v; simpl; [tauto|].
    rewrite bind_Ok in H. destruct H as (v0 & H & E). injection E; intros <- <-. rewrite IH.
    split.
    - intros [E1|(I & G)]; [injection E1; intros <- <-; auto|auto].
    - intros ([<-|I] & G); [left; congruence|auto]. }
  rewrite <- row_get_Ok. split.
  - intros (l1 & k0 & l2 & E & E0 & _). apply String.eqb_eq in E0. subst k0.
    apply A. rewrite E. apply in_app_iff. right; left; reflexivity.
  - intros (I & G).
    assert (X : exists v', dget String.eqb (dict_of String.eqb kvs) c = Ok v').
    { destruct (dget String.eqb (dict_of String.eqb kvs) c) as [v'|e] eqn:E; [exists v'; reflexivity|].
      exfalso. clear K.
      assert (J : In (c, v) kvs) by (apply A; auto).
      apply in_split in J. destruct J as (l1 & l2 & ->).
      assert (Y : forall l2, exists v', dget String.eqb (dict_of String.eqb (l1 ++ (c, v) :: l2)) c = Ok v').
      { intros l. induction l as [|(k1, v1) l IH] using rev_ind.
        - exists v. unfold dict_of. rewrite fold_left_app. simpl.
          rewrite (dget_dset _ str_sym str_trans), String.eqb_refl. reflexivity.
        - destruct IH as (v' & IH). unfold dict_of in *.
          rewrite app_comm_cons, app_assoc, fold_left_app. simpl.
          rewrite (dget_dset _ str_sym str_trans). destruct (String.eqb k1 c); [exists v1; reflexivity|].
          exists v'; exact IH. }
      destruct (Y l2) as (v' & Z). rewrite Z in E. discriminate. }
    destruct X as (v' & X). pose proof X as X'.
    rewrite (dget_dict_of _ str_sym str_trans) in X'.
    destruct X' as (l1 & k0 & l2 & E & E0 & E2). apply String.eqb_eq in E0. subst k0.
    assert (In (c, v') kvs) as J by (rewrite E; apply in_app_iff; right; left; reflexivity).
    apply A in J. destruct J as (_ & J). rewrite G in J. injection J; intros ->.
    exists l1, c, l2. split; [exact E|]. split; [apply String.eqb_refl|exact E2].
Qed.

Lemma row_select_total df r cols : (forall c, In c cols -> exists v, has_cell df r c v) ->
  exists f, row_select df r cols = Ok f.
Proof.
  intros H. unfold row_select.
  destruct (mapM (fun c => let! v := row_get df r c in Ok (c, v)) cols) as [kvs|e] eqn:E.
  - eexists; reflexivity.
  - exfalso. apply mapM_Raise_inv in E. destruct E as (c & I & E).
    destruct (H c I) as (v & Hv). apply row_get_Ok in Hv. rewrite Hv in E. discriminate.
Qed.

Lemma row_select_Raise df r cols e : row_select df r cols = Raise e -> e = KeyError.
Proof.
  unfold row_select. rewrite bind_Raise. intros [H|(kvs & _ & H)]; [|discriminate].
  apply mapM_Raise_inv in H. destruct H as (c & _ & H). rewrite bind_Raise in H.
  destruct H as [H|(v & _ & H)]; [|discriminate]. apply row_get_Raise in H. exact H.
Qed.

Section Features.
  Variables (df : frame) (cols : list string).
  Let step ef (ie : nat * (Z * Z)) :=
    let! row := py_nth (f_rows df) (Z.of_nat (fst ie)) in
    let! f := row_select df row cols in
    Ok (dset pair_eqb ef (snd ie) f).

  Lemma feature_loop E : forall i ef ef', NoDup E -> (forall e, In e E -> ~ In e (dkeys ef)) ->
    foldM step ef (enumerate_from i E) = Ok ef' ->
    exists fs, ef' = ef ++ combine E fs /\ length fs = length E /\
      forall k f, nth_error fs k = Some f ->
        exists r, nth_error (f_rows df) (i + k) = Some r /\ row_select df r cols = Ok f.
  Proof.
    induction E as [|e E IH]; intros i ef ef' ND HD; simpl.
    - intros H; injection H; intros <-. exists []. rewrite app_nil_r. split; [reflexivity|].
      split; [reflexivity|]. intros k f H1; destruct k; discriminate.
    - rewrite bind_Ok. intros (ef1 & H & K). unfold step in H. simpl in H.
      rewrite py_nth_nat in H. destruct (nth_error (f_rows df) i) as [r|] eqn:Er; [|discriminate].
      simpl in H. rewrite bind_Ok in H. destruct H as (f & Hf & H). injection H; intros <-.
      inversion ND as [|? ? N1 N2]; subst.
      rewrite (dkeys_dset_new pair_eqb) in K.
      2:{ intros k' I. destruct (pair_eqb k' e) eqn:X; [|reflexivity]. apply pair_eqb_spec in X. subst k'.
          exfalso. apply (HD e); [left; reflexivity|exact I]. }
      apply IH in K; [|exact N2|].
      2:{ intros e' I. unfold dkeys. rewrite map_app, in_app_iff. simpl. intros [J|[<-|[]]]; [|auto].
          apply (HD e'); [right; exact I|exact J]. }
      destruct K as (fs & -> & L & F). exists (f :: fs). rewrite <- app_assoc. split; [reflexivity|].
      split; [simpl; lia|]. intros [|k] g G; simpl in G.
      + injection G; intros <-. exists r. rewrite Nat.add_0_r. auto.
      + replace (i + S k)%nat with (S i + k)%nat by lia. apply F; exact G.
  Qed.

  Lemma feature_total E : forall i ef,
    (forall k, (k < length E)%nat -> exists r f, nth_error (f_rows df) (i + k) = Some r /\ row_select df r cols = Ok f) ->
    exists ef', foldM step ef (enumerate_from i E) = Ok ef'.
  Proof.
    induction E as [|e E IH]; intros i ef H; simpl; [eexists; reflexivity|].
    destruct (H O) as (r & f & Hr & Hf); [simpl; lia|]. rewrite Nat.add_0_r in Hr.
    unfold step at 1. simpl. rewrite py_nth_nat, Hr. simpl. rewrite Hf. simpl.
    apply IH. intros k L. replace (S i + k)%nat with (i + S k)%nat by lia. apply H. simpl. lia.
  Qed.

  Lemma feature_raise E : forall i ef e, (i + length E <= length (f_rows df))%nat ->
    foldM step ef (enumerate_from i E) = Raise e -> e = KeyError.
  Proof.
    induction E as [|e0 E IH]; intros i ef e L; simpl; [discriminate|].
    rewrite bind_Raise. simpl in L. unfold step at 1. simpl.
    rewrite py_nth_nat. destruct (nth_error (f_rows df) i) as [r|] eqn:Er.
    2:{ apply nth_error_None in Er. lia. }
    simpl. rewrite bind_Raise. intros [[H|(f & _ & H)]|(ef1 & _ & H)].
    - apply row_select_Raise in H. exact H.
    - discriminate.
    - apply IH in H; [exact H|lia].
  Qed.
End Features.

Lemma dget_pairs E (fs : list fdict) : NoDup E -> length fs = length E ->
  forall k e f, nth_error E k = Some e -> nth_error fs k = Some f ->
  dget pair_eqb (combine E fs) e = Ok f.
Proof.
  revert fs; induction E as [|e0 E IH]; intros [|f0 fs] ND L k e f; simpl in *; try discriminate;
    [destruct k; discriminate|].
  inversion ND as [|? ? N1 N2]; subst.
  destruct k as [|k]; simpl.
  - intros H G; injection H; injection G; intros <- <-.
    rewrite (proj2 (pair_eqb_spec e0 e0) eq_refl). reflexivity.
  - intros H G. destruct (pair_eqb e0 e) eqn:X.
    + apply pair_eqb_spec in X. subst e0. exfalso; apply N1. eapply nth_error_In; exact H.
    + eapply IH; eauto.
Qed.

(** Edge [i] gets the cells of row [i]. *)
Lemma edge_features_Ok df cols E ef : NoDup E -> cols <> [] -> edge_features_of df cols E = Ok ef ->
  dkeys ef = E /\
  forall i e, nth_error E i = Some e ->
    exists r f, nth_error (f_rows df) i = Some r /\ dget pair_eqb ef e = Ok f /\
      forall c v, dget String.eqb f c = Ok v <-> In c cols /\ has_cell df r c v.
Proof.
  intros ND NC H. destruct cols as [|c0 cols]; [congruence|].
  unfold edge_features_of in H. apply feature_loop in H; [|exact ND|intros e _ []].
  destruct H as (fs & -> & L & F). rewrite app_nil_l. split; [apply dkeys_combine; exact L|].
  intros i e He. assert (i < length fs)%nat as Li.
  { rewrite L. apply nth_error_Some. congruence. }
  destruct (nth_error fs i) as [f|] eqn:Ef; [|apply nth_error_None in Ef; lia].
  destruct (F i f Ef) as (r & Hr & Hs). exists r, f. split; [exact Hr|].
  split; [eapply dget_pairs; eauto|]. eapply row_select_Ok; exact Hs.
Qed.

Lemma edge_features_total df cols E : rectangular df -> (length E <= length (f_rows df))%nat ->
  (forall c, In c cols -> In c (f_cols df)) -> exists ef, edge_features_of df cols E = Ok ef.
Proof.
  intros R L C. destruct cols as [|c0 cols]; [eexists; reflexivity|].
  apply feature_total. intros k Hk. simpl.
  destruct (nth_error (f_rows df) k) as [r|] eqn:Er; [|apply nth_error_None in Er; lia].
  destruct (row_select_total df r (c0 :: cols)) as (f & Hf); [|exists r, f; auto].
  intros c Hc. destruct (row_get_present df r c) as (v & Hv); auto.
  - eapply nth_error_In; exact Er.
  - exists v. apply row_get_Ok; exact Hv.
Qed.

Lemma edge_features_missing df cols E c : (0 < length E <= length (f_rows df))%nat ->
  In c cols -> ~ In c (f_cols df) -> edge_features_of df cols E = Raise KeyError.
Proof.
  intros L I N. destruct cols as [|c0 cols]; [destruct I|].
  destruct (edge_features_of df (c0 :: cols) E) as [ef|e] eqn:H.
  - exfalso. unfold edge_features_of in H. destruct E as [|e E]; [simpl in L; lia|].
    simpl in H. rewrite bind_Ok in H. destruct H as (ef1 & H & _).
    rewrite bind_Ok in H. destruct H as (r & _ & H).
    rewrite bind_Ok in H. destruct H as (f & H & _).
    unfold row_select in H. rewrite bind_Ok in H. destruct H as (kvs & H & _).
    apply mapM_Ok in H. apply In_nth_error in I. destruct I as (k & I).
    assert (J : exists kv, (let! v := row_get df r c in Ok (c, v)) = Ok kv).
    { clear - H I. revert k I. induction H as [|x y l l' H F IH]; intros [|k] I; simpl in I; try discriminate.
      - injection I; intros <-. exists y; exact H.
      - eapply IH; exact I. }
    destruct J as (kv & J). rewrite row_get_missing in J by exact N. discriminate.
  - f_equal. unfold edge_features_of in H. eapply feature_raise; [|exact H]. simpl. lia.
Qed.

(** ** Removing columns *)

Lemma drop_columns_Ok df names df' : drop_columns df names = Ok df' ->
  (forall n, In n names -> In n (f_cols df)) /\
  f_cols df' = filter (fun c => negb (py_in String.eqb c names)) (f_cols df).
Proof.
  unfold drop_columns. destruct (forallb _ names) eqn:E; [|discriminate].
  intros H; injection H; intros <-. split; [|reflexivity].
  rewrite forallb_forall in E. intros n I. specialize (E n I).
  apply (py_in_iff String.eqb String.eqb_eq) in E. exact E.
Qed.

Lemma dget_filter (d : fdict) p k : p k = true ->
  dget String.eqb (filter (fun kv => p (fst kv)) d) k = dget String.eqb d k.
Proof.
  intros H. induction d as [|(k', v) d IH]; simpl; [reflexivity|].
  destruct (p k') eqn:E; simpl.
  - destruct (String.eqb k' k); [reflexivity|exact IH].
  - destruct (String.eqb_spec k' k) as [->|N]; [congruence|exact IH].
Qed.

Lemma combine_filter (p : string -> bool) (ks : list string) (vs : list fval) : length vs = length ks ->
  combine (filter p ks) (map snd (filter (fun kv => p (fst kv)) (combine ks vs))) =
  filter (fun kv => p (fst kv)) (combine ks vs).
Proof.
  revert vs; induction ks as [|k ks IH]; intros [|v vs] L; simpl in *; try discriminate; [reflexivity|].
  destruct (p k) eqn:E; simpl; rewrite IH by lia; reflexivity.
Qed.

(** A kept column has the cells it had before. *)
Lemma drop_columns_rows df names df' : rectangular df -> drop_columns df names = Ok df' ->
  rectangular df' /\
  Forall2 (fun r r' => forall c v, ~ In c names -> (has_cell df' r' c v <-> has_cell df r c v))
          (f_rows df) (f_rows df').
Proof.
  intros R H. unfold drop_columns in H. destruct (forallb _ names) eqn:E; [|discriminate].
  injection H; intros <-. clear H E. split.
  - intros r' I. simpl in *. rewrite in_map_iff in I. destruct I as (r & <- & I).
    specialize (R r I). unfold row_dict. rewrite map_length.
    set (p := fun c => negb (py_in String.eqb c names)).
    change (fun kv : string * fval => negb (py_in String.eqb (fst kv) names))
      with (fun kv : string * fval => p (fst kv)).
    rewrite <- (map_length fst). f_equal.
    rewrite <- (dkeys_combine (f_cols df) r R) at 2. clear.
    induction (combine (f_cols df) r) as [|(k, v) l IH]; simpl; [reflexivity|].
    destruct (p k); simpl; rewrite IH; reflexivity.
  - simpl. unfold rectangular in R. induction (f_rows df) as [|r rows IH]; simpl; [constructor|].
    constructor; [|apply IH; intros r' I; apply R; right; exact I].
    intros c v N. rewrite <- !row_get_Ok. unfold row_get, row_dict. simpl.
    rewrite (combine_filter (fun c => negb (py_in String.eqb c names)) (f_cols df) r)
      by (apply R; left; reflexivity).
    rewrite (dget_filter _ (fun c => negb (py_in String.eqb c names))); [reflexivity|].
    rewrite (proj2 (py_in_false String.eqb String.eqb_eq c names) N). reflexivity.
Qed.
