(** * Properties of the edge-table and coordinate readers *)

From Coq Require Import ZArith QArith Ascii String List Bool Lia Permutation Sorted.
From Verif Require Import Py PyFacts Complex ComplexSpec ComplexFacts ComplexFacts2 Builder BuilderSpec
  BuilderFacts Reader ReaderSpec ReaderFacts ExampleData Props_Complex.
Import ListNotations.
Open Scope Z_scope.

(** The pairs of ids of a table as node numbers. *)
Definition numbered (start_index_zero : bool) (P : list (Z * Z)) : list (Z * Z) :=
  if start_index_zero then P else map minus_one P.

Lemma numbered_shift sz P : numbered sz P = map (shift sz) P.
Proof. destruct sz; simpl; [|reflexivity]. symmetry. apply map_id. Qed.

(** The table read_tntp works on: blanks around column names and the border columns removed. *)
Definition tntp_table (df df' : frame) : Prop :=
  (forall n, In n ["~"%string; ";"%string] -> In n (map py_strip (f_cols df))) /\
  f_cols df' = filter (fun c => negb (String.eqb c "~" || String.eqb c ";")) (map py_strip (f_cols df)) /\
  rectangular df' /\
  Forall2 (fun r r' => forall c v, c <> "~"%string -> c <> ";"%string ->
             (has_cell df' r' c v <->
              exists k, first_at (map py_strip (f_cols df)) c k /\ nth_error r k = Some v))
          (f_rows df) (f_rows df').

Lemma Forall2_imp {A B} (R R' : A -> B -> Prop) l l' :
  (forall x y, R x y -> R' x y) -> Forall2 R l l' -> Forall2 R' l l'.
Proof. intros H F. induction F; constructor; auto. Qed.

Lemma Forall2_length {A B} (R : A -> B -> Prop) l l' : Forall2 R l l' -> length l = length l'.
Proof. induction 1; simpl; congruence. Qed.

Lemma tntp_drop df df' : rectangular df ->
  drop_columns (strip_columns df) ["~"%string; ";"%string] = Ok df' -> tntp_table df df'.
Proof.
  intros R H. assert (R' : rectangular (strip_columns df)).
  { intros r I. simpl in *. rewrite map_length. apply R; exact I. }
  destruct (drop_columns_Ok _ _ _ H) as (H1 & H2).
  destruct (drop_columns_rows _ _ _ R' H) as (H3 & H4).
  split; [exact H1|]. split.
  - rewrite H2. simpl. apply filter_ext. intros c. rewrite (str_sym c "~"), (str_sym c ";").
    rewrite orb_false_r. reflexivity.
  - split; [exact H3|]. eapply Forall2_imp; [|exact H4].
    intros r r' K c v N1 N2. apply K. intros [I|[I|[]]]; auto.
Qed.

(** [t] is [s] without the white space around it. *)
Definition blank (c : ascii) : Prop := In c (map ascii_of_nat [9; 10; 11; 12; 13; 28; 29; 30; 31; 32]%nat).
Definition trimmed_to (s t : string) : Prop :=
  exists pre post, list_ascii_of_string s = pre ++ list_ascii_of_string t ++ post /\ Forall blank pre /\ Forall blank post /\
    (forall c m, list_ascii_of_string t = c :: m -> ~ blank c) /\
    (forall c m, list_ascii_of_string t = m ++ [c] -> ~ blank c).

Lemma is_blank_iff c : is_blank c = true <-> blank c.
Proof. destruct c as [[] [] [] [] [] [] [] []]; vm_compute; intuition congruence. Qed.
Lemma lstrip_app pre l : Forall blank pre -> lstrip (pre ++ l) = lstrip l.
Proof. induction 1 as [|c pre H _ IH]; simpl; [reflexivity|]. rewrite (proj2 (is_blank_iff c) H). exact IH. Qed.
Lemma lstrip_split l : exists pre, l = pre ++ lstrip l /\ Forall blank pre /\ forall c m, lstrip l = c :: m -> ~ blank c.
Proof.
  induction l as [|a l (pre & H1 & H2 & H3)]; simpl; [exists []; repeat split; [constructor|discriminate]|].
  destruct (is_blank a) eqn:E.
  - exists (a :: pre). split; [simpl; congruence|]. split; [constructor; [apply is_blank_iff; exact E|exact H2]|exact H3].
  - exists []. split; [reflexivity|]. split; [constructor|]. intros c m K. inversion K; subst.
    rewrite <- is_blank_iff. congruence.
Qed.
Lemma lstrip_id l : (forall c m, l = c :: m -> ~ blank c) -> lstrip l = l.
Proof.
  destruct l as [|c m]; intros H; [reflexivity|]. specialize (H c m eq_refl). rewrite <- is_blank_iff in H. simpl.
  destruct (is_blank c); [congruence|reflexivity].
Qed.
Lemma Forall_blank_rev l : Forall blank l -> Forall blank (rev l).
Proof. rewrite !Forall_forall. intros H x I. apply H, in_rev, I. Qed.

(** Blanks around column names do not matter: a column is addressed by its name without them. *)
Theorem C51_column_names : forall df, Forall2 trimmed_to (f_cols df) (f_cols (strip_columns df)) /\
  (forall names, Forall2 trimmed_to (f_cols df) names -> names = f_cols (strip_columns df)).
Proof.
  assert (EX : forall s, trimmed_to s (py_strip s)).
  { intros s. unfold trimmed_to, py_strip. rewrite list_ascii_of_string_of_list_ascii.
    destruct (lstrip_split (list_ascii_of_string s)) as (pre & H1 & H2 & H3).
    set (l := lstrip (list_ascii_of_string s)) in *.
    destruct (lstrip_split (rev l)) as (post & K1 & K2 & K3).
    assert (L : l = rev (lstrip (rev l)) ++ rev post) by (rewrite <- rev_app_distr, <- K1, rev_involutive; reflexivity).
    exists pre, (rev post). split; [rewrite <- L; exact H1|]. split; [exact H2|]. split; [apply Forall_blank_rev; exact K2|].
    split; intros c m Q.
    - apply (H3 c (m ++ rev post)). rewrite L, Q. reflexivity.
    - apply (K3 c (rev m)). rewrite <- (rev_involutive (lstrip (rev l))), Q, rev_app_distr. reflexivity. }
  assert (UN : forall s t, trimmed_to s t -> py_strip s = t).
  { intros s t (pre & post & H1 & H2 & H3 & H4 & H5). unfold py_strip. rewrite H1, lstrip_app by exact H2.
    rewrite <- (string_of_list_ascii_of_string t) at 2. f_equal.
    destruct (list_ascii_of_string t) as [|c m] eqn:T.
    - rewrite <- (app_nil_r ([] ++ post)), lstrip_app by exact H3. reflexivity.
    - rewrite (lstrip_id ((c :: m) ++ post)); [|intros c' m' Q; inversion Q; subst; exact (H4 _ _ eq_refl)].
      rewrite rev_app_distr, lstrip_app by (apply Forall_blank_rev; exact H3).
      rewrite lstrip_id, rev_involutive; [reflexivity|]. intros c' m' Q. apply (H5 c' (rev m')).
      rewrite <- (rev_involutive (c :: m)), Q. reflexivity. }
  intros df. simpl. split.
  - induction (f_cols df); simpl; constructor; auto.
  - intros names H. induction H as [|s t l l' K _ IH]; simpl; [reflexivity|]. rewrite (UN _ _ K), IH. reflexivity.
Qed.
Print Assumptions C51_column_names.

Lemma tntp_total df : (forall n, In n ["~"%string; ";"%string] -> In n (map py_strip (f_cols df))) ->
  exists df', drop_columns (strip_columns df) ["~"%string; ";"%string] = Ok df'.
Proof.
  intros H. unfold drop_columns.
  assert (forallb (fun c => py_in String.eqb c (f_cols (strip_columns df))) ["~"%string; ";"%string] = true) as ->.
  { rewrite forallb_forall. intros c I. apply (py_in_iff String.eqb String.eqb_eq). apply H; exact I. }
  eexists; reflexivity.
Qed.

(** ** C51: what is extracted from an edge table *)

Lemma network_NoDup P nodes E : network_of P nodes E -> NoDup E.
Proof.
  intros (_ & S & _). induction S as [|a l S IH F]; constructor; [|exact IH].
  intros I. rewrite Forall_forall in F. apply (pair_lt_irrefl a). apply F; exact I.
Qed.

Lemma first_direction_fun P u v : first_direction P u v -> first_direction P v u -> u = v.
Proof.
  induction P as [|p P IH] using rev_ind.
  - intros (P1 & P2 & H & _); destruct P1; discriminate.
  - rewrite !first_direction_snoc. intros [H|(H & K)] [H'|(H' & K')].
    + auto.
    + exfalso. apply K'. apply first_direction_linked. right; exact H.
    + exfalso. apply K. apply first_direction_linked. right; exact H'.
    + congruence.
Qed.

Lemma collected_length P0 : forall E0, (length (fold_left add_pair P0 E0) <= length E0 + length P0)%nat.
Proof.
  induction P0 as [|p P0 IH]; intros E0; simpl; [lia|].
  specialize (IH (add_pair E0 p)). unfold add_pair in *.
  destruct (has_edge E0 (fst p) (snd p)); [lia|]. rewrite app_length in IH. simpl in IH. lia.
Qed.

Lemma network_length P nodes E : network_of P nodes E -> (length E <= length P)%nat.
Proof.
  intros H. pose proof (network_NoDup _ _ _ H) as ND. destruct H as (_ & _ & H).
  destruct (collect P) as (_ & K). pose proof (collected_length P []) as L. simpl in L.
  eapply Nat.le_trans; [|exact L]. apply NoDup_incl_length; [exact ND|].
  intros (u, v) I. apply K, H, I.
Qed.

(** The meaning of [network_of]: the edge list is ascending, lists no pair twice in either direction,
    and joins exactly the pairs that occur in the table. *)
Theorem C51_network_meaning :
  forall P nodes E, network_of P nodes E ->
  NoDup E /\ (forall u v, linked E u v <-> linked P u v) /\
  (forall u v, In (u, v) E -> In (v, u) E -> u = v) /\
  (forall x, In x (endpoints P) -> 0 <= x -> In x nodes) /\
  forall nodes' E', network_of P nodes' E' -> nodes' = nodes /\ E' = E.
Proof.
  intros P nodes E H. split; [eapply network_NoDup; exact H|].
  destruct H as ((m & Hm & Hc) & S & H). split; [|split; [|split]].
  - intros u v. rewrite (first_direction_linked P). unfold linked. rewrite !H. reflexivity.
  - intros u v. rewrite !H. apply first_direction_fun.
  - intros x I X. rewrite (counts_unique _ _ Hc). unfold py_range. apply in_map_iff.
    exists (Z.to_nat x). split; [lia|]. apply in_seq. destruct Hm as (_ & Hm). specialize (Hm x I). lia.
  - intros nodes' E' ((m' & Hm' & Hc') & S' & H').
    assert (m' = m) as ->.
    { destruct Hm as (I & J), Hm' as (I' & J'). apply Z.le_antisymm; [apply J|apply J']; assumption. }
    split; [rewrite (counts_unique _ _ Hc), (counts_unique _ _ Hc'); reflexivity|].
    apply strict_unique; [exact S'|exact S|]. intros (u, v). rewrite H, H'. reflexivity.
Qed.
Print Assumptions C51_network_meaning.

Theorem C51_read_csv :
  forall atoi df src dest cols sz, rectangular df -> (forall c, In c cols -> In c (f_cols df)) ->
  (forall b, read_csv atoi (Ok df) src dest (Some cols) sz = Ok b ->
     exists P, table_ids atoi df src dest P /\ network_of (numbered sz P) (b_nodes b) (b_edges b)) /\
  (forall P, table_ids atoi df src dest P -> P <> [] ->
     exists b, read_csv atoi (Ok df) src dest (Some cols) sz = Ok b).
Proof.
  intros atoi df src dest cols sz R C. unfold read_csv. simpl. split.
  - intros b. rewrite bind_Ok. intros ((nodes, E) & H & K). apply extract_spec in H.
    rewrite bind_Ok in K. destruct K as (ef & _ & K). injection K; intros <-. simpl.
    destruct H as (P & HP & HN). exists P. rewrite numbered_shift. auto.
  - intros P HP NP.
    assert (X : exists nodes E, extract_nodes_edges atoi df src dest sz = Ok (nodes, E)).
    { unfold extract_nodes_edges.
      rewrite (proj2 (extract_loop atoi df src dest sz (f_rows df) ([], []) _) (ex_intro _ P (conj HP eq_refl))).
      simpl. destruct P as [|p P]; [congruence|]. simpl. eexists _, _. reflexivity. }
    destruct X as (nodes & E & X). rewrite X. simpl.
    apply extract_spec in X. destruct X as (P' & HP' & HN).
    assert (L : (length E <= length (f_rows df))%nat).
    { apply network_length in HN. rewrite map_length in HN.
      unfold table_ids in HP'. apply Forall2_length in HP'. lia. }
    destruct (edge_features_total df cols E R L C) as (ef & Hef). rewrite Hef. simpl.
    eexists; reflexivity.
Qed.
Print Assumptions C51_read_csv.

Theorem C51_read_tntp :
  forall atoi df src dest sz, rectangular df ->
  ~ In src ["~"%string; ";"%string] -> ~ In dest ["~"%string; ";"%string] ->
  (forall b, read_tntp atoi (Ok df) src dest sz = Ok b ->
     exists df' P, tntp_table df df' /\ table_ids atoi df' src dest P /\
       network_of (numbered sz P) (b_nodes b) (b_edges b)) /\
  (forall df' P, tntp_table df df' -> table_ids atoi df' src dest P -> P <> [] ->
     exists b, read_tntp atoi (Ok df) src dest sz = Ok b).
Proof.
  intros atoi df src dest sz R Ns Nd. unfold read_tntp. cbn [bind]. split.
  - intros b. rewrite bind_Ok. intros (df' & HD & K). rewrite bind_Ok in K.
    destruct K as ((nodes, E) & H & K). apply extract_spec in H.
    rewrite bind_Ok in K. destruct K as (ef & _ & K). injection K; intros <-. simpl.
    destruct H as (P & HP & HN). exists df', P. rewrite numbered_shift.
    split; [apply tntp_drop; assumption|]. auto.
  - intros df1 P HT HP NP.
    destruct (tntp_total df (proj1 HT)) as (df' & HD). rewrite HD. cbn [bind].
    pose proof (tntp_drop _ _ R HD) as HT'.
    assert (HP' : table_ids atoi df' src dest P).
    { destruct HT as (_ & _ & _ & F1), HT' as (_ & _ & _ & F2). unfold table_ids in *.
      clear - F1 F2 HP Ns Nd.
      revert P HP F2. generalize (f_rows df'). induction F1 as [|r r1 l l1 H F1 IH]; intros l' P HP F2.
      - inversion F2; subst. inversion HP; subst. constructor.
      - inversion F2 as [|? r2 ? l2 G F3]; subst. inversion HP as [|? p ? P' K HP']; subst.
        constructor; [|apply IH; assumption].
        destruct K as (a & b & Ha & Da & Hb & Db). exists a, b.
        assert (Q1 : src <> "~"%string /\ src <> ";"%string) by (simpl in Ns; split; congruence || intros ->; tauto).
        assert (Q2 : dest <> "~"%string /\ dest <> ";"%string) by (simpl in Nd; split; congruence || intros ->; tauto).
        rewrite H in Ha, Hb by tauto. rewrite !G by tauto. auto. }
    assert (X : exists nodes E, extract_nodes_edges atoi df' src dest sz = Ok (nodes, E)).
    { unfold extract_nodes_edges.
      rewrite (proj2 (extract_loop atoi df' src dest sz (f_rows df') ([], []) _) (ex_intro _ P (conj HP' eq_refl))).
      simpl. destruct P as [|p P]; [congruence|]. simpl. eexists _, _. reflexivity. }
    destruct X as (nodes & E & X). rewrite X. cbn [bind].
    apply extract_spec in X. destruct X as (P' & HP2 & HN).
    assert (L : (length E <= length (f_rows df'))%nat).
    { apply network_length in HN. rewrite map_length in HN.
      unfold table_ids in HP2. apply Forall2_length in HP2. lia. }
    destruct HT' as (_ & _ & R' & _).
    match goal with |- context [edge_features_of df' ?cols E] =>
      destruct (edge_features_total df' cols E R' L) as (ef & Hef) end.
    + intros c I. apply filter_In in I. tauto.
    + rewrite Hef. cbn [bind]. eexists; reflexivity.
Qed.
Print Assumptions C51_read_tntp.

Lemma table_ids_exists atoi df src dest sz : rectangular df -> In src (f_cols df) -> In dest (f_cols df) ->
  forall rows, (forall r, In r rows -> In r (f_rows df)) ->
  forall st e, foldM (extract_step atoi df src dest sz) st rows = Raise e -> e = ValueError.
Proof.
  intros R Cs Cd. induction rows as [|r rows IH]; intros I (N, E) e; simpl; [discriminate|].
  rewrite bind_Raise. intros [H|(st1 & _ & H)].
  - destruct (row_get_present df r src R (I r (or_introl eq_refl)) Cs) as (a & Ha).
    destruct (row_get_present df r dest R (I r (or_introl eq_refl)) Cd) as (b & Hb).
    rewrite Ha in H; simpl in H.
    rewrite bind_Raise in H. destruct H as [H|(u & _ & H)]; [eapply py_int_Raise; exact H|].
    rewrite Hb in H; simpl in H.
    rewrite bind_Raise in H. destruct H as [H|(v & _ & H)]; [eapply py_int_Raise; exact H|].
    match type of H with (if ?b then _ else _) = _ => destruct b end; discriminate.
  - apply IH in H; [exact H|]. intros r' I'. apply I; right; exact I'.
Qed.

(** Failures: with both id columns present the only failure of the extraction is a ValueError (no
    rows, or a cell that is not a number); a missing source column is a KeyError. *)
Theorem C51_rejections :
  forall atoi df src dest cols sz, rectangular df ->
  (f_rows df = [] -> read_csv atoi (Ok df) src dest cols sz = Raise ValueError) /\
  (f_rows df <> [] -> ~ In src (f_cols df) -> read_csv atoi (Ok df) src dest cols sz = Raise KeyError) /\
  (In src (f_cols df) -> In dest (f_cols df) -> ~ (exists P, table_ids atoi df src dest P) ->
     read_csv atoi (Ok df) src dest cols sz = Raise ValueError) /\
  (forall e, read_csv atoi (Raise e) src dest cols sz = Raise e).
Proof.
  intros atoi df src dest cols sz R. split; [|split; [|split]].
  - intros H. unfold read_csv, extract_nodes_edges. simpl. rewrite H. reflexivity.
  - intros H N. unfold read_csv, extract_nodes_edges. simpl.
    destruct (f_rows df) as [|r rows]; [congruence|]. simpl.
    rewrite row_get_missing by exact N. reflexivity.
  - intros Cs Cd NP. unfold read_csv, extract_nodes_edges. simpl.
    destruct (foldM (extract_step atoi df src dest sz) ([], []) (f_rows df)) as [st|e] eqn:E.
    + exfalso. apply extract_loop in E. destruct E as (P & HP & _). apply NP. exists P; exact HP.
    + simpl. f_equal. eapply (table_ids_exists atoi df src dest sz R Cs Cd); [|exact E]. auto.
  - reflexivity.
Qed.
Print Assumptions C51_rejections.

(** The bundled file pytspl/data/paper_data/edges.csv. *)
Definition num (z : Z) : fval := FNum (inject_Z z).
Definition paper_row (u v d : Z) : list fval := [num u; num v; FStr "Undirected"; num d; num 10].
Definition paper_table : frame :=
  mkFrame ["Source"; "Target"; "Type"; "Distance"; "Capacity"]%string
    [paper_row 0 1 1; paper_row 1 2 1; paper_row 0 2 1; paper_row 2 3 1; paper_row 2 5 10;
     paper_row 0 3 10; paper_row 3 4 10; paper_row 4 5 1; paper_row 5 6 1; paper_row 4 6 1].
Definition no_numerals : string -> option Z := fun _ => None.

Lemma paper_rectangular : rectangular paper_table.
Proof. intros r H. simpl in H. repeat (destruct H as [<-|H]; [reflexivity|]). destruct H. Qed.

Lemma row_ids_run atoi df src dest r p :
  (let! a := row_get df r src in let! u := py_int atoi a in
   let! b := row_get df r dest in let! v := py_int atoi b in Ok (u, v)) = Ok p ->
  row_ids atoi df src dest r p.
Proof.
  rewrite bind_Ok. intros (a & Ha & H). rewrite bind_Ok in H. destruct H as (u & Hu & H).
  rewrite bind_Ok in H. destruct H as (b & Hb & H). rewrite bind_Ok in H. destruct H as (v & Hv & H).
  injection H; intros <-. exists a, b. rewrite <- !row_get_Ok, <- !py_int_Ok. auto.
Qed.

Lemma paper_ids : table_ids no_numerals paper_table "Source" "Target"
  [(0,1); (1,2); (0,2); (2,3); (2,5); (0,3); (3,4); (4,5); (5,6); (4,6)].
Proof.
  unfold table_ids. simpl. repeat (constructor; [apply row_ids_run; vm_compute; reflexivity|]).
  constructor.
Qed.

Example C51_example :
  exists b, read_csv no_numerals (Ok paper_table) "Source" "Target" (Some ["Distance"%string]) true = Ok b /\
    b_nodes b = paper_nodes /\ b_edges b = paper_edges.
Proof. eexists. split; [vm_compute; reflexivity|]. split; reflexivity. Qed.

(** pytspl/data/transportation_networks/test_dataset (three rows, three of its columns). *)
Definition tntp_example : frame :=
  mkFrame ["~"; " init_node "; "term_node"; "capacity"; ";"]%string
    [[FNaN; num 1; num 2; num 25900; FStr ";"];
     [FNaN; num 1; num 3; num 23403; FStr ";"];
     [FNaN; num 2; num 1; num 25900; FStr ";"];
     [FNaN; num 3; num 2; num 4958; FStr ";"]].

Example C51_tntp_example :
  exists b, read_tntp no_numerals (Ok tntp_example) "init_node" "term_node" false = Ok b /\
    rectangular tntp_example /\ b_nodes b = [0; 1; 2] /\ b_edges b = [(0,1); (0,2); (2,1)].
Proof.
  eexists. split; [vm_compute; reflexivity|]. split; [|split; reflexivity].
  intros r H. simpl in H. repeat (destruct H as [<-|H]; [reflexivity|]). destruct H.
Qed.

(** ** C52: the order of the rows *)

Lemma endpoints_linked P x : In x (endpoints P) <-> exists y, linked P x y.
Proof.
  unfold endpoints, linked. rewrite in_flat_map. split.
  - intros ((u, v) & I & J). simpl in J. destruct J as [<-|[<-|[]]]; [exists v|exists u]; auto.
  - intros (y & [I|I]); [exists (x, y)|exists (y, x)]; split; simpl; auto.
Qed.

Theorem C52_row_order :
  forall atoi df df' src dest cols sz b,
  rectangular df -> (forall c, In c cols -> In c (f_cols df)) ->
  f_cols df' = f_cols df -> Permutation (f_rows df) (f_rows df') ->
  read_csv atoi (Ok df) src dest (Some cols) sz = Ok b ->
  exists b', read_csv atoi (Ok df') src dest (Some cols) sz = Ok b' /\
    b_nodes b' = b_nodes b /\ (forall u v, linked (b_edges b') u v <-> linked (b_edges b) u v) /\
    length (b_edges b') = length (b_edges b).
Proof.
  intros atoi df df' src dest cols sz b R C EC PR H.
  destruct (C51_read_csv atoi df src dest cols sz R C) as (HA & _).
  destruct (HA b H) as (P & HP & HN). clear HA.
  assert (R' : rectangular df').
  { intros r I. rewrite EC. apply R. eapply Permutation_in; [symmetry; exact PR|exact I]. }
  assert (C' : forall c, In c cols -> In c (f_cols df')) by (rewrite EC; exact C).
  assert (X : exists P', Permutation P P' /\ table_ids atoi df' src dest P').
  { unfold table_ids in *. assert (Q : forall r p, row_ids atoi df src dest r p -> row_ids atoi df' src dest r p).
    { unfold row_ids, has_cell. rewrite EC. auto. }
    apply (Forall2_imp _ _ _ _ Q) in HP. clear - PR HP.
    revert P HP. induction PR as [|r l l' PR IH|r1 r2 l|l l' l'' PR1 IH1 PR2 IH2]; intros P HP.
    - inversion HP; subst. exists []. split; constructor.
    - inversion HP as [|? p ? P0 K HP']; subst. destruct (IH _ HP') as (P' & Q1 & Q2).
      exists (p :: P'). split; constructor; assumption.
    - inversion HP as [|? p ? P0 K HP']; subst. inversion HP' as [|? p2 ? P2 K2 HP2]; subst.
      exists (p2 :: p :: P2). split; [constructor|]. repeat constructor; assumption.
    - destruct (IH1 _ HP) as (P1 & Q1 & Q2). destruct (IH2 _ Q2) as (P2 & Q3 & Q4).
      exists P2. split; [eapply Permutation_trans; eassumption|exact Q4]. }
  destruct X as (P' & PP & HP').
  assert (NP : P' <> []).
  { intros ->. symmetry in PP. apply Permutation_nil in PP. subst P.
    destruct HN as ((m & (I & _) & _) & _). destruct sz; destruct I. }
  destruct (C51_read_csv atoi df' src dest cols sz R' C') as (HA & HB).
  destruct (HB P' HP' NP) as (b' & Hb'). exists b'. split; [exact Hb'|].
  destruct (HA b' Hb') as (P2 & HP2 & HN').
  assert (P2 = P') as ->.
  { unfold table_ids in *. clear - HP' HP2. revert P2 HP2.
    induction HP' as [|r p l l' K HP' IH]; intros P2 HP2; inversion HP2 as [|? p2 ? P3 K2 HP3]; subst; [reflexivity|].
    f_equal; [|apply IH; assumption]. destruct K as (a & b & Ha & Da & Hb & Db), K2 as (a' & b' & Ha' & Da' & Hb' & Db').
    rewrite <- row_get_Ok in *. rewrite <- py_int_Ok in *.
    rewrite Ha in Ha'; injection Ha'; intros <-. rewrite Hb in Hb'; injection Hb'; intros <-.
    rewrite Da in Da'; injection Da'. rewrite Db in Db'; injection Db'. destruct p, p2; simpl; congruence. }
  assert (L : forall u v, linked (numbered sz P') u v <-> linked (numbered sz P) u v).
  { assert (Q : Permutation (numbered sz P) (numbered sz P')).
    { destruct sz; [exact PP|]. apply Permutation_map; exact PP. }
    intros u v. unfold linked. split; (intros [I|I]; [left|right]);
      (eapply Permutation_in; [|exact I]); [symmetry|symmetry| |]; exact Q. }
  destruct (C51_network_meaning _ _ _ HN) as (N1 & L1 & A1 & _).
  destruct (C51_network_meaning _ _ _ HN') as (N2 & L2 & A2 & _).
  split; [|split].
  - destruct HN as ((m & Hm & Hc) & _), HN' as ((m' & Hm' & Hc') & _).
    assert (m' = m) as ->.
    { destruct Hm as (I & J), Hm' as (I' & J'). rewrite endpoints_linked in I, I'.
      apply Z.le_antisymm.
      - apply J. rewrite endpoints_linked. destruct I' as (y & I'). exists y. apply L; exact I'.
      - apply J'. rewrite endpoints_linked. destruct I as (y & I). exists y. apply L; exact I. }
    rewrite (counts_unique _ _ Hc), (counts_unique _ _ Hc'). reflexivity.
  - intros u v. rewrite L1, L2. apply L.
  - assert (M : forall E E', NoDup E -> (forall u v, In (u, v) E -> In (v, u) E -> u = v) ->
      (forall u v, linked E u v -> linked E' u v) -> (length E <= length E')%nat).
    { clear. intros E E' ND A L.
      set (g := fun p : Z * Z => if py_in pair_eqb p E' then p else (snd p, fst p)).
      rewrite <- (map_length g). apply NoDup_incl_length.
      - assert (INJ : forall p q, In p E -> In q E -> g p = g q -> p = q).
        { intros (u, v) (u', v') I J. unfold g. simpl.
          destruct (py_in pair_eqb (u, v) E'), (py_in pair_eqb (u', v') E'); intros K; try congruence.
          - injection K; intros -> ->. assert (u' = v') by (apply A; assumption). congruence.
          - injection K; intros <- <-. assert (v = u) by (apply A; assumption). congruence. }
        clear A L. revert INJ. induction ND as [|p E N ND IH]; intros INJ; simpl; constructor.
        + intros I. apply in_map_iff in I. destruct I as (q & K & I).
          apply INJ in K; [subst; auto|right; exact I|left; reflexivity].
        + apply IH. intros p' q' I J. apply INJ; right; assumption.
      - intros q I. apply in_map_iff in I. destruct I as ((u, v) & <- & I). unfold g. simpl.
        destruct (py_in pair_eqb (u, v) E') eqn:X; [apply pyin_pair; exact X|].
        assert (K : linked E' u v) by (apply L; left; exact I).
        destruct K as [K|K]; [|exact K]. apply pyin_pair in K. congruence. }
    apply Nat.le_antisymm; apply M; try assumption; intros u v; rewrite L1, L2; apply L.
Qed.
Print Assumptions C52_row_order.

Example C52_example :
  exists b b', let rows := f_rows paper_table in
    read_csv no_numerals (Ok (mkFrame (f_cols paper_table) (rev rows))) "Source" "Target" (Some []) true = Ok b /\
    read_csv no_numerals (Ok paper_table) "Source" "Target" (Some []) true = Ok b' /\
    Permutation rows (rev rows) /\ b_edges b = b_edges b'.
Proof.
  do 2 eexists. split; [vm_compute; reflexivity|]. split; [vm_compute; reflexivity|].
  split; [apply Permutation_rev|reflexivity].
Qed.

(** ** C53: tables counted from one *)

(** [df'] holds the ids of [df] decremented by one, row by row. *)
Definition decremented (atoi : string -> option Z) (src dest : string) (df df' : frame) : Prop :=
  Forall2 (fun r r' => forall p, row_ids atoi df src dest r p <-> row_ids atoi df' src dest r' (minus_one p))
          (f_rows df) (f_rows df').

Theorem C53_one_based_is_decremented :
  forall atoi df df' src dest, decremented atoi src dest df df' ->
  forall nodes E,
  (exists b, read_csv atoi (Ok df) src dest (Some []) false = Ok b /\ b_nodes b = nodes /\ b_edges b = E) <->
  (exists b, read_csv atoi (Ok df') src dest (Some []) true = Ok b /\ b_nodes b = nodes /\ b_edges b = E).
Proof.
  intros atoi df df' src dest D nodes E.
  assert (X : extract_nodes_edges atoi df src dest false = Ok (nodes, E) <->
              extract_nodes_edges atoi df' src dest true = Ok (nodes, E)).
  { rewrite !extract_spec. split.
    - intros (P & HP & HN). exists (map minus_one P). split.
      + unfold table_ids in *. clear - D HP. unfold decremented in D. revert P HP.
        induction D as [|r r' l l' K D IH]; intros P HP; inversion HP as [|? p ? P' K' HP']; subst; simpl; constructor.
        * apply K; exact K'.
        * apply IH; exact HP'.
      + replace (map (shift true) (map minus_one P)) with (map (shift false) P); [exact HN|].
        rewrite map_map. apply map_ext. reflexivity.
    - intros (P & HP & HN). exists (map (fun p => (fst p + 1, snd p + 1)) P). split.
      + unfold table_ids in *. clear - D HP. unfold decremented in D. revert P HP.
        induction D as [|r r' l l' K D IH]; intros P HP; inversion HP as [|? p ? P' K' HP']; subst; simpl; constructor.
        * apply K. unfold minus_one; simpl. rewrite !Z.add_simpl_r. destruct p; exact K'.
        * apply IH; exact HP'.
      + replace (map (shift false) (map (fun p => (fst p + 1, snd p + 1)) P)) with (map (shift true) P); [exact HN|].
        rewrite map_map. apply map_ext. intros (u, v). unfold shift, minus_one; simpl.
        rewrite !Z.add_simpl_r. reflexivity. }
  unfold read_csv; cbn [bind edge_features_of]. split.
  - intros (b & H & <- & <-). rewrite bind_Ok in H. destruct H as ((nodes', E') & H & K).
    injection K; intros <-. simpl in *. apply X in H. rewrite H. simpl. eexists; auto.
  - intros (b & H & <- & <-). rewrite bind_Ok in H. destruct H as ((nodes', E') & H & K).
    injection K; intros <-. simpl in *. apply X in H. rewrite H. simpl. eexists; auto.
Qed.
Print Assumptions C53_one_based_is_decremented.

(** An id 0 in a table counted from one becomes the endpoint -1, which the complex takes for its last
    node. *)
Theorem C53_zero_id :
  forall atoi df src dest cols b P v,
  rectangular df -> (forall c, In c cols -> In c (f_cols df)) ->
  read_csv atoi (Ok df) src dest (Some cols) false = Ok b ->
  table_ids atoi df src dest P -> In (0, v) P -> 0 < v ->
  linked (b_edges b) (-1) (v - 1) /\
  forall T nf ef sc, make_sc (b_nodes b) (b_edges b) T nf ef = Ok sc ->
    exists j B1, incidence_matrix sc 1 = Ok (Csr B1) /\ (1 <= sh0 B1)%nat /\
      (nth_error (b_edges b) j = Some (-1, v - 1) \/ nth_error (b_edges b) j = Some (v - 1, -1)) /\
      at2 B1 (sh0 B1 - 1) j <> 0.
Proof.
  intros atoi df src dest cols b P v R C H HP I Hv.
  destruct (C51_read_csv atoi df src dest cols false R C) as (HA & _).
  destruct (HA b H) as (P' & HP' & HN).
  assert (P' = P) as ->.
  { unfold table_ids in *. clear - HP' HP. revert P HP.
    induction HP' as [|r p l l' K HP' IH]; intros P2 HP2; inversion HP2 as [|? p2 ? P3 K2 HP3]; subst; [reflexivity|].
    f_equal; [|apply IH; assumption]. destruct K as (a & b & Ha & Da & Hb & Db), K2 as (a' & b' & Ha' & Da' & Hb' & Db').
    rewrite <- row_get_Ok in *. rewrite <- py_int_Ok in *.
    rewrite Ha in Ha'; injection Ha'; intros <-. rewrite Hb in Hb'; injection Hb'; intros <-.
    rewrite Da in Da'; injection Da'. rewrite Db in Db'; injection Db'. destruct p, p2; simpl; congruence. }
  destruct (C51_network_meaning _ _ _ HN) as (_ & L & _ & M & _).
  assert (K : linked (numbered false P) (-1) (v - 1)).
  { left. simpl. apply in_map_iff. exists (0, v). split; [reflexivity|exact I]. }
  split; [apply L; exact K|].
  intros T nf ef sc HS.
  destruct (C01_incidence_entries _ _ _ _ _ _ HS) as (B1 & HB & S0 & S1 & HE).
  assert (IN : In (v - 1) (b_nodes b)).
  { apply M; [|lia]. apply endpoints_linked. exists (-1). apply linked_sym. exact K. }
  assert (LN : (1 <= length (b_nodes b))%nat) by (destruct (b_nodes b); [destruct IN|simpl; lia]).
  assert (AD : addresses (length (b_nodes b)) (-1) (length (b_nodes b) - 1)).
  { split; [lia|]. right. lia. }
  apply L in K. destruct K as [K|K]; apply In_nth_error in K; destruct K as (j & K); exists j, B1;
    (split; [exact HB|]; split; [lia|]; split; [auto|]); rewrite S0;
    destruct (HE j _ _ (length (b_nodes b) - 1)%nat K ltac:(lia)) as (E1 & E2 & E3).
  - destruct (Z.eq_dec (at2 B1 (length (b_nodes b) - 1) j) 0) as [Z0|NZ]; [|exact NZ].
    assert (DEC : addresses (length (b_nodes b)) (v - 1) (length (b_nodes b) - 1) \/
                  ~ addresses (length (b_nodes b)) (v - 1) (length (b_nodes b) - 1)).
    { unfold addresses. lia. }
    destruct DEC as [D|D]; [rewrite (E1 D)|rewrite (E2 AD D)]; discriminate.
  - rewrite (E1 AD). discriminate.
Qed.
Print Assumptions C53_zero_id.

Definition ids_table (P : list (Z * Z)) : frame :=
  mkFrame ["a"; "b"]%string (map (fun p => [num (fst p); num (snd p)]) P).

Lemma ids_rectangular P : rectangular (ids_table P).
Proof. intros r I. simpl in *. apply in_map_iff in I. destruct I as (p & <- & _). reflexivity. Qed.

Lemma ids_row atoi P r p q : r = [num (fst p); num (snd p)] ->
  row_ids atoi (ids_table P) "a" "b" r q <-> q = p.
Proof.
  intros ->. destruct p as (u, v), q as (x, y). unfold row_ids. split.
  - intros (a & b & Ha & Da & Hb & Db). rewrite <- row_get_Ok in Ha, Hb. rewrite <- py_int_Ok in Da, Db.
    vm_compute in Ha, Hb. injection Ha; intros <-. injection Hb; intros <-.
    simpl in Da, Db. rewrite Z.quot_1_r in Da, Db. congruence.
  - intros E; injection E; intros -> ->. exists (num u), (num v).
    rewrite <- !row_get_Ok, <- !py_int_Ok. simpl. rewrite !Z.quot_1_r. auto.
Qed.

Lemma ids_pair atoi P u v q : row_ids atoi (ids_table P) "a" "b" [num u; num v] q <-> q = (u, v).
Proof. apply ids_row. reflexivity. Qed.

Lemma ids_table_ids atoi P : table_ids atoi (ids_table P) "a" "b" P.
Proof.
  unfold table_ids. generalize (ids_row atoi P). simpl. generalize (ids_table P) as df. intros df H.
  induction P as [|p P IH]; simpl; constructor; [|exact IH]. apply (H _ p); reflexivity.
Qed.

Example C53_example :
  decremented no_numerals "a" "b" (ids_table [(1,2); (3,2); (2,3)]) (ids_table [(0,1); (2,1); (1,2)]) /\
  (exists b, read_csv no_numerals (Ok (ids_table [(1,2); (3,2); (2,3)])) "a" "b" (Some []) false = Ok b /\
             b_nodes b = [0; 1; 2] /\ b_edges b = [(0,1); (2,1)]) /\
  (exists b, read_csv no_numerals (Ok (ids_table [(0,1); (1,2)])) "a" "b" (Some []) false = Ok b /\
             b_nodes b = [0; 1] /\ b_edges b = [(-1,0); (0,1)]).
Proof.
  split.
  - unfold decremented. simpl.
    repeat (apply Forall2_cons;
      [intros (x, y); rewrite !ids_pair; unfold minus_one; simpl;
       split; intros K; injection K; intros; f_equal; lia|]).
    constructor.
  - split; eexists; (split; [vm_compute; reflexivity|]); split; reflexivity.
Qed.

(** ** C54: which row the features of an edge come from *)

Theorem C54_features_by_position :
  forall atoi df src dest cols sz b, cols <> [] ->
  read_csv atoi (Ok df) src dest (Some cols) sz = Ok b ->
  dkeys (b_edge_features b) = b_edges b /\
  forall i e, nth_error (b_edges b) i = Some e ->
    exists r, nth_error (f_rows df) i = Some r /\
      forall c v, feature (b_edge_features b) (fst e) (snd e) c v <-> In c cols /\ has_cell df r c v.
Proof.
  intros atoi df src dest cols sz b NC H. unfold read_csv in H; cbn [bind] in H.
  rewrite bind_Ok in H. destruct H as ((nodes, E) & H & K). rewrite bind_Ok in K.
  destruct K as (ef & Hef & K). injection K; intros <-. simpl.
  apply extract_spec in H. destruct H as (P & _ & HN). apply network_NoDup in HN.
  destruct (edge_features_Ok df cols E ef HN NC Hef) as (HK & HF). split; [exact HK|].
  intros i e He. destruct (HF i e He) as (r & f & Hr & Hf & HC). exists r. split; [exact Hr|].
  intros c v. unfold feature. rewrite <- HC. replace (fst e, snd e) with e by (destruct e; reflexivity).
  split.
  - intros (f' & F1 & F2). rewrite Hf in F1. injection F1; intros ->. exact F2.
  - intros F2. exists f. auto.
Qed.
Print Assumptions C54_features_by_position.

(** Ascending tables that mention no pair twice: every edge gets its own row. *)
Theorem C54_sorted_tables :
  forall atoi df src dest cols sz b P, cols <> [] ->
  read_csv atoi (Ok df) src dest (Some cols) sz = Ok b ->
  table_ids atoi df src dest P ->
  StronglySorted pair_lt P -> (forall u v, In (u, v) P -> In (v, u) P -> u = v) ->
  b_edges b = numbered sz P /\
  forall i p, nth_error P i = Some p ->
    exists r, nth_error (f_rows df) i = Some r /\ row_ids atoi df src dest r p /\
      forall c v, let e := if sz then p else minus_one p in
        feature (b_edge_features b) (fst e) (snd e) c v <-> In c cols /\ has_cell df r c v.
Proof.
  intros atoi df src dest cols sz b P NC H HP S A.
  destruct (C54_features_by_position _ _ _ _ _ _ _ NC H) as (_ & HF).
  assert (HE : b_edges b = numbered sz P).
  { unfold read_csv in H; cbn [bind] in H. rewrite bind_Ok in H. destruct H as ((nodes, E) & H & K).
    rewrite bind_Ok in K. destruct K as (ef & _ & K). injection K; intros <-. simpl. clear K HF.
    apply extract_spec in H. destruct H as (P' & HP' & (_ & SE & HE)).
    assert (P' = P) as ->.
    { unfold table_ids in *. clear - HP' HP. revert P HP.
      induction HP' as [|r p l l' K HP' IH]; intros P2 HP2; inversion HP2 as [|? p2 ? P3 K2 HP3]; subst; [reflexivity|].
      f_equal; [|apply IH; assumption]. destruct K as (a & b & Ha & Da & Hb & Db), K2 as (a' & b' & Ha' & Da' & Hb' & Db').
      rewrite <- row_get_Ok in *. rewrite <- py_int_Ok in *.
      rewrite Ha in Ha'; injection Ha'; intros <-. rewrite Hb in Hb'; injection Hb'; intros <-.
      rewrite Da in Da'; injection Da'. rewrite Db in Db'; injection Db'. destruct p, p2; simpl; congruence. }
    rewrite <- numbered_shift in HE.
    assert (SP : StronglySorted pair_lt (numbered sz P)).
    { destruct sz; [exact S|]. simpl. clear - S. induction S as [|a l S IH F]; simpl; constructor; [exact IH|].
      rewrite Forall_forall in *. intros q I. apply in_map_iff in I. destruct I as (x & <- & I).
      specialize (F x I). unfold pair_lt, minus_one in *; simpl. lia. }
    apply strict_unique; [exact SE|exact SP|]. intros (u, v). rewrite HE.
    assert (A' : forall u v, In (u, v) (numbered sz P) -> In (v, u) (numbered sz P) -> u = v).
    { destruct sz; [exact A|]. simpl. clear - A. intros u v I J.
      apply in_map_iff in I. destruct I as ((x, y) & I1 & I2). apply in_map_iff in J. destruct J as ((z, w) & J1 & J2).
      unfold minus_one in *; simpl in *. injection I1; intros; injection J1; intros.
      assert (z = y) by lia. assert (w = x) by lia. subst z w.
      assert (x = y) by (apply A; assumption). lia. }
    clear - SP A'. set (Q := numbered sz P) in *. clearbody Q. split.
    - intros (P1 & P2 & -> & _). apply in_app_iff. right; left; reflexivity.
    - intros I. pose proof I as I0. apply in_split in I. destruct I as (P1 & P2 & ->). exists P1, P2. split; [reflexivity|].
      intros L.
      assert (N : ~ In (u, v) P1).
      { intros J. clear - SP J. induction P1 as [|p P1 IH]; [destruct J|]. simpl in SP.
        inversion SP as [|? ? S1 F1]; subst. destruct J as [->|J]; [|apply IH; assumption].
        rewrite Forall_forall in F1. apply (pair_lt_irrefl (u, v)). apply F1. apply in_app_iff. right; left; reflexivity. }
      destruct L as [L|L]; [auto|].
      assert (u = v) as -> by (apply A'; [exact I0|apply in_app_iff; left; exact L]). auto. }
  split; [exact HE|]. intros i p Hp.
  assert (He : nth_error (b_edges b) i = Some (if sz then p else minus_one p)).
  { rewrite HE. destruct sz; [exact Hp|]. simpl. rewrite nth_error_map, Hp. reflexivity. }
  destruct (HF i _ He) as (r & Hr & HC). exists r. split; [exact Hr|]. split; [|exact HC].
  unfold table_ids in HP. clear - HP Hr Hp. revert i Hr Hp.
  induction HP as [|r0 p0 l l' K HP IH]; intros [|i] Hr Hp; simpl in *; try discriminate.
  - injection Hr; intros <-. injection Hp; intros <-. exact K.
  - eapply IH; eassumption.
Qed.
Print Assumptions C54_sorted_tables.

(** The features of an edge are not those of its row, in the bundled paper data set: the file gives
    the edge (0,3) the distance 10 and (2,3) the distance 1; the complex has them the other way. *)
Theorem C54_own_row_refuted :
  exists df b r r',
    read_csv no_numerals (Ok df) "Source" "Target" (Some ["Distance"%string]) true = Ok b /\
    In r (f_rows df) /\ row_ids no_numerals df "Source" "Target" r (0, 3) /\
    has_cell df r "Distance" (num 10) /\ feature (b_edge_features b) 0 3 "Distance" (num 1) /\
    In r' (f_rows df) /\ row_ids no_numerals df "Source" "Target" r' (2, 3) /\
    has_cell df r' "Distance" (num 1) /\ feature (b_edge_features b) 2 3 "Distance" (num 10) /\
    forall r1, In r1 (f_rows df) -> forall p, row_ids no_numerals df "Source" "Target" r1 p ->
      (p = (0, 3) -> r1 = r) /\ (p = (2, 3) -> r1 = r').
Proof.
  exists paper_table. eexists _, (paper_row 0 3 10), (paper_row 2 3 1).
  split; [vm_compute; reflexivity|].
  split; [simpl; tauto|]. split; [apply row_ids_run; vm_compute; reflexivity|].
  split; [apply row_get_Ok; vm_compute; reflexivity|].
  split; [eexists; split; vm_compute; reflexivity|].
  split; [simpl; tauto|]. split; [apply row_ids_run; vm_compute; reflexivity|].
  split; [apply row_get_Ok; vm_compute; reflexivity|].
  split; [eexists; split; vm_compute; reflexivity|].
  intros r1 I p (a & b & Ha & Da & Hb & Db). rewrite <- row_get_Ok in Ha, Hb. rewrite <- py_int_Ok in Da, Db.
  destruct p as (u, v). simpl in Da, Db. simpl in I.
  repeat (destruct I as [<-|I];
    [vm_compute in Ha, Hb; injection Ha; intros <-; injection Hb; intros <-; vm_compute in Da, Db;
     injection Da; intros <-; injection Db; intros <-; split; (discriminate || reflexivity)|]).
  destruct I.
Qed.
Print Assumptions C54_own_row_refuted.

(** read_tntp does the same with all columns but the two id columns. *)
Theorem C54_tntp_features_by_position :
  forall atoi df src dest sz b, rectangular df ->
  read_tntp atoi (Ok df) src dest sz = Ok b ->
  exists df', tntp_table df df' /\
  let cols := filter (fun c => negb (String.eqb c src || String.eqb c dest)) (f_cols df') in
  cols <> [] ->
  dkeys (b_edge_features b) = b_edges b /\
  forall i e, nth_error (b_edges b) i = Some e ->
    exists r, nth_error (f_rows df') i = Some r /\
      forall c v, feature (b_edge_features b) (fst e) (snd e) c v <-> In c cols /\ has_cell df' r c v.
Proof.
  intros atoi df src dest sz b R H. unfold read_tntp in H; cbn [bind] in H.
  rewrite bind_Ok in H. destruct H as (df' & HD & H).
  exists df'. split; [apply tntp_drop; assumption|]. intros cols NC.
  rewrite bind_Ok in H. destruct H as ((nodes, E) & H & K). rewrite bind_Ok in K.
  destruct K as (ef & Hef & K). injection K; intros <-. simpl.
  apply extract_spec in H. destruct H as (P & _ & HN). apply network_NoDup in HN.
  assert (EC : filter (fun c => negb (py_in String.eqb c [src; dest])) (f_cols df') = cols).
  { unfold cols. apply filter_ext. intros c. simpl. rewrite (str_sym c src), (str_sym c dest), orb_false_r.
    reflexivity. }
  rewrite EC in Hef.
  destruct (edge_features_Ok df' cols E ef HN NC Hef) as (HK & HF). split; [exact HK|].
  intros i e He. destruct (HF i e He) as (r & f & Hr & Hf & HC). exists r. split; [exact Hr|].
  intros c v. unfold feature. rewrite <- HC. replace (fst e, snd e) with e by (destruct e; reflexivity).
  split.
  - intros (f' & F1 & F2). rewrite Hf in F1. injection F1; intros ->. exact F2.
  - intros F2. exists f. auto.
Qed.
Print Assumptions C54_tntp_features_by_position.

Example C54_example :
  exists b, read_tntp no_numerals (Ok tntp_example) "init_node" "term_node" false = Ok b /\
    feature (b_edge_features b) 2 1 "capacity" (num 25900) /\
    has_cell (mkFrame ["~"; "init_node"; "term_node"; "capacity"; ";"]%string (f_rows tntp_example))
             [FNaN; num 3; num 2; num 4958; FStr ";"] "capacity" (num 4958).
Proof.
  eexists. split; [vm_compute; reflexivity|]. split.
  - eexists; split; vm_compute; reflexivity.
  - apply row_get_Ok. vm_compute. reflexivity.
Qed.

Example C54_sorted_example :
  StronglySorted pair_lt [(0,1); (0,2); (2,1)] /\
  exists b, read_csv no_numerals (Ok (ids_table [(0,1); (0,2); (2,1)])) "a" "b" (Some ["a"%string]) true = Ok b /\
    feature (b_edge_features b) 2 1 "a" (num 2).
Proof.
  split; [repeat constructor; unfold pair_lt; simpl; lia|].
  eexists. split; [vm_compute; reflexivity|]. eexists; split; vm_compute; reflexivity.
Qed.

(** ** C55: the feature_cols argument of read_csv *)

Lemma extract_total atoi df src dest sz P : table_ids atoi df src dest P -> P <> [] ->
  exists nodes E, extract_nodes_edges atoi df src dest sz = Ok (nodes, E).
Proof.
  intros HP NP. unfold extract_nodes_edges.
  rewrite (proj2 (extract_loop atoi df src dest sz (f_rows df) ([], []) _) (ex_intro _ P (conj HP eq_refl))).
  simpl. destruct P as [|p P]; [congruence|]. simpl. eexists _, _. reflexivity.
Qed.

Theorem C55_feature_cols :
  forall atoi df src dest sz P, table_ids atoi df src dest P -> P <> [] ->
  read_csv atoi (Ok df) src dest None sz = Raise TypeError /\
  (exists b, read_csv atoi (Ok df) src dest (Some []) sz = Ok b /\ b_edge_features b = []) /\
  forall cols c, In c cols -> ~ In c (f_cols df) ->
    read_csv atoi (Ok df) src dest (Some cols) sz = Raise KeyError.
Proof.
  intros atoi df src dest sz P0 HP0 NP.
  destruct (extract_total atoi df src dest sz P0 HP0 NP) as (nodes & E & H). clear P0 HP0 NP.
  unfold read_csv; cbn [bind]. rewrite H; cbn [bind].
  split; [reflexivity|]. split; [eexists; split; reflexivity|]. intros cols c I N.
  apply extract_spec in H. destruct H as (P & HP & HN).
  assert (L : (0 < length E <= length (f_rows df))%nat).
  { pose proof (network_length _ _ _ HN) as L. rewrite map_length in L.
    unfold table_ids in HP. apply Forall2_length in HP.
    destruct HN as ((m & (J & _) & _) & _ & HE). apply endpoints_linked in J. destruct J as (y & J).
    apply first_direction_linked in J. rewrite <- !HE in J.
    destruct E; [simpl in J; tauto|]. simpl in *. lia. }
  rewrite (edge_features_missing df cols E c L I N). reflexivity.
Qed.
Print Assumptions C55_feature_cols.

(** The default therefore never works: whatever the table, read_csv without feature_cols raises. *)
Theorem C55_default_never_works :
  forall atoi file src dest sz, exists e, read_csv atoi file src dest None sz = Raise e.
Proof.
  intros atoi file src dest sz. unfold read_csv. destruct file as [df|e]; [|exists e; reflexivity]. simpl.
  destruct (extract_nodes_edges atoi df src dest sz) as [(nodes, E)|e]; simpl; eexists; reflexivity.
Qed.
Print Assumptions C55_default_never_works.

Example C55_example :
  table_ids no_numerals paper_table "Source" "Target"
    [(0,1); (1,2); (0,2); (2,3); (2,5); (0,3); (3,4); (4,5); (5,6); (4,6)] /\
  read_csv no_numerals (Ok paper_table) "Source" "Target" None true = Raise TypeError /\
  read_csv no_numerals (Ok paper_table) "Source" "Target" (Some ["Distance"; "Length"]%string) true = Raise KeyError.
Proof. split; [exact paper_ids|]. split; vm_compute; reflexivity. Qed.

(** ** C57: coordinates *)

(** Row [r] gives node [q] (a number) the coordinates [xy]. *)
Definition places (df : frame) (id x y : string) (zero_based : bool) (r : list fval) (q : Q) (xy : fval * fval) : Prop :=
  (exists p, has_cell df r id (FNum p) /\ (q == if zero_based then p else p - 1)%Q) /\
  has_cell df r x (fst xy) /\ has_cell df r y (snd xy).

(** The table with blanks around the column names removed. *)
Definition trimmed (df : frame) : frame := mkFrame (map py_strip (f_cols df)) (f_rows df).

Lemma column_Ok df c vs : column df c = Ok vs ->
  In c (f_cols df) /\ Forall2 (fun r v => has_cell df r c v) (f_rows df) vs.
Proof.
  unfold column. destruct (py_in String.eqb c (f_cols df)) eqn:E; [|discriminate].
  intros H. apply (py_in_iff String.eqb String.eqb_eq) in E. split; [exact E|].
  apply mapM_Ok in H. eapply Forall2_imp; [|exact H]. intros r v K. apply row_get_Ok; exact K.
Qed.

Lemma column_total df c : rectangular df -> In c (f_cols df) -> exists vs, column df c = Ok vs.
Proof.
  intros R I. unfold column. rewrite (proj2 (py_in_iff String.eqb String.eqb_eq c (f_cols df)) I).
  destruct (mapM (fun r => row_get df r c) (f_rows df)) as [vs|e] eqn:E; [eexists; reflexivity|].
  exfalso. apply mapM_Raise_inv in E. destruct E as (r & J & E).
  destruct (row_get_present df r c R J I) as (v & K). congruence.
Qed.

Lemma column_missing df c : ~ In c (f_cols df) -> column df c = Raise KeyError.
Proof.
  intros N. unfold column. rewrite (proj2 (py_in_false String.eqb String.eqb_eq c (f_cols df)) N). reflexivity.
Qed.

Lemma has_cell_fun df r c v v' : has_cell df r c v -> has_cell df r c v' -> v = v'.
Proof. rewrite <- !row_get_Ok. congruence. Qed.

(** None iff the file is missing; otherwise each number that occurs as a node id (minus one for a file
    counted from one) is mapped to the coordinates in its last row, and nothing else is. *)
Theorem C57_coordinates :
  forall ex file id x y sz,
  (read_coordinates ex file id x y sz = Ok None <-> ex = false) /\
  forall df d, file = Ok df -> read_coordinates ex file id x y sz = Ok (Some d) ->
  forall q,
    (forall xy, dget key_eqb d (FNum q) = Ok xy <->
       exists rows1 r rows2, f_rows df = rows1 ++ r :: rows2 /\ places (trimmed df) id x y sz r q xy /\
         forall r' xy', In r' rows2 -> ~ places (trimmed df) id x y sz r' q xy') /\
    ((exists xy, dget key_eqb d (FNum q) = Ok xy) <->
     exists r xy, In r (f_rows df) /\ places (trimmed df) id x y sz r q xy).
Proof.
  intros ex file id x y sz. split.
  - unfold read_coordinates. destruct ex; simpl; [|tauto]. split; [|discriminate].
    rewrite bind_Ok. intros (df & _ & H). rewrite bind_Ok in H. destruct H as (ids & _ & H).
    rewrite bind_Ok in H. destruct H as (ids' & _ & H). rewrite bind_Ok in H. destruct H as (xs & _ & H).
    rewrite bind_Ok in H. destruct H as (ys & _ & H). discriminate.
  - intros df d -> H q. unfold read_coordinates in H. destruct ex; [|discriminate]. simpl in H.
    rewrite bind_Ok in H. destruct H as (ids & Hi & H).
    rewrite bind_Ok in H. destruct H as (ids' & Hi' & H). rewrite bind_Ok in H. destruct H as (xs & Hx & H).
    rewrite bind_Ok in H. destruct H as (ys & Hy & H). injection H; intros <-. clear H.
    apply column_Ok in Hi, Hx, Hy. destruct Hi as (_ & Hi), Hx as (_ & Hx), Hy as (_ & Hy).
    change (strip_columns df) with (trimmed df) in *. simpl in Hi, Hx, Hy.
    assert (PL : forall rows ids ids' xs ys,
      Forall2 (fun r v => has_cell (trimmed df) r id v) rows ids ->
      (if sz then Ok ids else mapM cell_dec ids) = Ok ids' ->
      Forall2 (fun r v => has_cell (trimmed df) r x v) rows xs ->
      Forall2 (fun r v => has_cell (trimmed df) r y v) rows ys ->
      Forall2 (fun r kv => forall q xy, (key_eqb (fst kv) (FNum q) = true /\ snd kv = xy) <->
                 places (trimmed df) id x y sz r q xy) rows (combine ids' (combine xs ys))).
    { clear. intros rows ids ids' xs ys Hi. revert ids' xs ys.
      induction Hi as [|r a rows ids Ha Hi IH]; intros ids' xs ys Hd Hx Hy.
      - inversion Hx; subst. inversion Hy; subst. destruct sz; [|simpl in Hd]; injection Hd; intros <-; constructor.
      - inversion Hx as [|? b ? xs' Hb Hx']; subst. inversion Hy as [|? c ? ys' Hc Hy']; subst.
        assert (D : exists a' ids2, ids' = a' :: ids2 /\ (if sz then a' = a else cell_dec a = Ok a') /\
                    (if sz then Ok ids else mapM cell_dec ids) = Ok ids2).
        { destruct sz.
          - injection Hd; intros <-. exists a, ids. auto.
          - simpl in Hd. rewrite bind_Ok in Hd. destruct Hd as (a' & A1 & Hd). rewrite bind_Ok in Hd.
            destruct Hd as (ids2 & A2 & Hd). injection Hd; intros <-. exists a', ids2. auto. }
        destruct D as (a' & ids2 & -> & A1 & A2). simpl. constructor; [|apply IH; assumption].
        intros q (u, v). simpl. unfold places; simpl. split.
        + intros (K & E). injection E; intros <- <-. split; [|auto].
          destruct a' as [q'| |s']; simpl in K; try discriminate. apply Qeq_bool_iff in K.
          destruct sz.
          * subst a. exists q'. split; [exact Ha|]. symmetry; exact K.
          * destruct a as [q0| |s0]; simpl in A1; try discriminate. injection A1; intros <-.
            exists q0. split; [exact Ha|]. symmetry; exact K.
        + intros ((p & Hp & E) & Hu & Hv). split.
          * assert (a = FNum p) as -> by (eapply has_cell_fun; eassumption).
            destruct sz; [subst a'|simpl in A1; injection A1; intros <-]; simpl; apply Qeq_bool_iff; symmetry; exact E.
          * f_equal; eapply has_cell_fun; eassumption. }
    specialize (PL _ _ _ _ _ Hi Hi' Hx Hy). clear Hi Hi' Hx Hy.
    set (L := combine ids' (combine xs ys)) in *. clearbody L. clear ids ids' xs ys.
    assert (A : forall xy, dget key_eqb (dict_of key_eqb L) (FNum q) = Ok xy <->
       exists rows1 r rows2, f_rows df = rows1 ++ r :: rows2 /\ places (trimmed df) id x y sz r q xy /\
         forall r' xy', In r' rows2 -> ~ places (trimmed df) id x y sz r' q xy').
    { intros xy. rewrite (dget_dict_of _ key_sym key_trans). split.
      - intros (l1 & k0 & l2 & E & E0 & E2). subst L. apply Forall2_app_inv_r in PL.
        destruct PL as (rows1 & rows' & P1 & P2 & E). inversion P2 as [|r kv rows2 ? Q1 Q2]; subst.
        exists rows1, r, rows2. split; [exact E|]. split; [apply Q1; auto|].
        intros r' xy' I. clear - Q2 I E2. induction Q2 as [|r0 kv rows l K Q2 IH]; [destruct I|].
        destruct I as [->|I].
        + rewrite <- K. intros (K1 & _). rewrite (E2 kv (or_introl eq_refl)) in K1. discriminate.
        + apply IH; [|exact I]. intros kv' J. apply E2. right; exact J.
      - intros (rows1 & r & rows2 & E & P1 & P2). rewrite E in PL. apply Forall2_app_inv_l in PL.
        destruct PL as (l1 & l' & Q1 & Q2 & ->). inversion Q2 as [|? (k0, v0) ? l2 Q3 Q4]; subst.
        apply Q3 in P1. simpl in P1. destruct P1 as (P1 & ->). exists l1, k0, l2. split; [reflexivity|].
        split; [exact P1|]. intros kv I. clear - Q4 I P2.
        induction Q4 as [|r0 kv0 rows l K Q4 IH]; [destruct I|].
        destruct I as [->|I].
        + destruct (key_eqb (fst kv) (FNum q)) eqn:X; [|reflexivity]. exfalso.
          apply (P2 r0 (snd kv)); [left; reflexivity|]. apply K. auto.
        + apply IH; [|exact I]. intros r' xy' J. apply P2. right; exact J. }
    split; [exact A|]. split.
    + intros (xy & H). apply A in H. destruct H as (rows1 & r & rows2 & E & P1 & _).
      exists r, xy. split; [|exact P1]. rewrite E. apply in_app_iff. right; left; reflexivity.
    + intros (r & xy & I & P1). apply in_split in I. destruct I as (l1 & l2 & E).
      rewrite E in PL. apply Forall2_app_inv_l in PL. destruct PL as (m1 & m' & Q1 & Q2 & ->).
      inversion Q2 as [|? (k0, v0) ? m2 Q3 Q4]; subst. apply Q3 in P1. simpl in P1. destruct P1 as (P1 & _).
      clear - P1. induction m2 as [|(k1, v1) m2 IH] using rev_ind.
      * exists v0. unfold dict_of. rewrite fold_left_app. simpl.
        rewrite (dget_dset _ key_sym key_trans), P1. reflexivity.
      * destruct IH as (v' & IH). unfold dict_of in *. rewrite app_comm_cons, app_assoc, fold_left_app. simpl.
        rewrite (dget_dset _ key_sym key_trans). destruct (key_eqb k1 (FNum q)); [exists v1; reflexivity|].
        exists v'; exact IH.
Qed.
Print Assumptions C57_coordinates.

(** When it succeeds: the three columns exist (after trimming) and, for files counted from one, no id is
    text. *)
Theorem C57_completes :
  forall df id x y sz, rectangular df ->
  (forall c, In c [id; x; y] -> In c (map py_strip (f_cols df))) ->
  (sz = false -> forall r s, In r (f_rows df) -> ~ has_cell (trimmed df) r id (FStr s)) ->
  exists d, read_coordinates true (Ok df) id x y sz = Ok (Some d).
Proof.
  intros df id x y sz R C NS. assert (R' : rectangular (trimmed df)).
  { intros r I. simpl in *. rewrite map_length. apply R; exact I. }
  unfold read_coordinates. simpl. change (strip_columns df) with (trimmed df).
  destruct (column_total (trimmed df) id R') as (ids & Hi); [apply C; simpl; auto|].
  destruct (column_total (trimmed df) x R') as (xs & Hx); [apply C; simpl; auto|].
  destruct (column_total (trimmed df) y R') as (ys & Hy); [apply C; simpl; auto|].
  rewrite Hi; simpl. rewrite Hx, Hy; simpl.
  assert (D : exists ids', (if sz then Ok ids else mapM cell_dec ids) = Ok ids').
  { destruct sz; [eexists; reflexivity|].
    destruct (mapM cell_dec ids) as [ids'|e] eqn:E; [eexists; reflexivity|]. exfalso.
    apply mapM_Raise_inv in E. destruct E as (v & I & E).
    apply column_Ok in Hi. destruct Hi as (_ & Hi).
    destruct v as [q| |s]; simpl in E; try discriminate.
    assert (X : exists r, In r (f_rows df) /\ has_cell (trimmed df) r id (FStr s)).
    { clear - Hi I. simpl in Hi. induction Hi as [|r v0 l l' K Hi IH]; [destruct I|].
      destruct I as [->|I]; [exists r; split; [left; reflexivity|exact K]|].
      destruct (IH I) as (r' & J & K'). exists r'. split; [right; exact J|exact K']. }
    destruct X as (r & J & K). exact (NS eq_refl r s J K). }
  destruct D as (ids' & D). rewrite D. simpl. eexists; reflexivity.
Qed.
Print Assumptions C57_completes.

Definition coord_table : frame :=
  mkFrame ["node "; " X"; "Y"]%string
    [[num 1; num 5; num 6]; [num 2; num 7; num 8]; [num 1; num 9; num 4]].

Example C57_example :
  rectangular coord_table /\
  (exists d, read_coordinates true (Ok coord_table) "node" "X" "Y" false = Ok (Some d) /\
     dget key_eqb d (num 0) = Ok (num 9, num 4) /\ dget key_eqb d (num 1) = Ok (num 7, num 8) /\
     dget key_eqb d (num 2) = Raise KeyError /\ length d = 2%nat) /\
  read_coordinates false (Raise FileNotFoundError) "node" "X" "Y" false = Ok None.
Proof.
  split; [intros r H; simpl in H; repeat (destruct H as [<-|H]; [reflexivity|]); destruct H|].
  split; [|reflexivity]. eexists. split; [vm_compute; reflexivity|]. repeat split.
Qed.
