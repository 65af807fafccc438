(** * Properties of load_dataset and of the individual loaders *)

From Coq Require Import ZArith QArith String List Bool Lia Sorted.
From Verif Require Import Py PyFacts Complex ComplexSpec ComplexFacts Builder BuilderSpec BuilderFacts
  Reader ReaderSpec ReaderFacts Loader LoaderSpec ExampleData Props_Complex Props_Builder Props_Reader
  Props_Incidence Props_Loader.
Import ListNotations.
Open Scope Z_scope.

(** ** Generated coordinates *)

(** spring_layout computes one position for each node of the graph. *)
Definition spring_contract (spring : list Z -> list (Z * Z) -> list (fval * fval)) : Prop :=
  forall ns es, length (spring ns es) = length ns.

Lemma add_nodes_spec l : forall acc, NoDup acc ->
  let r := fold_left (fun acc x => if py_in Z.eqb x acc then acc else acc ++ [x]) l acc in
  NoDup r /\ forall x, In x r <-> In x acc \/ In x l.
Proof.
  induction l as [|a l IH]; intros acc ND; simpl.
  - split; [exact ND|]. intros x; tauto.
  - destruct (py_in Z.eqb a acc) eqn:E.
    + apply (py_in_iff Z.eqb Z.eqb_eq) in E. destruct (IH acc ND) as (H1 & H2). split; [exact H1|].
      intros x. rewrite H2. split; [tauto|]. intros [H|[<-|H]]; auto.
    + apply (py_in_false Z.eqb Z.eqb_eq) in E. destruct (IH (acc ++ [a])) as (H1 & H2).
      { clear - ND E. induction acc as [|b acc IH]; simpl; [repeat constructor; simpl; tauto|].
        inversion ND as [|? ? N ND']; subst. constructor.
        - rewrite in_app_iff. simpl. intros [H|[->|[]]]; [tauto|]. apply E; left; reflexivity.
        - apply IH; [exact ND'|]. intros H; apply E; right; exact H. }
      split; [exact H1|]. intros x. rewrite H2, in_app_iff. simpl. tauto.
Qed.

Lemma layout_nodes_spec nodes E : lists_nodes nodes E (layout_nodes nodes E).
Proof.
  destruct (add_nodes_spec (nodes ++ flat_map (fun e => [fst e; snd e]) E) [] (NoDup_nil _)) as (H1 & H2).
  split; [exact H1|]. intros x. unfold layout_nodes. rewrite H2, in_app_iff, in_flat_map. split.
  - intros [[]|[H|((u, v) & I & J)]]; [auto|]. right. exists (u, v). split; [exact I|].
    simpl in J. destruct J as [<-|[<-|[]]]; auto.
  - intros [H|((u, v) & I & J)]; [auto|]. right; right. exists (u, v). split; [exact I|].
    simpl in *. destruct J as [->| ->]; auto.
Qed.

Lemma combine_len {A B} (l : list A) (l' : list B) : length l' = length l -> length (combine l l') = length l.
Proof. intros H. rewrite combine_length. lia. Qed.

Lemma generate_spec spring sc : spring_contract spring ->
  exists ns, lists_nodes (sc_nodes sc) (sc_edges sc) ns /\
    dkeys (generate_coordinates spring sc) = map (fun z => FNum (inject_Z z)) ns.
Proof.
  intros S. exists (layout_nodes (sc_nodes sc) (sc_edges sc)). split; [apply layout_nodes_spec|].
  apply combine_keys. rewrite map_length. apply S.
Qed.

Lemma lists_nodes_length nodes E ns : NoDup nodes -> lists_nodes nodes E ns ->
  (length ns = length nodes <-> forall x, In x (endpoints E) -> In x nodes) /\ (length nodes <= length ns)%nat.
Proof.
  intros ND (N1 & N2).
  assert (I1 : incl nodes ns) by (intros x H; apply N2; left; exact H).
  split; [|apply NoDup_incl_length; assumption]. split.
  - intros L x H. assert (I2 : incl ns nodes) by (apply NoDup_length_incl; [exact ND|lia|exact I1]).
    apply I2, N2. right. unfold endpoints in H. apply in_flat_map in H. destruct H as (e & I & J). exists e.
    split; [exact I|]. simpl in J. destruct J as [<-|[<-|[]]]; auto.
  - intros H. apply Nat.le_antisymm; [|apply NoDup_incl_length; assumption].
    apply NoDup_incl_length; [exact N1|]. intros x I. apply N2 in I. destruct I as [I|(e & I & J)]; [exact I|].
    apply H. unfold endpoints. apply in_flat_map. exists e. split; [exact I|]. simpl. destruct J as [->| ->]; auto.
Qed.

(** ** C59: dispatch *)

Section Dispatch.
Variables (atoi : string -> option Z) (spring : list Z -> list (Z * Z) -> list (fval * fval))
          (pow : Q -> Q) (fs : filesystem).

(** The loader a name stands for. *)
Definition meant_loader (name : string) (r : res loaded) : Prop :=
  (name = "paper"%string /\ r = load_paper_data atoi fs) \/
  (name = "forex"%string /\ r = load_forex_data spring fs) \/
  (name = "lastfm-1k-artist"%string /\ r = load_lastfm_1k_artist spring fs) \/
  (name = "wsn"%string /\ r = load_wsn_data spring pow fs) \/
  (~ In name ["paper"; "forex"; "lastfm-1k-artist"; "wsn"]%string /\
   ((name = "chicago-sketch"%string /\ r = load_chicago_sketch fs) \/
    (name <> "chicago-sketch"%string /\ r = load_transportation_dataset atoi spring fs name))).

Lemma dispatch name : meant_loader name
  (match dget String.eqb (registry atoi spring pow fs) name with
   | Ok load => load | Raise _ => load_transportation_dataset atoi spring fs name end).
Proof.
  unfold meant_loader, registry. cbn [dget].
  destruct (String.eqb_spec "paper" name) as [<-|N1]; [left; auto|].
  destruct (String.eqb_spec "forex" name) as [<-|N2]; [right; left; auto|].
  destruct (String.eqb_spec "lastfm-1k-artist" name) as [<-|N3]; [do 2 right; left; auto|].
  destruct (String.eqb_spec "wsn" name) as [<-|N4]; [do 3 right; left; auto|].
  do 4 right. split; [simpl; tauto|].
  destruct (String.eqb_spec name "chicago-sketch") as [->|N5]; [left|right; auto].
  split; [reflexivity|]. reflexivity.
Qed.

Definition listed (files : list string) (name : string) : Prop :=
  (In name files /\ name <> ".DS_Store"%string /\ name <> "README.md"%string) \/
  In name ["paper"; "forex"; "lastfm-1k-artist"; "wsn"]%string.

Lemma listed_iff files : fs_listdir fs folder = Ok files ->
  exists l, list_datasets atoi spring pow fs = Ok l /\ forall n, In n l <-> listed files n.
Proof.
  intros H. unfold list_datasets, list_transportation_datasets. change data_folder with folder. rewrite H. cbn [bind].
  eexists. split; [reflexivity|]. intros n. rewrite in_app_iff, filter_In. unfold listed.
  rewrite negb_true_iff, (py_in_false String.eqb String.eqb_eq). simpl. split.
  - intros [(I & N)|K]; [left|right; exact K]. split; [exact I|]. split; intros ->; tauto.
  - intros [(I & N & N')|K]; [left|right; exact K]. split; [exact I|]. intros [H1|[H1|[]]]; congruence.
Qed.

Theorem C59_listing :
  forall files, fs_listdir fs folder = Ok files ->
  exists l, list_datasets atoi spring pow fs = Ok l /\ forall n, In n l <-> listed files n.
Proof. exact listed_iff. Qed.

Lemma max_dim_cases sc : (exists d, max_dim sc = Ok d) \/ (max_dim sc = Raise ValueError /\ simplices sc = []).
Proof.
  unfold max_dim. destruct (simplices sc); simpl; [right; auto|left; eexists; reflexivity].
Qed.

(** Unlisted names raise ValueError.  For a listed name the loader it stands for is run; the call succeeds
    exactly if the loader does, with as many coordinates as nodes and a non-empty complex, and then returns
    what the loader returned; exceptions of the loader are passed on, and missing coordinates or a wrong
    number of them raise AssertionError. *)
Theorem C59_dispatch :
  forall files name, fs_listdir fs folder = Ok files ->
  (~ listed files name -> load_dataset atoi spring pow fs name = Raise ValueError) /\
  (listed files name -> exists r, meant_loader name r /\
    (forall sc c f, load_dataset atoi spring pow fs name = Ok (sc, c, f) <->
       r = Ok (sc, Some c, f) /\ length (sc_nodes sc) = length c /\ simplices sc <> []) /\
    (forall e, r = Raise e -> load_dataset atoi spring pow fs name = Raise e) /\
    (forall sc c f, r = Ok (sc, c, f) ->
       (forall c', c = Some c' -> length (sc_nodes sc) <> length c') ->
       load_dataset atoi spring pow fs name = Raise AssertionError)).
Proof.
  intros files name HF. destruct (listed_iff files HF) as (l & HL & HI).
  unfold load_dataset. rewrite HL. cbn [bind]. split.
  - intros N. rewrite (proj2 (py_in_false String.eqb String.eqb_eq name l)); [reflexivity|]. rewrite HI. exact N.
  - intros N. rewrite (proj2 (py_in_iff String.eqb String.eqb_eq name l)); [|apply HI; exact N]. cbn [negb].
    eexists. split; [apply dispatch|].
    set (r := match dget String.eqb (registry atoi spring pow fs) name with Ok load => load | Raise _ => _ end).
    clearbody r. split; [|split].
    + intros sc c f. split.
      * rewrite bind_Ok. intros (((sc', c'), f') & -> & H). destruct c' as [c'|]; [|discriminate].
        destruct (Nat.eqb_spec (length (sc_nodes sc')) (length c')) as [E|E]; [|discriminate]. cbn [negb] in H.
        rewrite bind_Ok in H. destruct H as (d & Hd & H). injection H; intros -> -> ->.
        split; [reflexivity|]. split; [exact E|]. intros K. unfold max_dim in Hd. rewrite K in Hd. discriminate.
      * intros (-> & E & S). cbn [bind]. rewrite E, Nat.eqb_refl. cbn [negb].
        destruct (max_dim_cases sc) as [(d & ->)|(_ & K)]; [reflexivity|contradiction].
    + intros e ->. reflexivity.
    + intros sc c f -> H. cbn [bind]. destruct c as [c|]; [|reflexivity].
      destruct (Nat.eqb_spec (length (sc_nodes sc)) (length c)) as [E|E]; [|reflexivity].
      exfalso. exact (H c eq_refl E).
Qed.

(** If the data folder cannot be listed, nothing can be loaded. *)
Theorem C59_no_folder :
  forall e name, fs_listdir fs folder = Raise e -> load_dataset atoi spring pow fs name = Raise e.
Proof.
  intros e name H. unfold load_dataset, list_datasets, list_transportation_datasets. change data_folder with folder. rewrite H. reflexivity.
Qed.

(** ** C59: transportation networks load *)

Definition net_path (name : string) : string :=
  (folder ++ "/" ++ name ++ "/" ++ name ++ "_net.tntp")%string.
Definition node_path (name : string) : string :=
  (folder ++ "/" ++ name ++ "/" ++ name ++ "_node.tntp")%string.

Lemma network_in_range P nodes E : (forall x, In x (endpoints P) -> 0 <= x) -> network_of P nodes E ->
  (forall x, In x (endpoints E) -> In x nodes) /\ NoDup nodes /\ good_edges (length nodes) E /\ (P <> [] -> nodes <> []).
Proof.
  intros NN H. pose proof (C51_network_meaning P nodes E H) as (_ & HL & _ & HI & _).
  destruct H as ((m & (Hm & Hm') & Hc & Hc') & _ & HE).
  assert (EP : forall x, In x (endpoints E) -> In x (endpoints P)).
  { intros x I. unfold endpoints in *. apply in_flat_map in I. destruct I as ((u, v) & I & J).
    apply HE in I. destruct I as (P1 & P2 & -> & _). apply in_flat_map. exists (u, v).
    split; [apply in_app_iff; right; left; reflexivity|exact J]. }
  split; [intros x I; apply HI; auto|]. split.
  { apply NoDup_nth_error. intros i j Li K. destruct (nth_error nodes i) eqn:Ei; [|apply nth_error_None in Ei; lia].
    symmetry in K. apply Hc' in Ei, K. lia. }
  specialize (NN m Hm) as Nm. split.
  - intros u v I. assert (Iu : In u (endpoints E)) by (apply in_flat_map; exists (u, v); simpl; auto).
    assert (Iv : In v (endpoints E)) by (apply in_flat_map; exists (u, v); simpl; auto).
    apply EP in Iu, Iv. pose proof (NN u Iu). pose proof (NN v Iv). pose proof (Hm' u Iu). pose proof (Hm' v Iv).
    unfold in_range. lia.
  - intros _ ->. simpl in Hc. lia.
Qed.

Lemma denotes_fun v z z' : denotes atoi v z -> denotes atoi v z' -> z = z'.
Proof. rewrite <- !py_int_Ok. congruence. Qed.

Lemma tntp_ids_unique df df1 df2 src dest P1 P2 :
  ~ In src ["~"; ";"]%string -> ~ In dest ["~"; ";"]%string -> tntp_table df df1 -> tntp_table df df2 ->
  table_ids atoi df1 src dest P1 -> table_ids atoi df2 src dest P2 -> P1 = P2.
Proof.
  intros Ns Nd (_ & _ & _ & T1) (_ & _ & _ & T2). unfold table_ids.
  assert (Qs : src <> "~"%string /\ src <> ";"%string) by (split; intros ->; apply Ns; simpl; auto).
  assert (Qd : dest <> "~"%string /\ dest <> ";"%string) by (split; intros ->; apply Nd; simpl; auto).
  assert (C : forall r r1 r2 p1 p2,
    (forall c v, c <> "~"%string -> c <> ";"%string ->
       (has_cell df1 r1 c v <-> exists k, first_at (map py_strip (f_cols df)) c k /\ nth_error r k = Some v)) ->
    (forall c v, c <> "~"%string -> c <> ";"%string ->
       (has_cell df2 r2 c v <-> exists k, first_at (map py_strip (f_cols df)) c k /\ nth_error r k = Some v)) ->
    row_ids atoi df1 src dest r1 p1 -> row_ids atoi df2 src dest r2 p2 -> p1 = p2).
  { intros r r1 r2 (x1, y1) (x2, y2) H1 H2 (a1 & b1 & A1 & D1 & B1 & E1) (a2 & b2 & A2 & D2 & B2 & E2).
    simpl in *.
    rewrite H1 in A1, B1 by tauto. rewrite <- H2 in A1, B1 by tauto.
    rewrite (has_cell_fun _ _ _ _ _ A1 A2) in D1. rewrite (has_cell_fun _ _ _ _ _ B1 B2) in E1.
    f_equal; eapply denotes_fun; eassumption. }
  revert T1 T2 P1 P2. generalize (f_rows df1) as rows1, (f_rows df2) as rows2, (f_rows df) as rows.
  intros rows1 rows2 rows T1. revert rows2.
  induction T1 as [|r r1 rows rows1 K1 T1 IH]; intros rows2 T2 P1 P2 I1 I2.
  - inversion T2; subst. inversion I1; inversion I2; reflexivity.
  - inversion T2 as [|? r2 ? rows2' K2 T2']; subst. inversion I1 as [|? p1 ? P1' J1 I1']; subst.
    inversion I2 as [|? p2 ? P2' J2 I2']; subst. f_equal; [eapply C; eassumption|]. eapply IH; eassumption.
Qed.

(** A transportation network with ids counted from one, all at least one, and without node and flow
    files: it is loaded with the network of its table and generated coordinates, one for each node. *)
Theorem C59_transportation_loads :
  forall files name df df' P, spring_contract spring ->
  fs_listdir fs folder = Ok files -> In name files ->
  ~ In name ["paper"; "forex"; "lastfm-1k-artist"; "wsn"; "chicago-sketch"; ".DS_Store"; "README.md"]%string ->
  fs_frame fs (net_path name) separator 8 = Ok df -> rectangular df -> tntp_table df df' ->
  table_ids atoi df' "init_node" "term_node" P -> P <> [] -> (forall x, In x (endpoints P) -> 1 <= x) ->
  fs_exists fs (node_path name) = false -> fs_exists fs (flow_path name) = false ->
  exists sc c, load_dataset atoi spring pow fs name = Ok (sc, c, FlowDict []) /\
    network_of (map minus_one P) (sc_nodes sc) (sc_edges sc) /\
    exists ns, dkeys c = map (fun z => FNum (inject_Z z)) ns /\ NoDup ns /\ forall x, In x ns <-> In x (sc_nodes sc).
Proof.
  intros files name df df' P SC HF IN NN HD R HT HP NP POS X1 X2.
  destruct (C51_read_tntp atoi df "init_node" "term_node" false R) as (R1 & R2);
    [simpl; intuition congruence|simpl; intuition congruence|].
  destruct (R2 df' P HT HP NP) as (b & Hb). destruct (R1 b Hb) as (df2 & P2 & HT2 & HP2 & HN).
  assert (P2 = P) as ->.
  { eapply tntp_ids_unique with (df1 := df2) (df2 := df'); try eassumption; simpl; intuition congruence. }
  simpl in HN.
  destruct (network_in_range (map minus_one P) (b_nodes b) (b_edges b)) as (EN & ND & GE & NE).
  { intros x I. unfold endpoints in I. apply in_flat_map in I. destruct I as (e & I & J). apply in_map_iff in I.
    destruct I as ((u, v) & <- & I).
    assert (1 <= u) by (apply POS; apply in_flat_map; exists (u, v); simpl; auto).
    assert (1 <= v) by (apply POS; apply in_flat_map; exists (u, v); simpl; auto).
    simpl in J. destruct J as [<-|[<-|[]]]; lia. }
  { exact HN. }
  destruct (C06_all_triangles (b_nodes b) (b_edges b) (b_node_features b) (b_edge_features b) "distance" (3 # 2) GE)
    as (sc & HS & S1 & S2 & _).
  destruct (generate_spec spring sc SC) as (ns & LN & KN).
  assert (LL : length ns = length (sc_nodes sc)).
  { rewrite S1, S2 in LN. rewrite S1. apply (lists_nodes_length _ _ _ ND LN). exact EN. }
  assert (IX : forall x, In x ns <-> In x (sc_nodes sc)).
  { intros x. destruct LN as (_ & LN). rewrite LN. split; [|auto]. intros [I|(e & I & J)]; [exact I|].
    rewrite S1. apply EN. rewrite S2 in I. apply in_flat_map. exists e. split; [exact I|]. simpl. destruct J as [->| ->]; auto. }
  assert (LC : length (generate_coordinates spring sc) = length ns).
  { assert (Q : length (dkeys (generate_coordinates spring sc)) = length ns) by (rewrite KN, map_length; reflexivity).
    unfold dkeys in Q. rewrite map_length in Q. exact Q. }
  exists sc, (generate_coordinates spring sc). split; [|split].
  - destruct (C59_dispatch files name HF) as (_ & D).
    destruct D as (r & HR & D & _).
    { left. split; [exact IN|]. split; intros ->; apply NN; simpl; auto 10. }
    apply D. split; [|split].
    + assert (r = load_transportation_dataset atoi spring fs name) as ->.
      { destruct HR as [(-> & _)|[(-> & _)|[(-> & _)|[(-> & _)|(_ & [(-> & _)|(_ & H)])]]]];
          try (exfalso; apply NN; simpl; auto 10; fail). exact H. }
      unfold load_transportation_dataset.
      destruct (String.eqb_spec name "chicago-sketch") as [->|_]; [exfalso; apply NN; simpl; auto 10|].
      change data_folder with folder; change tab with separator; fold (net_path name) (node_path name). rewrite HD, Hb. cbn [bind]. unfold build_default. rewrite HS. cbn [bind].
      rewrite X1. cbn [read_coordinates negb bind].
      rewrite (proj1 (C58_no_file fs name (sc_edges sc)) X2). reflexivity.
    + rewrite LC, LL. reflexivity.
    + unfold simplices. rewrite S1. destruct (b_nodes b); [|discriminate].
      intros _. apply NE; [|reflexivity]. destruct P; [congruence|discriminate].
  - rewrite S1, S2. exact HN.
  - exists ns. split; [exact KN|]. split; [apply LN|exact IX].
Qed.

(** A transportation network with a node file: node q of the complex is at the coordinates the file gives for
    node q + 1, in its last row for that node. *)
Theorem C59_transportation_coordinates :
  forall files name dn sc c f, fs_listdir fs folder = Ok files ->
  ~ In name ["paper"; "forex"; "lastfm-1k-artist"; "wsn"; "chicago-sketch"]%string ->
  fs_exists fs (node_path name) = true -> fs_frame fs (node_path name) separator 0 = Ok dn ->
  load_dataset atoi spring pow fs name = Ok (sc, c, f) ->
  forall q xy, dget key_eqb c (FNum q) = Ok xy <->
    exists rows1 r rows2, f_rows dn = rows1 ++ r :: rows2 /\ places (trimmed dn) "node" "X" "Y" false r q xy /\
      forall r' xy', In r' rows2 -> ~ places (trimmed dn) "node" "X" "Y" false r' q xy'.
Proof.
  intros files name dn sc c f HF NN EX HD HL q xy. destruct (C59_dispatch files name HF) as (D1 & D2).
  assert (L : listed files name).
  { destruct (listed_iff files HF) as (l & Hl & HI). apply HI. unfold load_dataset in HL. rewrite Hl in HL. cbn [bind] in HL.
    destruct (py_in String.eqb name l) eqn:K; [|discriminate]. apply (py_in_iff String.eqb String.eqb_eq). exact K. }
  destruct (D2 L) as (r & HR & D & _). apply D in HL. destruct HL as (HL & _).
  assert (r = load_transportation_dataset atoi spring fs name) as ->.
  { destruct HR as [(-> & _)|[(-> & _)|[(-> & _)|[(-> & _)|(_ & [(-> & _)|(_ & H)])]]]];
      try (exfalso; apply NN; simpl; auto 10; fail). exact H. }
  unfold load_transportation_dataset in HL.
  destruct (String.eqb_spec name "chicago-sketch") as [->|_]; [exfalso; apply NN; simpl; auto 10|].
  change data_folder with folder in HL; change tab with separator in HL; fold (net_path name) (node_path name) in HL. rewrite EX, HD in HL.
  rewrite bind_Ok in HL. destruct HL as (b & _ & HL). rewrite bind_Ok in HL. destruct HL as (sc' & _ & HL).
  rewrite bind_Ok in HL. destruct HL as (c' & HC & HL). rewrite bind_Ok in HL. destruct HL as (d & _ & HL).
  destruct (C57_coordinates true (Ok dn) "node" "X" "Y" false) as (N & P).
  destruct c' as [c'|]; [|apply N in HC; discriminate].
  injection HL; intros _ E _. subst c'. destruct (P dn c eq_refl HC q) as (H & _). apply H.
Qed.

(** ** C59: loaders that pair edges with values by position *)

Lemma flow_by_position_spec E ys : NoDup E ->
  (forall d, flow_by_position E ys = Ok d ->
     dkeys d = E /\ forall i e, nth_error E i = Some e -> exists y, nth_error ys i = Some y /\ dget pair_eqb d e = Ok y) /\
  ((exists d, flow_by_position E ys = Ok d) <-> (length E <= length ys)%nat) /\
  (forall e, flow_by_position E ys = Raise e -> e = IndexError).
Proof.
  intros ND. unfold flow_by_position, enumerate.
  assert (L : forall E i d, NoDup E -> (forall e, In e E -> ~ In e (dkeys d)) ->
    foldM (fun d ie => let! v := py_nth ys (Z.of_nat (fst ie)) in Ok (dset pair_eqb d (snd ie) v)) d (enumerate_from i E) =
    let! vs := mapM (fun i => py_nth ys (Z.of_nat i)) (List.seq i (length E)) in Ok (d ++ combine E vs)).
  { clear E ND. induction E as [|e E IH]; intros i d ND HD; simpl; [rewrite app_nil_r; reflexivity|].
    destruct (py_nth ys (Z.of_nat i)) as [v|x]; [|reflexivity]. cbn [bind].
    inversion ND as [|? ? N1 N2]; subst.
    rewrite (dkeys_dset_new pair_eqb).
    2:{ intros k' I. destruct (pair_eqb k' e) eqn:X; [|reflexivity]. apply pair_eqb_spec in X. subst k'.
        exfalso. apply (HD e); [left; reflexivity|exact I]. }
    rewrite IH; [|exact N2|].
    2:{ intros e' I. unfold dkeys. rewrite map_app, in_app_iff. simpl. intros [J|[<-|[]]]; [|auto].
        apply (HD e'); [right; exact I|exact J]. }
    destruct (mapM _ (List.seq (S i) (length E))); [|reflexivity]. cbn [bind]. rewrite <- app_assoc. reflexivity. }
  rewrite (L E O [] ND); [|intros e _ []]. clear L.
  assert (M : (exists vs, mapM (fun i => py_nth ys (Z.of_nat i)) (List.seq 0 (length E)) = Ok vs /\ length vs = length E /\
     (forall i v, nth_error vs i = Some v -> nth_error ys i = Some v) /\ (length E <= length ys)%nat) \/
     (mapM (fun i => py_nth ys (Z.of_nat i)) (List.seq 0 (length E)) = Raise IndexError /\ (length ys < length E)%nat)).
  { destruct (mapM (fun i => py_nth ys (Z.of_nat i)) (List.seq 0 (length E))) as [vs|e] eqn:H.
    - left. exists vs. split; [reflexivity|]. apply mapM_Ok in H.
      pose proof (Forall2_length _ _ _ H) as LL. rewrite seq_length in LL. split; [lia|].
      assert (K : forall i v, nth_error vs i = Some v -> nth_error ys i = Some v).
      { assert (G : forall s n vs, Forall2 (fun x y => py_nth ys (Z.of_nat x) = Ok y) (List.seq s n) vs ->
           forall i v, nth_error vs i = Some v -> nth_error ys (s + i) = Some v).
        { clear. intros s n. revert s. induction n as [|n IH]; intros s vs F i v G; inversion F; subst.
          - destruct i; discriminate.
          - destruct i as [|i]; simpl in G.
            + injection G; intros <-. rewrite Nat.add_0_r. rewrite py_nth_nat in H1.
              destruct (nth_error ys s); congruence.
            + rewrite Nat.add_succ_r. eapply (IH (S s)); eassumption. }
        exact (G O _ _ H). }
      split; [exact K|]. destruct (length E) as [|n] eqn:EL; [lia|].
      destruct (nth_error vs n) eqn:Q; [|apply nth_error_None in Q; lia].
      apply K in Q. assert (n < length ys)%nat by (apply nth_error_Some; congruence). lia.
    - right. apply mapM_Raise_inv in H. destruct H as (i & I & H). apply in_seq in I.
      rewrite py_nth_nat in H. destruct (nth_error ys i) eqn:Q; [discriminate|].
      apply nth_error_None in Q. injection H; intros <-. split; [reflexivity|lia]. }
  destruct M as [(vs & -> & LV & NV & LE)|(-> & LT)]; cbn [bind].
  - split; [|split].
    + intros d H; injection H; intros <-. simpl. split; [apply combine_keys; exact LV|].
      intros i e HE. destruct (nth_error vs i) as [y|] eqn:Q.
      2:{ apply nth_error_None in Q. assert (i < length E)%nat by (apply nth_error_Some; congruence). lia. }
      exists y. split; [apply NV; exact Q|]. clear - ND HE Q. revert vs i Q HE.
      induction E as [|e0 E IH]; intros [|v vs] [|i] Q HE; simpl in *; try discriminate.
      * injection HE; intros <-. rewrite (proj2 (pair_eqb_spec e0 e0) eq_refl). congruence.
      * inversion ND as [|? ? N1 N2]; subst. destruct (pair_eqb e0 e) eqn:X.
        -- apply pair_eqb_spec in X. subst e0. exfalso. apply N1. eapply nth_error_In; exact HE.
        -- eapply IH; eassumption.
    + split; [intros _; exact LE|]. intros _. eexists; reflexivity.
    + discriminate.
  - split; [discriminate|]. split.
    + split; [intros (d & H); discriminate|]. lia.
    + intros e H; injection H; auto.
Qed.

(** The foreign-exchange data: if it loads, the i-th edge carries the i-th value of the flow file, and every
    node has a generated position; a flow file shorter than the edge list raises IndexError. *)
Theorem C59_forex_flow :
  forall b T t ys sc,
  read_B1_B2 (fs_table fs "data/foreign_exchange/B1.csv") (fs_table fs "data/foreign_exchange/B2t.csv") = Ok (b, T) ->
  NoDup (b_edges b) ->
  to_simplicial_complex (b_nodes b) (b_edges b) [] [] "all" "distance" (3 # 2) (Some T) = Ok sc ->
  fs_table fs "data/foreign_exchange/flow_FX_1538755200.csv" = Ok t ->
  Forall2 (fun r y => nth_error r 0 = Some y) t ys ->
  ((length (b_edges b) <= length ys)%nat -> exists c d,
     load_forex_data spring fs = Ok (sc, Some c, FlowDict d) /\ dkeys d = b_edges b /\
     forall i e, nth_error (b_edges b) i = Some e ->
       exists y, nth_error ys i = Some y /\ dget pair_eqb d e = Ok y) /\
  ((length ys < length (b_edges b))%nat -> load_forex_data spring fs = Raise IndexError).
Proof.
  intros b T t ys sc HB ND HS HT HY. unfold load_forex_data. rewrite HB. cbn [bind].
  assert (F : b_node_features b = [] /\ b_edge_features b = []).
  { unfold read_B1_B2 in HB. rewrite bind_Ok in HB. destruct HB as (B1 & _ & HB).
    rewrite bind_Ok in HB. destruct HB as ((nn, ee) & _ & HB). rewrite bind_Ok in HB. destruct HB as (TT & _ & HB).
    injection HB; intros _ <-. auto. }
  destruct F as (F1 & F2). unfold build_with. rewrite F1, F2, HS. cbn [bind]. rewrite HT. cbn [bind].
  assert (first_column t = Ok ys) as ->.
  { unfold first_column. clear - HY. induction HY as [|r y t ys H F IH]; simpl; [reflexivity|].
    change 0 with (Z.of_nat 0) at 1. rewrite py_nth_nat, H. cbn [bind]. rewrite IH. reflexivity. }
  cbn [bind]. assert (sc_edges sc = b_edges b) as -> by (apply C06_given_triangles in HS; tauto).
  destruct (flow_by_position_spec (b_edges b) ys ND) as (G1 & G2 & G3). split.
  - intros L. apply G2 in L. destruct L as (d & D). rewrite D. cbn [bind]. do 2 eexists. split; [reflexivity|].
    apply G1; exact D.
  - intros L. destruct (flow_by_position (b_edges b) ys) as [d|e] eqn:D.
    + exfalso. assert (length (b_edges b) <= length ys)%nat by (apply G2; exists d; reflexivity). lia.
    + rewrite (G3 e eq_refl). reflexivity.
Qed.

(** The last.fm data set cannot be loaded when its B2 file is missing, as in the checkout. *)
Theorem C59_missing_file :
  forall files e ne B1, fs_listdir fs folder = Ok files ->
  fs_table fs "data/lastfm-dataset-1K/B1-artist.csv" = Ok B1 -> read_B1 B1 = Ok ne ->
  fs_table fs "data/lastfm-dataset-1K/B2t-artist.csv" = Raise e ->
  load_dataset atoi spring pow fs "lastfm-1k-artist" = Raise e.
Proof.
  intros files e (nodes, E) B1 HF H1 H2 H3. destruct (C59_dispatch files "lastfm-1k-artist" HF) as (_ & D).
  destruct D as (r & HR & _ & D & _); [right; simpl; auto|]. apply D.
  destruct HR as [(H & _)|[(H & _)|[(_ & ->)|[(H & _)|(N & _)]]]]; try discriminate; [|exfalso; apply N; simpl; auto].
  unfold load_lastfm_1k_artist, read_B1_B2. rewrite H1. cbn [bind]. rewrite H2. cbn [bind].
  rewrite H3. reflexivity.
Qed.
End Dispatch.
Print Assumptions C59_listing.
Print Assumptions C59_dispatch.
Print Assumptions C59_no_folder.
Print Assumptions C59_transportation_loads.
Print Assumptions C59_transportation_coordinates.
Print Assumptions C59_forex_flow.
Print Assumptions C59_missing_file.

(** The hypotheses are satisfiable: a folder with one small network. *)
Definition spring0 (ns : list Z) (es : list (Z * Z)) : list (fval * fval) := map (fun _ => (num 0, num 0)) ns.

Definition fs_example : filesystem :=
  mkFs (fun _ => Ok ["README.md"; "small"]%string) (fun _ => false)
       (fun p _ _ => if String.eqb p (net_path "small") then Ok tntp_example else Raise FileNotFoundError)
       (fun _ => Raise FileNotFoundError) (fun _ => Raise FileNotFoundError).

Example C59_example :
  spring_contract spring0 /\
  (exists sc c, load_dataset no_numerals spring0 (fun q => q) fs_example "small" = Ok (sc, c, FlowDict []) /\
     sc_edges sc = [(0,1); (0,2); (2,1)] /\ length c = 3%nat) /\
  load_dataset no_numerals spring0 (fun q => q) fs_example "README.md" = Raise ValueError /\
  load_dataset no_numerals spring0 (fun q => q) fs_example "paper" = Raise FileNotFoundError.
Proof.
  split; [intros ns es; apply map_length|]. split; [|split; vm_compute; reflexivity].
  do 2 eexists. split; [vm_compute; reflexivity|]. split; reflexivity.
Qed.

(** The same network with a node file that lists node 3 twice; its last position counts. *)
Definition node_file : frame :=
  mkFrame ["node"; " X "; "Y"]%string
    [[FNum 3; num 7; num 7]; [FNum 1; num 0; num 1]; [FNum 2; num 2; num 3]; [FNum 3; num 4; num 5]].

Definition fs_nodes : filesystem :=
  mkFs (fun _ => Ok ["small"]%string) (fun p => String.eqb p (node_path "small"))
       (fun p _ _ => if String.eqb p (net_path "small") then Ok tntp_example
                     else if String.eqb p (node_path "small") then Ok node_file else Raise FileNotFoundError)
       (fun _ => Raise FileNotFoundError) (fun _ => Raise FileNotFoundError).

Example C59_coordinates_example :
  exists sc c, load_dataset no_numerals spring0 (fun q => q) fs_nodes "small" = Ok (sc, c, FlowDict []) /\
    dget key_eqb c (FNum 0) = Ok (num 0, num 1) /\ dget key_eqb c (FNum 2) = Ok (num 4, num 5).
Proof. do 2 eexists. split; [vm_compute; reflexivity|]. split; vm_compute; reflexivity. Qed.
