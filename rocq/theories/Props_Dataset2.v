(** * C59: what the individual loaders return *)

From Coq Require Import ZArith QArith String List Bool Lia Sorted.
From Verif Require Import Py PyFacts Complex ComplexSpec ComplexFacts Builder BuilderSpec BuilderFacts
  Reader ReaderSpec ReaderFacts Loader LoaderSpec ExampleData Props_Complex Props_Builder Props_Reader
  Props_Incidence Props_Loader Props_Dataset.
Import ListNotations.
Open Scope Z_scope.

Section Loaders.
Variables (atoi : string -> option Z) (spring : list Z -> list (Z * Z) -> list (fval * fval))
          (pow : Q -> Q) (fs : filesystem).

(** [d] gives the i-th edge the i-th value. *)
Definition by_position (E : list (Z * Z)) (ys : list fval) (d : dict (Z * Z) fval) : Prop :=
  dkeys d = E /\
  forall i e, nth_error E i = Some e -> exists y, nth_error ys i = Some y /\ dget pair_eqb d e = Ok y.

(** [d] maps the number [q] to the coordinates in the last row of the table whose id is [q]. *)
Definition placed (cf : frame) (d : coords) : Prop :=
  forall q xy, dget key_eqb d (FNum q) = Ok xy <->
    exists rows1 r rows2, f_rows cf = rows1 ++ r :: rows2 /\ places (trimmed cf) "Id" "X" "Y" true r q xy /\
      forall r' xy', In r' rows2 -> ~ places (trimmed cf) "Id" "X" "Y" true r' q xy'.

Lemma network_NoDup P nodes E : network_of P nodes E -> NoDup E.
Proof.
  intros (_ & S & _). induction S as [|e E S IH F]; constructor; [|exact IH].
  intros I. rewrite Forall_forall in F. apply (pair_lt_irrefl e), F, I.
Qed.

Lemma by_positionP E ys d : NoDup E -> flow_by_position E ys = Ok d -> by_position E ys d.
Proof. intros ND H. apply (flow_by_position_spec E ys ND). exact H. Qed.

Lemma first_column_spec t ys : first_column t = Ok ys -> Forall2 (fun r y => nth_error r 0 = Some y) t ys.
Proof.
  unfold first_column. revert ys. induction t as [|r t IH]; intros ys H; cbn [mapM] in H.
  - injection H; intros <-. constructor.
  - rewrite bind_Ok in H. destruct H as (y & Hy & H). rewrite bind_Ok in H. destruct H as (l & Hl & H).
    injection H; intros <-. constructor; [|apply IH; exact Hl].
    change 0 with (Z.of_nat 0) in Hy. rewrite py_nth_nat in Hy. destruct (nth_error r 0); congruence.
Qed.

Lemma placed_spec ex file cf d : file = Ok cf -> read_coordinates ex file "Id" "X" "Y" true = Ok (Some d) -> placed cf d.
Proof.
  intros HF H q. destruct (C57_coordinates ex file "Id" "X" "Y" true) as (_ & K).
  destruct (K cf d HF H q) as (A & _). exact A.
Qed.

Lemma coordinates_none ex file : read_coordinates ex file "Id" "X" "Y" true = Ok None <-> ex = false.
Proof. apply (C57_coordinates ex file "Id" "X" "Y" true). Qed.

(** The example of the paper: the complex is the network of the edge table with all its triangles, nodes have the
    coordinates of their row in the coordinates file (numbered as there), and the i-th edge carries the
    first entry of the i-th row of the flow file. *)
Theorem C59_paper :
  forall df cf t sc c f,
  fs_frame fs "data/paper_data/edges.csv" " " 0 = Ok df -> rectangular df -> In "Distance"%string (f_cols df) ->
  fs_frame fs "data/paper_data/coordinates.csv" " " 0 = Ok cf ->
  fs_table fs "data/paper_data/flow.csv" = Ok t ->
  load_paper_data atoi fs = Ok (sc, c, f) ->
  (exists P, table_ids atoi df "Source" "Target" P /\ network_of P (sc_nodes sc) (sc_edges sc)) /\
  (forall T, In T (sc_triangles sc) <-> exists u v w, T = [u; v; w] /\ three_clique (sc_edges sc) u v w) /\
  (c = None <-> fs_exists fs "data/paper_data/coordinates.csv" = false) /\
  (forall d, c = Some d -> placed cf d) /\
  exists d ys, f = FlowDict d /\ Forall2 (fun r y => nth_error r 0 = Some y) t ys /\ by_position (sc_edges sc) ys d.
Proof.
  intros df cf t sc c f HD R ID HC HT H. unfold load_paper_data in H. rewrite HD in H.
  rewrite bind_Ok in H. destruct H as (b & Hb & H). rewrite bind_Ok in H. destruct H as (sc' & HS & H).
  rewrite bind_Ok in H. destruct H as (c' & Hc & H). rewrite HT in H. cbn [bind] in H.
  rewrite bind_Ok in H. destruct H as (ys & Hy & H). rewrite bind_Ok in H. destruct H as (d & Hd & H).
  injection H; intros <- <- <-. clear H.
  destruct (C51_read_csv atoi df "Source" "Target" ["Distance"%string] true R) as (RC & _);
    [intros x [<-|[]]; exact ID|].
  destruct (RC b Hb) as (P & HP & HN). simpl in HN.
  unfold build_default in HS.
  pose proof (make_sc_Ok _ _ _ _ _ _ HS) as K0. clear RC.
  assert (S1 : sc_nodes sc' = b_nodes b) by tauto. assert (S2 : sc_edges sc' = b_edges b) by tauto.
  assert (S4 : sc_triangles sc' = triangles (b_edges b)) by tauto.
  assert (S3 : forall T, In T (sc_triangles sc') <-> exists u v w, T = [u; v; w] /\ three_clique (b_edges b) u v w).
  { rewrite S4. apply (C05_exactly_the_three_cliques (b_edges b)). }
  rewrite S1, S2.
  split; [exists P; auto|]. split; [exact S3|]. split.
  { rewrite <- (coordinates_none _ (fs_frame fs "data/paper_data/coordinates.csv" " " 0)).
    split; [intros ->; exact Hc|]. intros KN. rewrite KN in Hc. injection Hc; auto. }
  split; [intros d' ->; eapply placed_spec; eassumption|].
  exists d, ys. split; [reflexivity|]. split; [apply first_column_spec; exact Hy|].
  rewrite S2 in Hd. apply by_positionP; [eapply network_NoDup; exact HN|exact Hd].
Qed.

(** The last.fm and the Chicago data: the complex of the two incidence files, and the i-th edge carries the i-th
    entry of the flow file read row by row. *)
Theorem C59_incidence_files :
  (forall b T t sc c f,
   read_B1_B2 (fs_table fs "data/lastfm-dataset-1K/B1-artist.csv") (fs_table fs "data/lastfm-dataset-1K/B2t-artist.csv") = Ok (b, T) ->
   NoDup (b_edges b) -> fs_table fs "data/lastfm-dataset-1K/flow-artist.csv" = Ok t ->
   load_lastfm_1k_artist spring fs = Ok (sc, c, f) ->
   sc_nodes sc = b_nodes b /\ sc_edges sc = b_edges b /\ sc_triangles sc = T /\
   (spring_contract spring -> exists d ns, c = Some d /\ dkeys d = map (fun z => FNum (inject_Z z)) ns /\
      lists_nodes (b_nodes b) (b_edges b) ns) /\
   exists d, f = FlowDict d /\ by_position (b_edges b) (concat t) d) /\
  (forall b T cf t sc c f,
   read_B1_B2 (fs_table fs "data/transportation_networks/chicago-sketch/B1_chicago_sketch.csv")
     (fs_table fs "data/transportation_networks/chicago-sketch/B2t_chicago_sketch.csv") = Ok (b, T) ->
   NoDup (b_edges b) ->
   fs_frame fs "data/transportation_networks/chicago-sketch/coordinates_chicago_sketch.csv" "," 0 = Ok cf ->
   fs_table fs "data/transportation_networks/chicago-sketch/flow_chicago_sketch.csv" = Ok t ->
   load_chicago_sketch fs = Ok (sc, c, f) ->
   sc_nodes sc = b_nodes b /\ sc_edges sc = b_edges b /\ sc_triangles sc = T /\
   (c = None <-> fs_exists fs "data/transportation_networks/chicago-sketch/coordinates_chicago_sketch.csv" = false) /\
   (forall d, c = Some d -> placed cf d) /\
   exists d, f = FlowDict d /\ by_position (b_edges b) (concat t) d).
Proof.
  split.
  - intros b T t sc c f HB ND HT H. unfold load_lastfm_1k_artist in H. rewrite HB in H. cbn [bind] in H.
    rewrite bind_Ok in H. destruct H as (sc' & HS & H). rewrite HT in H. cbn [bind] in H.
    rewrite bind_Ok in H. destruct H as (d & Hd & H). injection H; intros <- <- <-. clear H.
    unfold build_with in HS. pose proof (C06_given_triangles _ _ _ _ _ _ _ _ _ HS) as (S3 & S1 & S2 & _).
    do 3 (split; [assumption|]). split.
    + intros SC. destruct (generate_spec spring sc' SC) as (ns & L & K). rewrite S1, S2 in L. eauto 6.
    + exists d. split; [reflexivity|]. rewrite S2 in Hd. apply by_positionP; assumption.
  - intros b T cf t sc c f HB ND HC HT H. unfold load_chicago_sketch in H. rewrite HB in H. cbn [bind] in H.
    rewrite bind_Ok in H. destruct H as (sc' & HS & H). rewrite bind_Ok in H. destruct H as (c' & Hc & H).
    rewrite HT in H. cbn [bind] in H.
    rewrite bind_Ok in H. destruct H as (d & Hd & H). injection H; intros <- <- <-. clear H.
    unfold build_with in HS. pose proof (C06_given_triangles _ _ _ _ _ _ _ _ _ HS) as (S3 & S1 & S2 & _).
    do 3 (split; [assumption|]). split.
    { rewrite <- (coordinates_none _ (fs_frame fs "data/transportation_networks/chicago-sketch/coordinates_chicago_sketch.csv" "," 0)).
      split; [intros ->; exact Hc|]. intros KN. rewrite KN in Hc. injection Hc; auto. }
    split; [intros d' ->; eapply placed_spec; eassumption|].
    exists d. split; [reflexivity|]. rewrite S2 in Hd. apply by_positionP; assumption.
Qed.

(** Head loss of a pipe with resistance [h] and flow rate [q]. *)
Definition pipe_loss (h q v : Q) : Prop :=
  ((0 < q)%Q -> (v == - (h * pow q))%Q) /\ ((q == 0)%Q -> (v == 0)%Q) /\ ((q < 0)%Q -> (v == h * pow (- q))%Q).

Lemma head_loss_spec h q : pipe_loss h q (head_loss pow h q).
Proof.
  unfold pipe_loss, head_loss, sign.
  destruct (Qle_bool 0 q) eqn:A; [apply Qle_bool_iff in A|].
  - destruct (Qle_bool q 0) eqn:B; [apply Qle_bool_iff in B|].
    + split; [intros L; exfalso; apply (Qlt_not_le _ _ L B)|]. split; [intros _; ring|].
      intros L; exfalso; apply (Qlt_not_le _ _ L A).
    + split; [intros _; ring|]. split.
      * intros E. exfalso. assert (q <= 0)%Q by (rewrite E; apply Qle_refl). apply Qle_bool_iff in H. congruence.
      * intros L; exfalso; apply (Qlt_not_le _ _ L A).
  - assert (N : ~ (0 <= q)%Q) by (intros L; apply Qle_bool_iff in L; congruence).
    split; [intros L; exfalso; apply N, Qlt_le_weak, L|]. split.
    + intros E; exfalso; apply N. rewrite E. apply Qle_refl.
    + intros _. ring.
Qed.

(** The water network: the complex is that of the incidence matrix in the file; the third component is no flow on
    the edges but the heads of the file followed by the head losses of the pipes, as many resistances as flow
    rates, or one flow rate for all.  A single resistance is an IndexError. *)
Theorem C59_wsn :
  forall w nodes E sc,
  fs_pickle fs "data/wsn/water_network.pkl" = Ok w -> read_B1 (w_B1 w) = Ok (nodes, E) ->
  to_simplicial_complex nodes E [] [] "all" "distance" (3 # 2) None = Ok sc ->
  (length (w_hr w) = length (w_flow_rate w) -> length (w_hr w) <> 1%nat ->
     exists c y, load_wsn_data spring pow fs = Ok (sc, Some c, FlowArr y) /\
       length y = (length (w_head w) + length (w_flow_rate w))%nat /\
       (forall i, (i < length (w_head w))%nat -> nth_error y i = nth_error (w_head w) i) /\
       (forall j h q, nth_error (w_hr w) j = Some h -> nth_error (w_flow_rate w) j = Some q ->
          exists v, nth_error y (length (w_head w) + j) = Some v /\ pipe_loss h q v)) /\
  (forall q, w_flow_rate w = [q] -> length (w_hr w) <> 1%nat ->
     exists c y, load_wsn_data spring pow fs = Ok (sc, Some c, FlowArr (w_head w ++ y)) /\
       Forall2 (fun h v => pipe_loss h q v) (w_hr w) y) /\
  (length (w_hr w) = 1%nat -> load_wsn_data spring pow fs = Raise IndexError) /\
  (length (w_hr w) <> length (w_flow_rate w) -> length (w_hr w) <> 1%nat -> length (w_flow_rate w) <> 1%nat ->
     load_wsn_data spring pow fs = Raise ValueError).
Proof.
  intros w nodes E sc HW HB HS. unfold load_wsn_data. rewrite HW. cbn [bind]. rewrite HB. cbn [bind].
  unfold build_default. cbn [b_nodes b_edges b_node_features b_edge_features]. rewrite HS. cbn [bind].
  unfold head_losses. split; [|split; [|split]].
  - intros L N. rewrite L, Nat.eqb_refl. cbn [bind]. rewrite <- L.
    destruct (Nat.eqb_spec (length (w_hr w)) 1) as [X|_]; [contradiction|].
    do 2 eexists. split; [reflexivity|]. split; [|split].
    + rewrite app_length, map_length, combine_length. lia.
    + intros i Li. apply nth_error_app1; exact Li.
    + intros j h q Hh Hq. exists (head_loss pow h q). split; [|apply head_loss_spec].
      rewrite nth_error_app2 by lia. replace (length (w_head w) + j - length (w_head w))%nat with j by lia.
      assert (K : forall hs qs j, nth_error hs j = Some h -> nth_error qs j = Some q -> nth_error (combine hs qs) j = Some (h, q)).
      { clear. induction hs as [|a hs IH]; intros [|b qs] [|j]; simpl; intros; try discriminate; [congruence|auto]. }
      apply (map_nth_error (fun x => head_loss pow (fst x) (snd x)) j (combine (w_hr w) (w_flow_rate w)) (K _ _ _ Hh Hq)).
  - intros q Q N. rewrite Q. simpl length. destruct (Nat.eqb_spec (length (w_hr w)) 1) as [X|_]; [contradiction|].
    cbn [bind]. do 2 eexists. split; [reflexivity|].
    clear N. induction (w_hr w) as [|h l IH]; simpl; constructor; [apply head_loss_spec|exact IH].
  - intros L. rewrite L. destruct (w_hr w) as [|h [|h' l]]; try discriminate.
    destruct (Nat.eqb_spec 1 (length (w_flow_rate w))) as [X|X]; [reflexivity|].
    destruct (w_flow_rate w) as [|q [|q' l']]; reflexivity.
  - intros L1 L2 L3. destruct (Nat.eqb_spec (length (w_hr w)) (length (w_flow_rate w))) as [X|_]; [contradiction|].
    destruct (w_flow_rate w) as [|q [|q' l']]; destruct (w_hr w) as [|h [|h' l]]; simpl in *; try lia; reflexivity.
Qed.
End Loaders.
Print Assumptions C59_paper.
Print Assumptions C59_incidence_files.
Print Assumptions C59_wsn.

(** The hypotheses are met: files for the four data sets.  The incidence files are those of one triangle. *)
Definition triangle_B1 : list (list fval) :=
  [[num (-1); num (-1); num 0]; [num 1; num 0; num (-1)]; [num 0; num 1; num 1]].
Definition ten_rows : list (list fval) := map (fun z => [num z; num 0]) [1; 2; 3; 4; 5; 6; 7; 8; 9; 10].
Definition place_rows : frame := mkFrame ["Id"; "X"; "Y"]%string [[num 0; num 5; num 6]; [num 1; num 7; num 8]; [num 0; num 3; num 4]].

Definition fs_full : filesystem :=
  mkFs (fun _ => Ok []) (fun _ => true)
       (fun p sep _ => if String.eqb p "data/paper_data/edges.csv" then Ok paper_table else Ok place_rows)
       (fun p => if String.eqb p "data/paper_data/flow.csv" then Ok ten_rows
                 else if String.eqb p "data/lastfm-dataset-1K/B1-artist.csv" then Ok triangle_B1
                 else if String.eqb p "data/lastfm-dataset-1K/B2t-artist.csv" then Ok [[num 1; num (-1); num 1]]
                 else if String.eqb p "data/transportation_networks/chicago-sketch/B1_chicago_sketch.csv" then Ok triangle_B1
                 else if String.eqb p "data/transportation_networks/chicago-sketch/B2t_chicago_sketch.csv"
                 then Ok [[num 1; num (-1); num 1]]
                 else Ok [[num 4; num 5]; [num 6]])
       (fun _ => Ok (mkWsn triangle_B1 [2; -3; 0]%Q [10; 11; 12]%Q [1; 2; 5]%Q)).

Example C59_loaders_example :
  (exists sc c d, load_paper_data no_numerals fs_full = Ok (sc, Some c, FlowDict d) /\
     sc_edges sc = paper_edges /\ dget pair_eqb d (2, 3) = Ok (num 5) /\ dget key_eqb c (num 0) = Ok (num 3, num 4)) /\
  rectangular paper_table /\
  (exists b T, read_B1_B2 (Ok triangle_B1) (Ok [[num 1; num (-1); num 1]]) = Ok (b, T) /\ b_edges b = tri_edges /\ NoDup tri_edges) /\
  (exists sc c d, load_lastfm_1k_artist spring0 fs_full = Ok (sc, c, FlowDict d) /\
     sc_triangles sc = tri_triangles /\ dget pair_eqb d (1, 2) = Ok (num 6)) /\
  (exists sc c d, load_chicago_sketch fs_full = Ok (sc, Some c, FlowDict d) /\
     dget pair_eqb d (0, 2) = Ok (num 5) /\ dget key_eqb c (num 1) = Ok (num 7, num 8)) /\
  (exists sc c y, load_wsn_data spring0 (fun q => q * q)%Q fs_full = Ok (sc, c, FlowArr y) /\
     map Qred y = [10; 11; 12; -4; 18; 0]%Q /\ sc_edges sc = tri_edges).
Proof.
  split; [do 3 eexists; split; [vm_compute; reflexivity|]; repeat split; vm_compute; reflexivity|].
  split; [exact paper_rectangular|].
  split; [do 2 eexists; split; [vm_compute; reflexivity|]; split; [reflexivity|]; repeat constructor; simpl; intuition congruence|].
  split; [do 3 eexists; split; [vm_compute; reflexivity|]; repeat split; vm_compute; reflexivity|].
  split; [do 3 eexists; split; [vm_compute; reflexivity|]; repeat split; vm_compute; reflexivity|].
  do 3 eexists; split; [vm_compute; reflexivity|]; repeat split; vm_compute; reflexivity.
Qed.
