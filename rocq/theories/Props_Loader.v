(** * Properties of the dataset loaders *)

From Coq Require Import ZArith QArith Ascii String List Bool Lia Sorted.
From Verif Require Import Py PyFacts Complex ComplexSpec ComplexFacts Builder BuilderSpec BuilderFacts
  Reader ReaderSpec ReaderFacts Loader LoaderSpec ExampleData Props_Reader Props_Incidence.
Import ListNotations.
Open Scope Z_scope.

(** ** C58: net flow of a transportation network *)

Lemma number_iff z v : cell_is z v = true <-> is_number z v.
Proof. exact (cell_is_iff z v). Qed.

Lemma first_match {A} (p : A -> bool) l :
  (forall x, py_nth (filter p l) 0 = Ok x <->
     exists l1 l2, l = l1 ++ x :: l2 /\ p x = true /\ forall y, In y l1 -> p y = false) /\
  (forall e, py_nth (filter p l) 0 = Raise e <-> e = IndexError /\ forall y, In y l -> p y = false).
Proof.
  change 0 with (Z.of_nat 0). rewrite py_nth_nat. induction l as [|a l (IH1 & IH2)]; simpl.
  - split; intros z; split; try discriminate.
    + intros (l1 & l2 & H & _). destruct l1; discriminate.
    + intros H; injection H; intros <-. split; [reflexivity|]. intros y [].
    + intros (-> & _). reflexivity.
  - destruct (p a) eqn:P; simpl.
    + split; intros z; split; try discriminate.
      * intros H; injection H; intros <-. exists [], l. split; [reflexivity|]. split; [exact P|]. intros y [].
      * intros (l1 & l2 & H & H1 & H2). destruct l1 as [|b l1]; [injection H; intros; congruence|].
        injection H; intros _ <-. rewrite (H2 a) in P; [discriminate|left; reflexivity].
      * intros (_ & H). rewrite (H a) in P; [discriminate|left; reflexivity].
    + split; intros z.
      * rewrite IH1. split; intros (l1 & l2 & H & H1 & H2).
        -- exists (a :: l1), l2. split; [rewrite H; reflexivity|]. split; [exact H1|].
           intros y [<-|I]; [exact P|auto].
        -- destruct l1 as [|b l1]; [injection H; intros; congruence|].
           injection H; intros H' <-. exists l1, l2. split; [exact H'|]. split; [exact H1|].
           intros y I; apply H2; right; exact I.
      * rewrite IH2. split; intros (-> & H); (split; [reflexivity|]); intros y.
        -- intros [<-|I]; auto.
        -- intros I; apply H; right; exact I.
Qed.

Section Volumes.
  Variable df : frame.
  Hypothesis T : flow_table df.

  Lemma has_cell_fun r c v v' : has_cell df r c v -> has_cell df r c v' -> v = v'.
  Proof. rewrite <- !row_get_Ok. congruence. Qed.

  Lemma lookup_spec s t :
    (forall v, lookup_volume df s t = Ok v <-> volume df s t v) /\
    (forall e, lookup_volume df s t = Raise e <-> e = IndexError /\ no_row df s t).
  Proof.
    destruct T as (R & _ & C). unfold lookup_volume.
    destruct (column_total df "From " R) as (fs & Hf); [apply C; simpl; auto|].
    destruct (column_total df "To " R) as (ts & Ht); [apply C; simpl; auto|].
    destruct (column_total df "Volume " R) as (vs & Hv); [apply C; simpl; auto|].
    rewrite Hf, Ht, Hv. cbn [bind]. apply column_Ok in Hf, Ht, Hv.
    destruct Hf as (_ & Hf), Ht as (_ & Ht), Hv as (_ & Hv).
    set (p := fun x : fval * (fval * fval) => cell_is s (fst x) && cell_is t (fst (snd x))).
    set (l := combine fs (combine ts vs)).
    assert (F : Forall2 (fun r x => has_cell df r "From " (fst x) /\ has_cell df r "To " (fst (snd x)) /\
                                    has_cell df r "Volume " (snd (snd x))) (f_rows df) l).
    { unfold l. clear - Hf Ht Hv. revert ts vs Ht Hv.
      induction Hf as [|r a rows fs Ha Hf IH]; intros ts vs Ht Hv; simpl; [constructor|].
      inversion Ht as [|? b ? ts' Hb Ht']; subst. inversion Hv as [|? c ? vs' Hc Hv']; subst.
      simpl. constructor; [simpl; auto|]. apply IH; assumption. }
    clearbody l. clear Hf Ht Hv fs ts vs.
    assert (M : forall r x, has_cell df r "From " (fst x) /\ has_cell df r "To " (fst (snd x)) /\
       has_cell df r "Volume " (snd (snd x)) -> (p x = true <-> about df s t r)).
    { intros r (a, (b, c)) (H1 & H2 & H3). unfold p. simpl in *. rewrite andb_true_iff, !number_iff. unfold about. split.
      - intros (K1 & K2). exists a, b. auto.
      - intros (a' & b' & A1 & A2 & B1 & B2). rewrite (has_cell_fun _ _ _ _ H1 A1), (has_cell_fun _ _ _ _ H2 B1). auto. }
    destruct (first_match p l) as (FM1 & FM2). split.
    - intros v. rewrite bind_Ok. split.
      + intros (x & H & E). injection E; intros <-. apply FM1 in H. destruct H as (l1 & l2 & -> & H1 & H2).
        apply Forall2_app_inv_r in F. destruct F as (rows1 & rows2 & F1 & F2 & E').
        inversion F2 as [|r ? rows2' ? Hr F3]; subst.
        exists rows1, r, rows2'. split; [exact E'|]. split; [apply (M _ _ Hr); exact H1|]. split; [|apply Hr].
        intros r' I A. clear - F1 H2 M I A. induction F1 as [|r0 x0 rows1 l1 H F1 IH]; [destruct I|].
        destruct I as [->|I].
        * apply (M _ _ H) in A. rewrite (H2 x0) in A; [discriminate|left; reflexivity].
        * apply IH; [|exact I]. intros y J; apply H2; right; exact J.
      + intros (rows1 & r & rows2 & E & A & N & V). rewrite E in F.
        apply Forall2_app_inv_l in F. destruct F as (l1 & l2 & F1 & F2 & E').
        inversion F2 as [|? x ? l2' Hr F3]; subst. exists x. split.
        * apply FM1. exists l1, l2'. split; [reflexivity|]. split; [apply (M _ _ Hr); exact A|].
          clear - F1 N M. intros y I. induction F1 as [|r0 x0 rows1 l1 H F1 IH]; [destruct I|].
          destruct I as [->|I].
          -- apply not_true_is_false. rewrite (M _ _ H). apply N; left; reflexivity.
          -- apply IH; [|exact I]. intros r' J; apply N; right; exact J.
        * f_equal. destruct Hr as (_ & _ & Hr). exact (has_cell_fun _ _ _ _ Hr V).
    - intros e. rewrite bind_Raise. split.
      + intros [H|(x & _ & H)]; [|discriminate]. apply FM2 in H. destruct H as (-> & H). split; [reflexivity|].
        intros r I A. clear FM1 FM2. induction F as [|r0 x0 rows l K F IH]; [destruct I|].
        destruct I as [->|I].
        * apply (M _ _ K) in A. rewrite (H x0) in A; [discriminate|left; reflexivity].
        * apply IH; [|exact I]. intros y J; apply H; right; exact J.
      + intros (-> & N). left. apply FM2. split; [reflexivity|]. unfold no_row in N. clear FM1 FM2.
        intros y I. induction F as [|r0 x0 rows l K F IH]; [destruct I|].
        destruct I as [->|I].
        * apply not_true_is_false. rewrite (M _ _ K). apply N; left; reflexivity.
        * apply IH; [|exact I]. intros r' J; apply N; right; exact J.
  Qed.

  Lemma cell_sub_Ok a b x : cell_sub a b = Ok x -> difference a b x.
  Proof.
    destruct a as [p| |s], b as [q| |s']; simpl; try discriminate; intros H; injection H; intros <-; try reflexivity.
    eexists; split; [reflexivity|]. reflexivity.
  Qed.

  Lemma cell_sub_Raise a b e : cell_sub a b = Raise e -> e = TypeError /\ (exists s, a = FStr s \/ b = FStr s).
  Proof.
    destruct a as [p| |s], b as [q| |s']; simpl; try discriminate; intros H; injection H; intros <-;
      (split; [reflexivity|]); eexists; eauto.
  Qed.

  (** One round of the loop, when the edge is not skipped. *)
  Definition net_of (e : Z * Z) : res fval :=
    let! p := lookup_volume df (fst e + 1) (snd e + 1) in
    let! n := try_except (lookup_volume df (snd e + 1) (fst e + 1)) IndexError (Ok (FNum 0)) in
    cell_sub p n.

  Lemma net_of_Ok e x : net_of e = Ok x -> net_flow df e x.
  Proof.
    unfold net_of. rewrite bind_Ok. intros (p & Hp & H). rewrite bind_Ok in H. destruct H as (n & Hn & H).
    exists p, n. split; [apply lookup_spec; exact Hp|]. split; [|apply cell_sub_Ok; exact H].
    destruct (lookup_volume df (snd e + 1) (fst e + 1)) as [n'|e'] eqn:E; simpl in Hn.
    - injection Hn; intros <-. left. apply lookup_spec; exact E.
    - apply lookup_spec in E. destruct E as (-> & N). right. injection Hn; intros <-. auto.
  Qed.

  Lemma net_of_Raise e x : net_of e = Raise x ->
    (x = IndexError /\ no_row df (fst e + 1) (snd e + 1)) \/
    (x = TypeError /\ exists s, volume df (fst e + 1) (snd e + 1) (FStr s) \/ volume df (snd e + 1) (fst e + 1) (FStr s)).
  Proof.
    unfold net_of. rewrite bind_Raise. intros [H|(p & Hp & H)].
    - left. apply lookup_spec; exact H.
    - right. apply lookup_spec in Hp. rewrite bind_Raise in H.
      destruct (lookup_volume df (snd e + 1) (fst e + 1)) as [n'|e'] eqn:E; simpl in H.
      + destruct H as [H|(n & Hn & H)]; [discriminate|]. injection Hn; intros <-.
        apply lookup_spec in E. apply cell_sub_Raise in H. destruct H as (-> & s & [-> | ->]); (split; [reflexivity|]); exists s; auto.
      + apply lookup_spec in E. destruct E as (-> & _). simpl in H. destruct H as [H|(n & Hn & H)]; [discriminate|].
        injection Hn; intros <-. apply cell_sub_Raise in H. destruct H as (-> & s & [-> |K]); [|discriminate].
        split; [reflexivity|]. exists s; auto.
  Qed.

  Lemma flow_step_new P d e : ~ In (fst e + 1, snd e + 1) P ->
    flow_step df (P, d) e = let! x := net_of e in Ok (P ++ [e], dset pair_eqb d e x).
  Proof.
    destruct e as (u, v). unfold flow_step, net_of. simpl. intros N.
    rewrite (proj2 (py_in_false pair_eqb pair_eqb_spec _ _) N).
    replace (u + 1 - 1) with u by lia. replace (v + 1 - 1) with v by lia.
    destruct (lookup_volume df (u + 1) (v + 1)); [|reflexivity]. cbn [bind].
    destruct (try_except _ _ _); reflexivity.
  Qed.

  Lemma flow_loop E : forall P d, dkeys d = P -> NoDup (P ++ E) ->
    (forall E1 u v E2, E = E1 ++ (u, v) :: E2 -> ~ In (u + 1, v + 1) (P ++ E1)) ->
    foldM (flow_step df) (P, d) E =
    let! xs := mapM net_of E in Ok (P ++ E, d ++ combine E xs).
  Proof.
    induction E as [|(u, v) E IH]; intros P d K ND U.
    - simpl. rewrite !app_nil_r. reflexivity.
    - cbn [foldM mapM]. rewrite flow_step_new.
      2:{ specialize (U [] u v E eq_refl). rewrite app_nil_r in U. exact U. }
      destruct (net_of (u, v)) as [x|x]; [|reflexivity]. cbn [bind].
      assert (ND' : NoDup ((P ++ [(u, v)]) ++ E)) by (rewrite <- app_assoc; exact ND).
      rewrite (dkeys_dset_new pair_eqb).
      2:{ intros k I. destruct (pair_eqb k (u, v)) eqn:X; [|reflexivity]. apply pair_eqb_spec in X. subst k.
          rewrite K in I. apply NoDup_remove_2 in ND. exfalso. apply ND. apply in_app_iff; left; exact I. }
      rewrite IH.
      + destruct (mapM net_of E) as [xs|y]; [|reflexivity]. cbn [bind]. rewrite <- !app_assoc. reflexivity.
      + unfold dkeys in *. rewrite map_app, K. reflexivity.
      + exact ND'.
      + intros E1 u' v' E2 HE. rewrite <- app_assoc. apply (U ((u, v) :: E1) u' v' E2). rewrite HE. reflexivity.
  Qed.
End Volumes.

Lemma combine_keys {A B} (l : list A) (l' : list B) : length l' = length l -> dkeys (combine l l') = l.
Proof.
  revert l'; induction l as [|a l IH]; intros [|b l'] L; simpl in *; try discriminate; [reflexivity|].
  f_equal. apply IH; lia.
Qed.

Lemma combine_dget {B} (l : list (Z * Z)) (l' : list B) Q : NoDup l -> Forall2 Q l l' ->
  forall e, In e l -> exists x, dget pair_eqb (combine l l') e = Ok x /\ Q e x.
Proof.
  intros ND F. induction F as [|a b l l' K F IH]; intros e I; [destruct I|]. simpl.
  inversion ND as [|? ? N ND']; subst.
  destruct (pair_eqb a e) eqn:X.
  - apply pair_eqb_spec in X. subst e. exists b. auto.
  - destruct I as [->|I].
    + rewrite (proj2 (pair_eqb_spec e e) eq_refl) in X. discriminate.
    + apply IH; assumption.
Qed.

(** The folder of the transportation networks and the separator of their files. *)
Definition folder : string := "data/transportation_networks".
Definition separator : string := String "009"%char EmptyString.
Definition flow_path (name : string) : string :=
  (folder ++ "/" ++ name ++ "/" ++ name ++ "_flow.tntp")%string.

(** For a duplicate-free edge list in which no edge comes after the edge with both ends one larger, the
    result has exactly one entry per edge, in order: the volume of the first row in edge direction minus
    that of the first row in the opposite direction (0 if there is none).  The only failures are a missing
    row in edge direction (IndexError) and a text volume (TypeError). *)
Theorem C58_net_flow :
  forall fs name df E, fs_exists fs (flow_path name) = true -> fs_frame fs (flow_path name) separator 0 = Ok df ->
  flow_table df -> NoDup E -> unshadowed E ->
  (forall d, load_flow_transportation fs name E = Ok d ->
     dkeys d = E /\ forall e, In e E -> exists x, dget pair_eqb d e = Ok x /\ net_flow df e x) /\
  (forall x, load_flow_transportation fs name E = Raise x ->
     exists e, In e E /\
       ((x = IndexError /\ no_row df (fst e + 1) (snd e + 1)) \/
        (x = TypeError /\ exists s, volume df (fst e + 1) (snd e + 1) (FStr s) \/
                                    volume df (snd e + 1) (fst e + 1) (FStr s)))) /\
  ((exists e, In e E /\ no_row df (fst e + 1) (snd e + 1)) ->
     exists x, load_flow_transportation fs name E = Raise x).
Proof.
  intros fs name df E HX HF T ND U.
  assert (L : load_flow_transportation fs name E = let! xs := mapM (net_of df) E in Ok (combine E xs)).
  { unfold load_flow_transportation. change data_folder with folder; change tab with separator; fold (flow_path name). rewrite HX, HF. cbn [read_flow bind].
    assert (frame_empty df = false) as ->.
    { unfold frame_empty. destruct T as (_ & N & C). destruct (f_cols df); [destruct (C "From "%string); simpl; auto|].
      destruct (f_rows df); [congruence|reflexivity]. }
    etransitivity.
    { apply (f_equal (fun r => let! st := r in Ok (snd st))). apply (flow_loop df E [] []); [reflexivity|exact ND|].
      intros E1 u v E2 HE. exact (U E1 u v E2 HE). }
    destruct (mapM (net_of df) E); reflexivity. }
  rewrite L. clear L. split; [|split].
  - intros d. rewrite bind_Ok. intros (xs & H & K). injection K; intros <-. apply mapM_Ok in H.
    split; [apply combine_keys; symmetry; eapply Forall2_length; exact H|].
    apply combine_dget; [exact ND|]. eapply Forall2_imp; [|exact H]. intros e x. apply net_of_Ok. exact T.
  - intros x. rewrite bind_Raise. intros [H|(xs & _ & H)]; [|discriminate].
    apply mapM_Raise_inv in H. destruct H as (e & I & H). exists e. split; [exact I|].
    apply net_of_Raise; assumption.
  - intros (e & I & N). destruct (mapM (net_of df) E) as [xs|x] eqn:H; [|exists x; reflexivity].
    exfalso. apply mapM_Ok in H. clear ND U. induction H as [|e0 x0 E xs K H IH]; [destruct I|].
    destruct I as [->|I]; [|auto]. unfold net_of in K. rewrite bind_Ok in K. destruct K as (p & K & _).
    rewrite (proj2 (proj2 (lookup_spec df T _ _) IndexError)) in K; [discriminate|auto].
Qed.
Print Assumptions C58_net_flow.

(** Edges as produced by the readers (ascending) satisfy the hypotheses. *)
Theorem C58_ascending :
  forall E, StronglySorted pair_lt E -> NoDup E /\ unshadowed E.
Proof.
  intros E S. split.
  - induction S as [|e E S IH F]; constructor; [|exact IH]. rewrite Forall_forall in F. intros I.
    specialize (F e I). unfold pair_lt in F. lia.
  - intros E1 u v E2 -> I. revert S I. induction E1 as [|e E1 IH]; intros S I; [destruct I|].
    inversion S as [|? ? S' F]; subst. rewrite Forall_forall in F. destruct I as [->|I]; [|auto].
    specialize (F (u, v)). rewrite in_app_iff in F. specialize (F (or_intror (or_introl eq_refl))).
    unfold pair_lt in F. simpl in F. lia.
Qed.
Print Assumptions C58_ascending.

(** No flow file, or an empty one: no flow. *)
Theorem C58_no_file :
  forall fs name E,
  (fs_exists fs (flow_path name) = false -> load_flow_transportation fs name E = Ok []) /\
  (forall cols, fs_exists fs (flow_path name) = true -> fs_frame fs (flow_path name) separator 0 = Ok (mkFrame cols []) ->
     load_flow_transportation fs name E = Ok []) /\
  (forall x, fs_exists fs (flow_path name) = true -> fs_frame fs (flow_path name) separator 0 = Raise x ->
     load_flow_transportation fs name E = Raise x).
Proof.
  intros fs name E. unfold load_flow_transportation. change data_folder with folder; change tab with separator; fold (flow_path name).
  split; [|split].
  - intros ->. reflexivity.
  - intros cols -> ->. simpl. unfold frame_empty. simpl. destruct cols; reflexivity.
  - intros x -> ->. reflexivity.
Qed.
Print Assumptions C58_no_file.

Definition flow_example : frame :=
  mkFrame ["From "; "To "; "Volume "; "Cost "]%string
    [[num 1; num 2; num 7; num 1]; [num 2; num 1; num 3; num 1]; [num 2; num 3; num 5; num 1]].

Definition fs_with (path : string) (df : frame) : filesystem :=
  mkFs (fun _ => Raise FileNotFoundError) (String.eqb path)
       (fun p _ _ => if String.eqb path p then Ok df else Raise FileNotFoundError)
       (fun _ => Raise FileNotFoundError) (fun _ => Raise FileNotFoundError).

(** Every edge has a row, but the edge (0,1) after (1,2) is skipped: visited edges are recorded with ends
    counted from zero and looked up counted from one. *)
Theorem C58_unsorted_refuted :
  exists fs name df E d, fs_exists fs (flow_path name) = true /\ fs_frame fs (flow_path name) separator 0 = Ok df /\
    flow_table df /\ NoDup E /\ (forall e, In e E -> exists x, net_flow df e x) /\
    load_flow_transportation fs name E = Ok d /\ E = [(1,2); (0,1)] /\ dkeys d = [(1,2)].
Proof.
  exists (fs_with (flow_path "x") flow_example), "x"%string, flow_example, [(1,2); (0,1)]. eexists.
  assert (T : flow_table flow_example).
  { split; [intros r H; simpl in H; repeat (destruct H as [<-|H]; [reflexivity|]); destruct H|].
    split; [discriminate|]. intros c H; simpl in *; tauto. }
  split; [reflexivity|]. split; [reflexivity|]. split; [exact T|].
  split; [repeat constructor; simpl; intuition congruence|]. split.
  { intros e [<-|[<-|[]]]; eexists; apply net_of_Ok; try exact T; vm_compute; reflexivity. }
  split; [vm_compute; reflexivity|]. split; reflexivity.
Qed.
Print Assumptions C58_unsorted_refuted.

Example C58_example :
  exists d, load_flow_transportation (fs_with (flow_path "x") flow_example) "x" [(0,1); (1,2)] = Ok d /\
    dkeys d = [(0,1); (1,2)] /\ unshadowed [(0,1); (1,2)] /\ flow_table flow_example /\
    dget pair_eqb d (0,1) = Ok (FNum 4) /\ dget pair_eqb d (1,2) = Ok (FNum 5).
Proof.
  eexists. split; [vm_compute; reflexivity|]. split; [reflexivity|].
  split; [apply C58_ascending; repeat (apply SSorted_nil || apply SSorted_cons || apply Forall_nil || apply Forall_cons);
    unfold pair_lt; simpl; lia|].
  split; [|split; reflexivity].
  split; [intros r H; simpl in H; repeat (destruct H as [<-|H]; [reflexivity|]); destruct H|].
  split; [discriminate|]. intros c H; simpl in *; tauto.
Qed.
