(** * The reader can produce complexes on which the decomposition fails *)

From Coq Require Import ZArith String List QArith.
From mathcomp Require Import all_ssreflect all_algebra.
From Verif Require Import Py Complex ComplexSpec ExampleData LinAlg Signal SignalSpec Builder Reader Compute
  Props_Reader Props_Hodge.

Set Implicit Arguments.
Unset Strict Implicit.
Unset Printing Implicit Defensive.

Import GRing.Theory Num.Theory.
Local Open Scope ring_scope.
Delimit Scope Z_scope with zz.

Definition read_builder : builder :=
  if read_tntp no_numerals (Ok tntp_example) "init_node" "term_node" false is Ok b then b
  else mkBuilder nil nil nil nil.
Definition read_sc : SC :=
  get_sc (make_sc tri_nodes twisted_edges tri_triangles (b_node_features read_builder) (b_edge_features read_builder)).

Lemma read_ok : make_sc tri_nodes twisted_edges tri_triangles
  (b_node_features read_builder) (b_edge_features read_builder) = Ok read_sc.
Proof. by vm_compute. Qed.

(** ** C22: on the network read from [tntp_example] and built with the default condition, the components
    are not orthogonal and the harmonic one is neither divergence-free, curl-free nor in the kernel of the
    Laplacian. *)
Theorem C22_reader_refuted :
  exists atoi file b sc, read_tntp atoi (Ok file) "init_node" "term_node" false = Ok b /\
    to_simplicial_complex (b_nodes b) (b_edges b) (b_node_features b) (b_edge_features b)
      "all" "distance" (Qmake 3 2) None = Ok sc /\
    exists (f g c h : seq rat) L, hodge_laplacian_matrix sc 1 = Ok (Csr L) /\
    (forall lstsq rint d, lstsq_contract lstsq ->
      get_component_flow lstsq rint sc f "gradient" false d = Ok g /\
      get_component_flow lstsq rint sc f "curl" false d = Ok c /\
      get_component_flow lstsq rint sc f "harmonic" false d = Ok h) /\
    dotp g c <> 0 /\ get_divergence sc h <> Ok (zerof _ (length (b_nodes b))) /\
    get_curl sc h <> Ok (zerof _ (length (sc_triangles sc))) /\ mv L h <> zerof _ (length (b_edges b)).
Proof.
exists no_numerals, tntp_example, read_builder, read_sc.
split; first by vm_compute. split; first by vm_compute.
exists [:: 1; 0; 0], [:: third *+ 2; third; third], [:: third; - third; third], [:: 0; 0; - third *+ 2].
eexists; split; first by []. split.
  move=> lstsq rint d LS; rewrite !component_G !component_C !component_H.
  have s3 : size [:: 1; 0; 0 : rat] = length twisted_edges by [].
  have K1 : mvC (sc_B1 read_sc) (mvC (atr (sc_B1 read_sc)) [:: 0; third *+ 2; third]) =
            mvC (sc_B1 read_sc) [:: 1; 0; 0] by apply/eqP; vm_compute.
  have K2 : mvC (atr (sc_B2 read_sc)) (mvC (sc_B2 read_sc) [:: third]) =
            mvC (atr (sc_B2 read_sc)) [:: 1; 0; 0] by apply/eqP; vm_compute.
  rewrite (grad_cert read_ok LS rint false d s3 K1 erefl).
  rewrite (curl_cert read_ok LS rint false d s3 K2 erefl).
  rewrite (harm_cert read_ok LS rint false d s3 K1 K2 erefl erefl).
  by split; [|split]; apply: Ok_eq; vm_compute.
rewrite !dotpCE mvCE divergenceC; last by vm_compute.
rewrite curlC; last by vm_compute.
split; first by apply: neqP; vm_compute.
split; first by apply: Ok_neq; vm_compute.
split; first by apply: Ok_neq; vm_compute.
by apply: neqP; vm_compute.
Qed.
Print Assumptions C22_reader_refuted.
