(** * Specification vocabulary for the readers; independent of the model

    Only the type [frame] of tables (column names, rows of cells) is taken from the model. *)

From Coq Require Import ZArith QArith String List Sorted.
From Verif Require Import Py Reader ComplexSpec BuilderSpec.
Import ListNotations.
Open Scope Z_scope.

(** Row [r] of the table has value [v] in column [col]. *)
Definition has_cell (df : frame) (r : list fval) (col : string) (v : fval) : Prop :=
  exists k, first_at (f_cols df) col k /\ nth_error r k = Some v.

(** Every row has a cell for every column. *)
Definition rectangular (df : frame) : Prop :=
  forall r, In r (f_rows df) -> length r = length (f_cols df).

(** The number [q] cut off after the decimal point is [z]. *)
Definition truncates_to (q : Q) (z : Z) : Prop :=
  ((0 <= q)%Q /\ (inject_Z z <= q)%Q /\ (q < inject_Z (z + 1))%Q) \/
  ((q < 0)%Q /\ (q <= inject_Z z)%Q /\ (inject_Z (z - 1) < q)%Q).

(** Cell [v] denotes the node id [z]. *)
Definition denotes (atoi : string -> option Z) (v : fval) (z : Z) : Prop :=
  match v with
  | FNum q => truncates_to q z
  | FNaN => False
  | FStr s => atoi s = Some z
  end.

(** The pair of node ids in row [r]. *)
Definition row_ids (atoi : string -> option Z) (df : frame) (src dest : string)
    (r : list fval) (p : Z * Z) : Prop :=
  exists a b, has_cell df r src a /\ denotes atoi a (fst p) /\
              has_cell df r dest b /\ denotes atoi b (snd p).

(** The pairs of node ids of the table, row by row, as written in the file. *)
Definition table_ids (atoi : string -> option Z) (df : frame) (src dest : string)
    (P : list (Z * Z)) : Prop :=
  Forall2 (row_ids atoi df src dest) (f_rows df) P.

(** Ids counted from one instead of zero. *)
Definition minus_one (p : Z * Z) : Z * Z := (fst p - 1, snd p - 1).

(** Lexicographic order of pairs. *)
Definition pair_lt (a b : Z * Z) : Prop := fst a < fst b \/ (fst a = fst b /\ snd a < snd b).

(** (u,v) is the direction in which the pair {u,v} is mentioned first in [P]. *)
Definition first_direction (P : list (Z * Z)) (u v : Z) : Prop :=
  exists P1 P2, P = P1 ++ (u, v) :: P2 /\ ~ linked P1 u v.

(** [m] is the largest endpoint of [P]. *)
Definition largest (P : list (Z * Z)) (m : Z) : Prop :=
  In m (endpoints P) /\ forall x, In x (endpoints P) -> x <= m.

(** [l] is 0, 1, ..., m (empty if m is negative). *)
Definition counts_to (m : Z) (l : list Z) : Prop :=
  Z.of_nat (length l) = Z.max 0 (m + 1) /\
  forall i x, nth_error l i = Some x -> x = Z.of_nat i.

(** The network described by a list of pairs: nodes 0..max, and every mentioned pair once, in the
    direction of its first mention, in ascending order. *)
Definition network_of (P : list (Z * Z)) (nodes : list Z) (E : list (Z * Z)) : Prop :=
  (exists m, largest P m /\ counts_to m nodes) /\
  StronglySorted pair_lt E /\
  forall u v, In (u, v) E <-> first_direction P u v.
