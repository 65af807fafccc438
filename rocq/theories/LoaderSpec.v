(** * Vocabulary for the properties of the dataset loaders

    Independent of the definitions of Loader.v except for the types. *)

From Coq Require Import ZArith QArith String List.
From Verif Require Import Py ComplexSpec Reader ReaderSpec.
Import ListNotations.
Open Scope Z_scope.

(** The cell holds the number [z]. *)
Definition is_number (z : Z) (v : fval) : Prop := exists q, v = FNum q /\ (q == inject_Z z)%Q.

(** Row [r] of a flow table is about the link from node [s] to node [t] (as numbered in the file). *)
Definition about (df : frame) (s t : Z) (r : list fval) : Prop :=
  exists a b, has_cell df r "From " a /\ is_number s a /\ has_cell df r "To " b /\ is_number t b.

Definition no_row (df : frame) (s t : Z) : Prop := forall r, In r (f_rows df) -> ~ about df s t r.

(** The first row about the link has volume [v]. *)
Definition volume (df : frame) (s t : Z) (v : fval) : Prop :=
  exists rows1 r rows2, f_rows df = rows1 ++ r :: rows2 /\ about df s t r /\
    (forall r', In r' rows1 -> ~ about df s t r') /\ has_cell df r "Volume " v.

(** [x] is the difference of the cells; text has no difference, nan swallows numbers. *)
Definition difference (p n x : fval) : Prop :=
  match p, n with
  | FNum a, FNum b => exists c, x = FNum c /\ (c == a - b)%Q
  | FStr _, _ | _, FStr _ => False
  | _, _ => x = FNaN
  end.

(** [x] is the net flow along the edge (numbered from zero; files number from one). *)
Definition net_flow (df : frame) (e : Z * Z) (x : fval) : Prop :=
  exists p n, volume df (fst e + 1) (snd e + 1) p /\
    (volume df (snd e + 1) (fst e + 1) n \/ (no_row df (snd e + 1) (fst e + 1) /\ n = FNum 0)) /\
    difference p n x.

(** A flow table with the columns the loader needs. *)
Definition flow_table (df : frame) : Prop :=
  rectangular df /\ f_rows df <> [] /\
  forall c, In c ["From "; "To "; "Volume "]%string -> In c (f_cols df).

(** No edge comes after the edge with both ends one larger. *)
Definition unshadowed (E : list (Z * Z)) : Prop :=
  forall E1 u v E2, E = E1 ++ (u, v) :: E2 -> ~ In (u + 1, v + 1) E1.

(** [l] lists the elements of [nodes] and all endpoints of [E], once each. *)
Definition lists_nodes (nodes : list Z) (E : list (Z * Z)) (l : list Z) : Prop :=
  NoDup l /\ forall x, In x l <-> In x nodes \/ exists e, In e E /\ (x = fst e \/ x = snd e).
