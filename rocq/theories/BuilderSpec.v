(** * Specification vocabulary for the builder; independent of the model *)

From Coq Require Import ZArith QArith String List.
From Verif Require Import Py ComplexSpec.
Import ListNotations.
Open Scope Z_scope.

(** Three distinct, pairwise linked vertices in ascending order. *)
Definition three_clique (E : list (Z * Z)) (a b c : Z) : Prop :=
  a < b /\ b < c /\ linked E a b /\ linked E b c /\ linked E a c.

(** Endpoints of an edge list, edge by edge. *)
Definition endpoints (E : list (Z * Z)) : list Z := flat_map (fun e => [fst e; snd e]) E.

(** [V] lists the members of [l] once each, in the order of their first occurrence. *)
Definition in_order_of (l V : list Z) : Prop :=
  NoDup V /\ (forall x, In x V <-> In x l) /\
  forall V1 x V2, V = V1 ++ x :: V2 ->
    exists l1 l2, l = l1 ++ x :: l2 /\ ~ In x l1 /\ forall y, In y l1 -> In y V1.

(** Every two members are linked. *)
Definition pairwise_linked (E : list (Z * Z)) (t : list Z) : Prop :=
  forall i j u v, (i < j)%nat -> nth_error t i = Some u -> nth_error t j = Some v -> linked E u v.

(** Value of feature [col] of the edge stored under key (u,v). *)
Definition feature (ef : dict (Z * Z) fdict) (u v : Z) (col : string) (x : fval) : Prop :=
  exists f, dget pair_eqb ef (u, v) = Ok f /\ dget String.eqb f col = Ok x.

Definition is_string (x : fval) : Prop := exists s, x = FStr s.

(** A usable distance: a non-zero number below the threshold. *)
Definition near (eps : Q) (x : fval) : Prop :=
  exists q, x = FNum q /\ ~ (q == 0)%Q /\ (q < eps)%Q.
