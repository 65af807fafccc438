(** * Connected components of an edge list; independent of the model *)

From Coq Require Import ZArith List.
From Verif Require Import ComplexSpec.
Import ListNotations.
Open Scope Z_scope.

(** There is a walk from [u] to [v]. *)
Inductive connected (E : list (Z * Z)) : Z -> Z -> Prop :=
| conn_refl u : connected E u u
| conn_step u v w : linked E u v -> connected E v w -> connected E u w.

(** The nodes 0..n-1 fall into [k] connected components, and [lab] numbers them. *)
Definition components (n : nat) (E : list (Z * Z)) (lab : nat -> nat) (k : nat) : Prop :=
  (forall i, (i < n)%nat -> (lab i < k)%nat) /\
  (forall c, (c < k)%nat -> exists i, (i < n)%nat /\ lab i = c) /\
  (forall i j, (i < n)%nat -> (j < n)%nat ->
     (lab i = lab j <-> connected E (Z.of_nat i) (Z.of_nat j))).
