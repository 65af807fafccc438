(** * The standard library's ring and field tactics on mathcomp fields

    Nothing in this file models code.  Usage, inside a section with a field [F]:
    [Add Field F_field : (mc_field F).] and then [mc_ring] / [mc_field_tac]. *)

From Coq Require Import Ring Field.
From mathcomp Require Import all_ssreflect all_algebra.

Set Implicit Arguments.
Unset Strict Implicit.
Unset Printing Implicit Defensive.

Import GRing.Theory.
Local Open Scope ring_scope.

Definition radd (F : fieldType) (x y : F) : F := x + y.
Definition rmul (F : fieldType) (x y : F) : F := x * y.
Definition ropp (F : fieldType) (x : F) : F := - x.
Definition rsub (F : fieldType) (x y : F) : F := x - y.
Definition rinv (F : fieldType) (x : F) : F := x^-1.
Definition rdiv (F : fieldType) (x y : F) : F := x / y.
Definition r0 (F : fieldType) : F := 0.
Definition r1 (F : fieldType) : F := 1.

Lemma mc_ring_theory (F : fieldType) :
  ring_theory (r0 F) (r1 F) (@radd F) (@rmul F) (@rsub F) (@ropp F) (@eq F).
Proof.
split; rewrite /radd /rmul /rsub /ropp /r0 /r1; move=> *.
- exact: add0r. - exact: addrC. - exact: addrA. - exact: mul1r. - exact: mulrC.
- exact: mulrA. - exact: mulrDl. - by []. - exact: subrr.
Qed.

Lemma mc_field (F : fieldType) :
  field_theory (r0 F) (r1 F) (@radd F) (@rmul F) (@rsub F) (@ropp F) (@rdiv F) (@rinv F) (@eq F).
Proof.
split; first exact: mc_ring_theory.
- by move=> /eqP; rewrite /r0 /r1 oner_eq0.
- by [].
- by move=> p /eqP p0; rewrite /rmul /rinv mulVf.
Qed.

(** Rewrite every mathcomp operation on [F] into the ones above. *)
Ltac to_r F :=
  repeat match goal with
  | |- context [@GRing.natmul ?V ?x 0] => change (@GRing.natmul V x 0) with (r0 F)
  | |- context [@GRing.natmul ?V ?x 1] => change (@GRing.natmul V x 1) with x
  | |- context [@GRing.natmul ?V ?x (S (S ?n))] =>
      rewrite (@mulrS V x (S n))
  | |- context [@GRing.exp ?V ?x 0] => change (@GRing.exp V x 0) with (r1 F)
  | |- context [@GRing.exp ?V ?x 1] => change (@GRing.exp V x 1) with x
  | |- context [@GRing.exp ?V ?x (S (S ?n))] => rewrite (@exprS V x (S n))
  | |- context [@GRing.inv ?V ?x] => change (@GRing.inv V x) with (@rinv F x)
  | |- context [@GRing.add ?V ?x (@GRing.opp ?W ?y)] =>
      change (@GRing.add V x (@GRing.opp W y)) with (@rsub F x y)
  | |- context [@GRing.add ?V ?x ?y] => change (@GRing.add V x y) with (@radd F x y)
  | |- context [@GRing.mul ?V ?x ?y] => change (@GRing.mul V x y) with (@rmul F x y)
  | |- context [@GRing.opp ?V ?x] => change (@GRing.opp V x) with (@ropp F x)
  | |- context [@GRing.zero ?V] => change (@GRing.zero V) with (r0 F)
  | |- context [@GRing.one ?V] => change (@GRing.one V) with (r1 F)
  end;
  match goal with |- @eq _ ?a ?b => change (@eq (GRing.Field.sort F) a b) end.
