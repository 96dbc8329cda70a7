(** The sum of two squares z0^2 + zn^2. *)
From Coq Require Import ZArith Ascii String.
From mathcomp Require Import all_ssreflect all_algebra.
From mathcomp Require Import ssrZ.
From Verif Require Import Base ModelStr ModelExpr ModelPoly.
Delimit Scope Z_scope with Z.

Set Implicit Arguments.
Unset Strict Implicit.
Unset Printing Implicit Defensive.

Definition zsym (i : nat) : sym := merge_subscript (lit "z") (Z.of_nat i).
Definition two_squares (C : numClosedFieldType) (n : nat) : expr C :=
  EAdd [:: EPow (ESym (zsym 0)) 2; EPow (ESym (zsym n)) 2].
