(** Dependence of a polynomial on the variables a patch says nothing about. *)
From Coq Require Import ZArith Ascii String.
From mathcomp Require Import all_ssreflect all_algebra.
From mathcomp Require Import ssrZ.
From Verif Require Import Base ModelStr ModelExpr ModelPoly SpecPoly SpecHom.
Delimit Scope Z_scope with Z.

Set Implicit Arguments.
Unset Strict Implicit.
Unset Printing Implicit Defensive.

(** With the coordinates named by [ps] set to 1, the value changes with the
    coordinates of variables after the first [size ps]. *)
Definition depends (C : numClosedFieldType) (P : poly C) (ps : seq Z) : Prop :=
  exists rho1 rho2 : sym -> C,
  value P (set1 (patch_syms P ps) rho1) <> value P (set1 (patch_syms P ps) rho2) /\
  forall s, rho1 s <> rho2 s ->
    exists2 n, n \in drop (size ps) (variable_names P) & has_base s n.
