(** A conic with a parameter named like the points of a line. *)
From Coq Require Import ZArith Ascii String.
From mathcomp Require Import all_ssreflect all_algebra.
From mathcomp Require Import ssrZ.
From Verif Require Import Base ModelStr ModelExpr ModelPoly.
Delimit Scope Z_scope with Z.

Set Implicit Arguments.
Unset Strict Implicit.
Unset Printing Implicit Defensive.

Import GRing.Theory Num.Theory.
Local Open Scope ring_scope.

(** z0^2 + p_0 z1^2, with the symbol p_0 of sympy.symarray("p", 1). *)
Definition clash_conic (C : numClosedFieldType) : poly C :=
  MkPoly [:: lit "z"] [:: Some [:: 0; 1]%Z] [:: lit "p_0"]
    (SPoly [:: lit "z0"; lit "z1"]
       (EAdd [:: EPow (ESym (lit "z0")) 2; EMul [:: ESym (lit "p_0"); EPow (ESym (lit "z1")) 2]])).

(** What sympy gives as terms in t of its value on the line. *)
Definition clash_terms (C : numClosedFieldType) : seq (nat * expr C) :=
  [:: (2, EAdd [:: EPow (ESym (lit "q0")) 2; EMul [:: ESym (lit "p_0"); EPow (ESym (lit "q1")) 2]]);
      (1, EAdd [:: EMul [:: ENum 2%:R; ESym (lit "p_0"); ESym (lit "q0")]; EMul [:: ENum 2%:R; ESym (lit "p_0"); ESym (lit "p1"); ESym (lit "q1")]]);
      (0, EAdd [:: EPow (ESym (lit "p_0")) 2; EMul [:: ESym (lit "p_0"); EPow (ESym (lit "p1")) 2]])]%N.
