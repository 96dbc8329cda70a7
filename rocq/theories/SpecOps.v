(** Notions used to state the properties of derivatives and of the arithmetic of
    polynomials with numbers and symbols. *)
From Coq Require Import ZArith Ascii String.
From mathcomp Require Import all_ssreflect all_algebra.
From mathcomp Require Import ssrZ.
From Verif Require Import Base ModelStr ModelExpr ModelPoly ModelHom ModelVariety ModelPipe ModelOps.
From Verif Require Import SpecPoly.
Delimit Scope Z_scope with Z.

Set Implicit Arguments.
Unset Strict Implicit.
Unset Printing Implicit Defensive.

Import GRing.Theory Num.Theory.
Local Open Scope ring_scope.

Section SpecOps.
Variable C : numClosedFieldType.

(** The assignment changed at one symbol *)
Definition upd (rho : sym -> C) (v : sym) (x : C) : sym -> C := fun s => if s == v then x else rho s.

(** A polynomial as the constructors leave it: the generators of the sympy object
    are the symbols of the variables, no symbol occurs twice, and the names make a
    valid call signature. *)
Definition made (P : poly C) : Prop :=
  [/\ wf_poly P, sp_gens (sympy_poly P) = var_symbols (variable_names P) (variable_indices P),
      sp_gens (sympy_poly P) != [::], uniq (all_symbols P) & check_signature [::] (variable_names P) = Ok tt].

(** The three operations on numbers *)
Definition op_val (k : arith) (x y : C) : C :=
  match k with Plus => x + y | Minus => x - y | Times => x * y end.

(** The numeric call with the values of all symbols *)
Definition call_at (P : poly C) (rho : sym -> C) : res C :=
  call_num P (rcons (var_inputs P rho (fun=> [::])) (par_input P rho)) [::].
End SpecOps.
