(** Notions used in the statement about univariate coefficients. *)
From Coq Require Import ZArith Ascii String.
From mathcomp Require Import all_ssreflect all_algebra.
From mathcomp Require Import ssrZ.
From Verif Require Import Base ModelStr ModelExpr ModelPoly SpecPoly.
Delimit Scope Z_scope with Z.

Set Implicit Arguments.
Unset Strict Implicit.
Unset Printing Implicit Defensive.

Import GRing.Theory Num.Theory.
Local Open Scope ring_scope.

(** A variable without the symbol [var]; None if nothing is left. *)
Definition drop_var (var : sym) (ni : sym * option (seq Z)) : option (sym * option (seq Z)) :=
  if all (pred1 var) (symbols_of ni.1 ni.2) then None
  else Some (ni.1, if ni.2 is Some l then Some [seq i <- l | merge_subscript ni.1 i != var] else None).

Section SpecUniv.
Variable C : numClosedFieldType.
Implicit Types (P : poly C) (rho : sym -> C).

Definition other_vars P (var : sym) : seq (sym * option (seq Z)) :=
  pmap (drop_var var) (zip (variable_names P) (variable_indices P)).

(** What sympy.Poly(poly, var).terms() is taken to return: for every occurring
    power of [var] once, its coefficient, an expression in the other symbols. *)
Definition terms_ok P (var : sym) (terms : seq (nat * expr C)) : Prop :=
  [/\ (0 < size terms)%N, uniq (map fst terms),
      all (fun t => all (fun s => (s != var) && (s \in all_symbols P)) (esyms t.2)) terms,
      all (fun t => nilp (esyms t.2) || no_I t.2) terms &
      forall rho, value P rho = \sum_(t <- terms) sem rho t.2 * rho var ^+ t.1].

(** Value of a coefficient: a number, or a call of the coefficient polynomial
    with its variables and parameters. *)
Definition coeff_eval (c : coefficient C) rho : res C :=
  match c with
  | UNum x => Ok x
  | UPoly Q => call_num Q (rcons (var_inputs Q rho (fun=> [::])) (par_input Q rho)) [::]
  end.
End SpecUniv.
