(** Model of cyjax/polynomial.py: from_sympy called with a sympy.Poly. *)
From Coq Require Import ZArith Ascii String.
From mathcomp Require Import all_ssreflect all_algebra.
From mathcomp Require Import ssrZ.
From Verif Require Import Base ModelStr ModelExpr ModelPoly.
Delimit Scope Z_scope with Z.

Set Implicit Arguments.
Unset Strict Implicit.
Unset Printing Implicit Defensive.

Section Input.
Variable C : numClosedFieldType.
Variable norm : expr C -> expr C.

(** polynomial.py:555  {split_subscript(g)[0] for g in poly.gens} *)
Definition gen_bases (gens : seq sym) : res (seq sym) :=
  rmap undup (rseq [seq rmap fst (split_subscript g) | g <- gens]).

(** polynomial.py:520-561, 562-626  from_sympy of a sympy.Poly with generators
    [gens] and expression [e].  [dom] is poly.domain.symbols (None: the domain has
    no such attribute), [setlist] the order in which list(set) gives the names.
    Variable names and parameters as in [from_sympy]. *)
Definition from_sympy_obj (gens : seq sym) (dom : option (seq sym)) (e : expr C) (syms : seq sym)
    (setlist : seq sym -> seq sym) (names params : option (seq sym))
    (indices : option (seq (option (seq Z)))) : res (poly C) :=
  do _ <- rassert (isSome names || ~~ isSome indices);
  do names' <- (if names is Some s then Ok s else rmap setlist (gen_bases gens));
  let params' := if params is Some _ then params else dom in
  from_sympy norm e syms (Some names') params' indices.
End Input.
