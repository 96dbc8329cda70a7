(** Notions used to state the properties of polynomials. *)
From Coq Require Import ZArith Ascii String.
From mathcomp Require Import all_ssreflect all_algebra.
From mathcomp Require Import ssrZ.
From Verif Require Import Base ModelStr ModelExpr ModelPoly.
Delimit Scope Z_scope with Z.

Set Implicit Arguments.
Unset Strict Implicit.
Unset Printing Implicit Defensive.

(** Nonempty name made of letters. *)
Definition alpha (n : sym) : bool := (n != [::]) && all is_letter n.

(** The base name of a symbol. *)
Definition has_base (s : sym) (n : sym) : Prop := exists i, split_subscript s = Ok (n, i).

Section SpecPoly.
Variable C : numClosedFieldType.
Implicit Types (P : poly C) (rho : sym -> C).

(** Variables have distinct alphabetic names and natural subscripts. *)
Definition wf_vars (names : seq sym) (inds : seq (option (seq Z))) : Prop :=
  [/\ uniq names, all alpha names, size names = size inds &
      all (fun ind => if ind is Some l then all (Z.leb 0) l else true) inds].

(** No parameter has the base name of a variable. *)
Definition wf_params (names params : seq sym) : Prop :=
  forall p, p \in params -> exists2 n, has_base p n & n \notin names.

(** A polynomial over the reals (no imaginary unit) in its variables and
    parameters. *)
Definition wf_poly P : Prop :=
  [/\ wf_vars (variable_names P) (variable_indices P),
      wf_params (variable_names P) (parameters P) &
      exists g e, [/\ sympy_poly P = SPoly g e, {subset esyms e <= all_symbols P} & no_I e]].

(** The mathematical value of a polynomial under an assignment of its symbols. *)
Definition value P rho : C :=
  match sympy_poly P with SPoly _ e | SExpr e => sem rho e end.

(** Numeric inputs for an assignment of the symbols: the entries of a vector
    variable are the values of its indexed symbols, in the order of its index
    list; [extra] are surplus trailing entries. *)
Definition var_input rho (extra : sym -> seq C) (ni : sym * option (seq Z)) : pyval C :=
  if ni.2 is Some l then PArr ([seq rho (merge_subscript ni.1 i) | i <- l] ++ extra ni.1)
  else PNum (rho ni.1).
Definition var_inputs P rho extra : seq (pyval C) :=
  map (var_input rho extra) (zip (variable_names P) (variable_indices P)).
Definition par_input P rho : pyval C := PArr (map rho (parameters P)).
End SpecPoly.

(** What is assumed of sympy's normal form: same value, no new symbols, no
    imaginary unit where there was none. *)
Definition norm_ok (C : numClosedFieldType) (norm : expr C -> expr C) : Prop :=
  [/\ forall rho e, sem rho (norm e) = sem rho e,
      forall e, {subset esyms (norm e) <= esyms e} &
      forall e, no_I e -> no_I (norm e)].

(** The symbol used for [v] inside a polynomial with the given variables:
    indexed variables are written without underscore. *)
Definition canonical (names params : seq sym) (v : sym) : sym :=
  if v \in params then v else
  if split_subscript v is Ok (n, Some i) then if n \in names then merge_subscript n i else v
  else v.
