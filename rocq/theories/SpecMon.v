(** Notions used in the statements about tables of coefficients and powers. *)
From Coq Require Import ZArith Ascii String.
From mathcomp Require Import all_ssreflect all_algebra.
From mathcomp Require Import ssrZ.
From Verif Require Import Base ModelStr ModelExpr ModelPoly ModelMon.
Delimit Scope Z_scope with Z.

Set Implicit Arguments.
Unset Strict Implicit.
Unset Printing Implicit Defensive.

Import GRing.Theory Num.Theory.
Local Open Scope ring_scope.

(** For [n] monomials: one row per monomial, one power per entry; a variable
    without value or without powers has an empty table at most. *)
Definition table_ok (T : Type) (n : nat) (vp : option (seq T) * option ptable) : bool :=
  match vp with
  | (Some v, Some p) => (size p == n) && all (fun row => size row == size v) p
  | (None, Some p) => nilp p
  | (_, None) => true
  end.

(** The symbols of each variable. *)
Definition var_lists (names : seq sym) (inds : seq (option (seq Z))) : seq (seq sym) :=
  [seq symbols_of ni.1 ni.2 | ni <- zip names inds].

(** The generators are distinct variables and every term has one power for each. *)
Definition terms_fit (C : numClosedFieldType) (P : poly C) (gens : seq sym) (terms : seq (term C)) : Prop :=
  [/\ uniq gens, uniq (flatten (var_lists (variable_names P) (variable_indices P))),
      {subset gens <= flatten (var_lists (variable_names P) (variable_indices P))} &
      all (fun t => size t.1 == size gens) terms].

Section SpecMon.
Variable C : numClosedFieldType.
Implicit Types (vp : option (seq C) * option ptable).

(** prod_j v_j ^ p_ij *)
Definition factor_value (i : nat) vp : C :=
  if vp is (Some v, Some p) then
    \prod_(j < size v) nth 0 v j ^+ nth 0%N (nth [::] p i) j
  else 1.

(** coeff_i * prod_k prod_j v_kj ^ p_kij *)
Definition monomial_values (values : seq (option (seq C))) (coeffs : seq C)
    (powers : seq (option ptable)) : seq C :=
  [seq nth 0 coeffs i * \prod_(vp <- zip values powers) factor_value i vp
  | i <- iota 0 (size coeffs)].

(** No zero is raised to a nonzero power. *)
Definition log_safe vp : bool :=
  if vp is (Some v, Some p) then
    all (fun row => all (fun xk => (xk.2 == 0%N) || (xk.1 != 0)) (zip v row)) p
  else true.

(** What is used of exp and log. *)
Definition exp_log_ok (lg ex : C -> C) : Prop :=
  [/\ ex 0 = 1, forall a b, ex (a + b) = ex a * ex b & forall v, v != 0 -> ex (lg v) = v].

(** Value of a polynomial given by tables. *)
Definition tables_value (rho : sym -> C) (vars : seq (seq sym)) (coeffs : seq C)
    (coeffs_params : seq (seq sym)) (powers : seq (option ptable)) : C :=
  \sum_(i < size coeffs) nth 0 coeffs i * (\prod_(p <- nth [::] coeffs_params i) rho p) *
    \prod_(vp <- zip vars powers) factor_value i (Some (map rho vp.1), vp.2).

(** Value of a list of terms with one power per generator. *)
Definition terms_value (rho : sym -> C) (gens : seq sym) (terms : seq (term C)) : C :=
  \sum_(t <- terms) sem rho t.2 * \prod_(j < size gens) rho (nth [::] gens j) ^+ nth 0%N t.1 j.

(** A product of parameters and at most one number or imaginary unit. *)
Definition is_param (params : seq sym) (e : expr C) : bool :=
  if e is ESym s then s \in params else false.
Definition is_unit_number (e : expr C) : bool :=
  match e with ENum _ | EI => true | _ => false end.
Definition simple_product (params : seq sym) (e : expr C) : bool :=
  let fs := if e is EMul es then es else [:: e] in
  all (fun f => is_param params f || is_unit_number f) fs && (count is_unit_number fs <= 1)%N.
(** A sum of such products. *)
Definition simple_coeff (params : seq sym) (e : expr C) : bool :=
  if e is EAdd es then all (simple_product params) es else simple_product params e.

(** Every factor of every summand is a parameter or a number. *)
Definition known_factors (params : seq sym) (e : expr C) : bool :=
  all (fun f => all (fun g => is_param params g || is_unit_number g) (if f is EMul es then es else [:: f]))
    (if e is EAdd es then es else [:: e]).
End SpecMon.
