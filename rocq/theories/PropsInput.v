(** Property C133: from_sympy of a sympy.Poly. *)
From Coq Require Import ZArith Ascii String.
From mathcomp Require Import all_ssreflect all_algebra.
From mathcomp Require Import ssrZ.
From Verif Require Import Base ModelStr ModelExpr ModelPoly ModelInput SpecPoly SpecInput ProofInput.
Delimit Scope Z_scope with Z.

Set Implicit Arguments.
Unset Strict Implicit.
Unset Printing Implicit Defensive.

Import GRing.Theory Num.Theory.
Local Open Scope ring_scope.

(** ** C133: from_sympy of a sympy.Poly *)
(** Variables from the generators, parameters from the domain, and evaluation. *)
Theorem sympy_poly_evaluates : forall (C : numClosedFieldType) (norm : expr C -> expr C)
    gens dom (e : expr C) syms setlist params P (rho : sym -> C) extra,
  norm_ok norm -> (forall s, perm_eq (setlist s) s) -> uniq syms -> syms =i esyms e -> no_I e ->
  (forall g n, g \in gens -> has_base g n -> alpha n) ->
  let pars := if params is Some s then Some s else dom in
  (forall p, p \in odflt [::] pars -> exists2 n, has_base p n & forall g, g \in gens -> ~ has_base g n) ->
  (forall v n i, v \in syms -> split_subscript v = Ok (n, Some i) -> (0 <= i)%Z) ->
  from_sympy_obj norm gens dom e syms setlist None params None = Ok P ->
  [/\ forall n, n \in variable_names P <-> exists2 g, g \in gens & has_base g n,
      (forall s, pars = Some s -> parameters P = s) &
      call_num P (rcons (var_inputs P rho extra) (par_input P rho)) [::] =
        Ok (sem (fun v => rho (canonical (variable_names P) (odflt [::] pars) v)) e)].
Proof. exact obj_value. Qed.
Print Assumptions sympy_poly_evaluates.

(** The order of the names is that of a set; calls with keyword arguments do not
    depend on it ... *)
Theorem sympy_poly_keyword_calls : forall (C : numClosedFieldType) (norm : expr C -> expr C)
    gens dom (e : expr C) syms l1 l2 params P,
  (forall s, perm_eq (l1 s) s) -> (forall s, perm_eq (l2 s) s) ->
  uniq syms -> syms =i esyms e ->
  (forall g n, g \in gens -> has_base g n -> alpha n) ->
  from_sympy_obj norm gens dom e syms l1 None params None = Ok P ->
  exists P', [/\ from_sympy_obj norm gens dom e syms l2 None params None = Ok P',
    perm_eq (variable_names P') (variable_names P), parameters P' = parameters P,
    (forall n, n \in variable_names P -> nth None (variable_indices P') (index n (variable_names P')) =
                             nth None (variable_indices P) (index n (variable_names P))) &
    forall kw, call_num P' [::] kw = call_num P [::] kw].
Proof. exact obj_order. Qed.
Print Assumptions sympy_poly_keyword_calls.

(** ... but positional calls do: x0 + 2 y0 at (a), (b). *)
Definition xy_expr (C : numClosedFieldType) : expr C :=
  EAdd [:: ESym (lit "x0"); EMul [:: ENum 2%:R; ESym (lit "y0")]].
Theorem sympy_poly_positional_refuted : forall (C : numClosedFieldType) (a b : C),
  let make l := from_sympy_obj id [:: lit "x0"; lit "y0"] None (xy_expr C) [:: lit "x0"; lit "y0"] l None None None in
  exists P P', [/\ make id = Ok P, make rev = Ok P',
    call_num P [:: PArr [:: a]; PArr [:: b]] [::] = Ok (0 + a + 2%:R * b) &
    call_num P' [:: PArr [:: a]; PArr [:: b]] [::] = Ok (0 + b + 2%:R * a)].
Proof. by move=> C a b make; do 2 eexists; split; [vm_compute|vm_compute| |]. Qed.
Print Assumptions sympy_poly_positional_refuted.

(** Generators which do not occur in the expression are not counted: of the
    coordinates z0, ..., zn of z0^2 + zn^2 only two are left, and a point with n + 1
    coordinates is evaluated at its first two. *)
Theorem sympy_poly_generators_refuted : forall (C : numClosedFieldType) (norm : expr C -> expr C)
    n setlist P (a b : C) rest,
  (0 < n)%N -> (forall s, perm_eq (setlist s) s) -> norm_ok norm ->
  from_sympy_obj norm [seq zsym i | i <- iota 0 n.+1] None (two_squares C n) [:: zsym 0; zsym n]
    setlist None None None = Ok P ->
  variable_indices P = [:: Some [:: 0%Z; Z.of_nat n]] /\
  call_num P [:: PArr (a :: b :: rest); PArr [::]] [::] = Ok (a ^+ 2 + b ^+ 2).
Proof. exact two_squares_call. Qed.
Print Assumptions sympy_poly_generators_refuted.

(** The point (0, 1, 0) is a zero of z0^2 + z2^2; the value computed is 1. *)
Example sympy_poly_generators_ex (C : numClosedFieldType) :
  exists2 P, from_sympy_obj id [:: lit "z0"; lit "z1"; lit "z2"] None (two_squares C 2)
      [:: lit "z0"; lit "z2"] id None None None = Ok P &
    call_num P [:: PArr [:: 0; 1; 0]; PArr [::]] [::] = Ok 1.
Proof.
have pl (s : seq sym) : perm_eq (id s) s by [].
have nk : norm_ok (@id (expr C)) by split=> // e s.
eexists; first by vm_compute.
have := @two_squares_call C id 2 id _ 0 1 [:: 0] isT pl nk (erefl _).
by case=> _; rewrite expr0n expr1n add0r.
Qed.

(** Indices and parameters of a sympy.Poly over ZZ[psi]. *)
Example sympy_poly_ex (C : numClosedFieldType) :
  exists2 P, from_sympy_obj id [:: lit "z0"; lit "z1"] (Some [:: lit "psi"])
      (EAdd [:: EPow (ESym (lit "z0")) 2; EMul [:: ESym (lit "psi"); ESym (lit "z1")]] : expr C)
      [:: lit "psi"; lit "z1"; lit "z0"] id None None None = Ok P &
    variable_names P = [:: lit "z"] /\ parameters P = [:: lit "psi"].
Proof. by eexists; first by vm_compute. Qed.
