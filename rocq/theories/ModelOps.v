(** Model of cyjax/polynomial.py:833-916: derivatives of polynomials and their
    arithmetic with numbers and symbols; the sympy form of DworkPoly and FermatPoly. *)
From Coq Require Import ZArith Ascii String.
From mathcomp Require Import all_ssreflect all_algebra.
From mathcomp Require Import ssrZ.
From Verif Require Import Base ModelStr ModelExpr ModelPoly ModelHom ModelVariety ModelPipe.
Delimit Scope Z_scope with Z.

Set Implicit Arguments.
Unset Strict Implicit.
Unset Printing Implicit Defensive.

Import GRing.Theory Num.Theory.
Local Open Scope ring_scope.

Section Ops.
Variable C : numClosedFieldType.
Variable norm : expr C -> expr C.
Notation expr := (expr C).
Notation poly := (poly C).

(** The derivative of an expression by a symbol, by the rules for sums, products
    and powers (sympy, external; up to [norm]). *)
Fixpoint ediff (v : sym) (e : expr) : expr :=
  match e with
  | ENum _ | EI => ENum 0
  | ESym s => ENum (if s == v then 1 else 0)
  | EAdd es => EAdd (map (ediff v) es)
  | EMul es =>
    (fix go (es : seq expr) : expr :=
       if es is e :: es' then EAdd [:: EMul (ediff v e :: es'); EMul [:: e; go es']]
       else ENum 0) es
  | EPow e n => EMul [:: ENum n%:R; EPow e n.-1; ediff v e]
  end.

(** sympy.Poly.diff(var) (external): [var] must be one of the generators, which
    are kept. *)
Definition sp_diff (sp : spoly C) (v : sym) : res (spoly C) :=
  match sp with
  | SPoly g e => if v \in g then Ok (SPoly g (norm (ediff v e))) else Err OtherError
  | SExpr _ => Err OtherError
  end.

(** polynomial.py:878-883  diff, up to from_poly.  A string is taken as the symbol
    of that name (names with a meaning for sympy are not modelled). *)
Definition poly_diff (P : poly) (v : sym) : res poly :=
  do sp <- sp_diff (sympy_poly P) v;
  do _ <- check_signature [::] (variable_names P);
  Ok (MkPoly (variable_names P) (variable_indices P) (parameters P) sp).

(** polynomial.py:452-465  from_poly of HomPoly: a new object with nothing cached. *)
Definition hom_diff (H : hompoly C) (v : sym) : res (hompoly C) :=
  do P <- poly_diff (hp H) v; hom_init P.

(** polynomial.py:378-386  the property sympy_poly where nothing is stored: the
    call on the symbols of the variables. *)
Definition z_symbols (n : nat) : seq sym := [seq merge_subscript (lit "z") (Z.of_nat i) | i <- iota 0 n].
Definition z_indices (n : nat) : seq (option (seq Z)) := [:: Some [seq Z.of_nat i | i <- iota 0 n]].
Definition dwork_poly (degree : nat) (factor : dwork_factor C) : res poly :=
  do e <- dwork_sym degree factor [seq ESym s | s <- z_symbols degree] [:: ESym (lit "psi")];
  do sp <- sympy_Poly norm e (z_symbols degree) [:: lit "psi"];
  Ok (MkPoly [:: lit "z"] (z_indices degree) [:: lit "psi"] sp).
Definition fermat_poly (degree : nat) : res poly :=
  do e <- fermat_sym degree [seq ESym s | s <- z_symbols degree];
  do sp <- sympy_Poly norm e (z_symbols degree) [::];
  Ok (MkPoly [:: lit "z"] (z_indices degree) [::] sp).

(** polynomial.py:1214-1215, 1239-1240  diff of DworkPoly and FermatPoly: from_poly
    returns the general polynomial. *)
Definition dwork_diff (degree : nat) (factor : dwork_factor C) (v : sym) : res poly :=
  do P <- dwork_poly degree factor; poly_diff P v.
Definition fermat_diff (degree : nat) (v : sym) : res poly :=
  do P <- fermat_poly degree; poly_diff P v.

(** polynomial.py:833-876  _combine_metadata.  The result is the variables, the
    parameters, and the other operand as a sympy polynomial (numbers and parameters
    have no generators). *)
Inductive operand : Type := ONum of C | OSym of sym | OPoly of poly.

Definition combine_metadata (P : poly) (o : operand)
    : res ((seq sym * seq (option (seq Z))) * seq sym * spoly C) :=
  let names := variable_names P in
  let inds := variable_indices P in
  let params := parameters P in
  match o with
  | ONum c => Ok ((names, inds), params, SPoly [::] (num_expr c))
  | OSym s =>
    if s \in params then Ok ((names, inds), params, SPoly [::] (ESym s)) else
    do ni <- split_subscript s;
    let '(name, index) := ni in
    if name \in names then
      let k := seq.index name names in
      match nth None inds k, index with
      | None, None => Ok ((names, inds), params, SPoly [:: s] (ESym s))
      | Some ind, Some i =>
        Ok ((names, set_nth None inds k (Some (union_indices ind [:: i]))), params, SPoly [:: s] (ESym s))
      | _, _ => Err AssertionError
      end
    else Ok ((names, inds), rcons params s, SPoly [::] (ESym s))
  | OPoly Q =>
    do ni <- merge_vars names inds (zip (variable_names Q) (variable_indices Q));
    Ok (ni, merge_params params (parameters Q), sympy_poly Q)
  end.

(** polynomial.py:885-916  __add__, __sub__, __mul__: the operation on expressions
    (sympy, external; up to [norm]) *)
Inductive arith : Type := Plus | Minus | Times.
Definition op_expr (k : arith) (a b : expr) : expr :=
  match k with
  | Plus => EAdd [:: a; b]
  | Minus => EAdd [:: a; EMul [:: ENum (- 1); b]]
  | Times => EMul [:: a; b]
  end.

(** polynomial.py:885-916  __add__, __sub__, __mul__ *)
Definition poly_op (k : arith) (P : poly) (o : operand) : res poly :=
  do r <- combine_metadata P o;
  let '(ni, params, sq) := r in
  do _ <- check_signature [::] ni.1;
  do eP <- sp_expr (sympy_poly P);
  do eQ <- sp_expr sq;
  do sp <- sympy_Poly norm (op_expr k eP eQ) (undup (sp_gens (sympy_poly P) ++ sp_gens sq)) params;
  Ok (MkPoly ni.1 ni.2 params sp).
End Ops.
Arguments OSym {C} _.
