(** Model of cyjax/polynomial.py: tables of coefficients and powers. *)
From Coq Require Import ZArith Ascii String.
From mathcomp Require Import all_ssreflect all_algebra.
From mathcomp Require Import ssrZ.
From Verif Require Import Base ModelStr ModelExpr ModelPoly.
Delimit Scope Z_scope with Z.

Set Implicit Arguments.
Unset Strict Implicit.
Unset Printing Implicit Defensive.

Import GRing.Theory Num.Theory.
Local Open Scope ring_scope.

(** Powers of one variable: for every monomial the powers of its entries. *)
Definition ptable := seq (seq nat).

(** Shapes as required by jax.vmap / lax.scan (plain: by numpy, where arrays of
    length one would also be broadcast; that is not modelled). *)
Definition fits_table (nv nc : nat) (p : ptable) : bool :=
  (size p == nc) && all (fun row => size row == nv) p.

Section Mon.
Variable C : numClosedFieldType.
(** jnp.log and jnp.exp *)
Variables (lg ex : C -> C).

Inductive strategy := Symbolic | Plain | Opt | Log.

(** polynomial.py:226-234  _compute_mon_scalar *)
Definition mon_scalar (log : bool) (x : C) (power : nat) (product : C) : C :=
  if power == 0%N then product
  else if log then product + x * power%:R else product * x ^+ power.

(** polynomial.py:237-245  _compute_mon: vmap over monomials, scan over entries *)
Definition mon_scan (log : bool) (arr : seq C) (power : seq nat) (product : C) : C :=
  foldl (fun pr ap => mon_scalar log ap.1 ap.2 pr) product (zip arr power).
Definition compute_mon (log : bool) (arr : seq C) (power : ptable) (products : seq C) : seq C :=
  [seq mon_scan log arr pp.1 pp.2 | pp <- zip power products].

(** jnp.prod(v ** p, axis=-1) *)
Definition prod_powers (v : seq C) (row : seq nat) : C :=
  \prod_(xp <- zip v row) xp.1 ^+ xp.2.

(** polynomial.py:248-316  compute_monomials.  A value is a 1-d array (after
    atleast_1d) or None. *)
Definition mon_step (st : strategy) (products : seq C)
    (vp : option (seq C) * option ptable) : res (seq C) :=
  match vp with
  | (Some v, Some p) =>
    if ~~ fits_table (size v) (size products) p then Err ValueError else
    match st with
    | Log => Ok (compute_mon true (map lg v) p products)
    | Opt => Ok (compute_mon false v p products)
    | _ => Ok [seq rp.1 * prod_powers v rp.2 | rp <- zip products p]
    end
  | (_, p) => do _ <- rassert (if p is Some p' then nilp p' else true); Ok products
  end.

Fixpoint mon_loop (st : strategy) (products : seq C)
    (vps : seq (option (seq C) * option ptable)) : res (seq C) :=
  if vps is vp :: vps' then do pr <- mon_step st products vp; mon_loop st pr vps'
  else Ok products.

Definition compute_monomials (st : strategy) (values : seq (option (seq C))) (coeffs : seq C)
    (powers : seq (option ptable)) : res (seq C) :=
  let init := if st is Log then 0 else 1 in
  do products <- mon_loop st (nseq (size coeffs) init) (zip values powers);
  Ok [seq cp.1 * (if st is Log then ex cp.2 else cp.2) | cp <- zip coeffs products].

(** *** Extraction of coefficients *)
(** polynomial.py:167-178  _sympy_eval_num; float(expression) raises. *)
Definition sympy_eval_num (e : expr C) : res C :=
  match e with ENum c => Ok c | EI => Ok 'i | _ => Err TypeError end.

(** polynomial.py:794-802  _add_coeff; one numeric value replaces another. *)
Definition add_coeff (params : seq sym) (acc : C * seq sym) (p : expr C) : res (C * seq sym) :=
  if p is ESym s then
    do _ <- rassert (s \in params); Ok (acc.1, rcons acc.2 s)
  else do v <- sympy_eval_num p; Ok (v, acc.2).

Fixpoint add_coeffs (params : seq sym) (acc : C * seq sym) (ps : seq (expr C)) : res (C * seq sym) :=
  if ps is p :: ps' then do a <- add_coeff params acc p; add_coeffs params a ps' else Ok acc.

(** polynomial.py:804-808, 810-818, 820-825: factors of a coefficient; powers of a variable *)
Definition factors (e : expr C) : seq (expr C) := if e is EMul es then es else [:: e].
Definition summands (e : expr C) : seq (expr C) := if e is EAdd es then es else [:: e].

Definition power_entry (gens : seq sym) (pows : seq nat) (v : sym) : res nat :=
  if v \in gens then item pows (index v gens) else Ok 0%N.

(** polynomial.py:766-831  to_coeffs_and_powers.  [terms] is the list of
    (powers of the generators, coefficient) of sympy_poly.terms(). *)
Definition term := (seq nat * expr C)%type.

Definition split_terms (terms : seq term) : seq term :=
  flatten [seq [seq (t.1, c) | c <- summands t.2] | t <- terms].

Definition term_powers (gens : seq sym) (var : seq sym) (terms : seq term) : res ptable :=
  rseq [seq rseq [seq power_entry gens t.1 v | v <- var] | t <- terms].

Definition none_if_zero (p : ptable) : option ptable :=
  if all (all (pred1 0%N)) p then None else Some p.

Definition to_coeffs_and_powers (P : poly C) (gens : seq sym) (terms : seq term)
    : res (seq C * seq (seq sym) * seq (option ptable)) :=
  let ts := split_terms terms in
  do cps <- rseq [seq add_coeffs (parameters P) (1, [::]) (factors t.2) | t <- ts];
  do pws <- rseq [seq term_powers gens (symbols_of ni.1 ni.2) ts
                 | ni <- zip (variable_names P) (variable_indices P)];
  Ok (map fst cps, map snd cps, map none_if_zero pws).

(** *** Construction from tables *)
(** polynomial.py:681-764  from_coeffs_and_powers.  The expression is that of
    compute_monomials with symbols; complex coefficients are numbers.  [pick]
    are the generators sympy.Poly finds by itself (an expression without any is
    an error) and [setorder] the order in which a set of parameters is listed. *)
Variable norm : expr C -> expr C.
Variable pick : expr C -> seq sym.
Variable setorder : seq sym -> seq sym.

Definition sym_prod (var : seq sym) (row : seq nat) : expr C :=
  EMul [seq EPow (ESym sp.1) sp.2 | sp <- zip var row].

Fixpoint sym_loop (products : seq (seq (expr C))) (vps : seq (seq sym * option ptable))
    : res (seq (seq (expr C))) :=
  match vps with
  | [::] => Ok products
  | (v, Some p) :: vps' =>
    if ~~ fits_table (size v) (size products) p then Err ValueError else
    sym_loop [seq rcons rp.1 (sym_prod v rp.2) | rp <- zip products p] vps'
  | (v, None) :: vps' => sym_loop products vps'
  end.

(** chr(ord('a') + i) *)
Definition default_names (n : nat) : seq sym := mkseq (fun i => [:: ascii_of_nat (97 + i)]) n.
(** range(len(pws[0])) *)
Definition default_indices (powers : seq (option ptable)) : res (seq (option (seq Z))) :=
  rseq [seq (match p with
             | Some (row :: _) => Ok (Some [seq Z.of_nat i | i <- iota 0 (size row)])
             | Some [::] => Err IndexError
             | None => Err TypeError
             end) | p <- powers].

Definition from_coeffs_and_powers (coeffs : seq C) (powers : seq (option ptable))
    (coeffs_params : option (seq (seq sym))) (names : option (seq sym))
    (inds : option (seq (option (seq Z)))) (params : option (seq sym)) : res (poly C) :=
  let cparams := if coeffs_params is Some s then s else nseq (size coeffs) [::] in
  let nms := if names is Some s then s else default_names (size powers) in
  do idx <- (if inds is Some s then Ok s else default_indices powers);
  do par <- (if params is Some s then Ok s
             else if nilp cparams then Err TypeError (* reduce of an empty sequence *)
             else Ok (setorder (flatten cparams)));
  do _ <- check_signature [::] nms;
  if ~~ all (fun cp => all (fun p => p \in par) cp.2) (zip coeffs cparams)
  then Err KeyError else
  let cs := [seq EMul (ENum cp.1 :: map ESym cp.2) | cp <- zip coeffs cparams] in
  do products <- sym_loop (nseq (size cs) [::])
     (zip [seq symbols_of ni.1 ni.2 | ni <- zip nms idx] powers);
  let e := EAdd [seq EMul (cp.1 :: cp.2) | cp <- zip cs products] in
  if pick e is [::] then Err OtherError
  else Ok (MkPoly nms idx par (SPoly (pick e) (norm e))).
End Mon.
