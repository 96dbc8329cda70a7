(** Model of cyjax/polynomial.py: class Poly.

    sympy is external.  [norm] is the form in which a sympy.Poly gives back an
    expression (its attribute expr); nothing is assumed about it here. *)
From Coq Require Import ZArith Ascii String.
From mathcomp Require Import all_ssreflect all_algebra.
From mathcomp Require Import ssrZ.
From Verif Require Import Base ModelStr ModelExpr.
Delimit Scope Z_scope with Z.

Set Implicit Arguments.
Unset Strict Implicit.
Unset Printing Implicit Defensive.

Import GRing.Theory Num.Theory.
Local Open Scope ring_scope.

(** polynomial.py:102-126  _union_indices.  The iterators are the lists of
    remaining items; [added] is the set of items of [ind]. *)
Definition add_new (ind : seq Z) (i : Z) : seq Z := if i \in ind then ind else rcons ind i.

Fixpoint union_loop (fuel : nat) (lft rgt : seq Z) (nl nr : option Z) (ind : seq Z)
    : seq Z * seq Z * option Z * option Z * seq Z :=
  if fuel is f.+1 then
    match (if nl is Some a then Some (a, lft)
           else if lft is a :: l then Some (a, l) else None) with
    | None => (lft, rgt, nl, nr, ind)
    | Some (a, lft) =>
      match (if nr is Some b then Some (b, rgt)
             else if rgt is b :: r then Some (b, r) else None) with
      | None => (lft, rgt, Some a, nr, ind)
      | Some (b, rgt) =>
        if (a <? b)%Z then union_loop f lft rgt None (Some b) (add_new ind a)
        else union_loop f lft rgt (Some a) None (add_new ind b)
      end
    end
  else (lft, rgt, nl, nr, ind).

Definition union_indices (lft rgt : seq Z) : seq Z :=
  let '(lft, rgt, nl, nr, ind) :=
    union_loop (size lft + size rgt).+1 lft rgt None None [::] in
  let ind := if nl is Some i then add_new ind i else ind in
  let ind := if nr is Some i then add_new ind i else ind in
  ind ++ [seq i <- lft | i \notin ind] ++ [seq i <- rgt | i \notin ind].

(** Python identifiers (ASCII; reserved words are not modelled). *)
Definition is_ident (s : sym) : bool :=
  if s is c :: t then
    (is_letter c || (c == "_"%char)) &&
    all (fun c => [|| is_letter c, is_digit c | c == "_"%char]) t
  else false.

(** Order of strings (sorted(..., key=str)). *)
Fixpoint sym_leb (s t : sym) : bool :=
  match s, t with
  | [::], _ => true
  | _ :: _, [::] => false
  | a :: s', b :: t' => (code a < code b)%N || ((code a == code b) && sym_leb s' t')
  end.

Section Poly.
Variable C : numClosedFieldType.
Variable norm : expr C -> expr C.
Notation expr := (expr C).

(** What is stored as _sympy_poly: a sympy.Poly with its generators, or a bare
    expression (Poly.subs of a symbol that is not a generator). *)
Inductive spoly : Type := SPoly of seq sym & expr | SExpr of expr.

Definition sp_expr (sp : spoly) : res expr :=
  match sp with SPoly _ e => Ok e | SExpr _ => Err OtherError end.

Record poly := MkPoly {
  variable_names : seq sym;
  variable_indices : seq (option (seq Z));
  parameters : seq sym;
  sympy_poly : spoly }.

(** polynomial.py:332-365  Poly.__init__: building the call signature.
    [extra] are the names of _extra_args. *)
Definition check_signature (extra names : seq sym) : res unit :=
  if all is_ident names && uniq (names ++ lit "params" :: extra)
  then Ok tt else Err ValueError.

(** polynomial.py:646-679  all_symbols(as_arrays=False), without and with the
    parameters. *)
Definition symbols_of (name : sym) (ind : option (seq Z)) : seq sym :=
  if ind is Some l then [seq merge_subscript name i | i <- l] else [:: name].

Definition var_symbols (names : seq sym) (inds : seq (option (seq Z))) : seq sym :=
  flatten [seq symbols_of ni.1 ni.2 | ni <- zip names inds].

Definition all_symbols (P : poly) : seq sym :=
  var_symbols (variable_names P) (variable_indices P) ++ parameters P.

(** sympy.Poly(expr, *gens, domain=CC[parameters]) (external): repeated
    generators, generators among the parameters, and symbols that are neither
    are errors.  (gens empty, where sympy would choose them, is not modelled.) *)
Definition sympy_Poly (e : expr) (gens params : seq sym) : res spoly :=
  if [&& gens != [::], uniq (gens ++ params) & all (fun s => s \in gens ++ params) (esyms e)]
  then Ok (SPoly gens (norm e)) else Err OtherError.

(** polynomial.py:466-644  from_sympy *)
Record fs_state := FsState {
  st_names : seq sym;
  st_idx : seq (option (seq Z));
  st_app : seq bool;
  st_ren : seq (sym * sym);
  st_par : seq sym }.

Definition fs_step (have_variables have_indices have_parameters : bool)
    (var_name_index : seq (sym * nat)) (st : fs_state) (v : sym) : res fs_state :=
  if v \in st_par st then Ok st else
  do ni <- split_subscript v;
  let '(name, index) := ni in
  if have_variables && (name \notin st_names st) then
    if have_parameters then Err AssertionError
    else Ok (FsState (st_names st) (st_idx st) (st_app st) (st_ren st) (rcons (st_par st) v))
  else
    match dict_get var_name_index name with
    | None =>
      if have_variables then Err ValueError else
      Ok (FsState (rcons (st_names st) name)
            (rcons (st_idx st) (if index is Some i then Some [:: i] else None))
            (rcons (st_app st) true) (st_ren st) (st_par st))
    | Some k =>
      do ik <- item (st_idx st) k;
      match index with
      | None => if ik is None then Ok st else Err AssertionError
      | Some i =>
        let ren := rcons (st_ren st) (v, merge_subscript name i) in
        if have_indices then
          match ik with
          | None => Err TypeError
          | Some l => if i \in l
              then Ok (FsState (st_names st) (st_idx st) (st_app st) ren (st_par st))
              else Err AssertionError
          end
        else
          match ik with
          | None =>
            if nth false (st_app st) k then Err AssertionError else
            Ok (FsState (st_names st) (set_nth None (st_idx st) k (Some [:: i]))
                 (st_app st) ren (st_par st))
          | Some l =>
            Ok (FsState (st_names st) (set_nth None (st_idx st) k (Some (rcons l i)))
                 (set_nth false (st_app st) k true) ren (st_par st))
          end
      end
    end.

Fixpoint fs_loop (hv hi hp : bool) (vni : seq (sym * nat)) (st : fs_state) (syms : seq sym)
    : res fs_state :=
  if syms is v :: syms' then
    do st' <- fs_step hv hi hp vni st v; fs_loop hv hi hp vni st' syms'
  else Ok st.

(** Renaming of symbols (poly_expr.subs(rename)). *)
Definition rename_fun (ren : seq (sym * sym)) (s : sym) : sym :=
  if dict_get ren s is Some t then t else s.
Definition erename (ren : seq (sym * sym)) (e : expr) : expr :=
  esubst (fun s => ESym (rename_fun ren s)) e.

(** [syms] is the order in which the set poly_expr.free_symbols is visited;
    variable names are strings (see [from_symarrays] for arrays). *)
Definition from_sympy (e : expr) (syms : seq sym) (names : option (seq sym))
    (params : option (seq sym)) (indices : option (seq (option (seq Z)))) : res poly :=
  let hv := isSome names in
  let hi := isSome indices in
  let hp := isSome params in
  do _ <- rassert (hv || ~~ hi);
  let names0 := if names is Some s then s else [::] in
  let idx0 := if indices is Some s then s else nseq (size names0) None in
  let par0 := if params is Some s then s else [::] in
  let vni := zip names0 (iota 0 (size names0)) in
  do st <- fs_loop hv hi hp vni
    (FsState names0 idx0 (nseq (size names0) false) [::] par0) syms;
  let idx := if hi then st_idx st
    else [seq (if ind is Some l then Some (sort Z.leb l) else None) | ind <- st_idx st] in
  let par := if hp then st_par st else sort sym_leb (st_par st) in
  do _ <- check_signature [::] (st_names st);
  do sp <- sympy_Poly (erename (st_ren st) e) (var_symbols (st_names st) idx) par;
  Ok (MkPoly (st_names st) idx par sp).

(** polynomial.py:523-525  variable_dim *)
Definition dim_indices (dims : seq nat) : seq (option (seq Z)) :=
  [seq Some [seq Z.of_nat i | i <- iota 0 d] | d <- dims].

(** polynomial.py:533-548  variable names given as arrays of symbols
    (0-d arrays are given by their single symbol). *)
Definition symarray_name (a : seq sym) : res sym :=
  if a is v :: _ then rmap fst (split_subscript v) else Ok (lit "dummy").
Definition symarray_indices (a : seq sym) : res (option (seq Z)) :=
  do ns <- rseq (map split_subscript a);
  if (size a == 1%N) && (if ns is [:: (_, None)] then true else false) then Ok None
  else do l <- rseq [seq (if n.2 is Some i then Ok i else Err TypeError) | n <- ns];
       Ok (Some l).

Definition from_symarrays (e : expr) (syms : seq sym) (arrays : seq (seq sym))
    (params : option (seq sym)) : res poly :=
  do _ <- rassert (arrays != [::]);  (* all_sym ^ all_str *)
  do names <- rseq (map symarray_name arrays);
  do inds <- rseq (map symarray_indices arrays);
  from_sympy e syms (Some names) params (Some inds).

(** polynomial.py:388-419  parameter_position and variable_index_dict *)
Definition parameter_position (P : poly) : seq (sym * nat) :=
  zip (parameters P) (iota 0 (size (parameters P))).
Definition variable_index_dict (P : poly) : seq (sym * option (seq (Z * nat))) :=
  [seq (ni.1, if ni.2 is Some l then Some (zip l (iota 0 (size l))) else None)
  | ni <- zip (variable_names P) (variable_indices P)].

(** polynomial.py:949-994  __call__ with numeric inputs (at least one). *)
Definition call_num (P : poly) (args : seq (pyval C)) (kwargs : seq (sym * pyval C)) : res C :=
  do vp <- sort_var_args (variable_names P) (size (parameters P)) args kwargs;
  let '(vars, params) := vp in
  do e <- sp_expr (sympy_poly P);
  do fn <- eval_sympy (variable_names P) (variable_index_dict P) (parameter_position P) e;
  fn (dict_get (zip (variable_names P) vars)) params.

(** polynomial.py:970-985  __call__ with symbolic inputs: one list of
    expressions per variable (a scalar is a list of length one), and the
    parameters; [order] is the order in which sympy makes the replacements. *)
Definition call_sym (P : poly) (vars : seq (seq expr)) (params : option (seq expr))
    (order : seq (sym * expr) -> seq (sym * expr)) : res expr :=
  do vl <- rseq [seq (if vi.2 is Some l
                      then do _ <- rassert (size vi.1 == size l); Ok vi.1
                      else Ok vi.1)
                | vi <- zip vars (variable_indices P)];
  let var_list := flatten vl ++ (if params is Some ps then ps else [::]) in
  do e <- sp_expr (sympy_poly P);
  Ok (subs (order (zip (all_symbols P) var_list)) e).

(** polynomial.py:833-876  _combine_metadata for another Poly object. *)
Fixpoint merge_vars (names : seq sym) (inds : seq (option (seq Z)))
    (other : seq (sym * option (seq Z))) : res (seq sym * seq (option (seq Z))) :=
  match other with
  | [::] => Ok (names, inds)
  | (name, indices) :: other' =>
    if name \in names then
      let k := index name names in
      match nth None inds k, indices with
      | None, None => merge_vars names inds other'
      | Some ind, Some l =>
        merge_vars names (set_nth None inds k (Some (union_indices ind l))) other'
      | _, _ => Err AssertionError
      end
    else merge_vars (rcons names name) (rcons inds indices) other'
  end.

Fixpoint merge_params (params other : seq sym) : seq sym :=
  if other is p :: other' then
    merge_params (if p \in params then params else rcons params p) other'
  else params.

(** polynomial.py:885-916  __mul__, __add__, __sub__ of two Poly objects.  The
    arithmetic of sympy.Poly objects is external: generators are merged (their
    order does not matter here) and [op] is applied; symbols that are generator
    on one side and coefficient symbol on the other are an error. *)
Definition sp_gens (sp : spoly) : seq sym := if sp is SPoly g _ then g else [::].

Definition combine (op : expr -> expr -> expr) (P Q : poly) : res poly :=
  let params := merge_params (parameters P) (parameters Q) in
  do ni <- merge_vars (variable_names P) (variable_indices P)
     (zip (variable_names Q) (variable_indices Q));
  do _ <- check_signature [::] ni.1;
  do eP <- sp_expr (sympy_poly P);
  do eQ <- sp_expr (sympy_poly Q);
  let gens := undup (sp_gens (sympy_poly P) ++ sp_gens (sympy_poly Q)) in
  do sp <- sympy_Poly (op eP eQ) gens params;
  Ok (MkPoly ni.1 ni.2 params sp).

Definition poly_add := combine (fun a b => EAdd [:: a; b]).
Definition poly_mul := combine (fun a b => EMul [:: a; b]).
Definition poly_sub := combine (fun a b => EAdd [:: a; EMul [:: ENum (- 1); b]]).

(** polynomial.py:997-1052  univariate_coefficients.  [terms] is the list of
    (power, coefficient) of sympy.Poly(poly.sympy_poly, var).terms(), and
    [visit] the order in which the symbols of a coefficient are visited. *)
Inductive coefficient : Type := UNum of C | UPoly of poly.

Definition univariate_coefficients (P : poly) (var : sym) (terms : seq (nat * expr))
    (visit : expr -> seq sym) : res (seq coefficient) :=
  do _ <- rassert (var \notin parameters P);
  let all_vars := [seq symbols_of ni.1 ni.2
                  | ni <- zip (variable_names P) (variable_indices P)] in
  let consts := [seq [seq s <- v | s != var] | v <- all_vars & has (fun s => s != var) v] in
  do coeffs <- rseq [seq
      (if nilp (esyms t.2) then Ok (t.1, UNum (sem (fun=> 0) t.2))
       else rmap (fun p => (t.1, UPoly p))
              (from_symarrays t.2 (visit t.2) consts (Some (parameters P))))
    | t <- terms];
  let top := \max_(t <- terms) t.1 in
  Ok [seq (if dict_get coeffs i is Some c then c else UNum 0) | i <- rev (iota 0 top.+1)].
End Poly.
