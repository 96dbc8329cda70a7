(** Model of cyjax/polynomial.py: expressions, numeric evaluation and argument
    binding.

    A sympy expression of a polynomial is a tree of numbers, the imaginary unit,
    symbols, sums, products and powers with a natural exponent. *)
From Coq Require Import ZArith Ascii String.
From mathcomp Require Import all_ssreflect all_algebra.
From mathcomp Require Import ssrZ.
From Verif Require Import Base ModelStr.
Delimit Scope Z_scope with Z.

Set Implicit Arguments.
Unset Strict Implicit.
Unset Printing Implicit Defensive.

Import GRing.Theory Num.Theory.
Local Open Scope ring_scope.

(** Python dictionaries built from a list of pairs: the last entry wins. *)
Fixpoint dict_get (K : eqType) (V : Type) (d : seq (K * V)) (k : K) : option V :=
  if d is (k', v) :: d' then
    if dict_get d' k is Some w then Some w
    else if k == k' then Some v else None
  else None.

(** seq[i] *)
Definition item (T : Type) (s : seq T) (i : nat) : res T :=
  if drop i s is x :: _ then Ok x else Err IndexError.

Section Expr.
Variable C : numClosedFieldType.

Inductive expr : Type :=
  | ENum of C
  | EI
  | ESym of sym
  | EAdd of seq expr
  | EMul of seq expr
  | EPow of expr & nat.

(** Mathematical value of an expression under an assignment of its symbols. *)
Fixpoint sem (rho : sym -> C) (e : expr) : C :=
  match e with
  | ENum c => c
  | EI => 'i
  | ESym s => rho s
  | EAdd es => \sum_(v <- map (sem rho) es) v
  | EMul es => \prod_(v <- map (sem rho) es) v
  | EPow e n => sem rho e ^+ n
  end.

(** Symbols of an expression. *)
Fixpoint esyms (e : expr) : seq sym :=
  match e with
  | ENum _ | EI => [::]
  | ESym s => [:: s]
  | EAdd es | EMul es => flatten (map esyms es)
  | EPow e _ => esyms e
  end.

(** No occurrence of the imaginary unit. *)
Fixpoint no_I (e : expr) : bool :=
  match e with
  | ENum _ | ESym _ => true
  | EI => false
  | EAdd es | EMul es => all no_I es
  | EPow e _ => no_I e
  end.

(** Simultaneous and single substitution. *)
Fixpoint esubst (f : sym -> expr) (e : expr) : expr :=
  match e with
  | ENum _ | EI => e
  | ESym s => f s
  | EAdd es => EAdd (map (esubst f) es)
  | EMul es => EMul (map (esubst f) es)
  | EPow e n => EPow (esubst f e) n
  end.

Definition subs1 (s : sym) (v : expr) (e : expr) : expr :=
  esubst (fun x => if x == s then v else ESym x) e.

(** expr.subs(dict): the replacements are made one after the other, in an
    order chosen by sympy. *)
Definition subs (d : seq (sym * expr)) (e : expr) : expr :=
  foldl (fun e sv => subs1 sv.1 sv.2 e) e d.

(** Numeric inputs: None, a scalar or a 1-d array. *)
Inductive pyval : Type := PNone | PNum of C | PArr of seq C.

(** polynomial.py:181-214  _eval_sympy_poly.  The first result is the outcome of
    building the function, the second that of calling it.  [index_reorder] and
    [par_index] are dictionaries; exponents are natural numbers. *)
Definition pyfun := ((sym -> option pyval) -> pyval -> res C)%type.

Definition get_scalar (v : option pyval) : res C :=
  match v with
  | None => Err KeyError
  | Some (PNum c) => Ok c
  | Some _ => Err TypeError   (* array-valued arithmetic is not modelled *)
  end.
Definition get_entry (v : option pyval) (i : nat) : res C :=
  match v with
  | None => Err KeyError
  | Some (PArr a) => item a i
  | Some _ => Err TypeError
  end.

(** util.py:29-37  prod, without its in-place update (see ModelStore.v) *)
Definition prod_list (vs : seq C) : C :=
  match vs with [::] => 1 | v :: vs => foldl (fun a b => a * b) v vs end.

Fixpoint eval_sympy (var_names : seq sym) (index_reorder : seq (sym * option (seq (Z * nat))))
    (par_index : seq (sym * nat)) (p : expr) : res pyfun :=
  match p with
  | ESym s =>
    do ni <- split_subscript s;
    let '(name, index) := ni in
    if name \in var_names then
      match dict_get index_reorder name with
      | None => Err KeyError
      | Some None => Ok (fun var par => get_scalar (var name))
      | Some (Some reo) =>
        match index with
        | None => Err KeyError
        | Some j =>
          match dict_get reo j with
          | None => Err KeyError
          | Some i => Ok (fun var par => get_entry (var name) i)
          end
        end
      end
    else
      match dict_get par_index s with
      | None => Err KeyError
      | Some i => Ok (fun var par =>
          match par with PArr a => item a i | _ => Err TypeError end)
      end
  | ENum c => Ok (fun _ _ => Ok c)
  | EAdd es =>
    do fns <- rseq (map (eval_sympy var_names index_reorder par_index) es);
    Ok (fun var par =>
      do vs <- rseq [seq (f : pyfun) var par | f <- fns];
      Ok (foldl (fun a b => a + b) 0 vs))
  | EMul es =>
    do fns <- rseq (map (eval_sympy var_names index_reorder par_index) es);
    Ok (fun var par =>
      do vs <- rseq [seq (f : pyfun) var par | f <- fns];
      Ok (prod_list vs))
  | EPow e n =>
    do fn1 <- eval_sympy var_names index_reorder par_index e;
    Ok (fun var par => rmap (fun v => v ^+ n) (fn1 var par))
  | EI => Err RuntimeError  (* ImaginaryUnit is not a sympy.Number *)
  end.

(** polynomial.py:139-164  _sort_var_args; [nparams] = len(parameters) *)
Definition sort_var_args (variable_names : seq sym) (nparams : nat)
    (var_args : seq pyval) (var_kwargs : seq (sym * pyval)) : res (seq pyval * pyval) :=
  let n := size variable_names in
  do pa <- match dict_get var_kwargs (lit "params") with
    | Some p => Ok (p, (var_args, [seq kv <- var_kwargs | kv.1 != lit "params"]))
    | None =>
      if size var_args == n.+1
      then Ok (last PNone var_args, (take n var_args, var_kwargs))
      else if (n.+1 < size var_args)%N then Err RuntimeError
      else Ok (PNone, (var_args, var_kwargs))
    end;
  let '(params, (args, kwargs)) := pa in
  let variables := take n args in
  do more <- rseq [seq (if dict_get kwargs name is Some v then Ok v else Err KeyError)
                  | name <- drop (size variables) variable_names];
  match params with
  | PNone => Ok (variables ++ more, params)
  | PArr a => do _ <- rassert (size a == nparams); Ok (variables ++ more, params)
  | PNum _ => Err TypeError
  end.
End Expr.
Arguments EI {C}.
Arguments PNone {C}.
Arguments ESym {C} _.
