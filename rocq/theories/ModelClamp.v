(** Model of cyjax/polynomial.py: evaluation at JAX arrays.  [eval_sympy] in
    ModelExpr.v follows NumPy, where an index out of range raises. *)
From Coq Require Import ZArith Ascii String.
From mathcomp Require Import all_ssreflect all_algebra.
From mathcomp Require Import ssrZ.
From Verif Require Import Base ModelStr ModelExpr ModelPoly.
Delimit Scope Z_scope with Z.

Set Implicit Arguments.
Unset Strict Implicit.
Unset Printing Implicit Defensive.

Import GRing.Theory Num.Theory.
Local Open Scope ring_scope.

(** array[i] of a JAX array (external): an index out of range is replaced by the
    last one.  (What happens for empty arrays is not used.) *)
Definition item_clamp (T : Type) (s : seq T) (i : nat) : res T :=
  if s is x :: s' then Ok (nth (last x s') s i) else Err IndexError.

Section Clamp.
Variable C : numClosedFieldType.

Definition get_entry_clamp (v : option (pyval C)) (i : nat) : res C :=
  match v with
  | None => Err KeyError
  | Some (PArr a) => item_clamp a i
  | Some _ => Err TypeError
  end.

(** polynomial.py:181-214  _eval_sympy_poly, the values being JAX arrays. *)
Fixpoint eval_clamp (var_names : seq sym) (index_reorder : seq (sym * option (seq (Z * nat))))
    (par_index : seq (sym * nat)) (p : expr C) : res (pyfun C) :=
  match p with
  | ESym s =>
    do ni <- split_subscript s;
    let '(name, index) := ni in
    if name \in var_names then
      match dict_get index_reorder name with
      | None => Err KeyError
      | Some None => Ok (fun var par => get_scalar (var name))
      | Some (Some reo) =>
        match index with
        | None => Err KeyError
        | Some j =>
          match dict_get reo j with
          | None => Err KeyError
          | Some i => Ok (fun var par => get_entry_clamp (var name) i)
          end
        end
      end
    else
      match dict_get par_index s with
      | None => Err KeyError
      | Some i => Ok (fun var par =>
          match par with PArr a => item_clamp a i | _ => Err TypeError end)
      end
  | ENum c => Ok (fun _ _ => Ok c)
  | EAdd es =>
    do fns <- rseq (map (eval_clamp var_names index_reorder par_index) es);
    Ok (fun var par =>
      do vs <- rseq [seq (f : pyfun C) var par | f <- fns];
      Ok (foldl (fun a b => a + b) 0 vs))
  | EMul es =>
    do fns <- rseq (map (eval_clamp var_names index_reorder par_index) es);
    Ok (fun var par =>
      do vs <- rseq [seq (f : pyfun C) var par | f <- fns];
      Ok (prod_list vs))
  | EPow e n =>
    do fn1 <- eval_clamp var_names index_reorder par_index e;
    Ok (fun var par => rmap (fun v => v ^+ n) (fn1 var par))
  | EI => Err RuntimeError
  end.

(** polynomial.py:949-994  __call__ with JAX arrays. *)
Definition call_clamp (P : poly C) (args : seq (pyval C)) (kwargs : seq (sym * pyval C)) : res C :=
  do vp <- sort_var_args (variable_names P) (size (parameters P)) args kwargs;
  let '(vars, params) := vp in
  do e <- sp_expr (sympy_poly P);
  do fn <- eval_clamp (variable_names P) (variable_index_dict P) (parameter_position P) e;
  fn (dict_get (zip (variable_names P) vars)) params.
End Clamp.
