(** Model of numeric evaluation with mutable inputs (cyjax/polynomial.py and
    cyjax/util.py).  A value is an immutable number (Python and numpy scalars,
    entries of jax arrays) or a mutable 0-d numpy array, given by its location
    in a store. *)
From Coq Require Import ZArith Ascii String.
From mathcomp Require Import all_ssreflect all_algebra.
From Verif Require Import Base ModelStr ModelExpr.

Set Implicit Arguments.
Unset Strict Implicit.
Unset Printing Implicit Defensive.

Import GRing.Theory Num.Theory.
Local Open Scope ring_scope.

Section Store.
Variable C : numClosedFieldType.

Inductive obj : Type := Imm of C | Ref of nat.
Definition store := nat -> C.

Definition deref (h : store) (o : obj) : C := match o with Imm c => c | Ref l => h l end.
Definition upd (h : store) (l : nat) (c : C) : store := fun k => if k == l then c else h k.

(** util.py:29-37  prod: [pr *= factor] *)
Definition imul (h : store) (pr : obj) (v : obj) : obj * store :=
  match pr with
  | Imm c => (Imm (c * deref h v), h)
  | Ref l => (Ref l, upd h l (h l * deref h v))
  end.

(** polynomial.py:181-214  _eval_sympy_poly: the returned function; [env] are
    the objects passed for the symbols.  Arguments are evaluated from left to
    right, by generators; sums start with 0, and sums and powers are new
    objects.  (The imaginary unit, for which there is no function, is 'i here.) *)
Fixpoint eval_store (env : sym -> obj) (e : expr C) (h : store) {struct e} : obj * store :=
  match e with
  | ENum c => (Imm c, h)
  | EI => (Imm 'i, h)
  | ESym s => (env s, h)
  | EAdd es =>
    (fix sum (es : seq (expr C)) (acc : C) (h : store) {struct es} : obj * store :=
       if es is f :: fs then
         let vh := eval_store env f h in sum fs (acc + deref vh.2 vh.1) vh.2
       else (Imm acc, h)) es 0 h
  | EMul es =>
    (fix prod (es : seq (expr C)) (pr : option obj) (h : store) {struct es} : obj * store :=
       if es is f :: fs then
         let vh := eval_store env f h in
         if pr is Some o then let ph := imul vh.2 o vh.1 in prod fs (Some ph.1) ph.2
         else prod fs (Some vh.1) vh.2
       else (if pr is Some o then o else Imm 1, h)) es None h
  | EPow e n => let vh := eval_store env e h in (Imm (deref vh.2 vh.1 ^+ n), vh.2)
  end.
End Store.
