(** Notions used in the statements about evaluation with mutable inputs. *)
From mathcomp Require Import all_ssreflect all_algebra.
From Verif Require Import Base ModelStr ModelExpr ModelStore.

Set Implicit Arguments.
Unset Strict Implicit.
Unset Printing Implicit Defensive.

Section SpecStore.
Variable C : numClosedFieldType.
Variable env : sym -> obj C.

Definition is_mutable (s : sym) : bool := if env s is Ref _ then true else false.

(** The expression is an input, or a product starting with one, that is mutable. *)
Fixpoint starts_mutable (e : expr C) : bool :=
  match e with
  | ESym s => is_mutable s
  | EMul (f :: _) => starts_mutable f
  | _ => false
  end.

(** No product of two or more factors starts with a mutable input. *)
Fixpoint no_mutable_head (e : expr C) : bool :=
  match e with
  | ENum _ | EI | ESym _ => true
  | EAdd es => all no_mutable_head es
  | EMul es => all no_mutable_head es && (if es is f :: _ :: _ then ~~ starts_mutable f else true)
  | EPow e _ => no_mutable_head e
  end.
End SpecStore.
