(** Notions used in the statements about homogeneous polynomials. *)
From Coq Require Import ZArith Ascii String.
From mathcomp Require Import all_ssreflect all_algebra.
From mathcomp Require Import ssrZ.
From Verif Require Import Base ModelStr ModelExpr ModelPoly SpecPoly.
Delimit Scope Z_scope with Z.

Set Implicit Arguments.
Unset Strict Implicit.
Unset Printing Implicit Defensive.

Import GRing.Theory Num.Theory.
Local Open Scope ring_scope.

(** One number per projective space, each in its range. *)
Definition valid_patch (dims : seq nat) (patch : seq Z) : bool :=
  (size patch == size dims) && all (fun pd => (0 <=? pd.1)%Z && (pd.1 <? Z.of_nat pd.2)%Z) (zip patch dims).

Section SpecHom.
Variable C : numClosedFieldType.
Implicit Types (P : poly C) (rho : sym -> C).

(** The assignment [rho] with the symbols [ss] set to 1. *)
Definition set1 (ss : seq sym) rho (s : sym) : C := if s \in ss then 1 else rho s.

Definition index_lists P : seq (seq Z) := [seq odflt [::] ind | ind <- variable_indices P].

(** The patch names a subscript of every variable. *)
Definition patch_in P (patch : seq Z) : bool :=
  (size patch == size (index_lists P)) && all (fun lp => lp.2 \in lp.1) (zip (index_lists P) patch).

(** Well-formed, only vector variables, and its generators are its variables. *)
Definition hom_ok P : Prop :=
  [/\ wf_poly P, all isSome (variable_indices P),
      sp_gens (sympy_poly P) = var_symbols (variable_names P) (variable_indices P) &
      uniq (all_symbols P)].

(** Some coordinate is left over. *)
Definition remains P (patch : seq Z) : bool :=
  has (fun lp => has (fun i => i != lp.2) lp.1) (zip (index_lists P) patch).

(** The symbols whose subscript is the patch number. *)
Definition patch_syms P (patch : seq Z) : seq sym :=
  [seq merge_subscript np.1 np.2 | np <- zip (variable_names P) patch].

Definition scale (l : C) (z : seq C) : seq C := [seq l * x | x <- z].
End SpecHom.
