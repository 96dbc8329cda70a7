(** Notions used in the statements about varieties. *)
From Coq Require Import ZArith Ascii String Permutation.
From mathcomp Require Import all_ssreflect all_algebra.
From mathcomp Require Import ssrZ.
From Verif Require Import Base ModelStr ModelExpr ModelPoly SpecPoly SpecUniv SpecHom.
Delimit Scope Z_scope with Z.

Set Implicit Arguments.
Unset Strict Implicit.
Unset Printing Implicit Defensive.

Import GRing.Theory Num.Theory.
Local Open Scope ring_scope.

Section SpecVariety.
Variable C : numClosedFieldType.
Implicit Types (P : poly C).

(** The value of the polynomial whose coefficients are [cs], highest power first. *)
Definition horner_desc (cs : seq C) (r : C) : C :=
  \sum_(k < size cs) nth 0 cs k * r ^+ (size cs - k.+1).

(** What jnp.roots is taken to do when the first coefficient is not zero. *)
Definition roots_ok (roots : seq C -> seq C) : Prop :=
  forall cs, (0 < size cs)%N -> head 0 cs != 0 ->
  size (roots cs) = (size cs).-1 /\ all (fun r => horner_desc cs r == 0) (roots cs).

(** sympy: sets are visited in some order, replacements made in some order. *)
Definition visit_ok (visit : expr C -> seq sym) : Prop :=
  forall e, uniq (visit e) /\ visit e =i esyms e.
Definition order_ok (order : seq (sym * expr C) -> seq (sym * expr C)) : Prop :=
  forall d, Permutation d (order d).

(** No term that sympy lists is identically zero. *)
Definition terms_nonzero (terms : seq (nat * expr C)) : Prop :=
  forall i, (i < size terms)%N -> exists rho, sem rho (nth (0%N, ENum 0) terms i).2 != 0.

(** One vector variable with [n] coordinates. *)
Definition single P (n : nat) : Prop :=
  [/\ wf_poly P, uniq (all_symbols P) &
      exists nm l, [/\ variable_names P = [:: nm], variable_indices P = [:: Some l] & size l = n]].

(** Homogeneous of degree [d] in the coordinates. *)
Definition homogeneous P (d : nat) : Prop :=
  forall rho (l : C),
  value P (fun s => if s \in var_symbols (variable_names P) (variable_indices P) then l * rho s else rho s) =
  l ^+ d * value P rho.
End SpecVariety.
