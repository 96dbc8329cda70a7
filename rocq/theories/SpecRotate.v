(** Notions used to state the claims about samples with unitary symmetries. *)
From Coq Require Import ZArith.
From mathcomp Require Import all_ssreflect all_algebra.
From Verif Require Import ModelBasis SpecPipe Herm Bridge.

Set Implicit Arguments.
Unset Strict Implicit.
Unset Printing Implicit Defensive.

Import GRing.Theory Num.Theory.
Local Open Scope ring_scope.

(** The points x A are the points x, in other homogeneous coordinates and another order. *)
Definition rotated_to_itself (C : numClosedFieldType) n (A : 'M[C]_n) (zs : seq (seq C)) : Prop :=
  exists2 c : nat -> C, (forall i, c i != 0) &
    perm_eq [seq row_seq (c i *: (seq_row n (nth [::] zs i) *m A)) | i <- iota 0 (size zs)] zs.

(** The norm of the sections with h is the same at x and at x A. *)
Definition norm_invariant (C : numClosedFieldType) n (A : 'M[C]_n) (B : basis) (h : 'M[C]_(size (power_matrix B))) : Prop :=
  forall x : 'rV[C]_n, hform h (hom_sections B (row_seq (x *m A))) = hform h (hom_sections B (row_seq x)).
