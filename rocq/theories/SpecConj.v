(** Complex conjugation of samples and matrices. *)
From mathcomp Require Import all_ssreflect all_algebra.
From Verif Require Import Base ModelDonaldson.

Set Implicit Arguments.
Unset Strict Implicit.
Unset Printing Implicit Defensive.

Import GRing.Theory Num.Theory.
Local Open Scope ring_scope.

Section Spec.
Variable C : numClosedFieldType.

(** All entries are real. *)
Definition real_entries m n (h : 'M[C]_(m, n)) : Prop := forall a b, h a b \is Num.real.

(** With every point, given by the values of the sections, the sample has the conjugate point,
    up to a factor for each point, with the conjugate weight. *)
Definition conj_symmetric N (pts : seq (sample C N)) : Prop :=
  exists2 c : nat -> C, (forall i, c i != 0) &
    let p i := nth (0, None) pts i in
    perm_eq [seq (c i *: map_mx conjC (p i).1, omap conjC (p i).2) | i <- iota 0 (size pts)] pts.

(** With every point, given by homogeneous coordinates, the list has the conjugate point. *)
Definition conj_to_itself (zs : seq (seq C)) : Prop :=
  exists2 c : nat -> C, (forall i, c i != 0) &
    perm_eq [seq [seq c i * x^* | x <- nth [::] zs i] | i <- iota 0 (size zs)] zs.
End Spec.
