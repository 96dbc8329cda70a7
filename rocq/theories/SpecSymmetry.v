(** Notions used to state the claims about symmetric samples. *)
From Coq Require Import ZArith.
From mathcomp Require Import all_ssreflect all_algebra all_fingroup.
From Verif Require Import ModelDonaldson ModelBasis SpecDonaldson Herm Bridge.

Set Implicit Arguments.
Unset Strict Implicit.
Unset Printing Implicit Defensive.

Import GRing.Theory Num.Theory.
Local Open Scope ring_scope.

Section Spec.
Variables (C : numClosedFieldType) (N : nat).
Notation sample := (sample C N).

(** The map s -> s A of the values of the sections takes the points to each other,
    up to a factor for each point, and keeps their weights. *)
Definition symmetric_under (A : 'M[C]_N) (pts : seq sample) : Prop :=
  exists2 c : nat -> C, (forall i, c i != 0) &
    let p i := nth (0, None) pts i in
    perm_eq [seq (c i *: ((p i).1 *m A), (p i).2) | i <- iota 0 (size pts)] pts.

(** The norms of the sections with h are the same at s and at s A. *)
Definition invariant (A h : 'M[C]_N) : Prop := A *m h *m adjm A = h.

(** The sample with all numbers replaced by their complex conjugates. *)
Definition conj_sample (bs : seq (seq sample)) : seq (seq sample) :=
  [seq [seq (map_mx conjC p.1, omap conjC p.2) | p : sample <- b] | b <- bs].
End Spec.

(** A permutation of the coordinates with a factor for each. *)
Definition move (C : numClosedFieldType) n (l : 'I_n -> C) (s : {perm 'I_n}) (x : 'rV[C]_n) : 'rV[C]_n :=
  \row_j (l j * x 0 (s j)).

(** The moved points are the points, in other homogeneous coordinates and another order. *)
Definition moved_to_itself (C : numClosedFieldType) n (l : 'I_n -> C) (s : {perm 'I_n}) (zs : seq (seq C)) : Prop :=
  exists2 c : nat -> C, (forall i, c i != 0) &
    perm_eq [seq row_seq (c i *: move l s (seq_row n (nth [::] zs i))) | i <- iota 0 (size zs)] zs.

(** The monomial a of the basis is the monomial sg a after the permutation s of the coordinates. *)
Definition permutes_basis n (s : {perm 'I_n}) (B : basis) (sg : {perm 'I_(size (power_matrix B))}) : Prop :=
  forall (a : 'I_(size (power_matrix B))) (j : 'I_n),
    nth 0%N (nth [::] (power_matrix B) (sg a)) (s j) = nth 0%N (nth [::] (power_matrix B) a) j.

(** What the monomial a is multiplied by when the coordinates are multiplied by l. *)
Definition chi (C : numClosedFieldType) n (l : 'I_n -> C) (B : basis) (a : 'I_(size (power_matrix B))) : C :=
  \prod_j l j ^+ nth 0%N (nth [::] (power_matrix B) a) (val j).

(** The entries of h at moved pairs of monomials differ by the factors of the monomials. *)
Definition h_symmetric (C : numClosedFieldType) n (l : 'I_n -> C) (B : basis) (sg : {perm 'I_(size (power_matrix B))})
    (h : 'M[C]_(size (power_matrix B))) : Prop :=
  forall a b, h (sg a) (sg b) = chi l a * (chi l b)^* * h a b.
