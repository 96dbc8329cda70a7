(** Notions used to state the claims about donaldson_step. *)
From Coq Require Import ZArith.
From mathcomp Require Import all_ssreflect all_algebra.
From Verif Require Import Herm ModelDonaldson.

Set Implicit Arguments.
Unset Strict Implicit.
Unset Printing Implicit Defensive.

Import GRing.Theory Num.Theory.
Local Open Scope ring_scope.

Section Spec.
Variables (C : numClosedFieldType) (N : nat).
Notation sample := (sample C N).

(** What a sampled point counts for: a weight that is not finite counts nothing. *)
Definition weight (p : sample) : C := if p.2 is Some w then w else 0.

(** All batches have the same number of points, as drawn by the loop. *)
Definition equal_batches (bs : seq (seq sample)) : Prop :=
  exists B, forall b, b \in bs -> size b = B.

(** The T operator of Donaldson's algorithm on all points drawn:
    N/vol times the mean of  s_a conj(s_b) w / (sum_cd s_c h_cd conj(s_d)). *)
Definition T_of (h : 'M[C]_N) (vol : C) (pts : seq sample) : 'M[C]_N :=
  \matrix_(a, b) (N%:R / vol *
    ((\sum_(p <- pts) weight p * (p.1 0 a * (p.1 0 b)^*) / hform h p.1) / (size pts)%:R)).

(** No non-zero linear combination of the sections vanishes on all points of
    positive weight. *)
Definition spanning (pts : seq sample) : Prop := forall v : 'rV[C]_N, v != 0 ->
  exists2 p, p \in pts & 0 < weight p /\ \sum_a v 0 a * p.1 0 a != 0.

(** The sections replaced by the combinations s A. *)
Definition change_basis (A : 'M[C]_N) (bs : seq (seq sample)) : seq (seq sample) :=
  [seq [seq (p.1 *m A, p.2) | p : sample <- b] | b <- bs].

(** The values of the sections at each point multiplied by a number, as under
    a change of patch or of homogeneous coordinates. *)
Definition rescale (l : sample -> C) (bs : seq (seq sample)) : seq (seq sample) :=
  [seq [seq (l p *: p.1, p.2) | p : sample <- b] | b <- bs].
End Spec.
