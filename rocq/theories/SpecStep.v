(** Notions used to state the claims about repeated Donaldson steps. *)
From Coq Require Import ZArith.
From mathcomp Require Import all_ssreflect all_algebra.
From Verif Require Import Base Herm ModelDonaldson SpecDonaldson.

Set Implicit Arguments.
Unset Strict Implicit.
Unset Printing Implicit Defensive.

Import GRing.Theory Num.Theory.
Local Open Scope ring_scope.

Section Spec.
Variables (C : numClosedFieldType) (N : nat).
Notation sample := (sample C N).

(** A sample on which a step makes sense: equal batches, finite weights which
    are not negative, sections without common zero, independent on the points of
    positive weight, and the volume estimated from the same weights. *)
Record good_sample (vol : C) (bs : seq (seq sample)) : Prop := GoodSample {
  gs_equal : equal_batches bs;
  gs_pos : 0 < vol;
  gs_span : spanning (flatten bs);
  gs_weight : forall p, p \in flatten bs -> 0 <= weight p /\ p.1 != 0;
  gs_vol : vol = (\sum_(p <- flatten bs) weight p) / (size (flatten bs))%:R }.

(** The matrices obtained by repeating the step on the same sample. *)
Definition iterates (vol : C) (bs : seq (seq sample)) (hs : nat -> 'M[C]_N) : Prop :=
  forall k, donaldson_step true (hs k) vol bs = Ok (hs k.+1).

(** The functional whose critical points are the balanced metrics: the mean of
    the logarithms of the norms of the sections against that of the volume. *)
Definition energy (lg : C -> C) (pts : seq sample) (h : 'M[C]_N) : C :=
  N%:R / (\sum_(p <- pts) weight p) * (\sum_(p <- pts) weight p * lg (hform h p.1)) - lg (\det h).

(** What is used of a logarithm. *)
Definition log_like (lg : C -> C) : Prop :=
  (forall x, 0 < x -> lg x <= x - 1) /\ (forall x y, 0 < x -> 0 < y -> lg (x / y) = lg x - lg y).
End Spec.

Section Spec2.
Variables (C : numClosedFieldType) (N : nat).
Notation sample := (sample C N).

(** The order of Hermitian matrices. *)
Definition loewner (A B : 'M[C]_N) : Prop := possemidef (B - A).

(** The points of positive weight do not all lie in one of two complementary
    subspaces: no projection other than 0 and 1 kills or keeps each of them. *)
Definition indecomposable (pts : seq sample) : Prop := forall P : 'M[C]_N, P *m P = P -> P != 0 -> P != 1%:M ->
  exists2 p, p \in pts & 0 < weight p /\ (p.1 *m P != 0 /\ p.1 *m P != p.1).

(** No proper subspace carries its share of the weight: the weight of the points in
    a subspace of dimension r is less than r/N of the whole. *)
Definition stable (pts : seq sample) : Prop := forall V : 'M[C]_N, (0 < \rank V < N)%N ->
  N%:R * (\sum_(p <- pts | (p.1 <= V)%MS) weight p) < (\rank V)%:R * (\sum_(p <- pts) weight p).

(** Any N of the points have linearly independent values of the sections. *)
Definition general_position (pts : seq sample) : Prop := forall f : 'I_N -> 'I_(size pts), injective f ->
  (\matrix_(i, a) (nth (0, None) pts (f i)).1 0 a : 'M[C]_N) \in unitmx.

(** The matrices approach L entry by entry. *)
Definition converges_to (hs : nat -> 'M[C]_N) (L : 'M[C]_N) : Prop :=
  forall i j e, 0 < e -> exists K : nat, forall k, (K <= k)%N -> `|hs k i j - L i j| < e.

(** A fixed point of the step: a balanced metric of the sample. *)
Definition balanced (vol : C) (bs : seq (seq sample)) (h : 'M[C]_N) : Prop :=
  [/\ hermitian h, posdef h & donaldson_step true h vol bs = Ok h].
End Spec2.
