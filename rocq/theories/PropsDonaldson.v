(** Claims about AlgebraicMetric.sigma_accuracy and donaldson_step. *)
From Coq Require Import ZArith.
From mathcomp Require Import all_ssreflect all_algebra.
From SsrMultinomials Require Import mpoly.
From Verif Require Import Base ModelUtil ModelVariety ModelGeom ModelDonaldson Bridge Herm SpecGeom SpecDonaldson
  PolyGrad ProofDonaldson ProofDonaldson2 ProofDonaldson3.

Set Implicit Arguments.
Unset Strict Implicit.
Unset Printing Implicit Defensive.

Import GRing.Theory Num.Theory.
Local Open Scope ring_scope.

(** C54: sigma from the arrays of eta values and weights. *)
Theorem sigma_nonnegative : forall (C : numClosedFieldType) (etas ws : seq C),
  size etas = size ws -> all (fun w => 0 <= w) ws -> has (fun w => w != 0) ws ->
  mean [seq ew.1 * ew.2 | ew <- zip etas ws] != 0 -> 0 <= sigma_of etas ws.
Proof. exact sigma_ge0. Qed.
Print Assumptions sigma_nonnegative.

Theorem sigma_zero_iff : forall (C : numClosedFieldType) (etas ws : seq C),
  size etas = size ws -> all (fun w => 0 <= w) ws -> has (fun w => w != 0) ws ->
  mean [seq ew.1 * ew.2 | ew <- zip etas ws] != 0 ->
  sigma_of etas ws = 0 <-> exists c, forall e w, (e, w) \in zip etas ws -> w != 0 -> e = c.
Proof. exact sigma_eq0. Qed.
Print Assumptions sigma_zero_iff.

Theorem sigma_below_two : forall (C : numClosedFieldType) (etas ws : seq C),
  size etas = size ws -> all (fun w => 0 <= w) ws -> has (fun w => w != 0) ws ->
  mean [seq ew.1 * ew.2 | ew <- zip etas ws] != 0 -> all (fun e => 0 < e) etas ->
  sigma_of etas ws < 2%:R.
Proof. exact sigma_lt2. Qed.
Print Assumptions sigma_below_two.

Theorem sigma_eta_scale : forall (C : numClosedFieldType) (etas ws : seq C),
  mean [seq ew.1 * ew.2 | ew <- zip etas ws] != 0 ->
  forall c, c != 0 -> sigma_of [seq c * e | e <- etas] ws = sigma_of etas ws.
Proof. exact sigma_scale. Qed.
Print Assumptions sigma_eta_scale.

Example sigma_value : forall C : numClosedFieldType,
  sigma_of [:: 1; 3%:R] [:: 1; 1] = 2%:R^-1 :> C.
Proof. exact sigma_ex. Qed.

(** C54: sigma_accuracy from the sampled points: it succeeds, is the weighted
    mean of |1 - eta/<eta>| for the eta and the weights computed at each point,
    and is zero exactly when eta is the same at all points. *)
Theorem sigma_accuracy_value : forall (C : numClosedFieldType) (N m : nat) (pi : C), 0 < pi ->
  forall pts : seq ('rV[C]_m.+1 * objects C N m), pts <> [::] ->
  List.Forall (fun p => o_grad p.2 != 0 /\ posdef (\matrix_(i, j) ob_g_proj pi p.2 i j)) pts ->
  exists ws es : seq C, let s := \sum_(w <- ws) w in let K := \sum_(ew <- zip es ws) ew.1 * ew.2 in
  let sigma := (\sum_(ew <- zip es ws) `|1 - ew.1 * s / K| * ew.2) / s in
  [/\ [seq weights pi p.1 (row_seq (o_grad p.2)) None (Some 1) | p <- pts] = map (@Ok C) ws,
      [seq ob_eta pi (with_dep None p.2) | p <- pts] = map (@Ok C) es,
      sigma_accuracy pi pts = Ok sigma, 0 <= sigma < 2%:R & sigma = 0 <-> exists c, forall e, e \in es -> e = c].
Proof. exact accuracy_full. Qed.
Print Assumptions sigma_accuracy_value.

Theorem sigma_accuracy_scale : forall (C : numClosedFieldType) (N m : nat) (pi : C)
    (pts : seq ('rV[C]_m.+1 * objects C N m)) (c : C), c != 0 -> c^* = c ->
  List.Forall (fun p => ob_psi p.2 != 0) pts ->
  sigma_accuracy pi [seq (p.1, with_h (scale_h c (o_h p.2)) p.2) | p <- pts] = sigma_accuracy pi pts.
Proof. exact accuracy_scale. Qed.
Print Assumptions sigma_accuracy_scale.

Example sigma_accuracy_hypotheses : forall (C : numClosedFieldType) (pi : C) (x : 'rV[C]_1), 0 < pi ->
  o_grad (conic (conic_phi x)) != 0 /\
  posdef (\matrix_(i, j) ob_g_proj pi (conic (conic_phi x)) i j).
Proof. exact accuracy_ex. Qed.

(** C55: the step inverts the T operator of all points drawn. *)
Theorem step_is_inverse : forall (C : numClosedFieldType) (N : nat) (h : 'M[C]_N) (vol : C)
    (bs : seq (seq (sample C N))),
  hermitian h -> equal_batches bs -> T_of h vol (flatten bs) \in unitmx ->
  exists2 H', donaldson_step true h vol bs = Ok H' &
    forall a c, \sum_b T_of h vol (flatten bs) a b * H' c b = (a == c)%:R.
Proof. exact step_inverse. Qed.
Print Assumptions step_is_inverse.

Theorem step_is_hermitian : forall (C : numClosedFieldType) (N : nat) (h : 'M[C]_N) (vol : C)
    (bs : seq (seq (sample C N))) (H' : 'M[C]_N),
  hermitian h -> equal_batches bs -> T_of h vol (flatten bs) \in unitmx -> vol \is Num.real ->
  (forall p, p \in flatten bs -> weight p \is Num.real) ->
  donaldson_step true h vol bs = Ok H' -> hermitian H'.
Proof. exact step_hermitian. Qed.
Print Assumptions step_is_hermitian.

Theorem step_is_positive : forall (C : numClosedFieldType) (N : nat) (h : 'M[C]_N) (vol : C)
    (bs : seq (seq (sample C N))),
  hermitian h -> posdef h -> equal_batches bs -> 0 < vol ->
  (forall p, p \in flatten bs -> 0 <= weight p /\ p.1 != 0) -> spanning (flatten bs) ->
  exists H', [/\ donaldson_step true h vol bs = Ok H', hermitian H' & posdef H'].
Proof. exact step_posdef. Qed.
Print Assumptions step_is_positive.

Theorem step_batching : forall (C : numClosedFieldType) (N : nat) (h : 'M[C]_N) (vol : C)
    (bs bs' : seq (seq (sample C N))),
  equal_batches bs -> equal_batches bs' -> perm_eq (flatten bs) (flatten bs') ->
  donaldson_step true h vol bs = donaldson_step true h vol bs'.
Proof. exact step_batches. Qed.
Print Assumptions step_batching.

Theorem step_trace_identity : forall (C : numClosedFieldType) (N : nat) (h : 'M[C]_N) (vol : C)
    (bs : seq (seq (sample C N))) (H' : 'M[C]_N),
  hermitian h -> equal_batches bs -> T_of h vol (flatten bs) \in unitmx ->
  (forall p, p \in flatten bs -> hform h p.1 != 0) ->
  donaldson_step true h vol bs = Ok H' ->
  \tr (h *m invmx H') = N%:R / vol * ((\sum_(p <- flatten bs) weight p) / (size (flatten bs))%:R).
Proof. exact step_trace. Qed.
Print Assumptions step_trace_identity.

Theorem step_scaling_h : forall (C : numClosedFieldType) (N : nat) (c : C) (h : 'M[C]_N) (vol : C)
    (bs : seq (seq (sample C N))) (H' : 'M[C]_N),
  c \is Num.real -> c != 0 -> equal_batches bs -> T_of (sym_h h) vol (flatten bs) \in unitmx ->
  donaldson_step true h vol bs = Ok H' -> donaldson_step true (c *: h) vol bs = Ok (c *: H').
Proof. exact step_scale_h. Qed.
Print Assumptions step_scaling_h.

Theorem step_antihermitian_part : forall (C : numClosedFieldType) (N : nat) (h k : 'M[C]_N) (vol : C)
    (bs : seq (seq (sample C N))), adjm k = - k ->
  donaldson_step true (h + k) vol bs = donaldson_step true h vol bs.
Proof. exact step_hermitian_part. Qed.
Print Assumptions step_antihermitian_part.

(** C77: the volume: scaling, and its value at a fixed point. *)
Theorem step_scaling_vol : forall (C : numClosedFieldType) (N : nat) (c : C) (h : 'M[C]_N) (vol : C)
    (bs : seq (seq (sample C N))) (H' : 'M[C]_N),
  c != 0 -> equal_batches bs -> T_of (sym_h h) vol (flatten bs) \in unitmx ->
  donaldson_step true h vol bs = Ok H' -> donaldson_step true h (c * vol) bs = Ok (c *: H').
Proof. exact step_scale_vol. Qed.
Print Assumptions step_scaling_vol.

Theorem step_fixed_point_volume : forall (C : numClosedFieldType) (N : nat) (h : 'M[C]_N) (vol : C)
    (bs : seq (seq (sample C N))),
  (0 < N)%N -> hermitian h -> equal_batches bs -> T_of h vol (flatten bs) \in unitmx -> vol != 0 ->
  (forall p, p \in flatten bs -> hform h p.1 != 0) ->
  donaldson_step true h vol bs = Ok h ->
  vol = (\sum_(p <- flatten bs) weight p) / (size (flatten bs))%:R.
Proof. exact step_fixed_point. Qed.
Print Assumptions step_fixed_point_volume.

(** C78: the result does not depend on the patch in which the sections are
    evaluated, and follows a change of basis of the sections. *)
Theorem step_patch_independent : forall (C : numClosedFieldType) (N : nat) (l : sample C N -> C)
    (h : 'M[C]_N) (vol : C) (bs : seq (seq (sample C N))),
  equal_batches bs -> (forall p, p \in flatten bs -> l p != 0) ->
  donaldson_step true h vol (rescale l bs) = donaldson_step true h vol bs.
Proof. exact step_rescale. Qed.
Print Assumptions step_patch_independent.

Theorem step_basis_change : forall (C : numClosedFieldType) (N : nat) (A h h' : 'M[C]_N) (vol : C)
    (bs : seq (seq (sample C N))) (H1 H2 : 'M[C]_N),
  A \in unitmx -> A *m h' *m adjm A = h -> equal_batches bs ->
  T_of (sym_h h) vol (flatten bs) \in unitmx ->
  donaldson_step true h vol bs = Ok H1 ->
  donaldson_step true h' vol (change_basis A bs) = Ok H2 ->
  A *m H2 *m adjm A = H1.
Proof. exact step_basis. Qed.
Print Assumptions step_basis_change.

(** C79: points whose weight is not finite count as points of weight zero. *)
Theorem step_nonfinite_weights : forall (C : numClosedFieldType) (N : nat) (h : 'M[C]_N) (vol : C)
    (bs : seq (seq (sample C N))),
  donaldson_step true h vol [seq [seq (p.1, Some (weight p)) | p : sample C N <- b] | b <- bs] =
  donaldson_step true h vol bs.
Proof. exact step_nonfinite. Qed.
Print Assumptions step_nonfinite_weights.

(** C80: a real array h is documented as admissible (any Hermitian matrix), and
    raises. *)
Theorem step_real_h_refuted : forall (C : numClosedFieldType) (N : nat) (h : 'M[C]_N) (vol : C)
    (bs : seq (seq (sample C N))), donaldson_step false h vol bs = Err TypeError.
Proof. reflexivity. Qed.
Print Assumptions step_real_h_refuted.

(** One point, one section: h = 5, s = 2, w = 3, vol = 7. *)
Example step_single : forall C : numClosedFieldType,
  donaldson_step true (5%:R%:M : 'M[C]_1) 7%:R [:: [:: (2%:R%:M, Some 3%:R)]] = Ok (35%:R / 3%:R)%:M.
Proof. exact step_ex1. Qed.

(** Two batches of one point: the hypotheses hold and the identity is a fixed point. *)
Example step_two_batches : forall C : numClosedFieldType,
  let bs : seq (seq (sample C 2)) := [:: [:: (delta_mx 0 0, Some 1)]; [:: (delta_mx 0 1, Some 1)]] in
  [/\ equal_batches bs, spanning (flatten bs),
      forall p, p \in flatten bs -> 0 <= weight p /\ p.1 != 0 &
      donaldson_step true (1%:M : 'M[C]_2) 1 bs = Ok 1%:M].
Proof. exact step_ex2. Qed.
