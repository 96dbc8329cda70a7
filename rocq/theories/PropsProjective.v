(** Properties C11-C18 and C67: cyjax/projective.py. *)
From Coq Require Import ZArith.
From mathcomp Require Import all_ssreflect all_algebra all_field.
From Verif Require Import Base ModelUtil ModelProjective ModelDiff ProofUtil ProofProjective
  Bridge Deriv Herm ProofFS ProofFS2.
Delimit Scope Z_scope with Z.

Set Implicit Arguments.
Unset Strict Implicit.
Unset Printing Implicit Defensive.

Import GRing.Theory Num.Theory Order.POrderTheory.
Local Open Scope ring_scope.

(** C11: mutually inverse bijections between affine indices and the homogeneous
    indices different from the patch, increasing. *)
Theorem index_conversions_inverse : forall n p : Z, (0 <= p <= n)%Z ->
  [/\ forall i, (0 <= i < n)%Z ->
        (0 <= index_affine_to_hom p i <= n)%Z /\ index_affine_to_hom p i <> p /\
        index_hom_to_affine p (index_affine_to_hom p i) = i,
      forall h, (0 <= h <= n)%Z -> h <> p ->
        (0 <= index_hom_to_affine p h < n)%Z /\
        index_affine_to_hom p (index_hom_to_affine p h) = h &
      forall i j, (i < j)%Z -> (index_affine_to_hom p i < index_affine_to_hom p j)%Z].
Proof. exact index_lemma. Qed.
Print Assumptions index_conversions_inverse.

(** C11: the converted index addresses the same entry of affine_to_hom. *)
Theorem index_affine_to_hom_addresses : forall (F : fieldType) (z : seq F) (p k : nat),
  (p <= size z)%N -> (k < size z)%N ->
  nth 0 (affine_to_hom z (Z.of_nat p))
    (Z.to_nat (index_affine_to_hom (Z.of_nat p) (Z.of_nat k))) = nth 0 z k.
Proof. exact index_addr. Qed.
Print Assumptions index_affine_to_hom_addresses.

Example index_ex : [seq index_affine_to_hom 2 (Z.of_nat k) | k <- iota 0 4] = [:: 0; 1; 3; 4]%Z.
Proof. by []. Qed.

(** C12 *)
Theorem affine_hom_affine : forall (F : fieldType) (z : seq F) (p : nat),
  (p <= size z)%N ->
  hom_to_affine (affine_to_hom z (Z.of_nat p)) (Z.of_nat p) = Ok z.
Proof. exact round1. Qed.
Print Assumptions affine_hom_affine.

Theorem hom_affine_hom : forall (F : fieldType) (h : seq F) (p : nat),
  (p < size h)%N -> nth 0 h p != 0 ->
  rmap (fun z => affine_to_hom z (Z.of_nat p)) (hom_to_affine h (Z.of_nat p)) =
  Ok [seq x / nth 0 h p | x <- h].
Proof. exact round2. Qed.
Print Assumptions hom_affine_hom.

Theorem hom_to_affine_projective : forall (F : fieldType) (h : seq F) (p : nat) c,
  (p < size h)%N -> c != 0 ->
  hom_to_affine [seq c * x | x <- h] (Z.of_nat p) = hom_to_affine h (Z.of_nat p).
Proof. exact hom_to_affine_scale. Qed.
Print Assumptions hom_to_affine_projective.

Example round_ex : hom_to_affine [:: 2%:R; 4%:R; 6%:R : rat] 1 = Ok [:: 2%:R^-1; 3%:R / 2%:R].
Proof. by congr Ok; apply/eqP. Qed.

(** C13 *)
Theorem hom_to_affine_auto_patch : forall (C : numClosedFieldType) (h : seq C),
  has (fun x => x != 0) h ->
  exists z p, hom_to_affine_auto h = Ok (z, p) /\
  [/\ (p < size h)%N, nth 0 h p != 0,
     (forall j, (j < size h)%N -> `|nth 0 h j| <= `|nth 0 h p|),
     (forall j, (j < p)%N -> `|nth 0 h j| < `|nth 0 h p|) &
     [/\ affine_to_hom z (Z.of_nat p) = [seq x / nth 0 h p | x <- h],
         (forall x, x \in z -> `|x| <= 1) &
         ((forall x, x \in z -> `|x| < 1) <->
          (forall j, (j < size h)%N -> j <> p -> `|nth 0 h j| < `|nth 0 h p|))]].
Proof. exact auto_lemma. Qed.
Print Assumptions hom_to_affine_auto_patch.

Example auto_ex : hom_to_affine_auto [:: 1; 3%:R; 0; - 3%:R : algC] =
  Ok ([:: 3%:R^-1; 0; -1], 1%N).
Proof.
rewrite /hom_to_affine_auto /argmax /= normr1 normrN normr0 !normr_nat.
rewrite (ltr_nat _ 1) /= -(mulr0n 1) (ltr_nat _ 3 0) /= ltxx.
by rewrite (hom_to_affineE (p := 1)) //= div1r mul0r mulNr divff // pnatr_eq0.
Qed.

(** C14: transition function, and back again. *)
Theorem change_chart_transition : forall (F : fieldType) (z : seq F) (i j : nat),
  (i <= size z)%N -> (j <= size z)%N -> i <> j ->
  nth 0 (affine_to_hom z (Z.of_nat i)) j != 0 ->
  exists w, change_chart z (Z.of_nat i) (Z.of_nat j) = Ok w /\
    hom_to_affine (affine_to_hom z (Z.of_nat i)) (Z.of_nat j) = Ok w /\
    size w = size z /\ change_chart w (Z.of_nat j) (Z.of_nat i) = Ok z.
Proof. exact back_lemma. Qed.
Print Assumptions change_chart_transition.

Theorem change_chart_cocycle : forall (F : fieldType) (z : seq F) (i j k : nat),
  (i <= size z)%N -> (j <= size z)%N -> (k <= size z)%N -> i <> j -> j <> k -> i <> k ->
  nth 0 (affine_to_hom z (Z.of_nat i)) j != 0 ->
  exists w, change_chart z (Z.of_nat i) (Z.of_nat j) = Ok w /\
  change_chart w (Z.of_nat j) (Z.of_nat k) = change_chart z (Z.of_nat i) (Z.of_nat k).
Proof. exact comp_lemma. Qed.
Print Assumptions change_chart_cocycle.

Example change_chart_ex :
  change_chart [:: 2%:R; 4%:R; 5%:R : rat] 0 2 = Ok [:: 4%:R^-1; 2%:R^-1; 5%:R / 4%:R].
Proof. by congr Ok; apply/eqP. Qed.

(** C15: what change_chart does when both patches agree. *)
Theorem change_chart_same_patch : forall (F : fieldType) (z : seq F) (p k : nat)
    (q := (p %% size z)%N),
  (0 < size z)%N -> (p <= size z)%N -> (k < size z)%N ->
  exists w, change_chart z (Z.of_nat p) (Z.of_nat p) = Ok w /\ size w = size z /\
    nth 0 w k = (if k == q then 1 else nth 0 z k) / nth 0 z q.
Proof. exact same_lemma. Qed.
Print Assumptions change_chart_same_patch.

Theorem change_chart_same_patch_refuted : forall (F : fieldType) (z : seq F) (p : nat)
    (q := (p %% size z)%N),
  2%:R != 0 :> F -> (0 < size z)%N -> (p <= size z)%N -> nth 0 z q != 0 ->
  change_chart z (Z.of_nat p) (Z.of_nat p) = Ok z <->
  nth 0 z q = 1 \/
  (nth 0 z q = -1 /\ forall k, (k < size z)%N -> k <> q -> nth 0 z k = 0).
Proof. exact same_fix_lemma. Qed.
Print Assumptions change_chart_same_patch_refuted.

Example same_patch_ex :
  change_chart [:: 2%:R; 4%:R : rat] 1 1 = Ok [:: 2%:R^-1; 4%:R^-1].
Proof. by congr Ok; apply/eqP. Qed.

(** C16 *)
Theorem fs_metric_value : forall (C : numClosedFieldType) n (z : 'rV[C]_n),
  let N := 1 + \sum_i `|z 0 i| ^+ 2 in
  fs_metric_real z = N^-1 *: 1%:M - N ^- 2 *: ((conj_row z)^T *m z).
Proof. exact fs_formula. Qed.
Print Assumptions fs_metric_value.

Theorem fs_metric_hermitian : forall (C : numClosedFieldType) n (z : 'rV[C]_n) i j,
  fs_metric_real z j i = (fs_metric_real z i j)^*.
Proof. exact fs_herm. Qed.
Print Assumptions fs_metric_hermitian.

Theorem fs_metric_positive : forall (C : numClosedFieldType) n (z v : 'rV[C]_n), v != 0 ->
  0 < \sum_i \sum_j v 0 i * fs_metric_real z i j * (v 0 j)^*.
Proof. exact fs_posdef. Qed.
Print Assumptions fs_metric_positive.

Example fs_ex : forall C : numClosedFieldType,
  fs_metric_real (\row_(i < 2) 2%:R : 'rV[C]_2) 0 0 = 5%:R / 81%:R.
Proof.
move=> C; rewrite mxE /norm2p1 big_ord_recl big_ord1 !mxE !cjn eqxx mul1r.
rewrite -!natrM -!natrD -[1]/(1%:R) -natrD -natrX -natrB //.
Qed.

(** C17: [log] is any function with derivative 1/x around 1 + sum z zc. *)
Theorem fs_metric_is_hessian : forall (C : numClosedFieldType) n (log : C -> C)
    (z zc : 'rV[C]_n) (r : C),
  norm2p1 z zc != 0 -> 0 < r ->
  (forall x, `|x - norm2p1 z zc| < r -> is_deriv log x x^-1) ->
  mixed_hessian (fs_potential log) z zc (fs_metric z zc).
Proof. exact fs_hessian_lemma. Qed.
Print Assumptions fs_metric_is_hessian.

(** C18 *)
Theorem fs_metric_patch_independent : forall (C : numClosedFieldType) n (i j : 'I_n.+1)
    (z : 'rV[C]_n),
  i != j -> nth 0 (affine_to_hom (row_seq z) (Z.of_nat i)) j != 0 ->
  exists w T,
    [/\ change_chart (row_seq z) (Z.of_nat i) (Z.of_nat j) = Ok (row_seq w),
        is_jac (fun y => res_row n (change_chart (row_seq y) (Z.of_nat i) (Z.of_nat j))) z T &
        fs_metric_real z = T *m fs_metric_real w *m adjm T].
Proof. exact fs_pullback_lemma. Qed.
Print Assumptions fs_metric_patch_independent.

Theorem fs_potential_homogeneous : forall (C : numClosedFieldType) n (log : C -> C)
    (h : 'rV[C]_n.+1) (p : 'I_n.+1) (z : 'rV[C]_n),
  (forall x y, 0 < x -> 0 < y -> log (x * y) = log x + log y) ->
  h 0 p != 0 -> hom_to_affine (row_seq h) (Z.of_nat p) = Ok (row_seq z) ->
  fs_potential_hom log h (conj_row h) =
  fs_potential log z (conj_row z) + log (`|h 0 p| ^+ 2).
Proof. exact fs_pot_hom. Qed.
Print Assumptions fs_potential_homogeneous.

Example patch_ex : exists (z : 'rV[algC]_1),
  nth 0 (affine_to_hom (row_seq z) 0) 1 != 0 /\ z 0 0 = 2%:R.
Proof.
exists (\row_i 2%:R); rewrite mxE; split=> //.
by rewrite (homr_seq 0) (nth_row_seq _ (lift 0 0)) homr_lift mxE pnatr_eq0.
Qed.

(** C67: a negative patch selects the right coordinate but rotates the others. *)
Theorem hom_to_affine_negative_patch : forall (F : fieldType) (h : seq F) (p : Z)
    (q := Z.to_nat (p + Z.of_nat (size h))),
  (- Z.of_nat (size h) <= p < 0)%Z ->
  exists w, hom_to_affine h (Z.of_nat q) = Ok w /\ hom_to_affine h p = Ok (rot 1 w).
Proof. exact hom_to_affine_neg_lemma. Qed.
Print Assumptions hom_to_affine_negative_patch.

Example negative_patch_ex :
  hom_to_affine [:: 1; 2%:R; 3%:R; 1 : rat] (-1) = Ok [:: 2%:R; 3%:R; 1].
Proof. by congr Ok; apply/eqP. Qed.
