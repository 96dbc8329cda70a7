(** Property C144: the Fubini-Study metric as an algebraic metric. *)
From Coq Require Import ZArith.
From mathcomp Require Import all_ssreflect all_algebra.
From mathcomp Require Import ssrZ.
From Verif Require Import Base ModelUtil ModelProjective ModelExpr ModelPoly ModelVariety ModelBasis ModelGeom ModelAlg ModelPipe.
From Verif Require Import SpecAlg SpecFubini Bridge ProofFubini3.
Delimit Scope Z_scope with Z.

Set Implicit Arguments.
Unset Strict Implicit.
Unset Printing Implicit Defensive.

Import GRing.Theory Num.Theory.
Local Open Scope ring_scope.

(** For every degree k > 0 and the multinomial coefficients as H, metric returns what
    induced_fs returns, divided by pi; it fails where induced_fs fails. *)
Theorem fubini_algebraic_metric : forall (C : numClosedFieldType)
    (D : forall n : nat, ('rV[C]_n -> C) -> 'rV[C]_n -> 'rV[C]_n), diff_ok D ->
  forall (lg ex : C -> C) (pi : C) (m k : nat) (V : variety C) (B : basis) (h : hvalue C (size (power_matrix B))),
  v_coordinates V = Ok m.+2 -> basis_full m.+1 k = Ok B -> (0 < k)%N ->
  (h = HVec (fubini_h C B) \/ h = HMat (diag_mx (fubini_h C B))) ->
  forall (p : 'I_m.+2) (zs : seq C) (params : pyval C) (dep : option Z), size zs = m.+1 ->
  alg_metric D lg ex pi m V h zs params (Some (Z.of_nat p)) None dep =
  rmap (fun F => (pi^-1 *: F.1, Z.of_nat p, if dep is Some d then d else odflt 0%Z F.2))
    (v_induced_fs D m V zs params (PatchInt C (Z.of_nat p)) None dep).
Proof. exact fub_metric. Qed.
Print Assumptions fubini_algebraic_metric.

(** kahler_potential is fs_potential divided by pi. *)
Theorem fubini_algebraic_kahler : forall (C : numClosedFieldType) (lg ex : C -> C),
  (forall u v, 0 < u -> 0 < v -> lg (u * v) = lg u + lg v) ->
  forall (pi : C) (m k : nat) (V : variety C) (B : basis) (h : hvalue C (size (power_matrix B))),
  v_coordinates V = Ok m.+2 -> basis_full m.+1 k = Ok B -> (0 < k)%N ->
  (h = HVec (fubini_h C B) \/ h = HMat (diag_mx (fubini_h C B))) ->
  forall (p : 'I_m.+2) (zs : seq C), size zs = m.+1 ->
  alg_kahler lg ex pi m V h zs (Some (Z.of_nat p)) =
  Ok (fs_potential lg (seq_row m.+1 zs) (conj_row (seq_row m.+1 zs)) / pi).
Proof. exact fub_kahler. Qed.
Print Assumptions fubini_algebraic_kahler.

(** eta is the inverse of the weight of sample_intersect_weights, up to the factor dim!,
    at every point with a gradient which is not zero. *)
Theorem fubini_eta_weight : forall (C : numClosedFieldType)
    (D : forall n : nat, ('rV[C]_n -> C) -> 'rV[C]_n -> 'rV[C]_n), diff_ok D ->
  forall (lg ex : C -> C) (pi : C) (m k : nat) (V : variety C) (B : basis) (h : hvalue C (size (power_matrix B))),
  v_coordinates V = Ok m.+2 -> basis_full m.+1 k = Ok B -> (0 < k)%N -> 0 < pi ->
  (h = HVec (fubini_h C B) \/ h = HMat (diag_mx (fubini_h C B))) ->
  forall (p : 'I_m.+2) (zs ps g : seq C) (d : 'I_m.+1) (dep : option Z), size zs = m.+1 ->
  v_grad_defining D V zs (PArr ps) (PatchInt C (Z.of_nat p)) = Ok g -> nth 0 g d != 0 ->
  (dep = None \/ dep = Some (Z.of_nat d)) ->
  exists E w, [/\ alg_eta D lg ex pi m V h zs (PArr ps) (Some (Z.of_nat p)) None dep = Ok E,
    v_weights D pi m V zs ps (Some (Z.of_nat p)) dep (Some 1) = Ok w, 0 < w & E * w = m`!%:R^-1].
Proof. exact fub_eta. Qed.
Print Assumptions fubini_eta_weight.

(** In degree one this H is the identity. *)
Theorem degree_one_metric : forall (C : numClosedFieldType)
    (D : forall n : nat, ('rV[C]_n -> C) -> 'rV[C]_n -> 'rV[C]_n), diff_ok D ->
  forall (lg ex : C -> C) (pi : C) (m : nat) (V : variety C) (B : basis),
  v_coordinates V = Ok m.+2 -> basis_full m.+1 1 = Ok B ->
  forall (p : 'I_m.+2) (zs : seq C) (params : pyval C) (dep : option Z), size zs = m.+1 ->
  alg_metric D lg ex pi m V (HMat 1%:M : hvalue C (size (power_matrix B))) zs params (Some (Z.of_nat p)) None dep =
  rmap (fun F => (pi^-1 *: F.1, Z.of_nat p, if dep is Some d then d else odflt 0%Z F.2))
    (v_induced_fs D m V zs params (PatchInt C (Z.of_nat p)) None dep).
Proof. exact degree_one. Qed.
Print Assumptions degree_one_metric.

(** Quadrics in three coordinates: 1, 2, 2, 1, 2, 1. *)
Example fubini_ex (C : numClosedFieldType) : exists2 B, basis_full 2 2 = Ok B &
  [seq multinomial C 2 v | v <- power_matrix B] = [:: 1; 2%:R; 2%:R; 1; 2%:R; 1].
Proof.
eexists; first by vm_compute; reflexivity.
have e2 : 2%:R / 2%:R = 1 :> C by rewrite divff // pnatr_eq0.
by rewrite /= /multinomial unlock /= !muln1 e2 !divr1.
Qed.

Example fubini_setting (C : numClosedFieldType) : exists B, [/\ basis_full 4 3 = Ok B, (0 < 3)%N & v_coordinates (fermat_variety C 3) = Ok 5%N].
Proof. by eexists; split; first by vm_compute; reflexivity. Qed.
