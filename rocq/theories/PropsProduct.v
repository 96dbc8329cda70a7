(** The product of two algebraic metrics: the matrix H of degree k1 + k2 made from
    matrices of degrees k1 and k2. *)
From Coq Require Import ZArith.
From mathcomp Require Import all_ssreflect all_algebra.
From SsrMultinomials Require Import mpoly.
From Verif Require Import Base ModelUtil ModelProjective ModelExpr ModelPoly ModelHom ModelVariety ModelBasis ModelGeom ModelAlg.
From Verif Require Import SpecAlg SpecFubini SpecProduct Herm ProofProduct ProofProduct2 ProofProduct3 ProofProduct5.
Delimit Scope Z_scope with Z.

Set Implicit Arguments.
Unset Strict Implicit.
Unset Printing Implicit Defensive.

Import GRing.Theory Num.Theory.
Local Open Scope ring_scope.

(** C154: the product of positive definite Hermitian matrices is one again *)
Theorem product_positive : forall (C : numClosedFieldType) (n k1 k2 : nat) (B1 B2 B : basis),
  basis_full n k1 = Ok B1 -> basis_full n k2 = Ok B2 -> basis_full n (k1 + k2) = Ok B ->
  forall (h1 : 'M[C]_(size (power_matrix B1))) (h2 : 'M[C]_(size (power_matrix B2))),
  hermitian h1 -> posdef h1 -> hermitian h2 -> posdef h2 ->
  hermitian (h_product B h1 h2) /\ posdef (h_product B h1 h2).
Proof. exact product_positive_lemma. Qed.
Print Assumptions product_positive.

(** C154: its metric is the mean of the two metrics, weighted by the degrees, and
    the same errors are raised *)
Theorem product_metric : forall (C : numClosedFieldType)
    (D : forall n : nat, ('rV[C]_n -> C) -> 'rV[C]_n -> 'rV[C]_n), diff_ok D ->
  forall (lg ex : C -> C) (pi : C) (m k1 k2 : nat) (V : variety C) (B1 B2 B : basis),
  v_coordinates V = Ok m.+2 -> basis_full m.+1 k1 = Ok B1 -> basis_full m.+1 k2 = Ok B2 ->
  basis_full m.+1 (k1 + k2) = Ok B -> (0 < k1)%N -> (0 < k2)%N ->
  forall (h1 : 'M[C]_(size (power_matrix B1))) (h2 : 'M[C]_(size (power_matrix B2))),
  hermitian h1 -> posdef h1 -> hermitian h2 -> posdef h2 ->
  forall (zs : seq C) (params : pyval C) (patch : option Z) (grad : option 'rV[C]_m.+1) (dep : option Z),
  (patch = None \/ exists p : 'I_m.+2, patch = Some (Z.of_nat p)) -> pi != 0 ->
  alg_metric D lg ex pi m V (HMat (h_product B h1 h2)) zs params patch grad dep =
  do M1 <- alg_metric D lg ex pi m V (HMat h1) zs params patch grad dep;
  do M2 <- alg_metric D lg ex pi m V (HMat h2) zs params patch grad dep;
  Ok ((k1 + k2)%:R^-1 *: (k1%:R *: M1.1.1 + k2%:R *: M2.1.1), M1.1.2, M1.2).
Proof. exact product_metric_lemma. Qed.
Print Assumptions product_metric.

(** C154: the same for the Kaehler potentials *)
Theorem product_kahler : forall (C : numClosedFieldType) (lg ex : C -> C) (pi : C) (m k1 k2 : nat) (V : variety C)
    (B1 B2 B : basis),
  v_coordinates V = Ok m.+2 -> basis_full m.+1 k1 = Ok B1 -> basis_full m.+1 k2 = Ok B2 ->
  basis_full m.+1 (k1 + k2) = Ok B -> (0 < k1)%N -> (0 < k2)%N ->
  forall (h1 : 'M[C]_(size (power_matrix B1))) (h2 : 'M[C]_(size (power_matrix B2))),
  hermitian h1 -> posdef h1 -> hermitian h2 -> posdef h2 ->
  forall (zs : seq C) (patch : option Z),
  (patch = None \/ exists p : 'I_m.+2, patch = Some (Z.of_nat p)) -> pi != 0 ->
  (forall u v, 0 < u -> 0 < v -> lg (u * v) = lg u + lg v) ->
  alg_kahler lg ex pi m V (HMat (h_product B h1 h2)) zs patch =
  do K1 <- alg_kahler lg ex pi m V (HMat h1) zs patch;
  do K2 <- alg_kahler lg ex pi m V (HMat h2) zs patch;
  Ok ((k1%:R * K1 + k2%:R * K2) / (k1 + k2)%:R).
Proof. exact product_kahler_lemma'. Qed.
Print Assumptions product_kahler.

(** C154: metrics which agree at a point keep their value there, and so does eta:
    in particular the powers of one H describe the metric of H in every multiple
    of its degree *)
Theorem product_same_metric : forall (C : numClosedFieldType)
    (D : forall n : nat, ('rV[C]_n -> C) -> 'rV[C]_n -> 'rV[C]_n), diff_ok D ->
  forall (lg ex : C -> C) (pi : C) (m k1 k2 : nat) (V : variety C) (B1 B2 B : basis),
  v_coordinates V = Ok m.+2 -> basis_full m.+1 k1 = Ok B1 -> basis_full m.+1 k2 = Ok B2 ->
  basis_full m.+1 (k1 + k2) = Ok B -> (0 < k1)%N -> (0 < k2)%N ->
  forall (h1 : 'M[C]_(size (power_matrix B1))) (h2 : 'M[C]_(size (power_matrix B2))),
  hermitian h1 -> posdef h1 -> hermitian h2 -> posdef h2 ->
  forall (zs : seq C) (params : pyval C) (patch : option Z) (grad : option 'rV[C]_m.+1) (dep : option Z),
  (patch = None \/ exists p : 'I_m.+2, patch = Some (Z.of_nat p)) -> pi != 0 ->
  alg_metric D lg ex pi m V (HMat h1) zs params patch grad dep = alg_metric D lg ex pi m V (HMat h2) zs params patch grad dep ->
  alg_metric D lg ex pi m V (HMat (h_product B h1 h2)) zs params patch grad dep =
    alg_metric D lg ex pi m V (HMat h1) zs params patch grad dep /\
  alg_eta D lg ex pi m V (HMat (h_product B h1 h2)) zs params patch grad dep =
    alg_eta D lg ex pi m V (HMat h1) zs params patch grad dep.
Proof. exact product_eta_lemma. Qed.
Print Assumptions product_same_metric.

(** C155: for every j > 0 some H' of degree j k has the geometry of the given H, on every
    variety and at every point *)
Theorem lift_to_multiple_degree : forall (C : numClosedFieldType) (pi : C) (m k j : nat) (B : basis)
    (h : 'M[C]_(size (power_matrix B))),
  pi != 0 -> basis_full m.+1 k = Ok B -> (0 < k)%N -> (0 < j)%N -> hermitian h -> posdef h ->
  exists B' (h' : 'M[C]_(size (power_matrix B'))), [/\ basis_full m.+1 (j * k) = Ok B', hermitian h', posdef h' &
  forall (D : forall n : nat, ('rV[C]_n -> C) -> 'rV[C]_n -> 'rV[C]_n), diff_ok D ->
  forall (lg ex : C -> C) (V : variety C), v_coordinates V = Ok m.+2 ->
  forall (zs : seq C) (params : pyval C) (patch : option Z) (grad : option 'rV[C]_m.+1) (dep : option Z),
  (patch = None \/ exists p : 'I_m.+2, patch = Some (Z.of_nat p)) ->
  [/\ alg_metric D lg ex pi m V (HMat h') zs params patch grad dep = alg_metric D lg ex pi m V (HMat h) zs params patch grad dep,
      alg_eta D lg ex pi m V (HMat h') zs params patch grad dep = alg_eta D lg ex pi m V (HMat h) zs params patch grad dep,
      alg_ricci D lg ex pi m V (HMat h') zs params patch grad dep = alg_ricci D lg ex pi m V (HMat h) zs params patch grad dep,
      alg_ricci_scalar D lg ex pi m V (HMat h') zs params patch grad dep =
        alg_ricci_scalar D lg ex pi m V (HMat h) zs params patch grad dep &
      (forall u v, 0 < u -> 0 < v -> lg (u * v) = lg u + lg v) ->
      alg_kahler lg ex pi m V (HMat h') zs patch = alg_kahler lg ex pi m V (HMat h) zs patch]].
Proof. exact lift_lemma. Qed.
Print Assumptions lift_to_multiple_degree.

(** The identity of degree 1 times itself, for two coordinates: x^2, 2 x y, y^2 *)
Example identity_squared : forall (C : numClosedFieldType), exists B1 B,
  [/\ basis_full 1 1 = Ok B1, basis_full 1 2 = Ok B, size (power_matrix B) = 3%N &
  forall i j : 'I_(size (power_matrix B)), h_product (B1 := B1) (B2 := B1) B (1%:M : 'M[C]_(size (power_matrix B1))) 1%:M i j =
    (i == j)%:R * (if val i == 1%N then 2%:R else 1)].
Proof. exact identity_squared_lemma. Qed.
