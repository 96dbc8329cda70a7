(** The statements about products of Hermitian matrices. *)
From Coq Require Import ZArith Lia.
From mathcomp Require Import all_ssreflect all_algebra.
From mathcomp Require Import zify ssrZ ring.
From SsrMultinomials Require Import mpoly.
From Verif Require Import Base ModelUtil ModelProjective ModelDiff ModelExpr ModelPoly ModelHom ModelVariety ModelBasis ModelGeom ModelAlg ModelPipe.
From Verif Require Import SpecBasis SpecAlg SpecFubini SpecProduct Herm.
From Verif Require Import Deriv Bridge ProofBasis ProofBasis3 ProofFubini ProofProduct ProofProduct2.
Delimit Scope Z_scope with Z.

Set Implicit Arguments.
Unset Strict Implicit.
Unset Printing Implicit Defensive.

Import GRing.Theory Num.Theory Order.POrderTheory.
Local Open Scope ring_scope.

Lemma full_mons0 n k B : basis_full n k = Ok B -> power_matrix B = mons n.+1 k.
Proof. by move=> hB; move: hB; rewrite /basis_full basisE => -[<-]. Qed.

Lemma product_positive_lemma (C : numClosedFieldType) (n k1 k2 : nat) (B1 B2 B : basis) :
  basis_full n k1 = Ok B1 -> basis_full n k2 = Ok B2 -> basis_full n (k1 + k2) = Ok B ->
  forall (h1 : 'M[C]_(size (power_matrix B1))) (h2 : 'M[C]_(size (power_matrix B2))),
  hermitian h1 -> posdef h1 -> hermitian h2 -> posdef h2 ->
  hermitian (h_product B h1 h2) /\ posdef (h_product B h1 h2).
Proof.
move=> /full_mons0 e1 /full_mons0 e2 /full_mons0 e h1 h2 H1 P1 H2 P2; split.
  exact: (h_product_herm e1 e2 e).
exact: (h_product_pd e1 e2 e).
Qed.

Lemma identity_squared_lemma (C : numClosedFieldType) : exists B1 B,
  [/\ basis_full 1 1 = Ok B1, basis_full 1 2 = Ok B, size (power_matrix B) = 3%N &
  forall i j : 'I_(size (power_matrix B)), h_product (B1 := B1) (B2 := B1) B (1%:M : 'M[C]_(size (power_matrix B1))) 1%:M i j =
    (i == j)%:R * (if val i == 1%N then 2%:R else 1)].
Proof.
have [B1 [E1 _ _ _ _]] := full_class 1 1; have [B [E2 _ _ _ _]] := full_class 1 2.
exists B1, B; split=> //; first by move: E2; vm_compute => -[<-].
move: E1 E2; vm_compute basis_full => -[<-] [<-] /= i j; rewrite mxE.
have pr (F : 'I_2 * 'I_2 -> C) : \sum_a F a = \sum_a1 \sum_a2 F (a1, a2) by rewrite pair_bigA; apply: eq_bigr => -[].
rewrite pr; under eq_bigr do under eq_bigr do rewrite pr.
rewrite !big_ord_recl !big_ord0 !mxE /=.
by case: i => -[|[|[|//]]] il; case: j => -[|[|[|//]]] jl; rewrite -val_eqE /= ?mul1r ?mul0r ?mulr1 ?mulr0 ?addr0 ?add0r.
Qed.

Lemma product_kahler_lemma' (C : numClosedFieldType) (lg ex : C -> C) (pi : C) (m k1 k2 : nat) (V : variety C)
    (B1 B2 B : basis) :
  v_coordinates V = Ok m.+2 -> basis_full m.+1 k1 = Ok B1 -> basis_full m.+1 k2 = Ok B2 ->
  basis_full m.+1 (k1 + k2) = Ok B -> (0 < k1)%N -> (0 < k2)%N ->
  forall (h1 : 'M[C]_(size (power_matrix B1))) (h2 : 'M[C]_(size (power_matrix B2))),
  hermitian h1 -> posdef h1 -> hermitian h2 -> posdef h2 ->
  forall (zs : seq C) (patch : option Z),
  (patch = None \/ exists p : 'I_m.+2, patch = Some (Z.of_nat p)) -> pi != 0 ->
  (forall u v, 0 < u -> 0 < v -> lg (u * v) = lg u + lg v) ->
  alg_kahler lg ex pi m V (HMat (h_product B h1 h2)) zs patch =
  do K1 <- alg_kahler lg ex pi m V (HMat h1) zs patch;
  do K2 <- alg_kahler lg ex pi m V (HMat h2) zs patch;
  Ok ((k1%:R * K1 + k2%:R * K2) / (k1 + k2)%:R).
Proof. by move=> *; apply: product_kahler_lemma. Qed.
