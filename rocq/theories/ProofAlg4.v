(** Wrappers for the statements in PropsAlg. *)
From Coq Require Import ZArith Reals.
From mathcomp Require Import all_ssreflect all_algebra.
From SsrMultinomials Require Import mpoly.
From Verif Require Import Base ModelUtil ModelProjective ModelExpr ModelPoly ModelHom ModelVariety ModelBasis ModelGeom ModelAlg.
From Verif Require Import SpecPoly SpecHom SpecVariety SpecGeom SpecBasis SpecSections SpecPatch SpecAlg Herm.
From Verif Require Import Deriv Wirtinger Bridge PolyGrad ComplexR ProofHom ProofSections ProofBasis3 ProofPolyExpr ProofAlg ProofAlg2 ProofAlg3.
Delimit Scope Z_scope with Z.
Delimit Scope R_scope with RR.

Set Implicit Arguments.
Unset Strict Implicit.
Unset Printing Implicit Defensive.

Import GRing.Theory Num.Theory.
Local Open Scope ring_scope.

Lemma metric_wrap : forall (C : numClosedFieldType)
    (D : forall n : nat, ('rV[C]_n -> C) -> 'rV[C]_n -> 'rV[C]_n), diff_ok D ->
  forall (lg ex : C -> C) (pi : C) (m e : nat) (V : variety C) (ps : seq C)
    (Q : {mpoly C[m.+2]}), hypersurface V ps m e -> defined_by V ps Q ->
  forall (k : nat) (B : basis), basis_for k Q B -> (0 < k)%N -> 0 < pi ->
  forall M : 'M[C]_(size (power_matrix B)), hermitian M -> posdef M ->
  forall (x : 'rV[C]_m.+2) (i : 'I_m.+2) (d : 'I_m.+1) (a g : seq C), smooth_at D V ps x i d a g ->
  exists (i0 : 'I_m.+2) (d0 : 'I_m.+1) G G0 A,
  [/\ alg_metric D lg ex pi m V (HMat M) a (PArr ps) (Some (Z.of_nat i)) None (Some (Z.of_nat d)) =
        Ok (G, Z.of_nat i, Z.of_nat d),
      alg_metric D lg ex pi m V (HMat M) (row_seq x) (PArr ps) None None None = Ok (G0, Z.of_nat i0, Z.of_nat d0),
      A \in unitmx /\ G = A *m G0 *m adjm A, posdef G0 &
      (forall j : 'I_m.+2, `|x 0 j| <= `|nth 0 (row_seq x) i0|) /\
      exists a0 g0, [/\ hom_to_affine (row_seq x) (Z.of_nat i0) = Ok a0,
        v_grad_defining D V a0 (PArr ps) (PatchInt C (Z.of_nat i0)) = Ok g0 &
        forall b : 'I_m.+1, `|nth 0 g0 b| <= `|nth 0 g0 d0|]].
Proof.
move=> C D hD lg ex pi m e V ps Q hV hQ k B hB k0 pi0 M HM pd x i d a g [hx xi ha hg gd].
exact: (metric_point hD lg ex hV hQ hB k0 pi0 HM pd hx xi ha hg gd).
Qed.

Lemma eta_wrap : forall (C : numClosedFieldType)
    (D : forall n : nat, ('rV[C]_n -> C) -> 'rV[C]_n -> 'rV[C]_n), diff_ok D ->
  forall (lg ex : C -> C) (pi : C) (m e : nat) (V : variety C) (ps : seq C)
    (Q : {mpoly C[m.+2]}), hypersurface V ps m e -> defined_by V ps Q ->
  forall (k : nat) (B : basis), basis_for k Q B -> (0 < k)%N -> 0 < pi ->
  forall M : 'M[C]_(size (power_matrix B)), hermitian M -> posdef M ->
  forall (x : 'rV[C]_m.+2) (i : 'I_m.+2) (d : 'I_m.+1) (a g : seq C), smooth_at D V ps x i d a g ->
  exists (i0 : 'I_m.+2) E E0,
  [/\ alg_eta D lg ex pi m V (HMat M) a (PArr ps) (Some (Z.of_nat i)) None (Some (Z.of_nat d)) = Ok E,
      alg_eta D lg ex pi m V (HMat M) (row_seq x) (PArr ps) None None None = Ok E0,
      E * `|x 0 i0 / x 0 i| ^+ (2 * m.+2) = `|x 0 i0 / x 0 i| ^+ (2 * e) * E0, e = m.+2 -> E = E0 &
      forall j : 'I_m.+2, `|x 0 j| <= `|x 0 i0|].
Proof.
move=> C D hD lg ex pi m e V ps Q hV hQ k B hB k0 pi0 M HM pd x i d a g [hx xi ha hg gd].
exact: (eta_point hD lg ex hV hQ hB k0 pi0 HM pd hx xi ha hg gd).
Qed.

Lemma kahler_wrap : forall (C : numClosedFieldType)
    (D : forall n : nat, ('rV[C]_n -> C) -> 'rV[C]_n -> 'rV[C]_n), diff_ok D ->
  forall (lg ex : C -> C) (pi : C) (m e : nat) (V : variety C) (ps : seq C)
    (Q : {mpoly C[m.+2]}), hypersurface V ps m e -> defined_by V ps Q ->
  forall (k : nat) (B : basis), basis_for k Q B -> (0 < k)%N -> 0 < pi ->
  forall M : 'M[C]_(size (power_matrix B)), hermitian M -> posdef M ->
  forall (x : 'rV[C]_m.+2) (i : 'I_m.+2) (d : 'I_m.+1) (a g : seq C), smooth_at D V ps x i d a g ->
  (forall u v, 0 < u -> 0 < v -> lg (u * v) = lg u + lg v) ->
  exists (i0 : 'I_m.+2) K K0,
  [/\ alg_kahler lg ex pi m V (HMat M) a (Some (Z.of_nat i)) = Ok K,
      alg_kahler lg ex pi m V (HMat M) (row_seq x) None = Ok K0,
      K = K0 + lg (`|x 0 i0 / x 0 i| ^+ 2) / pi &
      forall j : 'I_m.+2, `|x 0 j| <= `|x 0 i0|].
Proof.
move=> C D hD lg ex pi m e V ps Q hV hQ k B hB k0 pi0 M HM pd x i d a g [hx xi ha hg gd].
exact: (kahler_point hD ex hV hQ hB k0 pi0 HM pd hx xi ha hg gd).
Qed.

Lemma ricci_wrap : forall (D : forall n : nat, ('rV[CR]_n -> CR) -> 'rV[CR]_n -> 'rV[CR]_n), diff_ok D ->
  forall (lg ex : CR -> CR) (m e : nat) (V : variety CR) (ps : seq CR)
    (Q : {mpoly CR[m.+2]}), hypersurface V ps m e -> defined_by V ps Q ->
  forall (k : nat) (B : basis), basis_for k Q B -> (0 < k)%N ->
  forall M : 'M[CR]_(size (power_matrix B)), hermitian M -> posdef M ->
  forall (x : 'rV[CR]_m.+2) (i : 'I_m.+2) (d : 'I_m.+1) (a g : seq CR), smooth_at D V ps x i d a g ->
  exists i0 d0 G G0 R R0 A r,
  [/\ alg_metric D lg ex (rc PI) m V (HMat M) a (PArr ps) (Some (Z.of_nat i)) None (Some (Z.of_nat d)) =
        Ok (G, Z.of_nat i, Z.of_nat d),
      alg_metric D lg ex (rc PI) m V (HMat M) (row_seq x) (PArr ps) None None None = Ok (G0, i0, d0),
      alg_ricci D lg ex (rc PI) m V (HMat M) a (PArr ps) (Some (Z.of_nat i)) None (Some (Z.of_nat d)) =
        Ok (R, Z.of_nat i, Z.of_nat d) &
      alg_ricci D lg ex (rc PI) m V (HMat M) (row_seq x) (PArr ps) None None None = Ok (R0, i0, d0)] /\
  [/\ A \in unitmx, G = A *m G0 *m adjm A, R = A *m R0 *m adjm A,
      alg_ricci_scalar D lg ex (rc PI) m V (HMat M) a (PArr ps) (Some (Z.of_nat i)) None (Some (Z.of_nat d)) = Ok r &
      alg_ricci_scalar D lg ex (rc PI) m V (HMat M) (row_seq x) (PArr ps) None None None = Ok r].
Proof.
move=> D hD lg ex m e V ps Q hV hQ k B hB k0 M HM pd x i d a g [hx xi ha hg gd].
exact: (ricci_point hD lg ex hV hQ hB k0 HM pd hx xi ha hg gd).
Qed.

