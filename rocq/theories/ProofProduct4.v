(** Higher derivatives for the product of two Hermitian matrices. *)
From Coq Require Import ZArith Lia.
From mathcomp Require Import all_ssreflect all_algebra.
From mathcomp Require Import zify ssrZ ring.
From SsrMultinomials Require Import mpoly.
From Verif Require Import Base ModelUtil ModelProjective ModelDiff ModelExpr ModelPoly ModelHom ModelVariety ModelBasis ModelGeom ModelAlg ModelPipe.
From Verif Require Import SpecBasis SpecSections SpecPatch SpecAlg SpecFubini SpecProduct Herm.
From Verif Require Import Deriv Bridge PolyGrad ProofBasis ProofBasis3 ProofDiff ProofGeom4 ProofSections ProofPolyExpr ProofAlg ProofAlg6 ProofFubini ProofFubini2 ProofProduct ProofProduct2.
Delimit Scope Z_scope with Z.

Set Implicit Arguments.
Unset Strict Implicit.
Unset Printing Implicit Defensive.

Import GRing.Theory Num.Theory Order.POrderTheory.
Local Open Scope ring_scope.

Section One.
Variable C : numClosedFieldType.
Variable D : forall n : nat, ('rV[C]_n -> C) -> 'rV[C]_n -> 'rV[C]_n.
Hypothesis hD : diff_ok D.
Variables (lg ex : C -> C) (pi : C) (m k : nat) (V : variety C) (B : basis).
Hypotheses (hB : basis_full m.+1 k = Ok B).
Notation N := (size (power_matrix B)).
Variable h : 'M[C]_N.
Variables (p : 'I_m.+2) (z : 'rV[C]_m.+1).

Definition S2v a b (s : 'I_N) := peval ((section_polys C p s)^`M(a)^`M(b)) z.
Definition fhh a b := form h (S2v a b) (cjf (S0v p z)).
Definition fhha a b c := form h (S2v a b) (cjf (S1v p z c)).
Definition fhhaa a b c d := form h (S2v a b) (cjf (S2v c d)).
Notation f0 := (fp h p z).
Notation f1 := (fph h p z).
Notation f1c := (fun a => (f1 a)^*).
Notation f11 := (fpha h p z).
Definition ftwo := two_hha f1c fhh (psi_h_psi_ha f1 f11).
Definition gphv (a i j : 'I_m.+1) : C := g_proj_h pi f0 fhha ftwo (three_hha f1 f1c) k a i j.
Definition gphav (a b i j : 'I_m.+1) : C := g_proj_ha pi f0 fhhaa
  (two_haha fhh (psi_aa fhh) (psi_ha_psi_ha f11) (psi_hha_psi_a f1c fhha))
  (three_haha f1 f1c (psi_aa fhh) ftwo (psi_h_psi_ha f1 f11)) (four_haha f1c (three_hha f1 f1c)) k a b i j.

Variables (g : 'rV[C]_m.+1) (d : option Z) (jh : 'I_m -> 'I_m.+1 -> 'I_m.+1 -> C).
Definition obv := (Objects (HMat h) (bdegree B) (fun s => nth 0 [seq S0v p z s | s <- enum 'I_N] s)
       (fun a i => alg_s1 D lg ex (Z.of_nat p) a i z) (fun a i j => alg_s2 D lg ex (Z.of_nat p) a i j z) g d jh).

Let E0 (s : 'I_N) : nth 0 [seq S0v p z s | s <- enum 'I_N] s = S0v p z s.
Proof. exact: nth_S0v. Qed.
Let E1 (s : 'I_N) a : alg_s1 D lg ex (Z.of_nat p) s a z = S1v p z a s.
Proof. by apply: (s1_code hD lg ex (k := k)); [left|exact: (fne hB)]. Qed.
Let E2 (s : 'I_N) a b : alg_s2 D lg ex (Z.of_nat p) s a b z = S2v a b s.
Proof. by apply: (s2_code hD lg ex (k := k)); [left|exact: (fne hB)]. Qed.

Lemma o0 : ob_psi obv = f0.
Proof. by apply: eq_bigr => s _; apply: eq_bigr => t _; rewrite /s_c /= !E0. Qed.
Lemma o1 a : ob_psi_h obv a = f1 a.
Proof. by apply: eq_bigr => s _; apply: eq_bigr => t _; rewrite /s_c /= !E0 E1. Qed.
Lemma o11 a b : ob_psi_ha obv a b = f11 a b.
Proof. by apply: eq_bigr => s _; apply: eq_bigr => t _; rewrite /s_1_c /= !E1. Qed.
Lemma o21 a b c : ob_psi_hha obv a b c = fhha a b c.
Proof. by apply: eq_bigr => s _; apply: eq_bigr => t _; rewrite /s_1_c /= !E1 E2. Qed.
Lemma o22 a b c c' : ob_psi_hhaa obv a b c c' = fhhaa a b c c'.
Proof. by apply: eq_bigr => s _; apply: eq_bigr => t _; rewrite /s_2_c /= !E2. Qed.
Lemma o20 : exists2 F, ob_psi_hh obv = Ok F & forall a b, F a b = fhh a b.
Proof.
eexists; first by reflexivity.
by move=> a b; apply: eq_bigr => s _; apply: eq_bigr => t _; rewrite /s_c /= !E0 E2.
Qed.

Lemma oh : exists2 F, ob_g_proj_h pi obv = Ok F & forall a i j, F a i j = gphv a i j.
Proof.
have [F EF HF] := o20; have [_ dk] := full_mons hB.
rewrite /ob_g_proj_h /ob_two_hha EF /=; eexists; first by reflexivity.
move=> a i j; rewrite /gphv /g_proj_h /ftwo /ob_three_hha /ob_psi_h_psi_ha /two_hha /three_hha /psi_h_psi_ha o0 o21 !HF !o11 /ob_psi_a /psi_a !o1 /= dk.
by [].
Qed.

Lemma oha : exists2 F, ob_g_proj_ha pi obv = Ok F & forall a b i j, F a b i j = gphav a b i j.
Proof.
have [F EF HF] := o20; have [_ dk] := full_mons hB.
rewrite /ob_g_proj_ha /ob_two_haha /ob_three_haha /ob_two_hha EF /=; eexists; first by reflexivity.
move=> a b i j; rewrite /gphav /g_proj_ha /ftwo /ob_four_haha /ob_three_hha /ob_psi_h_psi_ha /two_haha /three_haha /four_haha /two_hha /three_hha /psi_h_psi_ha /psi_aa
  /psi_ha_psi_ha /psi_hha_psi_a /psi_h_psi_ha o0 !o22 !o21 !HF !o11 /ob_psi_a /psi_a !o1 /= dk.
by [].
Qed.

Lemma op i j : ob_g_proj pi obv i j = gpv pi k h p z i j.
Proof. exact: (gp_code hD lg ex pi hB). Qed.
End One.

Section Two.
Variable C : numClosedFieldType.
Variables (pi : C) (m k1 k2 : nat) (B1 B2 B : basis).
Hypotheses (hB1 : basis_full m.+1 k1 = Ok B1) (hB2 : basis_full m.+1 k2 = Ok B2) (hB : basis_full m.+1 (k1 + k2) = Ok B).
Hypotheses (k10 : (0 < k1)%N) (k20 : (0 < k2)%N).
Variables (h1 : 'M[C]_(size (power_matrix B1))) (h2 : 'M[C]_(size (power_matrix B2))).
Hypotheses (H1 : hermitian h1) (P1 : posdef h1) (H2 : hermitian h2) (P2 : posdef h2).
Notation H := (h_product B h1 h2).
Notation px := (pidx (full_mons hB1).1 (full_mons hB2).1 (full_mons hB).1).
Variables (p : 'I_m.+2) (z : 'rV[C]_m.+1).
Notation s0 := (S0v p z).
Notation s1 := (S1v p z).
Notation s2 := (S2v p z).

Lemma S2_mul i j a : s2 i j (px a) = s2 i j a.1 * s0 a.2 + s1 i a.1 * s1 j a.2 + (s1 j a.1 * s1 i a.2 + s0 a.1 * s2 i j a.2).
Proof. by rewrite /S2v sec_mul mderivM mderivD !mderivM /peval !mevalD !mevalM. Qed.

Let F := (form_pform (C := C) (h1B := (full_mons hB1).1) (h2B := (full_mons hB2).1) (hB := (full_mons hB).1)).

Lemma fhc M' (h : 'M[C]_(size (power_matrix M'))) i j : hermitian h -> form h (S0v p z) (cjf (S2v p z i j)) = (fhh h p z i j)^*.
Proof. by move=> hh; rewrite /fhh form_conj //; apply: form_eq => s //; rewrite /cjf conjCK. Qed.
Lemma fhac M' (h : 'M[C]_(size (power_matrix M'))) c i j : hermitian h -> form h (S1v p z c) (cjf (S2v p z i j)) = (fhha h p z i j c)^*.
Proof. by move=> hh; rewrite /fhha form_conj //; apply: form_eq => s //; rewrite /cjf conjCK. Qed.

Lemma fhh_mul i j : fhh H p z i j = fhh h1 p z i j * fp h2 p z + fph h1 p z i * fph h2 p z j +
  (fph h1 p z j * fph h2 p z i + fp h1 p z * fhh h2 p z i j).
Proof.
rewrite -!pform_prod -!pformDl; apply: F => a; first exact: S2_mul.
by rewrite /cjf S0_mul rmorphM.
Qed.

Lemma fhha_mul i j c : fhha H p z i j c =
  (fhha h1 p z i j c * fp h2 p z + fhh h1 p z i j * (fph h2 p z c)^*) +
  (fpha h1 p z i c * fph h2 p z j + fph h1 p z i * fpha h2 p z j c) +
  ((fpha h1 p z j c * fph h2 p z i + fph h1 p z j * fpha h2 p z i c) +
   ((fph h1 p z c)^* * fhh h2 p z i j + fp h1 p z * fhha h2 p z i j c)).
Proof.
rewrite -!fphc // -!pform_prod -!pformDr -!pformDl; apply: F => a; first exact: S2_mul.
by rewrite /cjf S1_mul rmorphD !rmorphM.
Qed.

Lemma fhhaa_mul i j c d : fhhaa H p z i j c d =
  ((fhhaa h1 p z i j c d * fp h2 p z + fhha h1 p z i j c * (fph h2 p z d)^*) + (fhha h1 p z i j d * (fph h2 p z c)^* + fhh h1 p z i j * (fhh h2 p z c d)^*)) +
  (((fhha h1 p z c d i)^* * fph h2 p z j + fpha h1 p z i c * fpha h2 p z j d) + (fpha h1 p z i d * fpha h2 p z j c + fph h1 p z i * (fhha h2 p z c d j)^*)) +
  ((((fhha h1 p z c d j)^* * fph h2 p z i + fpha h1 p z j c * fpha h2 p z i d) + (fpha h1 p z j d * fpha h2 p z i c + fph h1 p z j * (fhha h2 p z c d i)^*)) +
  (((fhh h1 p z c d)^* * fhh h2 p z i j + (fph h1 p z c)^* * fhha h2 p z i j d) + ((fph h1 p z d)^* * fhha h2 p z i j c + fp h1 p z * fhhaa h2 p z i j c d))).
Proof.
rewrite -!fphc // -!fhac // -!fhc // -!pform_prod -!pformDr -!pformDl; apply: F => a; first exact: S2_mul.
by rewrite /cjf S2_mul !rmorphD !rmorphM.
Qed.

Hypothesis pi0 : pi != 0.
Lemma gphv_mul a i j :
  (k1 + k2)%:R * gphv pi (k1 + k2) H p z a i j = k1%:R * gphv pi k1 h1 p z a i j + k2%:R * gphv pi k2 h2 p z a i j.
Proof.
have n1 : fp h1 p z != 0 by rewrite gt_eqF // (fp_pos hB1).
have n2 : fp h2 p z != 0 by rewrite gt_eqF // (fp_pos hB2).
have K1 : k1%:R != 0 :> C by rewrite pnatr_eq0 -lt0n.
have K2 : k2%:R != 0 :> C by rewrite pnatr_eq0 -lt0n.
have K : (k1 + k2)%:R != 0 :> C by rewrite pnatr_eq0 -lt0n addn_gt0 k10.
rewrite /gphv /g_proj_h /ftwo /two_hha /three_hha /psi_h_psi_ha.
rewrite (fp_mul hB1 hB2 hB) fhha_mul !(fpha_mul hB1 hB2 hB) // !(fph_mul hB1 hB2 hB) !fhh_mul rmorphD !rmorphM /= !fp_real //.
move: (k1 + k2)%:R (k1%:R : C) (k2%:R : C) (fp h1 _ _) (fp h2 _ _) K1 K2 K n1 n2.
move: (fph h1 _ _ a) (fph h2 _ _ a) (fph h1 _ _ i) (fph h2 _ _ i) (fph h1 _ _ j)^* (fph h2 _ _ j)^*.
move: (fpha h1 _ _ _ _) (fpha h1 _ _ _ _) (fpha h2 _ _ _ _) (fpha h2 _ _ _ _) (fhh h1 _ _ _ _) (fhh h2 _ _ _ _) (fhha h1 _ _ _ _ _) (fhha h2 _ _ _ _ _).
move=> x1 x2 x3 x4 x5 x6 x7 x8 y1 y2 y3 y4 y5 y6 k k1' k2' p1 p2 K1 K2 K n1 n2.
by field; rewrite ?K1 ?K2 ?K ?n1 ?n2 ?pi0.
Qed.
Lemma fhha_com M' (h : 'M[C]_(size (power_matrix M'))) i j c : fhha h p z i j c = fhha h p z j i c.
Proof. by apply: form_eq => s //; rewrite /S2v mderiv_comm. Qed.

Lemma gphav_mul a b i j :
  (k1 + k2)%:R * gphav pi (k1 + k2) H p z a b i j = k1%:R * gphav pi k1 h1 p z a b i j + k2%:R * gphav pi k2 h2 p z a b i j.
Proof.
have n1 : fp h1 p z != 0 by rewrite gt_eqF // (fp_pos hB1).
have n2 : fp h2 p z != 0 by rewrite gt_eqF // (fp_pos hB2).
have K1 : k1%:R != 0 :> C by rewrite pnatr_eq0 -lt0n.
have K2 : k2%:R != 0 :> C by rewrite pnatr_eq0 -lt0n.
have K : (k1 + k2)%:R != 0 :> C by rewrite pnatr_eq0 -lt0n addn_gt0 k10.
rewrite /gphav /g_proj_ha /ftwo /two_haha /three_haha /four_haha /two_hha /three_hha /psi_h_psi_ha /psi_aa /psi_ha_psi_ha /psi_hha_psi_a.
rewrite !(fhha_com _ j b) (fp_mul hB1 hB2 hB) fhhaa_mul !fhha_mul !(fpha_mul hB1 hB2 hB) // !(fph_mul hB1 hB2 hB) !fhh_mul.
rewrite !(rmorphD, rmorphM) /= !conjCK !fp_real //.
have cc h' x y : hermitian h' -> (fpha (B := B1) h' p z x y)^* = fpha h' p z y x.
  by move=> hh; rewrite /fpha form_conj //; apply: form_eq => s //; rewrite /cjf conjCK.
have cc' h' x y : hermitian h' -> (fpha (B := B2) h' p z x y)^* = fpha h' p z y x.
  by move=> hh; rewrite /fpha form_conj //; apply: form_eq => s //; rewrite /cjf conjCK.
rewrite !cc // !cc' //.
move: (k1 + k2)%:R (k1%:R : C) (k2%:R : C) (fp h1 _ _) (fp h2 _ _) K1 K2 K n1 n2.
move: (fhhaa h1 _ _ _ _ _ _) (fhhaa h2 _ _ _ _ _ _).
move: (fhha h1 _ _ b j a)^* (fhha h1 _ _ b j i)^* (fhha h2 _ _ b j a)^* (fhha h2 _ _ b j i)^*.
move: (fhha h1 _ _ a i b) (fhha h1 _ _ a i j) (fhha h2 _ _ a i b) (fhha h2 _ _ a i j).
move: (fhh h1 _ _ a i) (fhh h2 _ _ a i) (fhh h1 _ _ b j)^* (fhh h2 _ _ b j)^*.
move: (fpha h1 _ _ a b) (fpha h1 _ _ a j) (fpha h1 _ _ i b) (fpha h1 _ _ i j) (fpha h2 _ _ a b) (fpha h2 _ _ a j) (fpha h2 _ _ i b) (fpha h2 _ _ i j).
move: (fph h1 _ _ b)^* (fph h2 _ _ b)^* (fph h1 _ _ j)^* (fph h2 _ _ j)^*.
move: (fph h1 _ _ a) (fph h2 _ _ a) (fph h1 _ _ i) (fph h2 _ _ i).
move=> a1 a2 i1 i2 b1 b2 j1 j2 ab1 aj1 ib1 ij1 ab2 aj2 ib2 ij2 ai1 ai2 bj1 bj2 aib1 aij1 aib2 aij2 bja1 bji1 bja2 bji2 f1 f2 k k1' k2' p1 p2 K1 K2 K n1 n2.
by field; rewrite ?K1 ?K2 ?K ?n1 ?n2 ?pi0.
Qed.
End Two.
