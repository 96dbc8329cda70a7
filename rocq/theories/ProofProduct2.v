(** AlgebraicMetric for the product of two Hermitian matrices. *)
From Coq Require Import ZArith Lia.
From mathcomp Require Import all_ssreflect all_algebra.
From mathcomp Require Import zify ssrZ ring.
From SsrMultinomials Require Import mpoly.
From Verif Require Import Base ModelUtil ModelProjective ModelDiff ModelExpr ModelPoly ModelHom ModelVariety ModelBasis ModelGeom ModelAlg ModelPipe.
From Verif Require Import SpecBasis SpecSections SpecPatch SpecAlg SpecFubini SpecProduct Herm.
From Verif Require Import Deriv Bridge PolyGrad ProofUtil ProofProjective ProofBasis ProofBasis3 ProofDiff ProofGeom4 ProofSections ProofPolyExpr ProofAlg ProofAlg6 ProofFubini ProofFubini2 ProofProduct.
Delimit Scope Z_scope with Z.

Set Implicit Arguments.
Unset Strict Implicit.
Unset Printing Implicit Defensive.

Import GRing.Theory Num.Theory Order.POrderTheory.
Local Open Scope ring_scope.

Section One.
Variable C : numClosedFieldType.
Variable D : forall n : nat, ('rV[C]_n -> C) -> 'rV[C]_n -> 'rV[C]_n.
Hypothesis hD : diff_ok D.
Variables (lg ex : C -> C) (pi : C) (m k : nat) (V : variety C) (B : basis).
Hypotheses (hB : basis_full m.+1 k = Ok B).
Notation N := (size (power_matrix B)).
Variable h : 'M[C]_N.
Variables (p : 'I_m.+2) (z : 'rV[C]_m.+1).

Definition S0v (s : 'I_N) := peval (section_polys C p s) z.
Definition S1v a (s : 'I_N) := peval ((section_polys C p s)^`M(a)) z.
Definition cjf (f : 'I_N -> C) s := (f s)^*.
Definition fp := form h S0v (cjf S0v).
Definition fph a := form h (S1v a) (cjf S0v).
Definition fpha a b := form h (S1v a) (cjf (S1v b)).
Definition gpv (i j : 'I_m.+1) := (fpha i j / fp - fph i * (fph j)^* / fp ^+ 2) / (k%:R * pi).

Lemma fne : power_matrix B <> [::].
Proof. by have [B' [E _ ne _ _]] := full_class m.+1 k; move: hB; rewrite E => -[<-]. Qed.

Lemma fsecs : alg_sections lg ex B (Z.of_nat p) z = Ok [seq S0v s | s <- enum 'I_N].
Proof. apply: (sections_code lg ex (k := k)) => //; [by left|exact: fne]. Qed.

Lemma nth_S0v (s : 'I_N) : nth 0 [seq S0v s | s <- enum 'I_N] s = S0v s.
Proof. by rewrite (nth_map s) ?size_enum_ord // nth_ord_enum. Qed.

Lemma gp_code s2 g d jh i j :
  ob_g_proj pi (Objects (HMat h) (bdegree B) (fun s => nth 0 [seq S0v s | s <- enum 'I_N] s)
       (fun a i => alg_s1 D lg ex (Z.of_nat p) a i z) s2 g d jh) i j = gpv i j.
Proof.
have [_ dk] := full_mons hB; rewrite /ob_g_proj /ob_psi /ob_psi_a /ob_psi_h /ob_psi_ha /= dk.
have E1 (s : 'I_N) a : alg_s1 D lg ex (Z.of_nat p) s a z = S1v a s.
  by apply: (s1_code hD lg ex (k := k)); [left|exact: fne].
rewrite /g_proj /psi_a /gpv /fp /fph /fpha /form /psi /psi_h /psi_ha /s_c /s_1_c.
have P0 : \sum_(s < N) \sum_(t < N) nth 0 [seq S0v s | s <- enum 'I_N] s * h s t * (nth 0 [seq S0v s | s <- enum 'I_N] t)^* =
  \sum_s \sum_t S0v s * h s t * cjf S0v t by apply: eq_bigr => s _; apply: eq_bigr => t _; rewrite !nth_S0v.
have P1 a : \sum_(s < N) \sum_(t < N) alg_s1 D lg ex (Z.of_nat p) s a z * h s t * (nth 0 [seq S0v s | s <- enum 'I_N] t)^* =
  \sum_s \sum_t S1v a s * h s t * cjf S0v t by apply: eq_bigr => s _; apply: eq_bigr => t _; rewrite !nth_S0v E1.
have P2 a b : \sum_(s < N) \sum_(t < N) alg_s1 D lg ex (Z.of_nat p) s a z * h s t * (alg_s1 D lg ex (Z.of_nat p) t b z)^* =
  \sum_s \sum_t S1v a s * h s t * cjf (S1v b) t by apply: eq_bigr => s _; apply: eq_bigr => t _; rewrite !E1.
by rewrite P0 !P1 P2.
Qed.

Lemma some_sec : exists s, S0v s != 0.
Proof.
case: (boolP [exists s, S0v s != 0]) => [/existsP//|/existsPn K].
have := sec_sum (C := C) p hB z (conj_row z); rewrite big1 => [E|s _]; last first.
  by have := negPn (K s); rewrite /S0v => /eqP ->; rewrite mulr0.
have : 0 < (1 + \sum_i conj_row z 0 i * z 0 i) ^+ k.
  rewrite exprn_gt0 // ltr_paddr ?ltr01 // sumr_ge0 // => i _; by rewrite mxE mulrC mul_conjC_ge0.
by rewrite -E ltxx.
Qed.

Lemma fp_pos : posdef h -> 0 < fp.
Proof.
move=> pd; have [s s0] := some_sec.
have := pd (\row_s S0v s); rewrite /hform /fp /form /cjf.
have -> : \sum_i \sum_j (\row_s S0v s) 0 i * h i j * ((\row_s S0v s) 0 j)^* = \sum_i \sum_j S0v i * h i j * (S0v j)^*.
  by apply: eq_bigr => i _; apply: eq_bigr => j _; rewrite !mxE.
apply; apply/rV0Pn; exists s; by rewrite mxE.
Qed.

Lemma fp_real : hermitian h -> fp^* = fp.
Proof.
by move=> hh; rewrite /fp form_conj //; apply: form_eq => s //; rewrite /cjf conjCK.
Qed.

Variables (zs : seq C) (patch : option Z) (params : pyval C) (grad : option 'rV[C]_m.+1) (dep : option Z).
Hypothesis hp : alg_point m V zs patch = Ok (z, Z.of_nat p).

Lemma met_code : alg_metric D lg ex pi m V (HMat h : hvalue C N) zs params patch grad dep =
  do g <- alg_grad D V params grad (Z.of_nat p) z; do d <- choose_dependent (row_seq g) dep;
  do J <- jac g d; Ok (g_loc gpv J (jac_c J), Z.of_nat p, d).
Proof.
rewrite /alg_metric /alg_objects hp /= fsecs /=; case: alg_grad => //= g.
case: choose_dependent => //= d; rewrite /ob_g_loc /ob_jac /ob_dependent /=; case: (jac g d) => //= J.
congr (Ok (_, _, _)); apply/matrixP => r s; rewrite !mxE; apply: eq_bigr => i _; apply: eq_bigr => j _.
by rewrite gp_code.
Qed.

Lemma eta_code' : alg_eta D lg ex pi m V (HMat h : hvalue C N) zs params patch grad dep =
  do g <- alg_grad D V params grad (Z.of_nat p) z; do d <- choose_dependent (row_seq g) dep;
  do J <- jac g d; eta (g_loc gpv J (jac_c J)) g d.
Proof.
rewrite /alg_eta /alg_objects hp /= fsecs /=; case: alg_grad => //= g.
case: choose_dependent => //= d; rewrite /ob_eta /ob_g_loc /ob_jac /ob_dependent /=; case: (jac g d) => //= J.
congr (eta _ _ _); apply/matrixP => r s; rewrite !mxE; apply: eq_bigr => i _; apply: eq_bigr => j _.
by rewrite gp_code.
Qed.

Lemma kah_code : alg_kahler lg ex pi m V (HMat h : hvalue C N) zs patch = Ok (lg fp / (pi * k%:R)).
Proof.
rewrite /alg_kahler hp /= fsecs /= /kahler; have [_ ->] := full_mons hB; congr (Ok (lg _ / _)).
by apply: eq_bigr => s _; apply: eq_bigr => t _; rewrite /s_c !nth_S0v.
Qed.
End One.

Section Point.
Variables (C : numClosedFieldType) (m : nat) (V : variety C).
Hypothesis hV : v_coordinates V = Ok m.+2.

Lemma point_cases (zs : seq C) patch : (patch = None \/ exists p : 'I_m.+2, patch = Some (Z.of_nat p)) ->
  (exists e, alg_point m V zs patch = Err e) \/ exists z (p : 'I_m.+2), alg_point m V zs patch = Ok (z, Z.of_nat p).
Proof.
case=> [->|[p ->]]; rewrite /alg_point /v_dim_projective hV /=; last first.
  by case: eqP => /= ?; [right; exists (seq_row m.+1 zs), p|left; eexists].
rewrite /hom_to_affine_auto; case Ea: argmax => [i|e] /=; last by left; eexists.
case Eh: hom_to_affine => [a|e] /=; last by left; eexists.
case: eqP => /= sa; last by left; eexists.
have il : (i < m.+2)%N.
  have zs0 : [seq `|x| | x <- zs] != [::] by case: (zs) Ea.
  have [j [Ej [jl _ _]]] := argmaxP zs0 (fun y (H : y \in [seq `|x| | x <- zs]) => let: ex_intro2 x _ E := mapP H in
    eq_ind_r (fun y => y \is Num.real) (normr_real x) E).
  move: Ej jl; rewrite Ea size_map => -[<-] jl; move: Eh.
  rewrite /hom_to_affine (pop_del 0) //= => -[E]; move: sa; rewrite -E size_map /del size_cat size_take size_drop jl; lia.
by right; exists (seq_row m.+1 a), (Ordinal il).
Qed.
End Point.

Section Two.
Variable C : numClosedFieldType.
Variable D : forall n : nat, ('rV[C]_n -> C) -> 'rV[C]_n -> 'rV[C]_n.
Hypothesis hD : diff_ok D.
Variables (lg ex : C -> C) (pi : C) (m k1 k2 : nat) (V : variety C) (B1 B2 B : basis).
Hypotheses (hV : v_coordinates V = Ok m.+2).
Hypotheses (hB1 : basis_full m.+1 k1 = Ok B1) (hB2 : basis_full m.+1 k2 = Ok B2) (hB : basis_full m.+1 (k1 + k2) = Ok B).
Hypotheses (k10 : (0 < k1)%N) (k20 : (0 < k2)%N).
Variables (h1 : 'M[C]_(size (power_matrix B1))) (h2 : 'M[C]_(size (power_matrix B2))).
Hypotheses (H1 : hermitian h1) (P1 : posdef h1) (H2 : hermitian h2) (P2 : posdef h2).
Notation H := (h_product B h1 h2).

Let e1 := (full_mons hB1).1.
Let e2 := (full_mons hB2).1.
Let eB := (full_mons hB).1.
Notation px := (pidx e1 e2 eB).

Section At.
Variables (p : 'I_m.+2) (z : 'rV[C]_m.+1).

Lemma sec_mul a : section_polys C p (px a) = section_polys C p a.1 * section_polys C p a.2.
Proof.
apply: peval_inj => w; rewrite [RHS]/peval mevalM -!/(peval _ w) !sec_value -big_split /=; apply: eq_bigr => j _.
have /is_monomialP[s1 _] : nth [::] (power_matrix B1) a.1 \in mons m.+2 k1 by rewrite -e1 mem_nth.
have /is_monomialP[s2 _] : nth [::] (power_matrix B2) a.2 \in mons m.+2 k2 by rewrite -e2 mem_nth.
by rewrite -exprD -nth_mon_mul ?s1 ?s2 // (nth_pidx e1 e2 eB a).
Qed.

Notation s0 := (S0v p z).
Notation s1 := (S1v p z).

Lemma S0_mul a : s0 (px a) = s0 a.1 * s0 a.2.
Proof. by rewrite /S0v sec_mul /peval mevalM. Qed.
Lemma S1_mul i a : s1 i (px a) = s1 i a.1 * s0 a.2 + s0 a.1 * s1 i a.2.
Proof. by rewrite /S1v sec_mul mderivM /peval mevalD !mevalM. Qed.

Notation f := (fp _ p z).

Lemma fp_mul : fp H p z = fp h1 p z * fp h2 p z.
Proof.
rewrite -pform_prod; apply: (form_pform (h1B := e1) (h2B := e2) (hB := eB)) => a; by rewrite /cjf S0_mul ?rmorphM.
Qed.
Lemma fph_mul i : fph H p z i = fph h1 p z i * fp h2 p z + fp h1 p z * fph h2 p z i.
Proof.
rewrite -!pform_prod -pformDl; apply: (form_pform (h1B := e1) (h2B := e2) (hB := eB)) => a; first exact: S1_mul.
by rewrite /cjf S0_mul ?rmorphM.
Qed.

Lemma fphc M' (h : 'M[C]_(size (power_matrix M'))) i : hermitian h -> form h (S0v p z) (cjf (S1v p z i)) = (fph h p z i)^*.
Proof. by move=> hh; rewrite /fph form_conj //; apply: form_eq => s //; rewrite /cjf conjCK. Qed.

Lemma fpha_mul i j : fpha H p z i j = fpha h1 p z i j * fp h2 p z + fph h1 p z i * (fph h2 p z j)^* +
  ((fph h1 p z j)^* * fph h2 p z i + fp h1 p z * fpha h2 p z i j).
Proof.
rewrite -!fphc // -!pform_prod -!pformDr -pformDl; apply: (form_pform (h1B := e1) (h2B := e2) (hB := eB)) => a; first exact: S1_mul.
by rewrite /cjf S1_mul rmorphD !rmorphM.
Qed.

Lemma gpv_mul i j : pi != 0 ->
  (k1 + k2)%:R * gpv pi (k1 + k2) H p z i j = k1%:R * gpv pi k1 h1 p z i j + k2%:R * gpv pi k2 h2 p z i j.
Proof.
move=> pi0; have p1 := fp_pos hB1 p z P1; have p2 := fp_pos hB2 p z P2.
have n1 : fp h1 p z != 0 by rewrite gt_eqF.
have n2 : fp h2 p z != 0 by rewrite gt_eqF.
have K1 : k1%:R != 0 :> C by rewrite pnatr_eq0 -lt0n.
have K2 : k2%:R != 0 :> C by rewrite pnatr_eq0 -lt0n.
have K : (k1 + k2)%:R != 0 :> C by rewrite pnatr_eq0 -lt0n addn_gt0 k10.
rewrite /gpv fpha_mul !fph_mul fp_mul rmorphD !rmorphM /= !fp_real //.
move: (k1 + k2)%:R (k1%:R : C) (k2%:R : C) (fp h1 _ _) (fp h2 _ _) (fph h1 _ _ i) (fph h2 _ _ i) (fph h1 _ _ j)^* (fph h2 _ _ j)^* K1 K2 K n1 n2.
move: (fpha _ _ _ _ _) (fpha _ _ _ _ _) => A1 A2 k k1' k2' p1' p2' a1 a2 b1 b2 K1 K2 K n1 n2.
by field; rewrite ?K1 ?K2 ?K ?n1 ?n2 ?pi0.
Qed.
End At.

Variables (zs : seq C) (params : pyval C) (patch : option Z) (grad : option 'rV[C]_m.+1) (dep : option Z).
Hypothesis hp : patch = None \/ exists p : 'I_m.+2, patch = Some (Z.of_nat p).
Notation met h := (alg_metric D lg ex pi m V (HMat h) zs params patch grad dep).
Notation kah h := (alg_kahler lg ex pi m V (HMat h) zs patch).
Notation eta_of h := (alg_eta D lg ex pi m V (HMat h) zs params patch grad dep).

Lemma gloc_mul (p : 'I_m.+2) z (J : 'M[C]_(m, m.+1)) : pi != 0 -> g_loc (gpv pi (k1 + k2) H p z) J (jac_c J) =
  (k1 + k2)%:R^-1 *: (k1%:R *: g_loc (gpv pi k1 h1 p z) J (jac_c J) + k2%:R *: g_loc (gpv pi k2 h2 p z) J (jac_c J)).
Proof.
move=> pi0; have K : (k1 + k2)%:R != 0 :> C by rewrite pnatr_eq0 -lt0n addn_gt0 k10.
apply: (scalerI K); rewrite scalerA divff // scale1r.
apply/matrixP => r s; rewrite !mxE !mulr_sumr -big_split; apply: eq_bigr => i _ /=.
rewrite !mulr_sumr -big_split; apply: eq_bigr => j _ /=.
have := gpv_mul p z i j pi0; move: (k1 + k2)%:R (k1%:R : C) (k2%:R : C) (gpv _ _ _ _ _ _ _) (gpv _ _ _ _ _ _ _) (gpv _ _ _ _ _ _ _) (J r i) (jac_c J s j).
move=> k k' k'' G2 G1 G a b E; have -> : k * (a * G * b) = a * (k * G) * b by ring.
by rewrite E; ring.
Qed.

Lemma product_metric_lemma : pi != 0 -> met H =
  do M1 <- met h1; do M2 <- met h2;
  Ok ((k1 + k2)%:R^-1 *: (k1%:R *: M1.1.1 + k2%:R *: M2.1.1), M1.1.2, M1.2).
Proof.
move=> pi0; case: (point_cases hV zs hp) => [[e E]|[z [p E]]]; first by rewrite /alg_metric /alg_objects E.
rewrite (met_code hD lg ex pi hB _ params grad dep E) (met_code hD lg ex pi hB1 _ params grad dep E).
rewrite (met_code hD lg ex pi hB2 _ params grad dep E).
case: alg_grad => //= g; case: choose_dependent => //= d; case: jac => //= J.
by rewrite gloc_mul.
Qed.

Lemma product_kahler_lemma : pi != 0 -> (forall u v, 0 < u -> 0 < v -> lg (u * v) = lg u + lg v) -> kah H =
  do K1 <- kah h1; do K2 <- kah h2; Ok ((k1%:R * K1 + k2%:R * K2) / (k1 + k2)%:R).
Proof.
move=> pi0 hl; case: (point_cases hV zs hp) => [[e E]|[z [p E]]]; first by rewrite /alg_kahler E.
rewrite (kah_code lg ex pi hB _ E) (kah_code lg ex pi hB1 _ E) (kah_code lg ex pi hB2 _ E) /= fp_mul hl ?(fp_pos hB1) ?(fp_pos hB2) //.
have K1 : k1%:R != 0 :> C by rewrite pnatr_eq0 -lt0n.
have K2 : k2%:R != 0 :> C by rewrite pnatr_eq0 -lt0n.
have K : (k1 + k2)%:R != 0 :> C by rewrite pnatr_eq0 -lt0n addn_gt0 k10.
congr Ok; move: (lg _) (lg _) (k1 + k2)%:R (k1%:R : C) (k2%:R : C) K1 K2 K => l1 l2 k k' k'' K1 K2 K.
by field; rewrite K1 K2 K pi0.
Qed.

Lemma product_eta_lemma : pi != 0 -> met h1 = met h2 -> met H = met h1 /\ eta_of H = eta_of h1.
Proof.
move=> pi0; case: (point_cases hV zs hp) => [[e E]|[z [p E]]]; first by rewrite /alg_metric /alg_eta /alg_objects E.
rewrite (met_code hD lg ex pi hB _ params grad dep E) (met_code hD lg ex pi hB1 _ params grad dep E).
rewrite (met_code hD lg ex pi hB2 _ params grad dep E).
rewrite (eta_code' hD lg ex pi hB _ params grad dep E) (eta_code' hD lg ex pi hB1 _ params grad dep E).
case: alg_grad => //= g; case: choose_dependent => //= d; case: jac => //= J [Eg].
have K : (k1 + k2)%:R != 0 :> C by rewrite pnatr_eq0 -lt0n addn_gt0 k10.
by rewrite gloc_mul // -Eg -scalerDl -natrD scalerA mulVf // scale1r.
Qed.
End Two.
