(** Linear changes of the homogeneous coordinates: the map between patches. *)
From Coq Require Import ZArith Lia.
From mathcomp Require Import all_ssreflect all_algebra.
From mathcomp Require Import zify ssrZ ring.
From SsrMultinomials Require Import mpoly.
From Verif Require Import Base ModelUtil ModelProjective SpecMon ModelBasis ModelGeom ModelVariety ModelDiff ProofUtil ProofProjective
  Bridge Deriv Herm ProofDiff ProofFS SpecGeom SpecBasis SpecSections SpecPatch SpecPipe PolyGrad ProofGeom4 ProofBasis2 ProofBasis3 ProofSections ProofVariety3 ProofPatch ProofAlg2.
From Verif Require Import SpecLinear.
Delimit Scope Z_scope with Z.

Set Implicit Arguments.
Unset Strict Implicit.
Unset Printing Implicit Defensive.

Import GRing.Theory Num.Theory Order.POrderTheory.
Local Open Scope ring_scope.

Section Chart.
Variables (C : numClosedFieldType) (m : nat) (A : 'M[C]_m.+2) (i j : 'I_m.+2).
Implicit Types z : 'rV[C]_m.+1.

Definition ly z : 'rV[C]_m.+2 := locked (homr i z *m A).
Lemma lyE z : ly z = homr i z *m A. Proof. by rewrite /ly -lock. Qed.
Definition lw z : 'rV[C]_m.+1 := affr j (ly z).
(** Jacobian, indexed by all homogeneous indices *)
Definition lTT z (a : 'I_m.+1) (c : 'I_m.+2) : C :=
  (A (lift i a) c * ly z 0 j - ly z 0 c * A (lift i a) j) / ly z 0 j ^+ 2.
Definition lT z : 'M[C]_m.+1 := \matrix_(a, b) lTT z a (lift j b).

Lemma lin_homE z : lin_hom A i z = ly z.
Proof. by rewrite lyE /lin_hom homr_seq row_seqK. Qed.

Lemma is_grad_ly z c : is_grad (fun y => ly y 0 c) z (\row_a A (lift i a) c).
Proof.
apply: (@is_grad_ext _ _ (fun y => \sum_l A l c * homr i y 0 l)).
  by move=> y; rewrite lyE mxE; apply: eq_bigr => l _; rewrite mulrC.
have H : is_grad (fun y => \sum_l A l c * homr i y 0 l) z (\sum_l A l c *: \row_a (lift i a == l)%:R).
  by apply: is_grad_sum => l _; apply: is_grad_scale; exact: is_grad_homr.
apply: is_grad_eq H.
apply/rowP => a; rewrite summxE mxE (bigD1 (lift i a)) //= !mxE eqxx mulr1 big1 ?addr0 // => l la.
by rewrite !mxE eq_sym (negbTE la) mulr0.
Qed.

Lemma lw_jac z : ly z 0 j != 0 -> is_jac lw z (lT z).
Proof.
move=> nz k; have H := is_grad_div nz (is_grad_ly z (lift j k)) (is_grad_ly z j).
apply: (@is_grad_ext _ _ (fun y => ly y 0 (lift j k) / ly y 0 j)); first by move=> y; rewrite mxE.
by apply: is_grad_eq H; apply/rowP => a; rewrite !mxE /lTT; field.
Qed.

Lemma homr_lw z : ly z 0 j != 0 -> homr j (lw z) = (ly z 0 j)^-1 *: ly z.
Proof. by move=> nz; apply/rowP => a; rewrite homr_aff // [RHS]mxE mulrC. Qed.

Lemma lin_changeP z : ly z 0 j != 0 -> lin_change A i j z (lw z) (lT z).
Proof.
move=> nz; split; first by rewrite lin_homE hom_to_affine_seq.
move=> b; apply: is_grad_ext (lw_jac nz b) => y.
by rewrite lin_homE hom_to_affine_seq /= row_seqK.
Qed.

Lemma lin_changeE z w T : ly z 0 j != 0 -> lin_change A i j z w T -> w = lw z /\ T = lT z.
Proof.
move=> nz [E J]; have [E' J'] := lin_changeP nz; split.
  by move: E; rewrite E' => -[/(congr1 (seq_row m.+1))]; rewrite !row_seqK.
apply/matrixP => a b; have := is_grad_unique (J b) (J' b) => /rowP/(_ a); by rewrite !mxE.
Qed.

Lemma ly_near z : ly z 0 j != 0 -> exists2 r : C, 0 < r & forall v, norm1 v < r -> ly (z + v) 0 j != 0.
Proof.
move=> nz; pose K := 1 + \sum_a `|A (lift i a) j|.
have K0 : 0 < K by rewrite ltr_paddr ?ltr01 // sumr_ge0.
exists (`|ly z 0 j| / K) => [|v Hv]; first by rewrite divr_gt0 // normr_gt0.
have E : ly (z + v) 0 j = ly z 0 j + \sum_a v 0 a * A (lift i a) j.
  rewrite !lyE !mxE !(bigD1_ord i) //= !homr_patch -addrA; congr (_ + _).
  by rewrite -big_split; apply: eq_bigr => a _; rewrite !homr_lift mxE mulrDl.
apply: contraTneq Hv => /eqP; rewrite E addr_eq0 => /eqP Ez.
have le : `|ly z 0 j| <= norm1 v * K.
  rewrite Ez normrN (le_trans (ler_norm_sum _ _ _)) // mulrDr mulr1 mulr_sumr.
  rewrite (@le_trans _ _ (\sum_a norm1 v * `|A (lift i a) j|)) //.
    by apply: ler_sum => a _; rewrite normrM ler_wpmul2r // norm_le_norm1.
  by rewrite ler_addr norm1_ge0.
rewrite -real_leNgt; first by rewrite ler_pdivr_mulr.
  by rewrite ger0_real // divr_ge0 // ltW.
exact: ger0_real (norm1_ge0 v).
Qed.

(** Polynomials with P' (x) = P (x A) *)
Section Poly.
Variables (P P' : {mpoly C[m.+2]}) (e : nat).
Hypothesis HP : P \is e.-homog.
Hypothesis PP : forall x, peval P' x = peval P (x *m A).

Lemma dehom_lin z : ly z 0 j != 0 ->
  peval (dehom i P') z = ly z 0 j ^+ e * peval (dehom j P) (lw z).
Proof.
move=> nz; rewrite !dehom_eval -hom_scale //.
rewrite -[LHS]/(peval P' (homr i z)) PP -lyE; apply: meval_eq => k.
by rewrite homr_lw // [in RHS]mxE mulrA divff // mul1r.
Qed.

Lemma pgrad_lin z : ly z 0 j != 0 ->
  pgrad (dehom i P') z = ly z 0 j ^+ e *: (pgrad (dehom j P) (lw z) *m (lT z)^T)
    + (e%:R * ly z 0 j ^+ e.-1 * peval (dehom j P) (lw z)) *: (\row_a A (lift i a) j).
Proof.
move=> nz; have [r r0 Hr] := ly_near nz.
have H1 := is_grad_exp e (is_grad_ly z j).
have H2 := is_grad_comp (lw_jac nz) (poly_grad (dehom j P) (lw z)).
have H3 := is_grad_mul H1 H2.
apply: (is_grad_unique (poly_grad (dehom i P') z)).
apply: is_grad_near r0 _ _; last first.
  apply: is_grad_eq H3; congr (_ + _).
    congr (_ *: _); apply/rowP => a; rewrite !mxE; apply: eq_bigr => k _; rewrite !mxE mulrC //.
  by rewrite scalerA; congr (_ *: _); rewrite mulrC mulr_natl.
by move=> v Hv; rewrite (dehom_lin (Hr v Hv)).
Qed.

Lemma pgrad_lin0 z : ly z 0 j != 0 -> peval (dehom i P') z = 0 ->
  pgrad (dehom i P') z = ly z 0 j ^+ e *: (pgrad (dehom j P) (lw z) *m (lT z)^T).
Proof.
move=> nz; rewrite (dehom_lin nz) => /eqP; rewrite mulf_eq0 expf_eq0 (negbTE nz) andbF /= => /eqP E.
by rewrite (pgrad_lin nz) E mulr0 scale0r addr0.
Qed.
End Poly.

(** The determinant of the Jacobian *)
Lemma lT_det z : ly z 0 j != 0 -> `|\det (lT z)| ^+ 2 = `|\det A| ^+ 2 / `|ly z 0 j| ^+ (2 * m.+2).
Proof.
move=> nz; set x := ly z 0 j.
pose E1 : 'M[C]_m.+2 := \matrix_(r, c) (if r == i then homr i z 0 c else (r == c)%:R).
pose E2 : 'M[C]_m.+2 := \matrix_(r, c) (if r == j then (c == j)%:R - (c != j)%:R * (ly z 0 c / x) else (r == c)%:R).
have D1 : \det E1 = 1.
  rewrite (expand_det_col _ i) (bigD1 i) //= big1 ?addr0 => [|r ri]; last by rewrite mxE (negbTE ri) mul0r.
  rewrite mxE eqxx homr_patch mul1r /cofactor addnn -signr_odd odd_double expr0 mul1r.
  rewrite (_ : row' i (col' i E1) = 1%:M) ?det1 //; apply/matrixP => a b.
  by rewrite !mxE eq_sym (negbTE (neq_lift i a)) (inj_eq lift_inj).
have D2 : \det E2 = 1.
  rewrite (expand_det_col _ j) (bigD1 j) //= big1 ?addr0 => [|r ri]; last by rewrite mxE (negbTE ri) mul0r.
  rewrite mxE !eqxx /= mul0r subr0 mul1r /cofactor addnn -signr_odd odd_double expr0 mul1r.
  rewrite (_ : row' j (col' j E2) = 1%:M) ?det1 //; apply/matrixP => a b.
  by rewrite !mxE eq_sym (negbTE (neq_lift j a)) (inj_eq lift_inj).
have Ei c : (E1 *m A) i c = ly z 0 c.
  by rewrite lyE !mxE; apply: eq_bigr => l _; rewrite mxE eqxx.
have El a c : (E1 *m A) (lift i a) c = A (lift i a) c.
  rewrite mxE (bigD1 (lift i a)) //= big1 ?addr0 => [|l la].
    by rewrite mxE eq_sym (negbTE (neq_lift i a)) eqxx mul1r.
  by rewrite mxE eq_sym (negbTE (neq_lift i a)) eq_sym (negbTE la) mul0r.
have DY : \det (E1 *m A *m E2) = \det A by rewrite !det_mulmx D1 D2 mulr1 mul1r.
move: (E1 *m A) Ei El DY => Y Ei El DY.
have YE r b : (Y *m E2) r (lift j b) = Y r (lift j b) - Y r j * (ly z 0 (lift j b) / x).
  rewrite mxE (bigD1_ord j) //= (bigD1 b) //= big1 ?addr0 => [|b' bb]; last first.
    by rewrite mxE eq_sym (negbTE (neq_lift j _)) (inj_eq lift_inj) (negbTE bb) mulr0.
  rewrite !mxE eqxx [lift j b == j]eq_sym (negbTE (neq_lift j b)) eqxx /= mulr1 mul1r sub0r mulrN addrC //.
have : \det (Y *m E2) = x * cofactor (Y *m E2) i j.
  rewrite (expand_det_row _ i) (bigD1_ord j) //= big1 ?addr0 => [|b _]; last first.
    by rewrite YE !Ei -/x [x * _]mulrC divfK // subrr mul0r.
  congr (_ * _); rewrite mxE (bigD1_ord j) //= big1 ?addr0 => [|b _].
    by rewrite Ei mxE !eqxx /= mul0r subr0 mulr1.
  by rewrite mxE eq_sym (negbTE (neq_lift j _)) mulr0.
rewrite DY /cofactor (_ : row' i (col' j (Y *m E2)) = x *: lT z); last first.
  apply/matrixP => a b; rewrite [LHS]mxE [LHS]mxE YE !El !mxE /lTT -/x.
  by rewrite /x; field.
rewrite detZ => ->; rewrite !normrM normrX normrN1 expr1n mul1r normrX -/x.
have x0 : `|x| != 0 by rewrite normr_eq0.
rewrite !exprMn mulnC exprM; move: (`|x|) (`|\det _|) x0 => p q p0.
rewrite mulrA -exprMn -exprS mulrC mulfK //; by rewrite !expf_neq0.
Qed.
End Chart.
