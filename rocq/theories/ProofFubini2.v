(** The algebraic metric with multinomial coefficients is the Fubini-Study metric. *)
From Coq Require Import ZArith Lia.
From mathcomp Require Import all_ssreflect all_algebra.
From mathcomp Require Import zify ssrZ ring.
From SsrMultinomials Require Import mpoly.
From Verif Require Import Base ModelUtil ModelProjective ModelDiff ModelExpr ModelPoly ModelHom ModelVariety ModelBasis ModelGeom ModelAlg ModelPipe.
From Verif Require Import SpecBasis SpecSections SpecAlg SpecFubini.
From Verif Require Import Deriv Bridge PolyGrad ProofBasis3 ProofDiff ProofGeom4 ProofSections ProofPolyExpr ProofAlg ProofAlg6 ProofFubini.
Delimit Scope Z_scope with Z.

Set Implicit Arguments.
Unset Strict Implicit.
Unset Printing Implicit Defensive.

Import GRing.Theory Num.Theory Order.POrderTheory.
Local Open Scope ring_scope.

Section Values.
Variable C : numClosedFieldType.
Variables (m k : nat) (p : 'I_m.+2) (B : basis).
Notation n := m.+1.
Hypothesis hB : basis_full n k = Ok B.
Notation N := (size (power_matrix B)).
Notation sec := (@section_polys C n p (power_matrix B)).
Notation c s := (fubini_h C B 0 s).

Lemma lin_eval (w z : 'rV[C]_n) : peval (1 + \sum_i w 0 i *: 'X_i) z = 1 + \sum_i w 0 i * z 0 i.
Proof.
rewrite /peval rmorphD rmorph1 rmorph_sum /=; congr (_ + _).
by apply: eq_bigr => i _; rewrite mevalZ mevalXU.
Qed.

Lemma sec_sum1 (z w : 'rV[C]_n) a : \sum_s c s * peval (sec s) w * peval ((sec s)^`M(a)) z =
  k%:R * (w 0 a * (1 + \sum_i w 0 i * z 0 i) ^+ k.-1).
Proof.
have /(congr1 (fun q => peval (q^`M(a)) z)) := sec_poly p hB w.
rewrite mderiv_exp mderiv_lin raddf_sum /peval raddf_sum /= mevalZ rmorphM rmorphX /= mevalC -/(peval _ z) lin_eval.
rewrite [_ * w 0 a]mulrC => <-; apply: eq_bigr => s _; by rewrite mderivZ mevalZ.
Qed.

Lemma sec_sum2 (z w : 'rV[C]_n) a b : \sum_s c s * peval ((sec s)^`M(a)) z * peval ((sec s)^`M(b)) w =
  k%:R * ((a == b)%:R * (1 + \sum_i z 0 i * w 0 i) ^+ k.-1 +
          w 0 a * z 0 b * (k.-1)%:R * (1 + \sum_i z 0 i * w 0 i) ^+ k.-2).
Proof.
have E : \sum_s (c s * peval ((sec s)^`M(a)) z) *: sec s = k%:R *: ('X_a * (1 + \sum_i z 0 i *: 'X_i) ^+ k.-1).
  apply: peval_inj => y; rewrite /peval raddf_sum /= mevalZ rmorphM rmorphX /= mevalXU -!/(peval _ y) lin_eval.
  rewrite (eq_bigr (fun i => y 0 i * z 0 i)) => [|i _]; last by rewrite mulrC.
  rewrite -sec_sum1; apply: eq_bigr => s _; rewrite mevalZ -/(peval _ y) -!mulrA; congr (_ * _); exact: mulrC.
have := congr1 (fun q => peval (q^`M(b)) w) E.
rewrite mderivZ mderivM mderivU mderiv_exp mderiv_lin raddf_sum /peval raddf_sum /= mevalZ rmorphD !rmorphM rmorph_nat rmorphX /=.
rewrite mevalXU mevalZ rmorphM rmorphX /= mevalC -!/(peval _ w) lin_eval => E2.
transitivity (k%:R * ((b == a)%:R * (1 + \sum_i z 0 i * w 0 i) ^+ k.-1 +
   w 0 a * ((k.-1)%:R * ((1 + \sum_i z 0 i * w 0 i) ^+ k.-2 * z 0 b)))).
  by rewrite -E2; apply: eq_bigr => s _; rewrite mderivZ mevalZ.
by rewrite eq_sym; congr (_ * (_ + _)); rewrite -!mulrA; congr (_ * _); rewrite [RHS]mulrCA; congr (_ * _); exact: mulrC.
Qed.

Lemma sec_conj (s : 'I_N) (z : 'rV[C]_n) : (peval (sec s) z)^* = peval (sec s) (conj_rv z).
Proof.
rewrite !sec_value rmorph_prod; apply: eq_bigr => j _; rewrite rmorphX /=; congr (_ ^+ _).
case: (unliftP p j) => [a ->|->]; first by rewrite !homr_lift mxE.
by rewrite !homr_patch rmorph1.
Qed.

Lemma sec_conj1 (s : 'I_N) (z : 'rV[C]_n) a : (peval ((sec s)^`M(a)) z)^* = peval ((sec s)^`M(a)) (conj_rv z).
Proof.
have H : is_grad (peval (sec s)) (conj_rv z) (conj_rv (pgrad (sec s) z)).
  apply: is_grad_ext (is_grad_conj (poly_grad (sec s) z)) => y.
  by rewrite sec_conj; congr (peval _ _); apply/rowP => i; rewrite !mxE conjCK.
by have /rowP/(_ a) := is_grad_unique (poly_grad (sec s) (conj_rv z)) H; rewrite !mxE.
Qed.

Variable (z : 'rV[C]_n).
Notation Nz := (norm2p1 z (conj_row z)).

Lemma Nz_pos : 0 < Nz.
Proof.
rewrite /norm2p1 ltr_paddr ?ltr01 //; apply: sumr_ge0 => i _; rewrite mxE -normCK exprn_ge0 //.
Qed.

Lemma NzC : 1 + \sum_i (conj_rv z) 0 i * z 0 i = Nz.
Proof. by congr (_ + _); apply: eq_bigr => i _; rewrite !mxE mulrC. Qed.
Lemma NzC' : 1 + \sum_i z 0 i * (conj_rv z) 0 i = Nz.
Proof. by congr (_ + _); apply: eq_bigr => i _; rewrite !mxE. Qed.

(** Both forms of h *)
Definition is_fubini (h : hvalue C N) : Prop :=
  h = HVec (fubini_h C B) \/ h = HMat (diag_mx (fubini_h C B)).
Variable h : hvalue C N.
Hypothesis hh : is_fubini h.
Notation s0 := (fun s => peval (sec s) z).
Notation s1 := (fun s i => peval ((sec s)^`M(i)) z).

Lemma fub_psi : psi h s0 (s_c s0) = Nz ^+ k.
Proof.
transitivity (psi (HVec (fubini_h C B)) s0 (s_c s0)); first by case: hh => -> //; rewrite psi_diag.
rewrite /psi -NzC -(sec_sum p hB); apply: eq_bigr => s _; by rewrite /s_c sec_conj -mulrA mulrC.
Qed.

Lemma fub_psi_h a : psi_h h s1 (s_c s0) a = k%:R * ((z 0 a)^* * Nz ^+ k.-1).
Proof.
transitivity (psi_h (HVec (fubini_h C B)) s1 (s_c s0) a); first by case: hh => -> //; rewrite psi_h_diag.
have := sec_sum1 z (conj_rv z) a; rewrite NzC [in RHS]mxE => <-; rewrite /psi_h.
by apply: eq_bigr => s _; rewrite /s_c sec_conj -mulrA mulrC.
Qed.

Lemma fub_psi_ha a b : psi_ha h s1 (s_1_c s1) a b =
  k%:R * ((a == b)%:R * Nz ^+ k.-1 + (z 0 a)^* * z 0 b * (k.-1)%:R * Nz ^+ k.-2).
Proof.
transitivity (psi_ha (HVec (fubini_h C B)) s1 (s_1_c s1) a b); first by case: hh => -> //; rewrite psi_ha_diag.
have := sec_sum2 z (conj_rv z) a b; rewrite NzC' [in RHS]mxE => <-; rewrite /psi_ha.
by apply: eq_bigr => s _; rewrite /s_1_c sec_conj1 -mulrA mulrCA mulrA.
Qed.

Lemma fub_g (pi : C) a b : (0 < k)%N ->
  g_proj pi (psi h s0 (s_c s0)) (psi_h h s1 (s_c s0)) (psi_a (psi_h h s1 (s_c s0))) (psi_ha h s1 (s_1_c s1)) k a b =
  pi^-1 * fs_metric_real z a b.
Proof.
move=> k0; rewrite /g_proj /psi_a fub_psi fub_psi_ha !fub_psi_h.
have Nr : (Nz)^* = Nz by rewrite conj_Creal // ger0_real // ltW // Nz_pos.
have -> : (k%:R * ((z 0 b)^* * Nz ^+ k.-1))^* = k%:R * (z 0 b * Nz ^+ k.-1).
  by rewrite !rmorphM rmorphX /= rmorph_nat conjCK Nr.
rewrite [fs_metric_real _ _ _]mxE mxE; move: (lt0r_neq0 Nz_pos); set X := Nz; clearbody X => X0.
rewrite [(k%:R * pi)^-1]invfM [LHS]mulrA [LHS]mulrC; congr (_ * _).
case: k k0 => // -[|j] _ /=.
  rewrite expr0 expr1; set za := (z 0 a)^*; set zb := z 0 b; set dl := (a == b)%:R.
  rewrite mulr1n; field; exact: X0.
have kn : j.+2%:R != 0 :> C by rewrite pnatr_eq0.
rewrite !exprS; have Y0 : X ^+ j != 0 by rewrite expf_neq0.
move: Y0; set Y := X ^+ j => Y0.
set za := (z 0 a)^*; set zb := z 0 b; set dl := (a == b)%:R.
rewrite -[j.+2]addn1 natrD -/(j.+1) in kn *; move: kn; set q := (j.+1%:R : C); clearbody q => kn.
by field; rewrite X0 Y0 kn.
Qed.
End Values.
