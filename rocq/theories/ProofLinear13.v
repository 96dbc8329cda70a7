(** Metric, eta and curvature at x and x A, for an invariant kernel over the reduced basis. *)
From Coq Require Import ZArith Lia Reals.
From mathcomp Require Import all_ssreflect all_algebra.
From mathcomp Require Import zify ssrZ ring complex.
From SsrMultinomials Require Import mpoly.
From Verif Require Import Base ModelUtil ModelProjective SpecMon ModelExpr ModelPoly ModelHom ModelBasis ModelGeom ModelVariety ModelDiff ModelAlg ModelPipe
  Bridge Deriv Herm Herm2 SpecGeom SpecBasis SpecSections SpecPatch SpecAlg SpecPipe SpecEta SpecReduce PolyGrad ProofSections ProofPatch ProofSymmetry2
  ProofBasis ProofBasis3 ProofAlg ProofAlg3 ProofAlg6 ProofHom2 RealField ComplexR ProofComplex ProofRicci3 ProofEta5 ProofReduce ProofReduce2 ProofReduce3
  SpecLinear ProofLinear ProofLinear2 ProofLinear3 ProofLinear4 ProofLinear8 SpecRank ProofRank SpecRotate2 ProofLinear11.
Delimit Scope Z_scope with Z.

Set Implicit Arguments.
Unset Strict Implicit.
Unset Printing Implicit Defensive.

Import GRing.Theory Num.Theory Order.POrderTheory.
Local Open Scope ring_scope.
Delimit Scope R_scope with RR.

Section Ext.
Variables (C : numClosedFieldType) (m : nat) (B : basis) (V : variety C) (ps : seq C).
Notation N := (size (power_matrix B)).
Notation s x := (hom_sections B (row_seq x)).
Hypothesis ind : independent_on V ps m B.

Lemma ind_ext (X Y : 'M[C]_N) : (forall x y : 'rV[C]_m.+2, point_on V ps x -> point_on V ps y -> kernel X x y = kernel Y x y) -> X = Y.
Proof.
have colv (v : 'cV[C]_N) : (forall x : 'rV[C]_m.+2, point_on V ps x -> s x *m v = 0) -> v = 0.
  move=> H; apply: trmx_inj; rewrite trmx0; apply: ind => x /H/matrixP/(_ 0 0); rewrite [LHS]mxE [RHS]mxE => Hx.
  by rewrite -[RHS]Hx; apply: eq_bigr => a _; rewrite [v^T _ _]mxE mulrC.
have mat (Z : 'M[C]_N) : (forall x : 'rV[C]_m.+2, point_on V ps x -> s x *m Z = 0) -> Z = 0.
  move=> H; apply/matrixP => a b; rewrite [RHS]mxE; have : col b Z = 0.
    apply: colv => x /H/rowP/(_ b); rewrite [LHS]mxE [RHS]mxE => Hz; apply/matrixP => i j; rewrite !ord1 [LHS]mxE [RHS]mxE -[RHS]Hz.
    by apply: eq_bigr => c _; rewrite [col b Z _ _]mxE.
  by move/colP/(_ a); rewrite !mxE.
move=> H; apply/eqP; rewrite -subr_eq0; apply/eqP; apply: mat => x xi.
have : adjm (s x *m (X - Y)) = 0.
  apply: colv => y yi; apply: (can_inj (@adjmK _ _ _)); rewrite adjm_mul adjmK mulmxBr mulmxBl.
  have -> : s x *m X *m adjm (s y) = s x *m Y *m adjm (s y) by apply/matrixP => a b; rewrite !ord1 -!kernelE H.
  by rewrite subrr; apply/matrixP => i j; rewrite !mxE conjC0.
by move/(congr1 (@adjm _ _ _)); rewrite adjmK => ->; apply/matrixP => i j; rewrite !mxE conjC0.
Qed.
End Ext.

Section Sym.
Variables (C : numClosedFieldType) (m k e : nat) (Q : {mpoly C[m.+2]}) (F B : basis) (V : variety C) (ps : seq C).
Notation NF := (size (power_matrix F)).
Notation N := (size (power_matrix B)).
Notation s x := (hom_sections B (row_seq x)).
Hypotheses (hQ : defined_by V ps Q) (Q0 : Q != 0) (HQ : Q \is e.-homog) (occ : forall i, variable_occurs Q i).
Hypotheses (hF : basis_full m.+1 k = Ok F) (hB : basis_reduced Q k = Ok B).
Hypothesis ind : independent_on V ps m B.
Variables (A : 'M[C]_m.+2) (M : 'M[C]_N).
Hypotheses (uA : A \in unitmx) (QA : forall x, peval Q (x *m A) = peval Q x).
Hypotheses (hM : hermitian M) (pM : posdef M) (iM : kernel_invariant V ps A M).

Lemma sym_full : exists (R h : 'M[C]_NF) (T : 'M[C]_(N, NF)) (q : 'I_NF -> {mpoly C[m.+2]}),
  [/\ R \in unitmx /\ lin_sections A R, hermitian h /\ posdef h,
    forall t : 'I_NF, mono C m.+1 (nth [::] (power_matrix F) t) =
     q t * Q + \sum_(s : 'I_N) T s t *: mono C m.+1 (nth [::] (power_matrix B) s),
    T *m h *m adjm T = M & T *m (R *m h *m adjm R) *m adjm T = M].
Proof.
have [T [q [HT inj]]] := red_matrix Q0 HQ occ hF hB.
have [h [hh ph E]] := induced_from inj hM pM.
have [R [uR AR _]] := lin_unit hF uA.
exists R, h, T, q; split=> //.
have red (x : 'rV[C]_m.+2) : peval Q x = 0 -> hom_sections F (row_seq x) = s x *m T.
  move=> z; apply/rowP => t; rewrite hsE HT /peval mevalD mevalM [Q.@[_]]z mulr0 add0r raddf_sum mxE.
  by apply: eq_bigr => b _; rewrite /= mevalZ mulrC hsE.
have TR (x : 'rV[C]_m.+2) : peval Q x = 0 -> s x *m T *m R = s (x *m A) *m T.
  by move=> x0; rewrite -red // -AR red // QA.
apply: (ind_ext ind) => x y px py; rewrite -[RHS](iM px py) !kernelE -E.
move/(point_onE hQ): px => [_ x0]; move/(point_onE hQ): py => [_ y0].
have -> : s x *m (T *m (R *m h *m adjm R) *m adjm T) *m adjm (s y) = (s x *m T *m R) *m h *m adjm (s y *m T *m R).
  by rewrite !adjm_mul !mulmxA.
by rewrite !TR // adjm_mul !mulmxA.
Qed.

Variables (i j : 'I_m.+2) (d d' : 'I_m.+1) (z w : 'rV[C]_m.+1) (T0 : 'M[C]_m.+1).
Hypotheses (nz : lin_hom A i z 0 j != 0) (cc : lin_change A i j z w T0).
Hypotheses (Qz : peval (dehom i Q) z = 0) (gd : peval ((dehom i Q)^`M(d)) z != 0) (gd' : peval ((dehom j Q)^`M(d')) w != 0).
Hypothesis k0 : (0 < k)%N.

Lemma sym_on : peval (dehom j Q) w = 0.
Proof.
move: nz cc; rewrite lin_homE => nz' /(lin_changeE nz')[-> _].
have := dehom_lin (i := i) (j := j) HQ (fun u => esym (QA u)) nz'; rewrite Qz => /esym/eqP.
by rewrite mulf_eq0 expf_eq0 (negbTE nz') andbF /= => /eqP.
Qed.

Lemma sym_metric pi : 0 < pi -> exists g1 g2 J1 J2 S e1 e2,
  [/\ ob_g_loc pi (on_patch k M Q i d z) = Ok g1 /\ ob_g_loc pi (on_patch k M Q j d' w) = Ok g2,
     ob_jac (on_patch k M Q i d z) = Ok J1 /\ ob_jac (on_patch k M Q j d' w) = Ok J2,
     [/\ S \in unitmx, J1 *m T0 = S *m J2 & g1 = S *m g2 *m adjm S],
     ob_eta pi (on_patch k M Q i d z) = Ok e1 /\ ob_eta pi (on_patch k M Q j d' w) = Ok e2 &
     e = m.+2 -> e1 = `|\det A| ^+ 2 * e2].
Proof.
move=> pi0; have [R [h [T [q [[uR AR] [hh ph] HT E1 E2]]]]] := sym_full.
have hC : basis_class C m.+1 k F by left.
have pp : 0 < ob_psi (on_patch k (R *m h *m adjm R) Q i d z).
  by have [p0 _ _] := full_positive i hF k0 (hermitian_congr R hh) (posdef_congr_unit uR ph) pi0 (dehom i Q) d z.
have PP u : peval Q u = peval Q (u *m A) by rewrite QA.
have [g1 [g2 [J1 [J2 [S [[G1 G2 j1 j2] [uS SJ gS]]]]]]] := gloc_lin hC AR pi hh uA HQ PP nz cc Qz gd gd' pp.
have [e1 [e2 [w1 [w2 [[H1 H2 _ _] [_ ee _ _ _]]]]]] := measures_lin hC AR hh pi0 HQ PP nz cc Qz gd gd' pp None.
exists g1, g2, J1, J2, S, e1, e2; split=> //.
- by rewrite -{1}E2 -E1 -(g_red k HT) // -(g_red k HT) //; exact: sym_on.
- by rewrite -{1}E2 -E1 -(eta_red k HT) // -(eta_red k HT) //; exact: sym_on.
Qed.
End Sym.
