(** Metrics with a symmetry of the coordinates: the objects at moved points. *)
From Coq Require Import ZArith Lia.
From mathcomp Require Import all_ssreflect all_algebra all_fingroup.
From mathcomp Require Import zify ssrZ ring.
From SsrMultinomials Require Import mpoly.
From Verif Require Import Base ModelUtil ModelVariety ModelBasis ModelGeom ModelDonaldson ModelAlg.
From Verif Require Import SpecGeom SpecBasis SpecSections SpecPatch SpecAlg SpecDonaldson SpecPipe SpecStep SpecSymmetry Herm.
From Verif Require Import Deriv Bridge PolyGrad ProofGeom4 ProofFS ProofSections ProofPatch ProofAlg ProofAlg2 ProofAlg4 ProofAlg6 ProofRicci2 ProofDonaldson2 ProofSymmetry ProofSymmetry2.
Delimit Scope Z_scope with Z.

Set Implicit Arguments.
Unset Strict Implicit.
Unset Printing Implicit Defensive.

Import GRing.Theory Num.Theory Order.POrderTheory.
Local Open Scope ring_scope.

Section Chart.
Variables (C : numClosedFieldType) (m : nat) (l : 'I_m.+2 -> C) (s : {perm 'I_m.+2}).
Hypothesis l1 : forall j, `|l j| = 1.
Variable j : 'I_m.+2.
Notation i := (s j).
Implicit Types z : 'rV[C]_m.+1.

Lemma l0 a : l a != 0.
Proof. by rewrite -normr_eq0 l1 oner_eq0. Qed.

(** The moved point, from the patch s j to the patch j *)
Definition mv z : 'rV[C]_m.+1 := \row_b (l (lift j b) / l j * homr i z 0 (s (lift j b))).
Definition mvT : 'M[C]_m.+1 := \matrix_(a, b) (l (lift j b) / l j * (lift i a == s (lift j b))%:R).

Lemma homr_mv z : homr j (mv z) = (l j)^-1 *: move l s (homr i z).
Proof.
apply/rowP => a; rewrite [RHS]mxE mxE; case: (unliftP j a) => [b ->|->]; first by rewrite homr_lift mxE mulrA [_^-1 * _]mulrC.
by rewrite !homr_patch mulr1 mulVf // l0.
Qed.

Lemma mv_jac z : is_jac mv z mvT.
Proof.
move=> b; apply: (@is_grad_ext _ _ (fun y => l (lift j b) / l j * homr i y 0 (s (lift j b)))).
  by move=> y; rewrite mxE.
apply: is_grad_eq (is_grad_scale _ (is_grad_homr i z (s (lift j b)))).
by apply/rowP => a; rewrite !mxE.
Qed.

Lemma mvT_unitary : mvT *m adjm mvT = 1%:M.
Proof.
apply/matrixP => a a'; rewrite mxE [RHS]mxE.
have [b Eb] : exists b, lift i a = s (lift j b).
  have : (s^-1)%g (lift i a) != j by rewrite -(inj_eq (@perm_inj _ s)) permKV eq_sym neq_lift.
  by rewrite eq_sym => /unlift_some[b Eb _]; exists b; rewrite -Eb permKV.
rewrite (bigD1 b) //= big1 ?addr0 => [|b' bb]; last first.
  by rewrite mxE Eb (inj_eq perm_inj) (inj_eq lift_inj) eq_sym (negbTE bb) mulr0 mul0r.
rewrite adjmE !mxE Eb eqxx mulr1 -Eb (inj_eq lift_inj) cjM conjC_nat mulrA -normCK normrM normfV !l1 invr1 mulr1 expr1n mul1r.
by rewrite eq_sym.
Qed.

Lemma mvT_det : `|\det mvT| ^+ 2 = 1.
Proof. by have := congr1 (fun A => \det A) mvT_unitary; rewrite det_mulmx det_adjm det1 -normCK. Qed.

Lemma affr_mv c (x : 'rV[C]_m.+2) : c != 0 -> x 0 i != 0 -> affr j (c *: move l s x) = mv (affr i x).
Proof.
move=> c0 xi; apply/rowP => b; rewrite !mxE homr_aff //; field.
by rewrite xi l0 c0.
Qed.

Section Poly.
Variables (P P' : {mpoly C[m.+2]}) (e : nat) (c0 : C).
Hypothesis HP : P \is e.-homog.
Hypothesis Pl : forall x, peval P (move l s x) = c0 * peval P' x.

Lemma dehom_mv z : peval (dehom j P) (mv z) = (l j)^-1 ^+ e * c0 * peval (dehom i P') z.
Proof.
rewrite !dehom_eval -mulrA -[X in _ = _ * (_ * X)]/(peval P' (homr i z)) -Pl /peval -hom_scale //.
by apply: meval_eq => a; rewrite homr_mv mxE.
Qed.

Lemma pgrad_mv z : pgrad (dehom j P) (mv z) *m mvT^T = ((l j)^-1 ^+ e * c0) *: pgrad (dehom i P') z.
Proof.
have G1 := is_grad_comp (mv_jac z) (poly_grad (dehom j P) (mv z)).
have G2 := is_grad_scale ((l j)^-1 ^+ e * c0) (poly_grad (dehom i P') z).
rewrite -(is_grad_unique G1 (is_grad_ext (fun y => esym (dehom_mv y)) G2)).
by apply/rowP => a; rewrite !mxE; apply: eq_bigr => b _; rewrite !mxE mulrC.
Qed.
End Poly.
End Chart.

Section Metric.
Variables (C : numClosedFieldType) (m e k : nat) (Q : {mpoly C[m.+2]}).
Hypothesis HQ : Q \is e.-homog.
Variables (l : 'I_m.+2 -> C) (s : {perm 'I_m.+2}).
Hypothesis l1 : forall j, `|l j| = 1.
Variable c0 : C.
Hypotheses (c01 : `|c0| = 1) (Ql : forall x, peval Q (move l s x) = c0 * peval Q x).
Variables (B : basis) (sg : {perm 'I_(size (power_matrix B))}).
Hypothesis hC : basis_class C m.+1 k B.
Hypothesis Hsg : permutes_basis s sg.
Variables (M : 'M[C]_(size (power_matrix B))) (pi : C).
Hypotheses (HM : hermitian M) (Ms : h_symmetric l sg M).
Variable j : 'I_m.+2.
Notation i := (s j).
Notation mv := (mv l s j).
Notation T := (mvT l s j).
Notation act := (act l sg).
Let o := on_patch k M Q.
Let la := (l j)^-1 ^+ k.

Lemma mono_move (a : 'I_(size (power_matrix B))) x : peval (mono C m.+1 (nth [::] (power_matrix B) a)) (move l s x) =
  chi l a * peval (mono C m.+1 (nth [::] (power_matrix B) (sg a))) x.
Proof.
have := moved_sections l hC Hsg 1 x; rewrite scale1r expr1n scale1r => /rowP/(_ a).
rewrite hsE mxE (bigD1 (sg a)) //= big1 ?addr0 => [|b ba]; last by rewrite [act _ _]mxE (negbTE ba) mul0r mulr0.
by rewrite [act _ _]mxE eqxx mul1r hsE mulrC.
Qed.

Lemma s_mv d d' z : \row_a o_s (o j d' (mv z)) a = la *: ((\row_a o_s (o i d z) a) *m act).
Proof.
apply/rowP => a; rewrite mxE /= /section_polys (dehom_mv l1 j (class_homog hC a) (mono_move a)).
rewrite [RHS]mxE mxE (bigD1 (sg a)) //= big1 ?addr0 => [|b ba]; last by rewrite [act _ _]mxE (negbTE ba) mul0r mulr0.
by rewrite [act _ _]mxE eqxx mul1r mxE /= -mulrA [chi _ _ * _]mulrC.
Qed.

Lemma s1_mv d d' z : T *m (\matrix_(b, a) o_s1 (o j d' (mv z)) a b) = la *: ((\matrix_(b, a) o_s1 (o i d z) a b) *m act).
Proof.
apply/matrixP => b a; rewrite [RHS]mxE [(_ *m act) _ _]mxE (bigD1 (sg a)) //= big1 ?addr0 => [|b' ba]; last first.
  by rewrite [act _ _]mxE (negbTE ba) mul0r mulr0.
rewrite [act _ _]mxE eqxx mul1r [X in _ = _ * (X * _)]mxE /=.
have /rowP/(_ b) := pgrad_mv l1 j (class_homog hC a) (mono_move a) z.
rewrite [RHS]mxE [X in _ = _ * X]mxE -mulrA [chi _ _ * _]mulrC => <-.
by rewrite !mxE; apply: eq_bigr => c _; rewrite !mxE mulrC.
Qed.

Let Eact : act *m M *m adjm act = M.
Proof. by apply/(act_invariant l sg). Qed.

Let nla : `|la| = 1. Proof. by rewrite normrX normfV l1 invr1 expr1n. Qed.
Let la0 : la != 0. Proof. by rewrite -normr_eq0 nla oner_eq0. Qed.

Lemma psi_mv d d' z : ob_psi (o j d' (mv z)) = ob_psi (o i d z).
Proof.
rewrite !(@psiE _ _ _ _ M) // (s_mv d d') !hformE adjm_scale -!scalemxAl -scalemxAr scalerA -normCK nla expr1n scale1r.
by rewrite adjm_mul -[in RHS]Eact !mulmxA.
Qed.

Lemma gpm_mv d d' z : ob_psi (o i d z) != 0 -> gpm pi (o i d z) = T *m gpm pi (o j d' (mv z)) *m adjm T.
Proof.
move=> p0; rewrite (@gpmE _ _ _ pi (o i d z) M) // (@gpmE _ _ _ pi (o j d' (mv z)) M) //.
rewrite -scalemxAr -scalemxAl; congr (_ *: _).
rewrite (psi_mv d d').
have S0 := s_mv d d' z; have S1 := s1_mv d d' z.
move: (\row_a o_s (o j d' (mv z)) a) (\matrix_(b, a) o_s1 (o j d' (mv z)) a b) S0 S1 => s' S' S0 S1.
move: (\row_a o_s (o i d z) a) (\matrix_(b, a) o_s1 (o i d z) a b) S0 S1 => s0 S0' S0 S1.
have E1 : S0' *m act = la^-1 *: (T *m S') by rewrite S1 scalerA mulVf // scale1r.
have E0 : s0 *m act = la^-1 *: s' by rewrite S0 scalerA mulVf // scale1r.
have K p q (X : 'M_(p, _)) (Y : 'M_(q, _)) : X *m M *m adjm Y = (X *m act) *m M *m adjm (Y *m act).
  by rewrite adjm_mul -{1}Eact !mulmxA.
have nl : la^-1 * (la^-1)^* = 1 by rewrite -normCK normfV nla invr1 expr1n.
have K' p q (X : 'M_(p, _)) (Y : 'M_(q, _)) : (la^-1 *: X) *m M *m adjm (la^-1 *: Y) = X *m M *m adjm Y.
  by rewrite adjm_scale -!scalemxAl -scalemxAr scalerA nl scale1r.
rewrite (K _ _ S0' S0') (K _ _ S0' s0) (K _ _ s0 S0') E1 E0 !K' mulmxBr mulmxBl -!scalemxAr -!scalemxAl !adjm_mul !mulmxA.
by [].
Qed.

Lemma AA_mv d d' z : ob_psi (o i d z) != 0 ->
  AA (gpm pi (o i d z)) (pgrad (dehom i Q) z) = AA (gpm pi (o j d' (mv z))) (pgrad (dehom j Q) (mv z)).
Proof.
move=> p0; have E := pgrad_mv l1 j HQ Ql z.
have n1 : `|(l j)^-1 ^+ e * c0| = 1 by rewrite normrM normrX normfV l1 c01 invr1 expr1n mulr1.
rewrite -[LHS]mul1r -(expr1n _ 2) -n1 -AA_scale -E (gpm_mv d' p0) AA_congr mvT_det ?mul1r //.
Qed.
End Metric.
