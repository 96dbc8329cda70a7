(** Symmetries of the coordinates: weights and sections at the moved points. *)
From Coq Require Import ZArith Lia.
From mathcomp Require Import all_ssreflect all_algebra all_fingroup.
From mathcomp Require Import zify ssrZ ring.
From SsrMultinomials Require Import mpoly.
From Verif Require Import Base ModelUtil ModelVariety ModelBasis ModelDonaldson ModelAlg ModelPipe.
From Verif Require Import SpecGeom SpecBasis SpecSections SpecPatch SpecAlg SpecDonaldson SpecPipe SpecStep SpecSymmetry Herm.
From Verif Require Import Deriv Bridge PolyGrad ProofPatch ProofAlg ProofAlg2 ProofAlg6 ProofPipe ProofPipe2 ProofPipe3 ProofStep ProofStep2 ProofDonaldson2 ProofSymmetry.
Delimit Scope Z_scope with Z.

Set Implicit Arguments.
Unset Strict Implicit.
Unset Printing Implicit Defensive.

Import GRing.Theory Num.Theory Order.POrderTheory.
Local Open Scope ring_scope.

Section Move.
Variables (C : numClosedFieldType) (m e : nat) (Q : {mpoly C[m.+2]}).
Hypothesis HQ : Q \is e.-homog.
Variables (l : 'I_m.+2 -> C) (s : {perm 'I_m.+2}).
Hypothesis l1 : forall j, `|l j| = 1.
Variable c0 : C.
Hypotheses (c01 : `|c0| = 1) (Ql : forall x, peval Q (move l s x) = c0 * peval Q x).

Lemma moved_Q c x : peval Q (c *: move l s x) = c ^+ e * c0 * peval Q x.
Proof. by rewrite -mulrA -Ql /peval -hom_scale //; apply: meval_eq => i; rewrite mxE. Qed.

Lemma moved_grad c x j : c * l j * peval (Q^`M(j)) (c *: move l s x) = c ^+ e * c0 * peval (Q^`M(s j)) x.
Proof.
have J : is_jac (fun y => c *: move l s y) x (\matrix_(a, k) (c * l k * (a == s k)%:R)).
  move=> k; apply: (@is_grad_ext _ _ (fun y : 'rV[C]_m.+2 => (c * l k) * y 0 (s k))).
    by move=> y; rewrite !mxE mulrA.
  apply: is_grad_eq (is_grad_scale (c * l k) (is_grad_coord (s k) x)).
  by apply/rowP => a; rewrite !mxE eqxx.
have G1 := is_grad_comp J (poly_grad Q (c *: move l s x)).
have G2 := is_grad_scale (c ^+ e * c0) (poly_grad Q x).
have := is_grad_unique G1 (is_grad_ext (fun y => esym (moved_Q c y)) G2).
move=> /rowP/(_ (s j)); rewrite !mxE => <-.
rewrite (bigD1 j) //= !mxE eqxx mulr1 big1 ?addr0 // => k kj.
by rewrite !mxE (inj_eq perm_inj) eq_sym (negbTE kj) mulr0 mul0r.
Qed.

Lemma moved_grad2 c x : `|c| ^+ 2 * grad2 Q (c *: move l s x) = (`|c| ^+ 2) ^+ e * grad2 Q x.
Proof.
rewrite /grad2 [in RHS](reindex_inj (@perm_inj _ s)) /= !mulr_sumr; apply: eq_bigr => j _.
have := congr1 (fun y => `|y| ^+ 2) (moved_grad c x j).
by rewrite /= !normrM l1 c01 !mulr1 !exprMn normrX => ->; rewrite -expr2 ?normrX.
Qed.

Lemma moved_len2 c x : len2 (c *: move l s x) = `|c| ^+ 2 * len2 x.
Proof.
rewrite /len2 [in RHS](reindex_inj (@perm_inj _ s)) /= mulr_sumr; apply: eq_bigr => j _.
by rewrite !mxE !normrM l1 mul1r exprMn.
Qed.

Lemma moved_weight pi c x w : c != 0 -> has_weight pi e Q (row_seq x) w ->
  has_weight pi e Q (row_seq (c *: move l s x)) w.
Proof.
move=> c0' [x' [i [xx le xi ->]]]; have {xx} xE : x = x' by apply/rowP => j; rewrite -!nth_row_seq xx.
subst x'; have n j : `|(c *: move l s x) 0 j| = `|c| * `|x 0 (s j)| by rewrite !mxE !normrM l1 mul1r.
have nc : `|c| != 0 by rewrite normr_eq0.
exists (c *: move l s x), ((s^-1)%g i); split=> //.
- by move=> j; rewrite !n permKV ler_wpmul2l.
- by rewrite -normr_eq0 n permKV mulf_neq0 // normr_eq0.
have t0 : `|c| ^+ 2 != 0 by rewrite expf_neq0.
have -> : patch_weight e Q (pi ^+ m / m`!%:R) (c *: move l s x) ((s^-1)%g i) =
  pi ^+ m / m`!%:R * ((`|c| ^+ 2) ^+ m.+2 * len2 x ^+ m.+1 / (`|c| ^+ 2 * grad2 Q (c *: move l s x))) *
  ((`|c| ^+ 2) ^+ e * `|x 0 i| ^+ (2 * e) / ((`|c| ^+ 2) ^+ m.+2 * `|x 0 i| ^+ (2 * m.+2))).
  have P k : (`|c| * `|x 0 i|) ^+ (2 * k) = (`|c| ^+ 2) ^+ k * `|x 0 i| ^+ (2 * k) by rewrite exprMn exprM.
  rewrite /patch_weight n permKV moved_len2 !P; move: (`|c| ^+ 2) t0 => t t0; congr (_ * _ * _).
  rewrite exprMn [t ^+ m.+2]exprS invfM; move: (t ^+ m.+1) (len2 x ^+ m.+1) (grad2 Q _)^-1 => p q r.
  by field.
rewrite moved_grad2 /patch_weight; move: (grad2 Q x) (`|x 0 i| ^+ (2 * e)) (`|x 0 i| ^+ (2 * m.+2)) => g p q.
have te : (`|c| ^+ 2) ^+ e != 0 by rewrite expf_neq0.
have tm : (`|c| ^+ 2) ^+ m.+2 != 0 by rewrite expf_neq0.
move: (pi ^+ m / m`!%:R) (len2 x ^+ m.+1) te tm; move: ((`|c| ^+ 2) ^+ e) ((`|c| ^+ 2) ^+ m.+2) => u v y z u0 v0.
rewrite !invfM; move: g^-1 q^-1 => g' q'; by field; rewrite u0 v0.
Qed.

Variables (k : nat) (B : basis) (sg : {perm 'I_(size (power_matrix B))}).
Hypothesis hC : basis_class C m.+1 k B.
Hypothesis Hsg : permutes_basis s sg.
Notation chi := (@chi C m.+2 l B).

Definition act : 'M[C]_(size (power_matrix B)) := \matrix_(b, a) ((b == sg a)%:R * chi a).

Lemma hsE x a : hom_sections B (row_seq x) 0 a = peval (mono C m.+1 (nth [::] (power_matrix B) a)) x.
Proof.
rewrite mxE size_row_seq /mono /peval mevalX; apply: eq_bigr => j _.
by rewrite mnmE nth_row_seq.
Qed.

Lemma moved_sections c x : hom_sections B (row_seq (c *: move l s x)) = c ^+ k *: (hom_sections B (row_seq x) *m act).
Proof.
apply/rowP => a; rewrite hsE [RHS]mxE mxE (bigD1 (sg a)) //= big1 ?addr0; last first.
  by move=> b ba; rewrite [act _ _]mxE (negbTE ba) mul0r mulr0.
rewrite [act _ _]mxE eqxx mul1r.
have -> : peval (mono C m.+1 (nth [::] (power_matrix B) a)) (c *: move l s x) =
    c ^+ k * peval (mono C m.+1 (nth [::] (power_matrix B) a)) (move l s x).
  by rewrite /peval -(hom_scale _ _ (class_homog hC a)); apply: meval_eq => i; rewrite mxE.
congr (_ * _); rewrite hsE /mono /peval !mevalX mulrC.
rewrite [X in _ = _ * X](reindex_inj (@perm_inj _ s)) /= -big_split /=; apply: eq_bigr => j _.
by rewrite !mnmE !mxE exprMn Hsg.
Qed.

Lemma chi1 a : `|chi a| = 1.
Proof. by rewrite /SpecSymmetry.chi normr_prod big1 // => j _; rewrite normrX l1 expr1n. Qed.

Lemma act_perm : act = (perm_mx sg)^T *m diag_mx (\row_a chi a).
Proof. by apply/matrixP => b a; rewrite mul_mx_diag !mxE eq_sym. Qed.

Lemma act_unit : act \in unitmx.
Proof.
rewrite act_perm unitmx_mul unitmx_tr unitmx_perm unitmxE det_diag unitfE prodf_seq_neq0.
by apply/allP => a _; rewrite mxE -normr_eq0 chi1 oner_eq0.
Qed.

Lemma act_det : `|\det act| = 1.
Proof.
rewrite act_perm det_mulmx det_tr det_perm det_diag normrM normr_sign mul1r normr_prod big1 // => a _.
by rewrite mxE chi1.
Qed.

Lemma act_invariant h : invariant act h <-> h_symmetric l sg h.
Proof.
have E a b : (act *m h *m adjm act) (sg a) (sg b) = chi a * (chi b)^* * h a b.
  rewrite mxE (bigD1 b) //= big1 ?addr0; last first.
    by move=> c cb; rewrite adjmE [act _ _]mxE (inj_eq perm_inj) eq_sym (negbTE cb) mul0r cj0 mulr0.
  rewrite adjmE [act _ _]mxE eqxx mul1r mxE (bigD1 a) //= big1 ?addr0; last first.
    by move=> c ca; rewrite [act _ _]mxE (inj_eq perm_inj) eq_sym (negbTE ca) !mul0r.
  by rewrite [act _ _]mxE eqxx mul1r mulrAC.
split=> [H a b|H]; first by rewrite -E H.
apply/matrixP => a b; rewrite -(permKV sg a) -(permKV sg b).
by rewrite E H.
Qed.
End Move.
