(** The values of the potential determine H. *)
From Coq Require Import ZArith Lia.
From mathcomp Require Import all_ssreflect all_algebra.
From mathcomp Require Import zify ssrZ ring.
From SsrMultinomials Require Import mpoly.
From Verif Require Import Base ModelUtil ModelProjective SpecMon ModelBasis ModelGeom ProofUtil Bridge Deriv Herm SpecGeom SpecBasis SpecSections
  SpecPatch SpecPipe PolyGrad ProofBasis2 ProofBasis3 ProofSections ProofPatch ProofSymmetry2 SpecLinear ProofLinear3 Herm3 Implicit2 ProofAlg2.
Delimit Scope Z_scope with Z.

Set Implicit Arguments.
Unset Strict Implicit.
Unset Printing Implicit Defensive.

Import GRing.Theory Num.Theory Order.POrderTheory.
Local Open Scope ring_scope.

(** A polynomial along a line *)
Lemma line_eval (C : numClosedFieldType) n (P : {mpoly C[n]}) (u v : 'rV[C]_n) :
  exists p : {poly C}, forall t, p.[t] = peval P (u + t *: v).
Proof.
elim/mpoly_ring_ind: P => [c|i|P Q [p Hp] [q Hq]|P Q [p Hp] [q Hq]].
- by exists c%:P => t; rewrite hornerC /peval mevalC.
- by exists ((u 0 i)%:P + (v 0 i) *: 'X) => t; rewrite !hornerE /peval mevalXU !mxE mulrC.
- by exists (p + q) => t; rewrite hornerD Hp Hq /peval mevalD.
by exists (p * q) => t; rewrite hornerM Hp Hq /peval mevalM.
Qed.

Lemma real_roots (C : numClosedFieldType) (p : {poly C}) : (forall n : nat, p.[n.+1%:R] = 0) -> p = 0.
Proof.
move=> H; apply/eqP; apply: contraT => p0.
pose s := [seq (i.+1%:R : C) | i <- iota 0 (size p)].
have : (size s < size p)%N.
  apply: max_poly_roots => //; first by apply/allP => _ /mapP[i _ ->]; apply/rootP.
  by rewrite map_inj_uniq ?iota_uniq // => a b /eqP; rewrite eqr_nat eqSS => /eqP.
by rewrite size_map size_iota ltnn.
Qed.

Section Form.
Variables (C : numClosedFieldType) (m k : nat) (B : basis).
Hypothesis EB : basis_full m.+1 k = Ok B.
Notation N := (size (power_matrix B)).
Notation s x := (hom_sections B (row_seq x) : 'rV[C]_N).

Lemma s_conj (x : 'rV[C]_m.+2) a : (s x 0 a)^* = s (conj_rv x) 0 a.
Proof.
rewrite !hsE /peval /mono !mevalX rmorph_prod; apply: eq_bigr => j _; by rewrite rmorphX mxE.
Qed.

(** A form which vanishes on the diagonal *)
Lemma form_polar (X : 'M[C]_N) : (forall x : 'rV[C]_m.+2, s x *m X *m adjm (s x) = 0) ->
  forall x y : 'rV[C]_m.+2, s x *m X *m adjm (s y) = 0.
Proof.
move=> H x y; pose u0 : 'rV[C]_m.+2 := 2%:R^-1 *: (x + y); pose u1 : 'rV[C]_m.+2 := (2%:R * 'i)^-1 *: (x - y).
have [p Hp] := fin_all_exists (fun a : 'I_N => line_eval (mono C m.+1 (nth [::] (power_matrix B) a)) u0 u1).
have [q Hq] := fin_all_exists (fun a : 'I_N => line_eval (mono C m.+1 (nth [::] (power_matrix B) a)) (conj_rv u0) (conj_rv u1)).
pose f : {poly C} := \sum_b (\sum_a p a * (X a b)%:P) * q b.
have Ef t : f.[t] = \sum_b (\sum_a s (u0 + t *: u1) 0 a * X a b) * s (conj_rv u0 + t *: conj_rv u1) 0 b.
  rewrite /f horner_sum; apply: eq_bigr => b _; rewrite hornerM horner_sum Hq -hsE; congr (_ * _).
  by apply: eq_bigr => a _; rewrite hornerM hornerC Hp -hsE.
have f0 : f = 0.
  apply: real_roots => n; rewrite Ef.
  have -> : conj_rv u0 + n.+1%:R *: conj_rv u1 = conj_rv (u0 + n.+1%:R *: u1).
    by apply/rowP => j; rewrite !mxE rmorphD rmorphM /= conjC_nat.
  have := H (u0 + n.+1%:R *: u1) => /matrixP/(_ 0 0); rewrite mxE [RHS]mxE => E; apply: etrans E.
  by apply: eq_bigr => b _; rewrite adjmE s_conj [in RHS]mxE.
have := congr1 (fun g : {poly C} => g.['i]) f0; rewrite Ef horner0 => E.
have i2 : 'i * 'i = -1 :> C by rewrite -expr2 sqrCi.
have i0 : ('i : C) != 0 by rewrite neq0Ci.
have n2 : (2%:R : C) != 0 by rewrite pnatr_eq0.
have Ex : u0 + 'i *: u1 = x by apply/rowP => j; rewrite !mxE; field; rewrite i0.
have Ey : conj_rv u0 + 'i *: conj_rv u1 = conj_rv y.
  have c2 : (2%:R^-1 : C)^* = 2%:R^-1 by rewrite fmorphV conjC_nat.
  have ci : ((2%:R * 'i)^-1 : C)^* = (2%:R * - 'i)^-1 by rewrite fmorphV rmorphM /= conjC_nat conjCi.
  apply/rowP => j; rewrite !mxE !(rmorphM conjC) (rmorphB conjC) (rmorphD conjC) /= c2 ci.
  by move: ((x 0 j)^*) ((y 0 j)^*) => a b; field; rewrite i0.
apply/matrixP => a b; rewrite !ord1 [RHS]mxE; apply: etrans E; rewrite Ex Ey mxE.
by apply: eq_bigr => c _; rewrite adjmE s_conj [in LHS]mxE.
Qed.

Lemma form_zero (X : 'M[C]_N) : (forall x y : 'rV[C]_m.+2, s x *m X *m adjm (s y) = 0) -> X = 0.
Proof.
move=> H.
have K (y : 'rV[C]_m.+2) : X *m adjm (s y) = 0.
  have : X *m adjm (s y) *m (const_mx 1 : 'rV[C]_N) = 0.
    by apply: (hom_free EB) => x; rewrite !mulmxA H mul0mx mulmx0.
  move=> /matrixP E; apply/matrixP => a b; have := E a a.
  by rewrite mxE big_ord1 !mxE mulr1 !ord1.
have : adjm X = 0.
  by apply: (hom_free EB) => y; rewrite mulmx0 -[s y]adjmK -adjm_mul K adjm0.
by move=> E; rewrite -[X]adjmK E adjm0.
Qed.

Lemma form_unique (M M' : 'M[C]_N) : (forall x : 'rV[C]_m.+2, s x *m M *m adjm (s x) = s x *m M' *m adjm (s x)) -> M = M'.
Proof.
move=> H; apply/eqP; rewrite -subr_eq0; apply/eqP; apply: form_zero; apply: form_polar => x.
by rewrite mulmxBr mulmxBl H subrr.
Qed.

(** One patch is enough. *)
Lemma s_scale c (x : 'rV[C]_m.+2) : s (c *: x) = c ^+ k *: s x.
Proof.
have hC : basis_class C m.+1 k B by left.
apply/rowP => a; rewrite hsE [RHS]mxE hsE /peval -(ProofPatch.hom_scale _ _ (class_homog hC a)).
by apply: meval_eq => j; rewrite mxE.
Qed.

Lemma form_patch (p : 'I_m.+2) (X : 'M[C]_N) : (forall z : 'rV[C]_m.+1, s (homr p z) *m X *m adjm (s (homr p z)) = 0) ->
  forall x : 'rV[C]_m.+2, s x *m X *m adjm (s x) = 0.
Proof.
move=> H x.
have nz (y : 'rV[C]_m.+2) : y 0 p != 0 -> s y *m X *m adjm (s y) = 0.
  move=> y0; have -> : y = y 0 p *: homr p (affr p y).
    by apply/rowP => j; rewrite mxE homr_aff // mulrC divfK.
  by rewrite s_scale adjm_scale -scalemxAr -!scalemxAl H !scaler0.
have [|x0] := eqVneq (x 0 p) 0; last exact: nz.
move=> x0; pose e : 'rV[C]_m.+2 := delta_mx 0 p.
have [u Hu] := fin_all_exists (fun a : 'I_N => line_eval (mono C m.+1 (nth [::] (power_matrix B) a)) x e).
have [v Hv] := fin_all_exists (fun a : 'I_N => line_eval (mono C m.+1 (nth [::] (power_matrix B) a)) (conj_rv x) e).
pose f : {poly C} := \sum_b (\sum_a u a * (X a b)%:P) * v b.
have Ef t : f.[t] = \sum_b (\sum_a s (x + t *: e) 0 a * X a b) * s (conj_rv x + t *: e) 0 b.
  rewrite /f horner_sum; apply: eq_bigr => b _; rewrite hornerM horner_sum Hv -hsE; congr (_ * _).
  by apply: eq_bigr => a _; rewrite hornerM hornerC Hu -hsE.
have f0 : f = 0.
  apply: real_roots => n; rewrite Ef.
  have -> : conj_rv x + n.+1%:R *: e = conj_rv (x + n.+1%:R *: e).
    by apply/rowP => j; rewrite !mxE rmorphD rmorphM /= !conjC_nat.
  have /nz/matrixP/(_ 0 0) : (x + n.+1%:R *: e) 0 p != 0 by rewrite !mxE !eqxx x0 add0r mulr1 pnatr_eq0.
  rewrite mxE [RHS]mxE => E; apply: etrans E.
  by apply: eq_bigr => b _; rewrite adjmE s_conj [in RHS]mxE.
have := congr1 (fun g : {poly C} => g.[0]) f0; rewrite Ef horner0 !scale0r !addr0 => E.
apply/matrixP => a b; rewrite !ord1 [RHS]mxE; apply: etrans E; rewrite mxE.
by apply: eq_bigr => c _; rewrite adjmE s_conj [in LHS]mxE.
Qed.

Lemma patch_unique (p : 'I_m.+2) (M M' : 'M[C]_N) :
  (forall z : 'rV[C]_m.+1, s (homr p z) *m M *m adjm (s (homr p z)) = s (homr p z) *m M' *m adjm (s (homr p z))) -> M = M'.
Proof.
move=> H; apply: form_unique => x; apply/eqP; rewrite -subr_eq0 -mulmxBl -mulmxBr; apply/eqP.
by apply: (form_patch (p := p)) => z; rewrite mulmxBr mulmxBl H subrr.
Qed.
End Form.
