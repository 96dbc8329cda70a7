(** Moved points: the statements of PropsSymmetry2, and the Dwork family. *)
From Coq Require Import ZArith Lia Reals.
From mathcomp Require Import all_ssreflect all_algebra all_fingroup.
From mathcomp Require Import zify ssrZ ring.
From mathcomp Require Import complex.
From SsrMultinomials Require Import mpoly.
From Verif Require Import Base ModelUtil ModelProjective ModelExpr ModelPoly ModelHom ModelVariety ModelBasis ModelGeom ModelDonaldson ModelAlg.
From Verif Require Import SpecGeom SpecBasis SpecSections SpecPatch SpecAlg SpecDonaldson SpecPipe SpecStep SpecSymmetry Herm Herm2.
From Verif Require Import Deriv Bridge PolyGrad RealField ComplexR ProofBasis3 ProofSections ProofPatch ProofAlg ProofAlg2 ProofAlg3 ProofAlg4 ProofAlg6 ProofSymmetry ProofSymmetry2 ProofSymmetry3 ProofSymmetry5 ProofSymmetry6 ProofSymmetry7.
Delimit Scope Z_scope with Z.
Delimit Scope R_scope with RR.

Set Implicit Arguments.
Unset Strict Implicit.
Unset Printing Implicit Defensive.

Import GRing.Theory Num.Theory Order.POrderTheory.
Local Open Scope ring_scope.

Lemma eta_symmetry : forall (C : numClosedFieldType)
    (D : forall n : nat, ('rV[C]_n -> C) -> 'rV[C]_n -> 'rV[C]_n), diff_ok D ->
  forall (lg ex : C -> C) (pi : C) (m e : nat) (V : variety C) (ps : seq C)
    (Q : {mpoly C[m.+2]}), hypersurface V ps m e -> defined_by V ps Q ->
  forall (k : nat) (B : basis), basis_for k Q B -> (0 < k)%N -> 0 < pi ->
  forall M : 'M[C]_(size (power_matrix B)), hermitian M -> posdef M ->
  forall (l : 'I_m.+2 -> C) (s : {perm 'I_m.+2}) (sg : {perm 'I_(size (power_matrix B))}),
  (forall j, `|l j| = 1) -> (exists2 c, `|c| = 1 & forall x, peval Q (move l s x) = c * peval Q x) -> permutes_basis s sg ->
  h_symmetric l sg M ->
  forall (x : 'rV[C]_m.+2) (i : 'I_m.+2) (d : 'I_m.+1) (a g : seq C), smooth_at D V ps x i d a g ->
  forall c : C, c != 0 -> exists E,
  alg_eta D lg ex pi m V (HMat M) (row_seq x) (PArr ps) None None None = Ok E /\
  alg_eta D lg ex pi m V (HMat M) (row_seq (c *: move l s x)) (PArr ps) None None None = Ok E.
Proof.
move=> C D hD lg ex pi m e V ps Q hV hQ k B hB k0 pi0 M HM pd l s sg l1 Ql Hsg Ms x i d a g sm c c0.
exact: (eta_moved hD lg ex hV hQ hB k0 pi0 HM pd l1 Ql Hsg Ms sm c0).
Qed.

Lemma kahler_symmetry : forall (C : numClosedFieldType)
    (D : forall n : nat, ('rV[C]_n -> C) -> 'rV[C]_n -> 'rV[C]_n), diff_ok D ->
  forall (lg ex : C -> C) (pi : C) (m e : nat) (V : variety C) (ps : seq C)
    (Q : {mpoly C[m.+2]}), hypersurface V ps m e -> defined_by V ps Q ->
  forall (k : nat) (B : basis), basis_for k Q B -> (0 < k)%N -> 0 < pi ->
  forall M : 'M[C]_(size (power_matrix B)), hermitian M -> posdef M ->
  forall (l : 'I_m.+2 -> C) (s : {perm 'I_m.+2}) (sg : {perm 'I_(size (power_matrix B))}),
  (forall j, `|l j| = 1) -> (exists2 c, `|c| = 1 & forall x, peval Q (move l s x) = c * peval Q x) -> permutes_basis s sg ->
  h_symmetric l sg M ->
  forall (x : 'rV[C]_m.+2) (i : 'I_m.+2) (d : 'I_m.+1) (a g : seq C), smooth_at D V ps x i d a g ->
  (forall u v, 0 < u -> 0 < v -> lg (u * v) = lg u + lg v) ->
  forall c : C, c != 0 -> exists K,
  alg_kahler lg ex pi m V (HMat M) (row_seq x) None = Ok K /\
  alg_kahler lg ex pi m V (HMat M) (row_seq (c *: move l s x)) None = Ok K.
Proof.
move=> C D hD lg ex pi m e V ps Q hV hQ k B hB k0 pi0 M HM pd l s sg l1 Ql Hsg Ms x i d a g sm hl c c0.
exact: (kahler_moved hD ex hV hQ hB k0 pi0 HM pd l1 Ql Hsg Ms sm c0 hl).
Qed.

Lemma ricci_symmetry : forall (D : forall n : nat, ('rV[CR]_n -> CR) -> 'rV[CR]_n -> 'rV[CR]_n), diff_ok D ->
  forall (lg ex : CR -> CR) (m e : nat) (V : variety CR) (ps : seq CR)
    (Q : {mpoly CR[m.+2]}), hypersurface V ps m e -> defined_by V ps Q ->
  forall (k : nat) (B : basis), basis_for k Q B -> (0 < k)%N ->
  forall M : 'M[CR]_(size (power_matrix B)), hermitian M -> posdef M ->
  forall (l : 'I_m.+2 -> CR) (s : {perm 'I_m.+2}) (sg : {perm 'I_(size (power_matrix B))}),
  (forall j, `|l j| = 1) -> (exists2 c, `|c| = 1 & forall x, peval Q (move l s x) = c * peval Q x) -> permutes_basis s sg ->
  h_symmetric l sg M ->
  forall (x : 'rV[CR]_m.+2) (i : 'I_m.+2) (d : 'I_m.+1) (a g : seq CR), smooth_at D V ps x i d a g ->
  forall c : CR, c != 0 ->
  let metric_of y := alg_metric D lg ex (rc PI) m V (HMat M) (row_seq y) (PArr ps) None None None in
  let ricci_of y := alg_ricci D lg ex (rc PI) m V (HMat M) (row_seq y) (PArr ps) None None None in
  let scalar_of y := alg_ricci_scalar D lg ex (rc PI) m V (HMat M) (row_seq y) (PArr ps) None None None in
  let y := c *: move l s x in
  exists i0 d0 j0 b0 G R G' R' A r,
  [/\ metric_of x = Ok (G, i0, d0), metric_of y = Ok (G', j0, b0), ricci_of x = Ok (R, i0, d0) & ricci_of y = Ok (R', j0, b0)] /\
  [/\ A \in unitmx, G = A *m G' *m adjm A, R = A *m R' *m adjm A, scalar_of x = Ok r & scalar_of y = Ok r].
Proof.
move=> D hD lg ex m e V ps Q hV hQ k B hB k0 M HM pd l s sg l1 Ql Hsg Ms x i d a g sm c c0.
exact: (ricci_moved hD lg ex hV hQ hB k0 HM pd l1 Ql Hsg Ms sm c0).
Qed.

Lemma one_symmetric (C : numClosedFieldType) n (l : 'I_n -> C) B (sg : {perm 'I_(size (power_matrix B))}) :
  (forall j, `|l j| = 1) -> h_symmetric l sg 1%:M.
Proof.
move=> l1 a b; rewrite !mxE (inj_eq perm_inj); case: eqVneq => [->|_]; last by rewrite !mulr0n mulr0.
by rewrite mulr1 -normCK /chi normr_prod big1 ?expr1n // => j _; rewrite normrX l1 expr1n.
Qed.

(** The hypersurfaces of the Dwork family, H the identity on the full basis. *)
Lemma dwork_eta_symmetry : forall (C : numClosedFieldType)
    (D : forall n : nat, ('rV[C]_n -> C) -> 'rV[C]_n -> 'rV[C]_n), diff_ok D ->
  forall (lg ex : C -> C) (pi : C) (m : nat) (f : dwork_factor C) (psi : C),
  let V := dwork_variety m f in smooth D V [:: psi] m ->
  forall (k : nat) (B : basis), basis_full m.+1 k = Ok B -> (0 < k)%N -> 0 < pi ->
  forall (l : 'I_m.+2 -> C) (s : {perm 'I_m.+2}), (forall j, l j ^+ m.+2 = 1) -> \prod_j l j = 1 ->
  forall x : 'rV[C]_m.+2, x != 0 -> v_defining V (row_seq x) (PArr [:: psi]) (PatchNone C) = Ok 0 ->
  forall c : C, c != 0 -> exists E,
  alg_eta D lg ex pi m V (HMat (1%:M : 'M[C]_(size (power_matrix B)))) (row_seq x) (PArr [:: psi]) None None None = Ok E /\
  alg_eta D lg ex pi m V (HMat (1%:M : 'M[C]_(size (power_matrix B)))) (row_seq (c *: move l s x)) (PArr [:: psi]) None None None = Ok E.
Proof.
move=> C D hD lg ex pi m f psi V sm k B EB k0 pi0 l s lr lp x x0 hx c c0.
have hV := dwork_hyp m f psi; have hQ := dwork_defined (m := m) f psi; have HQ := V_homog hV hQ.
have l1 j : `|l j| = 1 by exact: root_norm (lr j).
have [sg Hsg] := full_permuted s EB.
have Qx : peval (dwork_Q m (dwork_factor_value f * psi)) x = 0 by move: hx; rewrite hQ => -[].
have [i xi] : exists i, x 0 i != 0.
  by apply/existsP; apply: contraNT x0; rewrite negb_exists => /forallP H; apply/eqP/rowP => j;
     rewrite mxE; apply/eqP; have := H j; rewrite negbK.
have [d [a [g sa]]] := smooth_every hD hV hQ sm x0 Qx xi.
apply: (eta_symmetry hD lg ex hV hQ (or_introl EB) k0 pi0 (@herm1 _ _) (@pd1 _ _) l1 _ Hsg (one_symmetric sg l1) sa c0).
by exists 1; [rewrite normr1|move=> y; rewrite mul1r dwork_symmetry //; right].
Qed.

Lemma cubic_case (C : numClosedFieldType) (B : basis) (s : {perm 'I_3}) : basis_full 2 2 = Ok B ->
  let x : 'rV[C]_3 := \row_i nth 0 [:: 0; 1; - 1] i in
  [/\ x != 0, v_defining (dwork_variety 1 (FNum (1 : C))) (row_seq x) (PArr [:: 1]) (PatchNone C) = Ok 0,
      forall D : forall n : nat, ('rV[C]_n -> C) -> 'rV[C]_n -> 'rV[C]_n, diff_ok D -> smooth D (dwork_variety 1 (FNum (1 : C))) [:: 1] 1 &
      exists sg : {perm 'I_(size (power_matrix B))}, permutes_basis s sg].
Proof.
move=> EB x; split.
- by apply/eqP => /rowP/(_ 1)/eqP; rewrite !mxE /= oner_eq0.
- rewrite (dwork_defined (m := 1) (FNum 1) 1) dwork_Q_eval !big_ord_recl !big_ord0 !mxE /=.
  by rewrite expr0n /= expr1n mulr0n add0r addr0 mul0r mulr0 addr0 -signr_odd /= expr1 subrr.
- move=> D hD; apply/(dwork_smooth hD 1 (FNum 1) 1); rewrite /= mulr1 expr1n => /eqP.
  rewrite exprNn -signr_odd /= expr1 mulN1r -natrX -subr_eq0 opprK -[1]/(1%:R) -natrD pnatr_eq0 //.
exact: full_permuted EB.
Qed.
