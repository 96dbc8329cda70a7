(** sigma_accuracy with multinomial coefficients for H. *)
From Coq Require Import ZArith Lia.
From mathcomp Require Import all_ssreflect all_algebra.
From mathcomp Require Import zify ssrZ ring.
From SsrMultinomials Require Import mpoly.
From Verif Require Import Base ModelUtil ModelProjective ModelDiff ModelExpr ModelPoly ModelHom ModelVariety ModelBasis ModelGeom ModelMC ModelDonaldson ModelAlg ModelPipe.
From Verif Require Import SpecPoly SpecHom SpecVariety SpecGeom SpecBasis SpecSections SpecPatch SpecAlg SpecDonaldson SpecPipe SpecFubini Herm Herm2.
From Verif Require Import Deriv Bridge PolyGrad ProofPatch ProofDonaldson2 ProofDonaldson5 ProofAlg ProofAlg2 ProofAlg5 ProofAlg6 ProofPipe ProofPipe2 ProofPipe3 ProofPipe5 ProofFubini3.
Delimit Scope Z_scope with Z.

Set Implicit Arguments.
Unset Strict Implicit.
Unset Printing Implicit Defensive.

Import GRing.Theory Num.Theory Order.POrderTheory.
Local Open Scope ring_scope.

Lemma fubini_h_gt0 (C : numClosedFieldType) B s : 0 < fubini_h C B 0 s.
Proof.
rewrite mxE /multinomial divr_gt0 // ltr0n ?fact_gt0 //.
by rewrite prodn_gt0 // => a; exact: fact_gt0.
Qed.

Lemma fubini_h_pd (C : numClosedFieldType) B : hermitian (diag_mx (fubini_h C B)) /\ posdef (diag_mx (fubini_h C B)).
Proof.
split=> [i j|v v0].
  rewrite [LHS]mxE [X in X^*]mxE eq_sym; case: eqVneq => [->|_]; last by rewrite !mulr0n conjC0.
  by rewrite !mulr1n; apply/esym/CrealP/gtr0_real/fubini_h_gt0.
rewrite hform_diag; have [k vk] : exists k, v 0 k != 0 by apply/rV0Pn.
rewrite (bigD1 k) //=; apply: ltr_spaddl; first by rewrite mulr_gt0 ?fubini_h_gt0 // exprn_gt0 // normr_gt0.
by apply: sumr_ge0 => i _; rewrite mulr_ge0 ?exprn_ge0 // ltW // fubini_h_gt0.
Qed.

Section Points.
Variable C : numClosedFieldType.
Variable D : forall n : nat, ('rV[C]_n -> C) -> 'rV[C]_n -> 'rV[C]_n.
Hypothesis hD : diff_ok D.
Variables (lg ex : C -> C).
Variables (pi : C) (m e : nat) (V : variety C) (ps : seq C) (Q : {mpoly C[m.+2]}).
Hypotheses (hV : hypersurface V ps m e) (hQ : defined_by V ps Q) (pi0 : 0 < pi).
Hypothesis hS : smooth D V ps m.
Variables (k : nat) (B : basis).
Hypotheses (hB : basis_full m.+1 k = Ok B) (k0 : (0 < k)%N).
Notation M := (diag_mx (fubini_h C B)).
Notation pe := (pe D lg ex pi m V ps M).
Notation pw := (pw D pi m V ps).

Lemma pe_pw z : on m V ps z -> pe z * pw z = m`!%:R^-1.
Proof.
move=> oz; have [x [i [d [zE [Qx xi le] E [gd Ed Eg] [w0 W1 W2]]]]] := point_data hD hV hQ pi0 hS oz.
have ptE : pt z = (row_seq (affr i x), val i) by rewrite /pt E.
have hV' := V_dim hV.
have gd' : nth 0 (row_seq (pgrad (dehom i Q) (affr i x))) d != 0 by rewrite nth_row_seq.
have [E1 [w [He Hw _ Ew]]] := fub_eta hD lg ex hV' hB k0 pi0 (or_intror erefl) (size_row_seq _) Eg gd' (or_introl erefl).
have -> : pw z = w by rewrite /ProofPipe2.pw ptE Hw.
suff -> : pe z = E1 by [].
by rewrite /ProofPipe3.pe -[X in res_or _ X = _](_ : alg_eta D lg ex pi m V (HMat M) (row_seq (affr i x)) (PArr ps) (Some (Z.of_nat i)) None None = _) ?He // /alg_eta /alg_objects /alg_point E.
Qed.

Variable key : Type.
Variable draw : key -> seq C -> nat -> res (seq (seq C)).

Lemma sigma_fubini kk count zs W : draw kk ps count = Ok zs -> points_on V ps m zs -> zs != [::] ->
  (forall z, z \in zs -> has_weight pi e Q z (W z)) ->
  let vol := avg W zs in
  alg_sigma_accuracy D lg ex pi m V draw kk ps (HMat M) count = Ok (avg (fun z => `|W z - vol|) zs / vol).
Proof.
move=> Ed H ne HW vol; have [hM pM] := fubini_h_pd C B.
have hB' : basis_for k Q B by left.
have [Eta [HE [sg [-> -> _ _ _]]]] := sigma_main hD lg ex hV hQ pi0 hS hB' k0 hM pM Ed H ne HW.
have f0 : m`!%:R != 0 :> C by rewrite pnatr_eq0 -lt0n fact_gt0.
have Ew z : z \in zs -> Eta z * W z = m`!%:R^-1.
  move=> zi; have zo := H z zi; rewrite -(pe_pw zo) (pw_eq hD hV hQ pi0 hS zo (HW z zi)).
  by have [E _] := HE z zi; rewrite /ProofPipe3.pe E.
have W0 z : z \in zs -> 0 < W z.
  by move=> zi; rewrite -(pw_eq hD hV hQ pi0 hS (H z zi) (HW z zi)); have [] := point_ok2 hD hV hQ pi0 hS (H z zi).
congr (Ok (_ / _)); rewrite -/vol.
have -> : avg (fun z => Eta z * W z) zs = m`!%:R^-1.
  rewrite (avg_eq Ew) /avg big_const_seq count_predT.
  have sz : (size zs)%:R != 0 :> C by rewrite pnatr_eq0 size_eq0.
  by rewrite iter_addr_0 -[_ *+ size zs]mulr_natr mulfK.
apply: avg_eq => z zi; have Wz := W0 z zi; have Ez := Ew z zi.
have -> : W z - vol = (1 - Eta z * vol / m`!%:R^-1) * W z; last by rewrite normrM (gtr0_norm Wz).
rewrite mulrBl mul1r; congr (_ - _); rewrite invrK -[RHS]mulrA [_ * W z]mulrC mulrA [Eta z * vol * W z]mulrAC Ez.
by rewrite mulrAC mulVf // mul1r.
Qed.
End Points.

Lemma avg_dist0 (C : numClosedFieldType) (W : seq C -> C) zs : zs != [::] -> (forall z, z \in zs -> 0 < W z) ->
  (avg (fun z => `|W z - avg W zs|) zs / avg W zs = 0 <-> forall z z', z \in zs -> z' \in zs -> W z = W z').
Proof.
move=> ne W0; have s0 : (size zs)%:R != 0 :> C by rewrite pnatr_eq0 size_eq0.
have v0 : avg W zs != 0.
  rewrite /avg mulf_neq0 ?invr_eq0 //; case: zs ne W0 {s0} => // z zs _ W0.
  rewrite big_cons gt_eqF //; apply: ltr_spaddl; first by apply: W0; rewrite mem_head.
  by rewrite big_seq sumr_ge0 // => y yi; rewrite ltW // W0 // in_cons yi orbT.
split=> [/eqP|H]; last first.
  have E z : z \in zs -> W z - avg W zs = 0.
    move=> zi; have -> : avg W zs = W z; last by rewrite subrr.
    rewrite (avg_eq (g := fun=> W z)); last by move=> z' zi'; exact: H.
    by rewrite /avg big_const_seq count_predT iter_addr_0 -[_ *+ size zs]mulr_natr mulfK.
  rewrite (avg_eq (g := fun=> 0)); last by move=> z zi; rewrite E // normr0.
  by rewrite /avg big1 // !mul0r.
rewrite mulf_eq0 invr_eq0 (negPf v0) orbF /avg mulf_eq0 invr_eq0 (negPf s0) orbF -/(avg W zs).
rewrite big_seq psumr_eq0 // => /allP K z z' zi zi'.
have E y : y \in zs -> W y = avg W zs.
  by move=> yi; have /implyP/(_ yi) := K y yi; rewrite normr_eq0 subr_eq0 => /eqP.
by rewrite !E.
Qed.
