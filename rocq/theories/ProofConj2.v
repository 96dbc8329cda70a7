(** AlgebraicMetric at the conjugate point, with conjugate parameters and H. *)
From Coq Require Import ZArith Lia.
From mathcomp Require Import all_ssreflect all_algebra.
From mathcomp Require Import zify ssrZ.
From SsrMultinomials Require Import mpoly.
From Verif Require Import Base ModelUtil ModelProjective ModelDiff ModelExpr ModelPoly ModelHom ModelVariety ModelBasis ModelGeom ModelAlg.
From Verif Require Import SpecGeom SpecBasis SpecSections SpecPatch SpecAlg Herm.
From Verif Require Import Deriv Bridge PolyGrad ProofProjective ProofDiff ProofDiff2 ProofGeom3 ProofGeom4 ProofDonaldson2 ProofSections ProofPatch ProofRicci2 ProofAlg ProofAlg2 ProofAlg5 ProofConj.
From Coq Require Import FunctionalExtensionality.
Delimit Scope Z_scope with Z.

Set Implicit Arguments.
Unset Strict Implicit.
Unset Printing Implicit Defensive.

Import GRing.Theory Num.Theory Order.POrderTheory.
Local Open Scope ring_scope.

Section Poly.
Variable C : numClosedFieldType.

(** P' has the conjugate values of P at conjugate points. *)
Definition conj_poly n (P P' : {mpoly C[n]}) : Prop := forall z, peval P' (conj_rv z) = (peval P z)^*.

Lemma conj_deriv n (P P' : {mpoly C[n]}) i : conj_poly P P' -> conj_poly (P^`M(i)) (P'^`M(i)).
Proof.
move=> H z; have G : is_grad (peval P') (conj_rv z) (conj_rv (pgrad P z)).
  by apply: is_grad_ext (is_grad_conj (poly_grad P z)) => y; rewrite -H conj_rvK.
by have /rowP/(_ i) := is_grad_unique (poly_grad P' (conj_rv z)) G; rewrite !mxE.
Qed.

Lemma homr_conj n (p : 'I_n.+1) (z : 'rV[C]_n) : homr p (conj_rv z) = conj_rv (homr p z).
Proof.
apply/rowP => i; rewrite [RHS]mxE; case: (unliftP p i) => [a ->|->]; first by rewrite !homr_lift mxE.
by rewrite !homr_patch rmorph1.
Qed.

Lemma conj_dehom n (p : 'I_n.+1) (P P' : {mpoly C[n.+1]}) : conj_poly P P' -> conj_poly (dehom p P) (dehom p P').
Proof.
move=> H z; have ev (R : {mpoly C[n.+1]}) w : peval (dehom p R) w = peval R (homr p w) by rewrite dehom_eval; apply: meval_eq.
by rewrite !ev homr_conj.
Qed.

Lemma conj_mono n v : conj_poly (mono C n v) (mono C n v).
Proof.
move=> z; rewrite /mono /peval !mevalX rmorph_prod; apply: eq_bigr => j _.
by rewrite rmorphX /= mxE.
Qed.
End Poly.

Section Points.
Variable C : numClosedFieldType.
Variable D : forall n : nat, ('rV[C]_n -> C) -> 'rV[C]_n -> 'rV[C]_n.
Hypothesis hD : diff_ok D.
Variables (lg ex : C -> C) (pi : C) (m e : nat).
Variables (V : variety C) (ps : seq C) (Q : {mpoly C[m.+2]}).
Hypotheses (hR : real_hypersurface V ps m e) (hQ : defined_by V ps Q).
Variables (k : nat) (B : basis).
Hypotheses (hB : basis_for k Q B) (k0 : (0 < k)%N) (pi0 : 0 < pi).
Variable M : 'M[C]_(size (power_matrix B)).
Let hV := real_hyp hR.
Let HQ : Q \is e.-homog := V_homog hV hQ.
Let hC : basis_class C m.+1 k B := for_class HQ hB.
Let piC : pi^* = pi. Proof. by apply/CrealP; exact: gtr0_real. Qed.
Notation mcj := (map_mx (conjC : C -> C)).

Lemma conj_Q : exists2 Q', defined_by V (cseq ps) Q' & conj_poly Q Q'.
Proof.
have [Q' [hQ' _ _]] := V_poly (real_hyp_conj hR); exists Q' => // z.
by have := defining_conj hR (hQ z); rewrite hQ' => -[].
Qed.

Lemma on_patch_conj Q' (i : 'I_m.+2) d z : conj_poly Q Q' ->
  on_patch k (mcj M) Q' i d (conj_rv z) = cob (on_patch k M Q i d z).
Proof.
move=> cQ; have cd := conj_dehom i cQ; have cs s := conj_dehom i (@conj_mono C _ (nth [::] (power_matrix B) s)).
have c1 j := conj_deriv j cd; have c2 j b := conj_deriv b (c1 j).
rewrite /on_patch /poly_objects /cob /=; congr Objects.
- by apply: functional_extensionality => s; rewrite /f1 /section_polys (cs s).
- by do 2 apply: functional_extensionality => ?; rewrite /f2 /section_polys; apply: conj_deriv; exact: cs.
- by do 3 apply: functional_extensionality => ?; rewrite /f3 /section_polys; do 2 apply: conj_deriv; exact: cs.
- by apply/rowP => b; rewrite !mxE; exact: c1.
do 3 apply: functional_extensionality => ?; rewrite /f3; case: ifP => _; last by rewrite cj0.
by rewrite /pquot !c2 !c1 !(cjM, cjN, cjV, cjX, cjB).
Qed.

Variables (x : 'rV[C]_m.+2) (i : 'I_m.+2) (d : 'I_m.+1) (a g : seq C).
Hypothesis sm : smooth_at D V ps x i d a g.

Lemma affr_conj j : affr j (conj_rv x) = conj_rv (affr j x).
Proof. by apply/rowP => b; rewrite !mxE cjM cjV. Qed.

Lemma point_conj (i0 : 'I_m.+2) :
  alg_point m V (row_seq x) None = alg_point m V (row_seq (affr i0 x)) (Some (Z.of_nat i0)) ->
  alg_point m V (row_seq (conj_rv x)) None = alg_point m V (row_seq (affr i0 (conj_rv x))) (Some (Z.of_nat i0)).
Proof.
rewrite !(point_code hV) /alg_point /hom_to_affine_auto row_cseq abs_cj.
case: argmax => //= p; rewrite -row_cseq.
case E: (hom_to_affine (row_seq x) _) => [w|] //=; rewrite /v_dim_projective (V_dim hV) /=.
case: rassert => //= _ [_ /Nat2Z.inj Ep]; subst p.
by rewrite hom_to_affine_seq /= size_row_seq eqxx /= row_seqK.
Qed.

Let bne : power_matrix B <> [::].
Proof.
have [hx xi ha hg gd] := sm.
exact (@B_ne C D hD pi m e V ps Q hV hQ k B hB k0 pi0 1%:M (@herm1 C _) (@pd1 C _) x hx i a g d xi ha hg gd).
Qed.

Lemma objects_conj : exists (i0 : 'I_m.+2) (d0 : 'I_m.+1),
  let o := on_patch k M Q i0 d0 (affr i0 x) in
  [/\ alg_objects D lg ex m V (HMat M) (row_seq x) (PArr ps) None None None = Ok (o, Z.of_nat i0),
      alg_objects D lg ex m V (HMat (mcj M)) (row_seq (conj_rv x)) (PArr (cseq ps)) None None None = Ok (cob o, Z.of_nat i0),
      o_dep o = Some (Z.of_nat d0) & o_grad o 0 d0 != 0].
Proof.
have [hx xi ha hg gd] := sm; have [Q' hQ' cQ] := conj_Q.
have [i0 [d0 [x0 le g0 _ [Eo Ed]]]] := default_point hD hV hQ hx xi ha hg gd.
exists i0, d0; split=> //; last by rewrite /= mxE.
  by rewrite (objects_of D lg ex ps M Eo) (objects_gen hD lg ex hV hQ hC bne M Ed) //; left.
have Eo' := point_conj Eo.
have Ed' : choose_dependent (row_seq (pgrad (dehom i0 Q') (affr i0 (conj_rv x)))) None = Ok (Z.of_nat d0).
  rewrite -Ed /choose_dependent affr_conj.
  have -> : pgrad (dehom i0 Q') (conj_rv (affr i0 x)) = conj_rv (pgrad (dehom i0 Q) (affr i0 x)).
    by apply/rowP => b; rewrite !mxE; exact: (conj_deriv b (conj_dehom i0 cQ)).
  by rewrite row_cseq abs_cj.
rewrite (objects_of D lg ex (cseq ps) (mcj M) Eo') (objects_gen hD lg ex (real_hyp_conj hR) hQ' hC bne (mcj M) Ed').
- by rewrite affr_conj (on_patch_conj _ _ _ cQ).
- by left.
by rewrite affr_conj (conj_deriv d0 (conj_dehom i0 cQ)) conjC_eq0.
Qed.

Lemma conj_point :
  let at_x T (f : hvalue C (size (power_matrix B)) -> seq C -> pyval C -> res T) := f (HMat M) (row_seq x) (PArr ps) in
  let at_c T (f : hvalue C (size (power_matrix B)) -> seq C -> pyval C -> res T) :=
    f (HMat (mcj M)) (row_seq (conj_rv x)) (PArr (cseq ps)) in
  let metric h zs qs := alg_metric D lg ex pi m V h zs qs None None None in
  let ricci h zs qs := alg_ricci D lg ex pi m V h zs qs None None None in
  let scalar h zs qs := alg_ricci_scalar D lg ex pi m V h zs qs None None None in
  let eta h zs qs := alg_eta D lg ex pi m V h zs qs None None None in
  exists i0 d0 G R r E,
  [/\ at_x _ metric = Ok (G, i0, d0), at_x _ ricci = Ok (R, i0, d0), at_x _ scalar = Ok r & at_x _ eta = Ok E] /\
  [/\ at_c _ metric = Ok (mcj G, i0, d0), at_c _ ricci = Ok (mcj R, i0, d0), at_c _ scalar = Ok r^* & at_c _ eta = Ok E^*].
Proof.
have [i0 [d0 [O1 O2 Hd nz]]] := objects_conj; set o := on_patch _ _ _ _ _ _ in O1 O2 Hd nz.
move=> at_x at_c metric ricci scalar eta.
rewrite /at_x /at_c /metric /ricci /scalar /eta /alg_metric /alg_ricci /alg_ricci_scalar /alg_eta O1 O2 /=.
rewrite (g_loc_cob piC Hd) (ricci_loc_cob piC Hd) (ricci_scalar_cob piC Hd) (eta_cob piC Hd).
have J := jac_ok Hd.
have [G EG] : exists G, ob_g_loc pi o = Ok G by rewrite (g_loc_dep _ Hd); eexists.
have [R ER] : exists R, ob_ricci_loc pi o = Ok R.
  by rewrite /ob_ricci_loc /ob_ricci_proj /ob_g_loc_a /ob_g_loc_ha /ob_g_loc_h EG J /=; eexists.
have [r Er] : exists r, ob_ricci_scalar pi o = Ok r by rewrite /ob_ricci_scalar EG ER /=; eexists.
have [E EE] : exists E, ob_eta pi o = Ok E by rewrite (eta_dep pi Hd nz); eexists.
by exists (Z.of_nat i0), (Z.of_nat d0), G, R, r, E; rewrite EG ER Er EE.
Qed.
End Points.

Section Hermitian.
Variable C : numClosedFieldType.
Notation mcj := (map_mx (conjC : C -> C)).

Lemma conj_hermitian n (g : 'M[C]_n) : hermitian g -> hermitian (mcj g).
Proof. by move=> hg a b; rewrite !mxE hg. Qed.

Lemma conj_posdef n (g : 'M[C]_n) : hermitian g -> posdef g -> posdef (mcj g).
Proof.
move=> hg pg; have hc : mcj g = g^T by apply/matrixP => a b; rewrite !mxE hg conjCK.
move=> v v0; rewrite hc hform_tr; apply: pg; apply: contra_neq v0 => vE.
by apply/rowP => a; have /rowP/(_ a) := vE; rewrite !mxE => /(congr1 conjC); rewrite conjCK conjC0.
Qed.

Variable D : forall n : nat, ('rV[C]_n -> C) -> 'rV[C]_n -> 'rV[C]_n.
Hypothesis hD : diff_ok D.
Variables (lg ex : C -> C) (pi : C) (m e : nat).
Variables (V : variety C) (ps : seq C) (Q : {mpoly C[m.+2]}).
Hypotheses (hR : real_hypersurface V ps m e) (hQ : defined_by V ps Q).
Variables (k : nat) (B : basis).
Hypotheses (hB : basis_for k Q B) (k0 : (0 < k)%N) (pi0 : 0 < pi).
Variable M : 'M[C]_(size (power_matrix B)).
Hypotheses (HM : hermitian M) (pd : posdef M).
Variables (x : 'rV[C]_m.+2) (i : 'I_m.+2) (d : 'I_m.+1) (a g : seq C).
Hypothesis sm : smooth_at D V ps x i d a g.

Lemma eta_conj : exists E,
  alg_eta D lg ex pi m V (HMat M) (row_seq x) (PArr ps) None None None = Ok E /\
  alg_eta D lg ex pi m V (HMat (mcj M)) (row_seq (conj_rv x)) (PArr (cseq ps)) None None None = Ok E.
Proof.
have [i0 [d0 [O1 O2 Hd nz]]] := objects_conj hD lg ex hR hQ hB k0 pi0 M sm.
have [E EE rE] := eta_real (erefl : o_h (on_patch k M Q i0 d0 (affr i0 x)) = HMat M) HM pi0 Hd nz.
have piC : pi^* = pi by apply/CrealP; exact: gtr0_real.
by exists E; rewrite /alg_eta O1 O2 /= (eta_cob piC Hd) EE /= (CrealP rE).
Qed.

Lemma kahler_conj : exists K,
  alg_kahler lg ex pi m V (HMat M) (row_seq x) None = Ok K /\
  alg_kahler lg ex pi m V (HMat (mcj M)) (row_seq (conj_rv x)) None = Ok K.
Proof.
have hV := real_hyp hR; have HQ := V_homog hV hQ; have [hx xi ha hg gd] := sm.
have [i0 [d0 [x0 le g0 _ [Eo Ed]]]] := default_point hD hV hQ hx xi ha hg gd.
have Eo' := point_conj hR Eo; have [Q' hQ' cQ] := conj_Q hR hQ.
have E1 : alg_kahler lg ex pi m V (HMat M) (row_seq x) None = Ok (ob_kahler lg pi (on_patch k M Q i0 d0 (affr i0 x))).
  by rewrite -(kahler_code hD lg ex hV hQ hB k0 pi0 HM pd hx xi ha hg gd) /alg_kahler Eo.
exists (ob_kahler lg pi (on_patch k M Q i0 d0 (affr i0 x))); split=> //.
have := kahler_code hD lg ex hV hQ hB k0 pi0 (conj_hermitian HM) (conj_posdef HM pd) hx xi ha hg gd i0 d0 (affr i0 (conj_rv x)).
rewrite /alg_kahler -Eo' => ->; congr Ok.
rewrite -[LHS]/(ob_kahler lg pi (on_patch k (mcj M) Q' i0 d0 (affr i0 (conj_rv x)))) affr_conj (on_patch_conj k M i0 d0 (affr i0 x) cQ).
apply: kahler_cob; rewrite /ob_psi /=; rewrite cj_sum exchange_big; apply: eq_bigr => s _ /=.
rewrite cj_sum; apply: eq_bigr => t _; rewrite !cjM /s_c cjK [M t s]HM mulrC -[RHS]mulrA; congr (_ * _).
exact: mulrC.
Qed.
End Hermitian.
