(** Weights of the predefined varieties, and examples. *)
From Coq Require Import ZArith Lia Ascii String.
From mathcomp Require Import all_ssreflect all_algebra.
From mathcomp Require Import zify ssrZ ring.
From SsrMultinomials Require Import mpoly.
From Verif Require Import Base ModelStr ModelUtil ModelProjective ModelDiff ModelExpr ModelPoly ModelHom ModelVariety ModelBasis ModelGeom ModelMC ModelDonaldson ModelAlg ModelPipe.
From Verif Require Import SpecPoly SpecUniv SpecHom SpecVariety SpecGeom SpecBasis SpecSections SpecPatch SpecAlg SpecDonaldson SpecPipe Herm Herm2.
From Verif Require Import Deriv Bridge PolyGrad ProofVariety2 ProofVariety3 ProofAlg ProofAlg2 ProofAlg3 ProofAlg6 ProofPipe ProofPipe2 ProofPipe3 ProofPipe4 ProofPipe5 ProofPipe6 ProofPipe7.
Delimit Scope Z_scope with Z.

Set Implicit Arguments.
Unset Strict Implicit.
Unset Printing Implicit Defensive.

Import GRing.Theory Num.Theory Order.POrderTheory.
Local Open Scope ring_scope.

Section Grad.
Variables (C : numClosedFieldType) (m : nat).

Lemma dwork_grad_hom (c : C) (x : 'rV[C]_m.+2) i :
  peval ((dwork_Q m c)^`M(i)) x = m.+2%:R * x 0 i ^+ m.+1 + c * \prod_(j | j != i) x 0 j.
Proof.
rewrite /dwork_Q mderivD mderivZ mderiv_prod /peval mevalD mevalZ rmorph_prod /=.
congr (_ + c * _); last by apply: eq_bigr => j _; rewrite mevalXU.
have -> : (\sum_j ('X_j : {mpoly C[m.+2]}) ^+ m.+2)^`M(i) = \sum_j ('X_j ^+ m.+2)^`M(i) by rewrite raddf_sum.
rewrite raddf_sum /= (bigD1 i) //= big1 => [|j ji]; rewrite mderivUX.
  by rewrite eqxx mul1r addr0 rmorphM rmorphX rmorph_nat /= mevalXU.
by rewrite eq_sym (negbTE ji) !mul0r meval0.
Qed.

Variable D : forall n : nat, ('rV[C]_n -> C) -> 'rV[C]_n -> 'rV[C]_n.
Hypothesis hD : diff_ok D.
Variable pi : C.
Hypothesis pi0 : 0 < pi.

Lemma dwork_weight f psi (x : 'rV[C]_m.+2) (i : 'I_m.+2) a dep :
  (dwork_factor_value f * psi) ^+ m.+2 <> (- m.+2%:R) ^+ m.+2 ->
  v_defining (dwork_variety m f) (row_seq x) (PArr [:: psi]) (PatchNone C) = Ok 0 -> x 0 i != 0 ->
  hom_to_affine (row_seq x) (Z.of_nat i) = Ok a ->
  (dep = None \/ exists (d : 'I_m.+1) g, [/\ dep = Some (Z.of_nat d),
     v_grad_defining D (dwork_variety m f) a (PArr [:: psi]) (PatchInt C (Z.of_nat i)) = Ok g & nth 0 g d != 0]) ->
  v_weights D pi m (dwork_variety m f) a [:: psi] (Some (Z.of_nat i)) dep (Some 1) =
  Ok (pi ^+ m / m`!%:R * (\sum_k `|x 0 k| ^+ 2) ^+ m.+1 /
      \sum_k `|m.+2%:R * x 0 k ^+ m.+1 + dwork_factor_value f * psi * \prod_(j < m.+2 | j != k) x 0 j| ^+ 2).
Proof.
move=> hs hx xi ha hdep; have hV := @dwork_hyp C m f psi; have hQ := @dwork_defined C m f psi.
have sm : smooth D (dwork_variety m f) [:: psi] m by apply/dwork_smooth.
have x0 : x != 0 by apply: contraNneq xi => ->; rewrite mxE.
have gx := smooth_grad hD hV hQ sm x0 hx.
have [_ W1 W2] := weight_form hD hV hQ pi0 (Some 1) hx gx xi ha.
have Eg : grad2 (dwork_Q m (dwork_factor_value f * psi)) x =
  \sum_k `|m.+2%:R * x 0 k ^+ m.+1 + dwork_factor_value f * psi * \prod_(j < m.+2 | j != k) x 0 j| ^+ 2.
  by apply: eq_bigr => k _; rewrite dwork_grad_hom.
have Ew := weight_cy (dwork_Q m (dwork_factor_value f * psi)) (pi ^+ m / m`!%:R) xi.
rewrite -mulrA -Eg -/(len2 x) -Ew.
by case: hdep => [->|[d [g [-> hg gd]]]]; [exact: W1|exact: W2 hg gd].
Qed.

Lemma fermat_weight (ps : seq C) (x : 'rV[C]_m.+2) (i : 'I_m.+2) a dep :
  v_defining (fermat_variety C m) (row_seq x) (PArr ps) (PatchNone C) = Ok 0 -> x 0 i != 0 ->
  hom_to_affine (row_seq x) (Z.of_nat i) = Ok a ->
  (dep = None \/ exists (d : 'I_m.+1) g, [/\ dep = Some (Z.of_nat d),
     v_grad_defining D (fermat_variety C m) a (PArr ps) (PatchInt C (Z.of_nat i)) = Ok g & nth 0 g d != 0]) ->
  v_weights D pi m (fermat_variety C m) a ps (Some (Z.of_nat i)) dep (Some 1) =
  Ok (pi ^+ m / m`!%:R * (\sum_k `|x 0 k| ^+ 2) ^+ m.+1 / (m.+2%:R ^+ 2 * \sum_k `|x 0 k| ^+ (2 * m.+1))).
Proof.
move=> hx xi ha hdep; have hV := @fermat_hyp C m ps; have hQ := @fermat_defined C m ps.
have sm : smooth D (fermat_variety C m) ps m by apply: fermat_smooth.
have x0 : x != 0 by apply: contraNneq xi => ->; rewrite mxE.
have gx := smooth_grad hD hV hQ sm x0 hx.
have [_ W1 W2] := weight_form hD hV hQ pi0 (Some 1) hx gx xi ha.
have Eg : grad2 (dwork_Q m 0) x = m.+2%:R ^+ 2 * \sum_k `|x 0 k| ^+ (2 * m.+1).
  rewrite mulr_sumr; apply: eq_bigr => k _; rewrite dwork_grad_hom mul0r addr0.
  by rewrite normrM normr_nat exprMn normrX -exprM mulnC.
have Ew := weight_cy (dwork_Q m 0) (pi ^+ m / m`!%:R) xi.
rewrite -mulrA -Eg -/(len2 x) -Ew.
by case: hdep => [->|[d [g [-> hg gd]]]]; [exact: W1|exact: W2 hg gd].
Qed.
End Grad.

(** The Fermat cubic at (1 : -1 : 0) *)
Section Cubic.
Variable C : numClosedFieldType.

Definition cubic_point : seq C := [:: 1; -1; 0].

Lemma cubic_setting : diff_ok (@choice_D C) /\
  forall (D : forall n : nat, ('rV[C]_n -> C) -> 'rV[C]_n -> 'rV[C]_n), diff_ok D ->
  [/\ hypersurface (fermat_variety C 1) [::] 1 3, @defined_by C (fermat_variety C 1) [::] 1 (dwork_Q 1 0),
      smooth D (fermat_variety C 1) [::] 1, points_on (fermat_variety C 1) [::] 1 (nseq 2 cubic_point) &
      forall pi, has_weight pi 3 (dwork_Q 1 0) cubic_point (pi * 2%:R / 9%:R)].
Proof.
split; first exact: choice_D_ok.
move=> D hD; pose x : 'rV[C]_3 := \row_(i < 3) nth 0 cubic_point i.
have zE : cubic_point = row_seq x.
  by apply: row_seq_eq => // i; rewrite mxE.
split; [exact: fermat_hyp|exact: fermat_defined|exact: fermat_smooth| |].
  move=> z; rewrite mem_nseq /= => /eqP ->; exists x; split=> //.
    by apply/eqP => /rowP/(_ 0); rewrite !mxE /= => /eqP; rewrite oner_eq0.
  rewrite /= /fermat_call /= !big_cons big_nil; congr Ok; ring.
move=> pi; exists x, 0; split=> //.
- move=> j; rewrite !mxE /= normr1; case: j => -[|[|[|//]]] _ /=; by rewrite ?normrN ?normr1 ?normr0 ?ler01.
- by rewrite mxE /= oner_eq0.
rewrite weight_cy ?mxE /= ?oner_eq0 // /len2 /grad2 !big_ord_recl !big_ord0 !dwork_grad_hom !mxE /=.
rewrite !mul0r !addr0 ?normrN ?normrM ?normrX ?normrN !normr1 !normr0 ?expr0n /= !expr1n !normr_nat.
rewrite !addr0 ?mulr0 ?expr0n /= ?addr0.
have n2 : 2%:R != 0 :> C by rewrite pnatr_eq0.
rewrite (_ : (1`! = 1)%N) // !mulr1 divr1 expr1.
have -> : 3%:R ^+ 2 + 3%:R ^+ 2 = 2%:R * 9%:R :> C by ring.
have -> : (1 + 1) ^+ 2 = 2%:R * 2%:R :> C by ring.
by rewrite -mulf_div divff // mul1r mulrA.
Qed.
End Cubic.

Lemma same_all (C : numClosedFieldType) (D : forall n : nat, ('rV[C]_n -> C) -> 'rV[C]_n -> 'rV[C]_n)
    (lg ex : C -> C) (pi : C) (key : Type)
    (split : key -> key * key) (splitn : key -> nat -> seq key) m (V : variety C)
    (draw draw' : key -> seq C -> nat -> res (seq (seq C))) : same_draws draw draw' ->
  [/\ forall k ps count b,
        sample_intersect D pi m V draw' k ps count true b = sample_intersect D pi m V draw k ps count true b,
      forall k ps count,
        match sample_intersect D pi m V draw k ps count false true, sample_intersect D pi m V draw' k ps count false true with
        | Ok (OutHomW zs ws), Ok (OutHomW zs' ws') => same_points zs zs' /\ ws = ws'
        | Err x, Err x' => x = x'
        | _, _ => False
        end,
      forall k ps batches bs var,
        compute_vol D pi split m V draw' k ps batches bs var = compute_vol D pi split m V draw k ps batches bs var,
      forall B k ps (h : hvalue C (size (power_matrix B))) count,
        alg_sigma_accuracy D lg ex pi m V draw' k ps h count = alg_sigma_accuracy D lg ex pi m V draw k ps h count &
      forall B dt k (h : 'M[C]_(size (power_matrix B))) ps vol batches bs,
        alg_donaldson_step D lg ex pi splitn m V draw' dt k h ps vol batches bs =
        alg_donaldson_step D lg ex pi splitn m V draw dt k h ps vol batches bs].
Proof.
move=> H; split; [exact: same_affine|exact: same_weights|exact: same_vol|exact: same_sigma|exact: same_step].
Qed.
