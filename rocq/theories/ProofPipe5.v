(** The statements about sampled points, in terms of the weights alone. *)
From Coq Require Import ZArith Lia.
From mathcomp Require Import all_ssreflect all_algebra.
From mathcomp Require Import zify ssrZ ring.
From SsrMultinomials Require Import mpoly.
From Verif Require Import Base ModelUtil ModelProjective ModelDiff ModelExpr ModelPoly ModelHom ModelVariety ModelBasis ModelGeom ModelMC ModelDonaldson ModelAlg ModelPipe.
From Verif Require Import SpecPoly SpecHom SpecVariety SpecGeom SpecBasis SpecSections SpecPatch SpecAlg SpecDonaldson SpecPipe Herm Herm2.
From Verif Require Import Deriv Bridge PolyGrad ProofPatch ProofDonaldson2 ProofAlg ProofAlg2 ProofAlg6 ProofPipe ProofPipe2 ProofPipe3.
Delimit Scope Z_scope with Z.

Set Implicit Arguments.
Unset Strict Implicit.
Unset Printing Implicit Defensive.

Import GRing.Theory Num.Theory Order.POrderTheory.
Local Open Scope ring_scope.

Section Points.
Variable C : numClosedFieldType.
Variable D : forall n : nat, ('rV[C]_n -> C) -> 'rV[C]_n -> 'rV[C]_n.
Hypothesis hD : diff_ok D.
Variables (lg ex : C -> C).
Variables (pi : C) (m e : nat) (V : variety C) (ps : seq C) (Q : {mpoly C[m.+2]}).
Hypotheses (hV : hypersurface V ps m e) (hQ : defined_by V ps Q) (pi0 : 0 < pi).

(** Calabi-Yau degree: no patch *)
Lemma weight_cy (x : 'rV[C]_m.+2) vol (i : 'I_m.+2) : x 0 i != 0 ->
  patch_weight m.+2 Q vol x i = vol * (len2 x ^+ m.+1 / grad2 Q x).
Proof. by move=> xi; rewrite /patch_weight divff ?mulr1 // expf_neq0 // normr_eq0. Qed.

Lemma weight_two (x : 'rV[C]_m.+2) (i j : 'I_m.+2) a b vol : e = m.+2 ->
  v_defining V (row_seq x) (PArr ps) (PatchNone C) = Ok 0 -> (exists k, peval (Q^`M(k)) x != 0) ->
  x 0 i != 0 -> x 0 j != 0 ->
  hom_to_affine (row_seq x) (Z.of_nat i) = Ok a -> hom_to_affine (row_seq x) (Z.of_nat j) = Ok b ->
  v_weights D pi m V a ps (Some (Z.of_nat i)) None vol = v_weights D pi m V b ps (Some (Z.of_nat j)) None vol.
Proof.
move=> Ee hx gx xi xj ha hb.
have [_ -> _] := weight_form hD hV hQ pi0 vol hx gx xi ha.
have [_ -> _] := weight_form hD hV hQ pi0 vol hx gx xj hb.
by rewrite Ee !weight_cy.
Qed.

Hypothesis hS : smooth D V ps m.
Notation pw := (pw D pi m V ps).

Lemma form_pt z : on m V ps z -> affine_form z (pt z).
Proof.
move=> [x [-> x0 hx]]; have [j xj] := nonzero_coord x0.
have [i [xi le E]] := auto_aff xj.
rewrite /pt E /=; split; rewrite /= ?size_row_seq ?nth_row_seq //.
  by move=> y /mapP[k _ ->].
by rewrite hom_to_affine_seq.
Qed.

Section Draw.
Variable key : Type.
Variable draw : key -> seq C -> nat -> res (seq (seq C)).

Lemma samples_main k count zs : draw k ps count = Ok zs -> points_on V ps m zs ->
  exists (A : seq C -> seq C * nat) (W : seq C -> C),
  (forall z, z \in zs -> [/\ affine_form z (A z), has_weight pi e Q z (W z) & 0 < W z]) /\
  [/\ sample_intersect D pi m V draw k ps count false false = Ok (OutHom zs),
      sample_intersect D pi m V draw k ps count true false = Ok (OutAff [seq A z | z <- zs]),
      sample_intersect D pi m V draw k ps count false true = Ok (OutHomW zs [seq W z | z <- zs]) &
      sample_intersect D pi m V draw k ps count true true = Ok (OutAffW [seq A z | z <- zs] [seq W z | z <- zs])].
Proof.
move=> Ed H; exists (@pt C), pw; split; last exact: (sample_forms hD hV hQ pi0 hS Ed H).
move=> z /H hz; have [_ _ w1 w2] := point_ok2 hD hV hQ pi0 hS hz; split=> //; exact: form_pt.
Qed.

Lemma pw_eq (W : seq C -> C) z : on m V ps z -> has_weight pi e Q z (W z) -> pw z = W z.
Proof. by move=> hz hw; have [_ _ w1 _] := point_ok2 hD hV hQ pi0 hS hz; apply: weight_unique w1 hw. Qed.

Lemma avg_eq (f g : seq C -> C) zs : (forall z, z \in zs -> f z = g z) -> avg f zs = avg g zs.
Proof. by move=> H; rewrite /avg; congr (_ / _); rewrite !big_seq; apply: eq_bigr => z /H. Qed.

Lemma flat_on zss bs z : (forall zs, zs \in zss -> size zs = bs /\ points_on V ps m zs) ->
  z \in flatten zss -> on m V ps z.
Proof. by move=> H /flattenP[zs zi zz]; have [_ /(_ z zz)] := H _ zi. Qed.

Lemma size_flat (zss : seq (seq (seq C))) bs : (forall zs, zs \in zss -> size zs = bs) ->
  size (flatten zss) = (size zss * bs)%N.
Proof.
elim: zss => [//|zs zss IH] H /=; rewrite size_cat IH => [|x xi]; last by apply: H; rewrite inE xi orbT.
by rewrite H ?mem_head // mulSn.
Qed.

Lemma vol_main (split : key -> key * key) k batches bs zss W : (0 < batches)%N -> (0 < bs)%N ->
  size zss = batches ->
  (forall j, (j < batches)%N -> draw (iter j (fun k => (split k).2) k) ps bs = Ok (nth [::] zss j)) ->
  (forall zs, zs \in zss -> size zs = bs /\ points_on V ps m zs) ->
  (forall z, z \in flatten zss -> has_weight pi e Q z (W z)) ->
  let v := avg W (flatten zss) in
  let s := (avg (fun z => W z ^+ 2) (flatten zss) - v ^+ 2) / (batches * bs)%:R in
  [/\ compute_vol D pi split m V draw k ps batches bs false = Ok (v, None),
      compute_vol D pi split m V draw k ps batches bs true = Ok (v, Some s),
      0 < v, 0 <= s & s = 0 <-> exists c, forall z, z \in flatten zss -> W z = c].
Proof.
move=> b0 s0 sz Hd Hz HW v s.
have E z : z \in flatten zss -> pw z = W z by move=> zi; apply: pw_eq (HW z zi); exact: flat_on Hz zi.
have ne : flatten zss != [::].
  by rewrite -size_eq0 (@size_flat _ bs) ?sz -?lt0n ?muln_gt0 ?b0 // => zs /Hz[].
have W0 z : z \in flatten zss -> 0 < W z.
  by move=> zi; rewrite -E //; have [] := point_ok2 hD hV hQ pi0 hS (flat_on Hz zi).
have Ev : avg pw (flatten zss) = v by apply: avg_eq.
have Es : avg (fun z => pw z ^+ 2) (flatten zss) = avg (fun z => W z ^+ 2) (flatten zss).
  by apply: avg_eq => z /E ->.
have [V1 V2] := variance_ge0 ne W0.
have n0 : 0 < (batches * bs)%:R :> C by rewrite ltr0n muln_gt0 b0.
split.
- by rewrite (vol_lemma2 hD hV hQ pi0 hS false b0 s0 sz Hd Hz) Ev.
- by rewrite (vol_lemma2 hD hV hQ pi0 hS true b0 s0 sz Hd Hz) Ev Es.
- exact: avg_pos.
- by rewrite divr_ge0 // ltW.
- rewrite /s -V2; split=> [/eqP|->]; last by rewrite mul0r.
  by rewrite mulf_eq0 invr_eq0 (gt_eqF n0) orbF => /eqP.
Qed.

Variables (k : nat) (B : basis).
Hypotheses (hB : basis_for k Q B) (k0 : (0 < k)%N).
Notation N := (size (power_matrix B)).

Lemma sigma_main (M : 'M[C]_N) kk count zs W : hermitian M -> posdef M -> draw kk ps count = Ok zs -> points_on V ps m zs ->
  zs != [::] -> (forall z, z \in zs -> has_weight pi e Q z (W z)) ->
  exists Eta : seq C -> C,
  (forall z, z \in zs -> alg_eta D lg ex pi m V (HMat M) z (PArr ps) None None None = Ok (Eta z) /\ 0 < Eta z) /\
  let vol := avg W zs in let volk := avg (fun z => Eta z * W z) zs in
  exists sg, [/\ alg_sigma_accuracy D lg ex pi m V draw kk ps (HMat M) count = Ok sg,
    sg = avg (fun z => `|1 - Eta z * vol / volk| * W z) zs / vol, 0 <= sg < 2%:R,
    sg = 0 <-> exists c, forall z, z \in zs -> Eta z = c &
    forall c, 0 < c ->
      alg_sigma_accuracy D lg ex pi m V draw kk ps (HMat (c *: M)) count = Ok sg].
Proof.
move=> hM pM Ed H ne HW; exists (pe D lg ex pi m V ps M).
have E z : z \in zs -> pw z = W z by move=> zi; apply: pw_eq (HW z zi); exact: H.
have eo z (zi : z \in zs) := eta_ok hD lg ex hV hQ pi0 hS hB k0 hM pM (H z zi).
split; first by move=> z /eo[].
move=> vol volk; eexists; split; first exact: (sigma_code hD lg ex hV hQ pi0 hS hB k0 hM pM Ed H).
all: rewrite (_ : [seq pw z | z <- zs] = [seq W z | z <- zs]); last by apply/eq_in_map => z /E.
all: have W0 z : z \in zs -> 0 < W z by move=> zi; rewrite -E //; have [] := point_ok2 hD hV hQ pi0 hS (H z zi).
all: have e0 z : z \in zs -> 0 < pe D lg ex pi m V ps M z by move=> /eo[_ _ _ _ []].
all: have [F1 F2 F3] := sigma_avg ne e0 W0.
- exact: F1.
- exact: F2.
- exact: F3.
move=> c c0.
have hM' : hermitian (c *: M) by move=> a b; rewrite !mxE rmorphM (hM a b) (@conj_Creal _ c) // gtr0_real.
have pM' : posdef (c *: M) by move=> v /pM v0; rewrite hform_scale mulr_gt0.
have -> := sigma_code hD lg ex hV hQ pi0 hS hB k0 hM' pM' Ed H.
have -> : [seq pw z | z <- zs] = [seq W z | z <- zs] by apply/eq_in_map => z /E.
have -> // : [seq pe D lg ex pi m V ps (c *: M) z | z <- zs] = [seq pe D lg ex pi m V ps M z | z <- zs].
apply/eq_in_map => z /H zo; apply: (eta_scaled hD lg ex hV hQ pi0 hS hB k0 hM pM (gtr0_real c0) _ zo).
by rewrite gt_eqF.
Qed.

Lemma T_mean_eq (h : 'M[C]_N) vol W W' zs : (forall z, z \in zs -> W z = W' z) -> T_mean h vol W zs = T_mean h vol W' zs.
Proof. by move=> H; apply/matrixP => a b; rewrite !mxE; congr (_ * _); apply: avg_eq => z /H ->. Qed.

Lemma step_main (splitn : key -> nat -> seq key) (h : 'M[C]_N) vol kk batches bs zss W :
  rseq [seq draw k' ps bs | k' <- splitn kk batches] = Ok zss ->
  (forall zs, zs \in zss -> size zs = bs /\ points_on V ps m zs) ->
  (forall z, z \in flatten zss -> has_weight pi e Q z (W z)) -> hermitian h ->
  alg_donaldson_step D lg ex pi splitn m V draw true kk h ps vol batches bs =
    Ok (invmx (T_mean h vol W (flatten zss)))^T /\
  (posdef h -> 0 < vol ->
   (forall v : 'rV[C]_N, v != 0 -> exists2 z, z \in flatten zss & \sum_a v 0 a * hom_sections B z 0 a != 0) ->
   exists H', [/\ alg_donaldson_step D lg ex pi splitn m V draw true kk h ps vol batches bs = Ok H', hermitian H', posdef H',
     forall a c, \sum_b T_mean h vol W (flatten zss) a b * H' c b = (a == c)%:R &
     vol = avg W (flatten zss) -> \tr (h *m invmx H') = N%:R]).
Proof.
move=> Hd Hz HW hh.
have E z : z \in flatten zss -> pw z = W z by move=> zi; apply: pw_eq (HW z zi); exact: flat_on Hz zi.
rewrite -(T_mean_eq h vol E) -(avg_eq E); split.
  exact: (step_value hD lg ex hV hQ pi0 hS hB k0 Hd Hz).
move=> ph v0 sp; exact: (step_positive hD lg ex hV hQ pi0 hS hB k0 Hd Hz hh ph v0 sp).
Qed.
End Draw.
End Points.
