(** Repeated Donaldson steps: two balanced metrics of one sample, the logarithm
    of the complex numbers, points of a hypersurface. *)
From Coq Require Import ZArith Lia Reals Lra.
From mathcomp Require Import all_ssreflect all_algebra.
From mathcomp Require Import complex.
From mathcomp Require Import zify ssrZ ring.
From SsrMultinomials Require Import mpoly.
From Verif Require Import Base ModelUtil ModelProjective ModelDiff ModelExpr ModelPoly ModelHom ModelVariety ModelBasis ModelGeom ModelMC ModelDonaldson ModelAlg ModelPipe.
From Verif Require Import SpecPoly SpecHom SpecVariety SpecGeom SpecBasis SpecSections SpecPatch SpecAlg SpecDonaldson SpecPipe SpecStep Herm Herm2.
From Verif Require Import Deriv Bridge PolyGrad RealField ComplexR SpecComplex ProofComplex ProofSections ProofPatch ProofDonaldson2 ProofDonaldson3
  ProofAlg ProofAlg2 ProofAlg6 ProofPipe ProofPipe2 ProofPipe3 ProofPipe5 ProofPipe7 ProofPipe8 ProofStep.
Delimit Scope Z_scope with Z.

Set Implicit Arguments.
Unset Strict Implicit.
Unset Printing Implicit Defensive.

Import GRing.Theory Num.Theory Order.POrderTheory.
Local Open Scope ring_scope.
Delimit Scope R_scope with RR.

Section Two.
Variable C : numClosedFieldType.
Let n2 : (2%:R : C) != 0. Proof. exact: nat_neq0. Qed.

Lemma two_good : good_sample 1 (two_batches C).
Proof.
have [eb sp wp _] := step_ex2 C; split=> //; first exact: ltr01.
by rewrite /= !big_cons big_nil /weight /=; field.
Qed.

Lemma two_balanced (a b : C) : 0 < a -> 0 < b -> balanced 1 (two_batches C) (mx2 a 0 0 b).
Proof.
move=> a0 b0; have hh : hermitian (mx2 a 0 0 b).
  by apply: herm_mx2; rewrite ?conjC0 //; apply/conj_Creal/gtr0_real.
split=> //.
  move=> v v0; rewrite hform_mx2 !mulr0 !mul0r addr0 add0r.
  have -> : v 0 0 * a * (v 0 0)^* + v 0 1 * b * (v 0 1)^* = a * `|v 0 0| ^+ 2 + b * `|v 0 1| ^+ 2.
    by rewrite !normCK; ring.
  have p (x : C) k' : 0 < x -> 0 <= x * `|v 0 k'| ^+ 2 by move=> x0; rewrite mulr_ge0 ?exprn_ge0 // ltW.
  have [k vk] : exists k, v 0 k != 0 by apply/rV0Pn.
  case: (ord2E k) vk => -> vk; [apply: ltr_spaddl|apply: ltr_spaddr]; try exact: p.
    by rewrite mulr_gt0 // exprn_gt0 // normr_gt0.
  by rewrite mulr_gt0 // exprn_gt0 // normr_gt0.
have an := lt0r_neq0 a0; have bn := lt0r_neq0 b0.
rewrite /donaldson_step /= T_ofE //; last by case: two_good.
suff E : T_of (mx2 a 0 0 b) 1 (flatten (two_batches C)) = mx2 a^-1 0 0 b^-1.
  rewrite E (@inv_mx2 _ _ (mx2 a 0 0 b)) ?tr_mx2 // mx2M one_mx2; congr mx2; field; by rewrite ?an ?bn.
by apply: mx2_eq; rewrite !mxE /= !big_cons big_nil /weight /= !hform_mx2 !mxE /= ?conjC1 ?conjC0; field; rewrite ?an ?bn.
Qed.

Lemma two_not_multiple : ~ exists a : C, mx2 1 0 0 4%:R = a *: mx2 1 0 0 1 :> 'M[C]_2.
Proof.
move=> [a /matrixP E]; have e0 := E 0 0; have := E 1 1; rewrite !mxE /= !mulr1 in e0 * => e1.
have /eqP : 4%:R = 1%:R :> C by rewrite e1 -e0.
by rewrite eqr_nat.
Qed.

Lemma two_metrics : exists (bs : seq (seq (sample C 2))) (g h : 'M[C]_2),
  [/\ good_sample 1 bs, balanced 1 bs g, balanced 1 bs h & ~ exists a, h = a *: g].
Proof.
exists (two_batches C), (mx2 1 0 0 1), (mx2 1 0 0 4%:R); split; [exact: two_good| | |exact: two_not_multiple].
  by apply: two_balanced; exact: ltr01.
by apply: two_balanced; [exact: ltr01|exact: ltr0Sn].
Qed.
End Two.

(** the logarithm *)
Lemma clog_log_like : log_like clog.
Proof.
split=> [x /pos_rc[r r0 ->]|x y /pos_rc[r r0 ->] /pos_rc[s s0 ->]].
  rewrite clog_rc // -rc1 -rcN -rcD; apply/rc_le.
  have := exp_ineq1_le (ln r); rewrite exp_ln //; lra.
rewrite -rcV; last by lra.
have s1 : Rlt 0 (Rinv s) by apply: Rinv_0_lt_compat.
rewrite -rcM !clog_rc //; last by nra.
by rewrite ln_mult // ln_Rinv // rcD rcN.
Qed.

(** points of a hypersurface *)
Section Points.
Variable C : numClosedFieldType.
Variable D : forall n : nat, ('rV[C]_n -> C) -> 'rV[C]_n -> 'rV[C]_n.
Hypothesis hD : diff_ok D.
Variables (lg ex : C -> C).
Variables (pi : C) (m e : nat) (V : variety C) (ps : seq C) (Q : {mpoly C[m.+2]}).
Hypotheses (hV : hypersurface V ps m e) (hQ : defined_by V ps Q) (pi0 : 0 < pi).
Hypothesis hS : smooth D V ps m.
Variable key : Type.
Variable draw : key -> seq C -> nat -> res (seq (seq C)).
Variables (k : nat) (B : basis).
Hypotheses (hB : basis_for k Q B) (k0 : (0 < k)%N).
Notation N := (size (power_matrix B)).

Lemma sampled_step (splitn : key -> nat -> seq key) kk batches bs zss W :
  rseq [seq draw k' ps bs | k' <- splitn kk batches] = Ok zss ->
  (forall zs, zs \in zss -> size zs = bs /\ points_on V ps m zs) ->
  (forall z, z \in flatten zss -> has_weight pi e Q z (W z)) ->
  (forall v : 'rV[C]_N, v != 0 -> exists2 z, z \in flatten zss & \sum_a v 0 a * hom_sections B z 0 a != 0) ->
  zss != [::] -> (0 < bs)%N ->
  let pts := [seq [seq (hom_sections B z, Some (W z)) | z <- zs] | zs <- zss] in let vol := avg W (flatten zss) in
  good_sample vol pts /\
  forall h : 'M[C]_N, alg_donaldson_step D lg ex pi splitn m V draw true kk h ps vol batches bs = donaldson_step true h vol pts.
Proof.
move=> Hd Hz HW sp ne bs0 pts vol.
have mem z : z \in flatten zss -> on m V ps z by move=> zi; exact: flat_on Hz zi.
have E z : z \in flatten zss -> pw D pi m V ps z = W z.
  by move=> zi; apply: (pw_eq hD hV hQ pi0 hS) (HW z zi); exact: mem.
have pE : hom_points D pi m V ps B zss = pts.
  apply/eq_in_map => zs zi; apply/eq_in_map => z zz; rewrite E //.
  by apply/flattenP; exists zs.
have W0 z : z \in flatten zss -> 0 < W z.
  by move=> zi; rewrite -E //; have [] := point_ok2 hD hV hQ pi0 hS (mem z zi).
have fl : flatten pts = [seq (hom_sections B z, Some (W z)) | z <- flatten zss] by rewrite /pts map_flatten.
have fne : flatten zss != [::].
  case: zss ne Hz {Hd HW sp pts vol mem E pE W0 fl} => [//|zs zss] _ Hz; have [s _] := Hz zs (mem_head _ _).
  by case: zs s {Hz} bs0 => [<-|].
split; last first.
  by move=> h; rewrite -pE; exact: (step_code hD lg ex hV hQ pi0 hS hB k0 Hd Hz).
split.
- by exists bs => b /mapP[zs /Hz[<- _] ->]; rewrite size_map.
- exact: avg_pos.
- move=> v /sp[z zi nz]; exists (hom_sections B z, Some (W z)); first by rewrite fl; apply/mapP; exists z.
  by split=> //; exact: W0.
- move=> p; rewrite fl => /mapP[z zi ->] /=; split; first by rewrite ltW // W0.
  by have [_ [_ [_ s0]]] := sections_ok hD lg ex hV hQ pi0 hS hB k0 (mem z zi).
- by rewrite fl size_map big_map.
Qed.

Lemma sampled_det (splitn : key -> nat -> seq key) kk batches bs zss W :
  rseq [seq draw k' ps bs | k' <- splitn kk batches] = Ok zss ->
  (forall zs, zs \in zss -> size zs = bs /\ points_on V ps m zs) ->
  (forall z, z \in flatten zss -> has_weight pi e Q z (W z)) ->
  (forall v : 'rV[C]_N, v != 0 -> exists2 z, z \in flatten zss & \sum_a v 0 a * hom_sections B z 0 a != 0) ->
  zss != [::] -> (0 < bs)%N ->
  forall hs : nat -> 'M[C]_N, hermitian (hs 0%N) -> posdef (hs 0%N) ->
  (forall j, alg_donaldson_step D lg ex pi splitn m V draw true kk (hs j) ps (avg W (flatten zss)) batches bs = Ok (hs j.+1)) ->
  (forall j k, (j <= k)%N -> \det (hs j) <= \det (hs k)) /\
  (forall j k, (j < k)%N -> hs j = hs k -> forall l, (j <= l)%N -> hs l = hs j).
Proof.
move=> Hd Hz HW sp ne bs0 hs hh ph E; have [g St] := sampled_step Hd Hz HW sp ne bs0.
have It : iterates (avg W (flatten zss)) [seq [seq (hom_sections B z, Some (W z)) | z <- zs] | zs <- zss] hs.
  by move=> j; rewrite -St.
by have [_ []] := good_cycle g hh ph It.
Qed.
End Points.

(** Two points of the projective line *)
Section Pair.
Variable C : numClosedFieldType.
Definition pair_points : seq (seq C) := [:: [:: 1; 'i]; [:: 1; - 'i]].
Definition pair_basis : basis := MkBasis 1 [:: [:: 1; 0]; [:: 0; 1]]%N.

Lemma pair_setting (D : forall n : nat, ('rV[C]_n -> C) -> 'rV[C]_n -> 'rV[C]_n) : diff_ok D ->
  [/\ [/\ hypersurface (fermat_variety C 0) [::] 0 2, @defined_by C (fermat_variety C 0) [::] 0 (dwork_Q 0 0) &
          smooth D (fermat_variety C 0) [::] 0],
      basis_for 1 (dwork_Q 0 (0 : C)) pair_basis,
      points_on (fermat_variety C 0) [::] 0 pair_points,
      forall pi, 0 < pi -> exists W : seq C -> C, forall z, z \in pair_points -> has_weight pi 2 (dwork_Q 0 0) z (W z) &
      forall v : 'rV[C]_2, v != 0 -> exists2 z, z \in pair_points & \sum_a v 0 a * hom_sections pair_basis z 0 a != 0].
Proof.
move=> hD; have H1 : hypersurface (fermat_variety C 0) [::] 0 2 by exact: fermat_hyp.
have H2 : @defined_by C (fermat_variety C 0) [::] 0 (dwork_Q 0 0) by exact: fermat_defined.
have H3 : smooth D (fermat_variety C 0) [::] 0 by exact: fermat_smooth.
have on : points_on (fermat_variety C 0) [::] 0 pair_points.
  have one (a : C) : a ^+ 2 = - 1 -> exists x : 'rV[C]_2,
      [/\ [:: 1; a] = row_seq x, x != 0 & v_defining (fermat_variety C 0) [:: 1; a] (PArr [::]) (PatchNone C) = Ok 0].
    move=> aE; exists (\row_(i < 2) nth 0 [:: 1; a] i); split.
    - by apply: row_seq_eq => // i; rewrite mxE.
    - by apply/eqP => /rowP/(_ 0); rewrite !mxE /= => /eqP; rewrite oner_eq0.
    by rewrite /= /fermat_call /= !big_cons big_nil aE expr1n addr0 subrr.
  by move=> z; rewrite !inE => /orP[] /eqP ->; apply: one; rewrite ?sqrrN sqrCi.
split=> //; first by left.
  by move=> pi pi0; have [W HW] := weights_exist hD H1 H2 pi0 H3 on; exists W => z /HW[].
move=> v v0; have hs a : \sum_k v 0 k * hom_sections pair_basis [:: 1; a] 0 k = v 0 0 + v 0 1 * a.
  by rewrite sum2 !mxE !big_ord_recl !big_ord0 /= !expr0 !expr1 !mulr1 mul1r.
have [z0|nz] := eqVneq (v 0 0 + v 0 1 * 'i) 0; last by exists [:: 1; 'i]; rewrite ?inE ?eqxx // hs.
exists [:: 1; - 'i]; first by rewrite !inE eqxx orbT.
rewrite hs; apply: contra_neq v0 => z1.
have e0 : v 0 0 = 0.
  have : v 0 0 * 2%:R = 0 by rewrite -[RHS](addr0 0) -{1}z0 -z1; ring.
  by move/eqP; rewrite mulf_eq0 pnatr_eq0 orbF => /eqP.
apply/rowP => k; rewrite mxE; case: (ord2E k) => -> //.
by move: z0; rewrite e0 add0r => /eqP; rewrite mulf_eq0 (negPf (neq0Ci C)) orbF => /eqP.
Qed.
End Pair.
