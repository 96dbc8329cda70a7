(** sigma_accuracy and donaldson_step on a smooth hypersurface. *)
From Coq Require Import ZArith Lia.
From mathcomp Require Import all_ssreflect all_algebra.
From mathcomp Require Import zify ssrZ ring.
From SsrMultinomials Require Import mpoly.
From Verif Require Import Base ModelUtil ModelProjective ModelDiff ModelExpr ModelPoly ModelHom ModelVariety ModelBasis ModelGeom ModelMC ModelDonaldson ModelAlg ModelPipe.
From Verif Require Import SpecPoly SpecHom SpecVariety SpecGeom SpecBasis SpecSections SpecPatch SpecAlg SpecDonaldson SpecPipe Herm Herm2.
From Verif Require Import Deriv Bridge PolyGrad ProofUtil ProofUtil2 ProofProjective ProofDiff ProofSections ProofVariety3 ProofPatch ProofGeom4 ProofRicci2.
From Verif Require Import ProofDonaldson ProofDonaldson2 ProofAlg ProofAlg2 ProofAlg6 ProofPipe ProofPipe2.
Delimit Scope Z_scope with Z.

Set Implicit Arguments.
Unset Strict Implicit.
Unset Printing Implicit Defensive.

Import GRing.Theory Num.Theory Order.POrderTheory.
Local Open Scope ring_scope.

(** scaling of h; used with objects of any kind *)
Section SigmaAvg.
Variable C : numClosedFieldType.
Variables (Ef Wf : seq C -> C) (zs : seq (seq C)).
Hypotheses (z0 : zs != [::]) (E0 : forall z, z \in zs -> 0 < Ef z) (W0 : forall z, z \in zs -> 0 < Wf z).

Let es := [seq Ef z | z <- zs].
Let ws := [seq Wf z | z <- zs].
Let sz : size es = size ws. Proof. by rewrite !size_map. Qed.
Let w0 : all (fun w => 0 <= w) ws. Proof. by apply/allP => w /mapP[z zi ->]; rewrite ltW // W0. Qed.
Let wpos : has (fun w => w != 0) ws.
Proof.
case E: zs z0 => [//|z s] _; apply/hasP; exists (Wf z); first by rewrite /ws E /= mem_head.
by rewrite gt_eqF // W0 // E mem_head.
Qed.

Lemma EW_pos : 0 < avg (fun z => Ef z * Wf z) zs.
Proof. by apply: avg_pos => // z zi; rewrite mulr_gt0 ?E0 ?W0. Qed.

Let K0 : mean [seq ew.1 * ew.2 | ew <- zip es ws] != 0.
Proof. by rewrite zip_maps -map_comp avg_mean gt_eqF // EW_pos. Qed.

Lemma sigma_avg : let vol := avg Wf zs in let volk := avg (fun z => Ef z * Wf z) zs in
  [/\ sigma_of es ws = avg (fun z => `|1 - Ef z * vol / volk| * Wf z) zs / vol,
      0 <= sigma_of es ws < 2%:R & sigma_of es ws = 0 <-> exists c, forall z, z \in zs -> Ef z = c].
Proof.
move=> vol volk; split.
- rewrite /sigma_of zip_maps -!map_comp !avg_mean.
  have -> : 'Re (avg Wf zs) = vol by apply/Creal_ReP/gtr0_real/avg_pos.
  by [].
- rewrite (sigma_ge0 sz w0 wpos K0) (sigma_lt2 sz w0 wpos K0) //.
  by apply/allP => y /mapP[z zi ->]; exact: E0.
have H := sigma_eq0 sz w0 wpos K0; split=> [/H[c Hc]|[c Hc]].
  exists c => z zi; apply: (Hc (Ef z) (Wf z)); last by rewrite gt_eqF // W0.
  by rewrite zip_maps; apply/mapP; exists z.
by apply/H; exists c => e w; rewrite zip_maps => /mapP[z zi [-> _]] _; exact: Hc.
Qed.
End SigmaAvg.

Section Points.
Variable C : numClosedFieldType.
Variable D : forall n : nat, ('rV[C]_n -> C) -> 'rV[C]_n -> 'rV[C]_n.
Hypothesis hD : diff_ok D.
Variables (lg ex : C -> C).
Variables (pi : C) (m e : nat) (V : variety C) (ps : seq C) (Q : {mpoly C[m.+2]}).
Hypotheses (hV : hypersurface V ps m e) (hQ : defined_by V ps Q) (pi0 : 0 < pi).
Hypothesis hS : smooth D V ps m.
Variables (k : nat) (B : basis).
Hypotheses (hB : basis_for k Q B) (k0 : (0 < k)%N).
Notation N := (size (power_matrix B)).
Notation pw := (pw D pi m V ps).
Notation on := (on m V ps).

Let HQ : Q \is e.-homog := V_homog hV hQ.
Let hC : basis_class C m.+1 k B := for_class HQ hB.

Definition gr (z : seq C) : seq C := res_or [::] (v_grad_defining D V (pt z).1 (PArr ps) (PatchInt C (Z.of_nat (pt z).2))).
Definition dp (z : seq C) : Z := res_or 0%Z (rmap Z.of_nat (argmax [seq `|x| | x <- gr z])).

Section Matrix.
Variable M : 'M[C]_N.
Hypotheses (HM : hermitian M) (pd : posdef M).

Definition pe (z : seq C) : C := res_or 0 (alg_eta D lg ex pi m V (HMat M) z (PArr ps) None None None).

Lemma eta_ok z : on z ->
  [/\ v_grad_defining D V (pt z).1 (PArr ps) (PatchInt C (Z.of_nat (pt z).2)) = Ok (gr z),
      rmap Z.of_nat (argmax [seq `|x| | x <- gr z]) = Ok (dp z),
      v_weights D pi m V (pt z).1 ps (Some (Z.of_nat (pt z).2)) (Some (dp z)) (Some 1) = Ok (pw z),
      alg_eta D lg ex pi m V (HMat M) (pt z).1 (PArr ps) (Some (Z.of_nat (pt z).2)) (Some (seq_row m.+1 (gr z))) (Some (dp z)) =
        Ok (pe z) &
      alg_eta D lg ex pi m V (HMat M) z (PArr ps) None None None = Ok (pe z) /\ 0 < pe z].
Proof.
move=> oz; have [x [i [d [zE [Qx xi le] E [gd Ed Eg] [w0 W1 W2]]]]] := point_data hD hV hQ pi0 hS oz.
have ptE : pt z = (row_seq (affr i x), val i) by rewrite /pt E.
have grE : gr z = row_seq (pgrad (dehom i Q) (affr i x)) by rewrite /gr ptE Eg.
have dpE : dp z = Z.of_nat d by rewrite /dp grE Ed.
have pwE : pw z = patch_weight e Q (pi ^+ m / m`!%:R) x i by rewrite /pw ptE W1.
have gz : peval ((dehom i Q)^`M(d)) (affr i x) != 0 by move: gd; rewrite mxE.
have Qi : peval (dehom i Q) (affr i x) = 0 by rewrite (dehom_aff HQ xi) Qx mulr0.
have EO : exists2 y, ob_eta pi (on_patch k M Q i d (affr i x)) = Ok y & 0 < y.
  case: hB => [EB|[P0 occ EB]].
    by have [_ _ /(_ gz)[g [_ _ H]]] := full_positive i EB k0 HM pd pi0 (dehom i Q) d (affr i x).
  by have [_ [g [_ _ H]]] := reduced_positive P0 HQ occ EB k0 HM pd pi0 Qi gz.
have ne : power_matrix B <> [::].
  have [p0 _] := for_positive HQ hB k0 pi0 HM pd Qi gz.
  move=> EB; move: p0; rewrite /ob_psi /psi /= big1 ?ltxx // => s.
  by exfalso; move: (ltn_ord s); move: (val s) => q; rewrite EB.
have [y Ey y0] := EO.
have O1 := objects_gen hD lg ex hV hQ hC ne M (erefl : choose_dependent _ (Some (Z.of_nat d)) = _) (or_intror erefl) gz.
have Ed' : choose_dependent (row_seq (pgrad (dehom i Q) (affr i x))) None = Ok (Z.of_nat d) by [].
have O2 := objects_gen hD lg ex hV hQ hC ne M Ed' (or_introl erefl) gz.
have A : alg_eta D lg ex pi m V (HMat M) z (PArr ps) None None None = Ok y.
  have -> : alg_eta D lg ex pi m V (HMat M) z (PArr ps) None None None =
     alg_eta D lg ex pi m V (HMat M) (row_seq (affr i x)) (PArr ps) (Some (Z.of_nat i)) None None.
    by have [_ _ -> _ _] := @explicit_functions C D lg ex pi m V B (HMat M) (PArr ps) None None _ _ _ E.
  by rewrite /alg_eta O2.
have peE : pe z = y by rewrite /pe A.
rewrite peE pwE dpE grE ptE; split=> //.
by rewrite row_seqK /alg_eta O1.
Qed.

Variable key : Type.
Variable draw : key -> seq C -> nat -> res (seq (seq C)).

Lemma sigma_code kk count zs : draw kk ps count = Ok zs -> points_on V ps m zs ->
  alg_sigma_accuracy D lg ex pi m V draw kk ps (HMat M) count = Ok (sigma_of [seq pe z | z <- zs] [seq pw z | z <- zs]).
Proof.
move=> Ed H; rewrite /alg_sigma_accuracy.
have [_ -> _ _] := sample_forms hD hV hQ pi0 hS Ed H; cbn [rbind].
rewrite -map_comp (@rseq_map_in _ _ _ gr) => [|z /H/eta_ok[]//]; cbn [rbind].
rewrite -map_comp (@rseq_map_in _ _ _ dp) => [|z /H/eta_ok[]//]; cbn [rbind].
rewrite !zip_maps -map_comp (@rseq_map_in _ _ _ pw) => [|z /H/eta_ok[]//]; cbn [rbind].
by rewrite -map_comp (@rseq_map_in _ _ _ pe) => [|z /H/eta_ok[]//].
Qed.
End Matrix.

Lemma eta_scaled (M : 'M[C]_N) c z : hermitian M -> posdef M -> c \is Num.real -> c != 0 -> on z -> pe (c *: M) z = pe M z.
Proof.
move=> HM pd cr c0 oz; have [x [i [d [zE [Qx xi le] E [gd Ed Eg] [w0 W1 W2]]]]] := point_data hD hV hQ pi0 hS oz.
have gz : peval ((dehom i Q)^`M(d)) (affr i x) != 0 by move: gd; rewrite mxE.
have Qi : peval (dehom i Q) (affr i x) = 0 by rewrite (dehom_aff HQ xi) Qx mulr0.
have [p0 _] := for_positive HQ hB k0 pi0 HM pd Qi gz.
have ne : power_matrix B <> [::].
  move=> EB; move: p0; rewrite /ob_psi /psi /= big1 ?ltxx // => s.
  by exfalso; move: (ltn_ord s); move: (val s) => q; rewrite EB.
have Ed' : choose_dependent (row_seq (pgrad (dehom i Q) (affr i x))) None = Ok (Z.of_nat d) by [].
have A (M' : 'M[C]_N) : alg_eta D lg ex pi m V (HMat M') z (PArr ps) None None None = ob_eta pi (on_patch k M' Q i d (affr i x)).
  have -> : alg_eta D lg ex pi m V (HMat M') z (PArr ps) None None None =
     alg_eta D lg ex pi m V (HMat M') (row_seq (affr i x)) (PArr ps) (Some (Z.of_nat i)) None None.
    by have [_ _ -> _ _] := @explicit_functions C D lg ex pi m V B (HMat M') (PArr ps) None None _ _ _ E.
  by rewrite /alg_eta (objects_gen hD lg ex hV hQ hC ne M' Ed' (or_introl erefl) gz).
rewrite /pe !A; congr (res_or 0 _).
have cc : c^* = c by exact: conj_Creal.
exact: (@eta_scale C N m pi c c0 (on_patch k M Q i d (affr i x)) (lt0r_neq0 p0) cc).
Qed.

(** the sections at a point *)
Definition psec (z : seq C) : 'rV[C]_N := seq_row N (res_or [::] (basis_call lg ex B (pt z).1 (Some (Z.of_nat (pt z).2)) true)).

Lemma sections_ok z : on z ->
  basis_call lg ex B (pt z).1 (Some (Z.of_nat (pt z).2)) true = Ok (row_seq (psec z)) /\
  psec z = ((nth 0 z (pt z).2)^-1) ^+ k *: hom_sections B z /\ nth 0 z (pt z).2 != 0 /\ hom_sections B z != 0.
Proof.
move=> oz; have [x [i [d [zE [Qx xi le] E [gd Ed Eg] [w0 W1 W2]]]]] := point_data hD hV hQ pi0 hS oz.
have ptE : pt z = (row_seq (affr i x), val i) by rewrite /pt E.
have gz : peval ((dehom i Q)^`M(d)) (affr i x) != 0 by move: gd; rewrite mxE.
have Qi : peval (dehom i Q) (affr i x) = 0 by rewrite (dehom_aff HQ xi) Qx mulr0.
have h1 := @herm1 C N; have p1 := @pd1 C N.
have [p0 _] := for_positive HQ hB k0 pi0 h1 p1 Qi gz.
have ne : power_matrix B <> [::].
  move=> EB; move: p0; rewrite /ob_psi /psi /= big1 ?ltxx // => s.
  by exfalso; move: (ltn_ord s); move: (val s) => q; rewrite EB.
have S : basis_call lg ex B (pt z).1 (Some (Z.of_nat (pt z).2)) true =
    Ok [seq peval (section_polys C i s) (affr i x) | s <- enum 'I_N].
  by rewrite ptE; exact: (sections_code lg ex hC ne i (affr i x)).
have xz : nth 0 z i = x 0 i by rewrite zE nth_row_seq.
have psE : psec z = \row_(s < N) peval (section_polys C i s) (affr i x).
  rewrite /psec S.
  by apply/rowP => s; rewrite !mxE (nth_map s) ?size_enum_ord // nth_ord_enum.
have hsE : psec z = ((nth 0 z i)^-1) ^+ k *: hom_sections B z.
  rewrite psE; apply/rowP => s; rewrite [LHS]mxE [RHS]mxE /section_polys (dehom_aff (class_homog hC s) xi) xz.
  congr (_ * _); rewrite mxE zE size_row_seq /mono /peval mevalX; apply: eq_bigr => j _.
  by rewrite mnmE nth_row_seq.
rewrite S ptE; split.
  congr Ok.
  apply: (@eq_from_nth _ 0) => [|j]; rewrite size_map size_enum_ord ?size_row_seq // => jn.
  by rewrite (nth_map (Ordinal jn)) ?size_enum_ord // (nth_row_seq _ (Ordinal jn)) psE mxE -[j]/(val (Ordinal jn)) nth_ord_enum.
split=> //; split; first by rewrite xz.
apply: contraTneq p0 => h0; rewrite (psiE (M := 1%:M)) //; have -> : \row_a o_s (@on_patch C m k B 1%:M Q i d (affr i x)) a = 0.
  transitivity (psec z); last by rewrite hsE h0 scaler0.
  by rewrite psE; apply/rowP => s; rewrite !mxE.
by rewrite hformE mul0mx mul0mx mxE ltxx.
Qed.

Lemma step_pointwise (h : 'M[C]_N) vol B0 (zss : seq (seq (seq C))) (s : seq C -> 'rV[C]_N) (l w : seq C -> C) :
  (forall zs, zs \in zss -> size zs = B0) -> (forall z, z \in flatten zss -> l z != 0) ->
  donaldson_step true h vol [seq [seq (l z *: s z, Some (w z)) | z <- zs] | zs <- zss] =
  donaldson_step true h vol [seq [seq (s z, Some (w z)) | z <- zs] | zs <- zss].
Proof.
move=> Hs l0; rewrite /donaldson_step /=; congr (Ok (invmx _)^T).
have A (f : seq C -> sample C N) : all (fun b => size b == B0) [seq [seq f z | z <- zs] | zs <- zss].
  by apply/allP => b /mapP[zs /Hs <- ->]; rewrite size_map.
have F (f : seq C -> sample C N) : flatten [seq [seq f z | z <- zs] | zs <- zss] = [seq f z | z <- flatten zss].
  by rewrite map_flatten.
rewrite (T_operatorE _ _ (A (fun z => (l z *: s z, Some (w z))))) (T_operatorE _ _ (A (fun z => (s z, Some (w z))))).
rewrite (F (fun z => (l z *: s z, Some (w z)))) (F (fun z => (s z, Some (w z)))) !size_map !big_map; congr (_ *: _).
rewrite big_seq [RHS]big_seq; apply: eq_bigr => z /l0 lz; rewrite /weight /=.
have l2 : `|l z| ^+ 2 != 0 by rewrite expf_eq0 normr_eq0.
have -> : den h (l z *: s z) = `|l z| ^+ 2 * den h (s z).
  rewrite !den_hform_Re -ReMl ?rpredX ?normr_real //; congr ('Re _).
  rewrite !hformE -!scalemxAl adjm_scale -scalemxAr scalerA mxE; congr (_ * _).
  by rewrite normCK.
have -> : outer (l z *: s z) = `|l z| ^+ 2 *: outer (s z).
  by apply/matrixP => a b; rewrite outerE [RHS]mxE outerE ![(_ *: s z) _ _]mxE normCK !cjE mulrACA.
rewrite scalerA; congr (_ *: _); rewrite invfM; set d := (den _ _)^-1.
by rewrite [_^-1 * d]mulrC [_ * (d / _)]mulrA divfK.
Qed.

Lemma rseq_chain (T X : Type) (Y : eqType) (f : T -> res Y) (g : T -> res X) (hh : Y -> X) s ys : rseq (map f s) = Ok ys ->
  (forall x y, f x = Ok y -> y \in ys -> g x = Ok (hh y)) -> rseq (map g s) = Ok (map hh ys).
Proof.
elim: s ys => [|x s IH] ys /=; first by case=> <-.
case E: (f x) => [y|//] /=; case E2: rseq => [ys'|//] /= [<-] H.
rewrite (H x y E) ?mem_head //= (IH ys' E2) // => x' y' E' yi; apply: H => //.
by rewrite inE yi orbT.
Qed.

Section Step.
Variable key : Type.
Variable draw : key -> seq C -> nat -> res (seq (seq C)).
Variable splitn : key -> nat -> seq key.
Variables (kk : key) (batches bs : nat) (zss : seq (seq (seq C))).
Hypothesis Hd : rseq [seq draw k' ps bs | k' <- splitn kk batches] = Ok zss.
Hypothesis Hz : forall zs, zs \in zss -> size zs = bs /\ points_on V ps m zs.

Definition hom_points := [seq [seq (hom_sections B z, Some (pw z)) | z <- zs] | zs <- zss].

Lemma step_code (h : 'M[C]_N) vol :
  alg_donaldson_step D lg ex pi splitn m V draw true kk h ps vol batches bs = donaldson_step true h vol hom_points.
Proof.
rewrite /alg_donaldson_step.
have P zs : zs \in zss -> forall k', draw k' ps bs = Ok zs -> step_points D lg ex pi m V draw B ps bs k' =
    Ok [seq (psec z, Some (pw z)) | z <- zs].
  move=> /Hz[_ H] k' E; rewrite /step_points; have [_ _ _ ->] := sample_forms hD hV hQ pi0 hS E H; cbn [rbind].
  rewrite zip_maps -map_comp; apply: rseq_map_in => z /H/sections_ok[S _].
  by rewrite /comp S /= row_seqK.
rewrite (rseq_chain Hd (fun x y E yi => P y yi x E)); cbn [rbind].
have mem z : z \in flatten zss -> on z by move=> /flattenP[zs zi zz]; have [_ /(_ z zz)] := Hz zi.
have l0 z : z \in flatten zss -> ((nth 0 z (pt z).2)^-1) ^+ k != 0.
  by move=> /mem/sections_ok[_ [_ [n0 _]]]; rewrite expf_neq0 // invr_neq0.
rewrite -(step_pointwise h vol (hom_sections B) pw (fun zs zi => (Hz zi).1) l0); congr (donaldson_step _ _ _ _).
apply/eq_in_map => zs /Hz[_ H]; apply/eq_in_map => z /H/sections_ok[_ [-> _]] //.
Qed.

Lemma flat_points : flatten hom_points = [seq (hom_sections B z, Some (pw z)) | z <- flatten zss].
Proof. by rewrite /hom_points map_flatten. Qed.

Lemma T_meanE (h : 'M[C]_N) vol : T_of h vol (flatten hom_points) = T_mean h vol pw (flatten zss).
Proof.
by apply/matrixP => a b; rewrite !mxE flat_points size_map big_map.
Qed.

Lemma equal_points : equal_batches hom_points.
Proof. by exists bs => b /mapP[zs /Hz[<- _] ->]; rewrite size_map. Qed.

Lemma step_value (h : 'M[C]_N) vol : hermitian h ->
  alg_donaldson_step D lg ex pi splitn m V draw true kk h ps vol batches bs = Ok (invmx (T_mean h vol pw (flatten zss)))^T.
Proof.
move=> hh; rewrite step_code /donaldson_step /=; congr (Ok (invmx _)^T).
by rewrite T_ofE ?T_meanE //; exact: equal_points.
Qed.

Let mem z : z \in flatten zss -> on z.
Proof. by move=> /flattenP[zs zi zz]; have [_ /(_ z zz)] := Hz zi. Qed.

Lemma step_positive (h : 'M[C]_N) vol : hermitian h -> posdef h -> 0 < vol ->
  (forall v : 'rV[C]_N, v != 0 -> exists2 z, z \in flatten zss & \sum_a v 0 a * hom_sections B z 0 a != 0) ->
  exists H', [/\ alg_donaldson_step D lg ex pi splitn m V draw true kk h ps vol batches bs = Ok H', hermitian H', posdef H',
    forall a c, \sum_b T_mean h vol pw (flatten zss) a b * H' c b = (a == c)%:R &
    vol = avg pw (flatten zss) -> \tr (h *m invmx H') = N%:R].
Proof.
move=> hh ph v0 sp.
have wp p : p \in flatten hom_points -> 0 <= weight p /\ p.1 != 0.
  rewrite flat_points => /mapP[z zi ->] /=.
  have [_ _ _ w0] := point_ok2 hD hV hQ pi0 hS (mem zi); have [_ [_ [_ s0]]] := sections_ok (mem zi).
  by split=> //; exact: ltW.
have sp' : spanning (flatten hom_points).
  move=> v /sp[z zi nz]; exists (hom_sections B z, Some (pw z)); first by rewrite flat_points; apply/mapP; exists z.
  by split=> //; have [_ _ _ w0] := point_ok2 hD hV hQ pi0 hS (mem zi).
have [H' [E hH' pH']] := step_posdef hh ph equal_points v0 wp sp'.
have Tu : T_of h vol (flatten hom_points) \in unitmx.
  have E' := E; move: E'; rewrite /donaldson_step /= T_ofE //; last exact: equal_points.
  by move=> [EH]; have := posdef_unit pH'; rewrite -EH unitmx_tr unitmx_inv.
exists H'; rewrite step_code; split=> //.
  move=> a c; have [H2 E2 I] := step_inverse hh equal_points Tu.
  by move: E2; rewrite E => -[E2]; subst H2; rewrite -T_meanE; exact: I.
move=> volE; have d0 p : p \in flatten hom_points -> hform h p.1 != 0.
  by move=> /wp[_ s0]; rewrite gt_eqF // ph.
rewrite (step_trace hh equal_points Tu d0 E) flat_points size_map big_map /=.
by rewrite -/(avg pw (flatten zss)) -volE divfK // gt_eqF.
Qed.
End Step.
End Points.
