(** The full and the reduced basis give the same metrics on a hypersurface. *)
From Coq Require Import ZArith Lia Reals.
From mathcomp Require Import all_ssreflect all_algebra.
From mathcomp Require Import zify ssrZ ring complex.
From SsrMultinomials Require Import mpoly.
From Verif Require Import Base ModelUtil ModelProjective SpecMon ModelExpr ModelPoly ModelHom ModelBasis ModelGeom ModelVariety ModelDiff ModelAlg ModelPipe ProofUtil ProofProjective
  Bridge Deriv Herm ProofDiff ProofFS SpecGeom SpecBasis SpecSections SpecPatch SpecAlg SpecPipe SpecEta SpecReduce PolyGrad ProofBasis2 ProofBasis3 ProofSections ProofPatch
  ProofRicci2 ProofAlg ProofAlg2 ProofAlg6 ProofPipe5 ProofPipe7 RealField ComplexR ProofEta5 ProofReduce.
Delimit Scope Z_scope with Z.

Set Implicit Arguments.
Unset Strict Implicit.
Unset Printing Implicit Defensive.

Import GRing.Theory Num.Theory Order.POrderTheory.
Local Open Scope ring_scope.

(** Every Hermitian positive definite matrix on the smaller space is induced from one on the larger. *)
Lemma induced_from (C : numClosedFieldType) N N' (T : 'M[C]_(N, N')) (h' : 'M[C]_N) :
  (forall v : 'rV_N, v *m T = 0 -> v = 0) -> hermitian h' -> posdef h' ->
  exists h : 'M[C]_N', [/\ hermitian h, posdef h & T *m h *m adjm T = h'].
Proof.
move=> inj hh ph; have TX := mulmxVp (inj_row_free inj); move: (pinvmx T) TX => X TX.
pose Q := 1%:M - X *m T.
have TQ : T *m Q = 0 by rewrite mulmxBr mulmx1 mulmxA TX mul1mx subrr.
exists (X *m h' *m adjm X + Q *m adjm Q); split.
- apply/hermitianP; rewrite adjm_add !adjm_mul !adjmK mulmxA; congr (_ + _).
  by move/hermitianP: hh => ->.
- have ge0 n (A : 'M[C]_n) w : posdef A -> 0 <= hform A w.
    move=> pA; have [->|w0] := eqVneq w 0; last exact/ltW/pA.
    by rewrite hformE !mul0mx mxE.
  move=> v v0; have -> : hform (X *m h' *m adjm X + Q *m adjm Q) v = hform h' (v *m X) + hform 1%:M (v *m Q).
    by rewrite !hformE mulmx1 mulmxDr mulmxDl mxE !adjm_mul !mulmxA.
  have [z1|nz] := eqVneq (v *m X) 0; last by rewrite ltr_paddr ?ge0 ?ph //; exact: pd1.
  rewrite ltr_paddl ?ge0 //; apply: pd1; apply: contra_neq v0 => z2.
  by move: z2; rewrite mulmxBr mulmx1 mulmxA z1 mul0mx subr0.
have XT : adjm X *m adjm T = 1%:M by rewrite -adjm_mul TX adjm1.
rewrite mulmxDr mulmxDl !mulmxA.
by rewrite TX mul1mx TQ !mul0mx addr0 -[h' *m _ *m _]mulmxA XT mulmx1.
Qed.

Section Alg.
Variable C : numClosedFieldType.
Variable D : forall n : nat, ('rV[C]_n -> C) -> 'rV[C]_n -> 'rV[C]_n.
Hypothesis hD : diff_ok D.
Variables (lg ex : C -> C) (pi : C) (m e : nat).
Variables (V : variety C) (ps : seq C) (Q : {mpoly C[m.+2]}).
Hypotheses (hV : hypersurface V ps m e) (hQ : defined_by V ps Q).
Variables (k : nat).
Hypotheses (k0 : (0 < k)%N) (pi0 : 0 < pi).
Variables (x : 'rV[C]_m.+2) (zs : seq C) (patch dep : option Z).
Hypothesis ha : point_args D V ps x zs patch dep.
Let HQ : Q \is e.-homog := V_homog hV hQ.

(** The objects at a point, for every basis and h *)
Lemma args_point : exists (i : 'I_m.+2) (d : 'I_m.+1) (z : 'rV[C]_m.+1),
  [/\ peval (dehom i Q) z = 0, peval ((dehom i Q)^`M(d)) z != 0 &
  forall B (M : 'M[C]_(size (power_matrix B))), basis_for k Q B -> hermitian M -> posdef M ->
  alg_objects D lg ex m V (HMat M) zs (PArr ps) patch None dep = Ok (on_patch k M Q i d z, Z.of_nat i) /\
  alg_kahler lg ex pi m V (HMat M) zs patch = Ok (ob_kahler lg pi (on_patch k M Q i d z))].
Proof.
have [i [d [a [g [sm Hc]]]]] := ha; have [hx xi hA hg gd] := sm.
have Qx : peval Q x = 0 by move: hx; rewrite hQ => -[].
have Qa j : x 0 j != 0 -> peval (dehom j Q) (affr j x) = 0 by move=> xj; rewrite (dehom_aff HQ xj) Qx mulr0.
have aE : a = row_seq (affr i x) by move: hA; rewrite hom_to_affine_seq => -[<-].
have gz : peval ((dehom i Q)^`M(d)) (affr i x) != 0.
  by move: gd; move: hg; rewrite aE (grad_code hD hV hQ) => -[<-]; rewrite nth_row_seq mxE.
case: Hc => [[-> [-> ->]]|[-> [-> ->]]].
  exists i, d, (affr i x); split; [exact: Qa|by []|] => B M hB hM pM.
  have hC : basis_class C m.+1 k B := for_class HQ hB.
  have ne := B_ne hD hV hQ hB k0 pi0 hM pM hx xi hA hg gd.
  split; first by rewrite aE (objects_gen hD lg ex hV hQ hC ne M (d := d)) //; left.
  by rewrite aE; apply: (kahler_code hD lg ex hV hQ hB k0 pi0 hM pM hx xi hA hg gd).
have [i0 [d0 [x0 le g0 _ [Eo Ed]]]] := default_point hD hV hQ hx xi hA hg gd.
exists i0, d0, (affr i0 x); split; [exact: Qa|by []|] => B M hB hM pM.
have hC : basis_class C m.+1 k B := for_class HQ hB.
have ne := B_ne hD hV hQ hB k0 pi0 hM pM hx xi hA hg gd.
split.
  by rewrite (objects_of D lg ex ps M Eo) (objects_gen hD lg ex hV hQ hC ne M Ed) //; left.
rewrite /alg_kahler Eo; apply: (kahler_code hD lg ex hV hQ hB k0 pi0 hM pM hx xi hA hg gd).
Qed.
End Alg.

Section Same.
Variable C : numClosedFieldType.
Variable D : forall n : nat, ('rV[C]_n -> C) -> 'rV[C]_n -> 'rV[C]_n.
Hypothesis hD : diff_ok D.
Variables (pi : C) (m e : nat).
Variables (V : variety C) (ps : seq C) (Q : {mpoly C[m.+2]}).
Hypotheses (hV : hypersurface V ps m e) (hQ : defined_by V ps Q).
Variables (k : nat) (F B : basis).
Hypotheses (k0 : (0 < k)%N) (pi0 : 0 < pi).
Hypotheses (Q0 : Q != 0) (occ : forall i, variable_occurs Q i).
Hypotheses (hF : basis_full m.+1 k = Ok F) (hB : basis_reduced Q k = Ok B).
Notation NF := (size (power_matrix F)).
Notation N := (size (power_matrix B)).
Let HQ : Q \is e.-homog := V_homog hV hQ.

Definition induced (h : 'M[C]_NF) (h' : 'M[C]_N) : Prop :=
  exists (T : 'M[C]_(N, NF)) (q : 'I_NF -> {mpoly C[m.+2]}),
  (forall t : 'I_NF, mono C m.+1 (nth [::] (power_matrix F) t) =
     q t * Q + \sum_(s : 'I_N) T s t *: mono C m.+1 (nth [::] (power_matrix B) s)) /\ h' = T *m h *m adjm T.

Lemma induced_same h h' : hermitian h -> posdef h -> hermitian h' -> posdef h' -> induced h h' ->
  same_metrics D pi m V ps h h'.
Proof.
move=> hh ph hh' ph' [T [q [HT E]]] lg ex x zs patch dep ha.
have [i [d [z [Qz Qd H]]]] := args_point hD lg ex hV hQ k0 pi0 ha.
have fF : basis_for k Q F by left.
have fB : basis_for k Q B by right.
have [o1 k1] := H _ _ fF hh ph; have [o2 k2] := H _ _ fB hh' ph'.
rewrite k1 k2 /alg_metric /alg_eta o1 o2 /= E (g_red k HT) // (eta_red k HT) //; split=> //.
by rewrite /ob_kahler (psi_red k HT).
Qed.

Lemma full_to_reduced h : hermitian h -> posdef h -> exists h', [/\ hermitian h', posdef h' & induced h h'].
Proof.
move=> hh ph; have [T [q [HT inj]]] := red_matrix Q0 HQ occ hF hB.
exists (T *m h *m adjm T); split; [exact: hermitian_congr|exact: posdef_congr|by exists T, q].
Qed.

Lemma reduced_to_full h' : hermitian h' -> posdef h' -> exists h, [/\ hermitian h, posdef h & induced h h'].
Proof.
move=> hh ph; have [T [q [HT inj]]] := red_matrix Q0 HQ occ hF hB.
by have [h [a b c]] := induced_from inj hh ph; exists h; split=> //; exists T, q.
Qed.
End Same.

Lemma same_sigma (C : numClosedFieldType) (D : forall n : nat, ('rV[C]_n -> C) -> 'rV[C]_n -> 'rV[C]_n) : diff_ok D ->
  forall (lg ex : C -> C) (pi : C) m e (V : variety C) ps (Q : {mpoly C[m.+2]}),
  hypersurface V ps m e -> defined_by V ps Q -> 0 < pi -> smooth D V ps m ->
  forall (key : Type) (draw : key -> seq C -> nat -> res (seq (seq C))) k k' B B',
  basis_for k Q B -> basis_for k' Q B' -> (0 < k)%N -> (0 < k')%N ->
  forall (h : 'M[C]_(size (power_matrix B))) (h' : 'M[C]_(size (power_matrix B'))) kk count zs,
  hermitian h -> posdef h -> hermitian h' -> posdef h' -> same_metrics D pi m V ps h h' ->
  draw kk ps count = Ok zs -> points_on V ps m zs -> zs != [::] ->
  alg_sigma_accuracy D lg ex pi m V draw kk ps (HMat h) count =
  alg_sigma_accuracy D lg ex pi m V draw kk ps (HMat h') count.
Proof.
move=> hD lg ex pi m e V ps Q hV hQ pi0 hS key draw k k' B B' hB hB' k0 k0' h h' kk count zs hh ph hh' ph' sm E on ne.
have [W HW] := weights_exist hD hV hQ pi0 hS on.
have W1 z : z \in zs -> has_weight pi e Q z (W z) by move=> /HW[].
have [Eta [E1 [sg [-> -> _ _ _]]]] := sigma_main hD lg ex hV hQ pi0 hS hB k0 hh ph E on ne W1.
have [Eta' [E1' [sg' [-> -> _ _ _]]]] := sigma_main hD lg ex hV hQ pi0 hS hB' k0' hh' ph' E on ne W1.
have EE z : z \in zs -> Eta z = Eta' z.
  move=> zi; have [x [zE x0 hx]] := on z zi; have /rV0Pn[i xi] := x0.
  have Qx : peval Q x = 0 by move: hx; rewrite zE hQ => -[].
  have [d [a [g sa]]] := smooth_every hD hV hQ hS x0 Qx xi.
  have pa : point_args D V ps x z None None by exists i, d, a, g; split=> //; right.
  have [_ _] := sm lg ex x z None None pa; have [-> _] := E1 z zi; by have [-> _ []] := E1' z zi.
have aE (f g : seq C -> C) : (forall z, z \in zs -> f z = g z) -> avg f zs = avg g zs.
  by move=> fg; rewrite /avg; congr (_ / _); apply: eq_big_seq.
congr (Ok (_ / _)); rewrite (aE (fun z => Eta z * W z) (fun z => Eta' z * W z)) => [|z zi]; last by rewrite EE.
by apply: aE => z zi; rewrite EE.
Qed.
