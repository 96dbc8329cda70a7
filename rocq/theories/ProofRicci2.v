(** The curvature on two patches, over the complex numbers. *)
From Coq Require Import ZArith Reals.
From mathcomp Require Import all_ssreflect all_algebra.
From mathcomp Require Import complex.
From SsrMultinomials Require Import mpoly.
From Verif Require Import Base ModelUtil ModelProjective ModelBasis ModelDiff ModelGeom Deriv Bridge Wirtinger SpecGeom Herm Herm2
  SpecMon SpecBasis SpecSections SpecPatch ProofBasis3 ProofGeom3 ProofGeom4 PolyGrad Implicit Implicit2 ProofSections ProofPatch ProofRicci
  RealField RealLog ComplexR SpecComplex ProofComplex.
Delimit Scope Z_scope with Z.

Set Implicit Arguments.
Unset Strict Implicit.
Unset Printing Implicit Defensive.

Import GRing.Theory Num.Theory Order.POrderTheory.
Local Open Scope ring_scope.
Delimit Scope R_scope with RR.

Lemma for_class (C : numClosedFieldType) n k (P : {mpoly C[n.+1]}) e B :
  P \is e.-homog -> basis_for k P B -> basis_class C n k B.
Proof. by move=> HP [|[P0 occ EB]]; [left | right; exists P, e]. Qed.

Lemma for_positive (C : numClosedFieldType) m k (P : {mpoly C[m.+2]}) e B (pi : C) :
  P \is e.-homog -> basis_for k P B -> (0 < k)%N -> 0 < pi ->
  forall M : 'M[C]_(size (power_matrix B)), hermitian M -> posdef M ->
  forall p d y, peval (dehom p P) y = 0 -> peval ((dehom p P)^`M(d)) y != 0 ->
  0 < ob_psi (on_patch k M P p d y) /\ exists2 g, ob_g_loc pi (on_patch k M P p d y) = Ok g & posdef g.
Proof.
move=> HP HB k0 pi0 M HM pd p d y Py gy; case: HB => [EB|[P0 occ EB]].
  have [p0 _ /(_ gy)[g [Eg pg _]]] := full_positive p EB k0 HM pd pi0 (dehom p P) d y.
  by split=> //; exists g.
have [p0 [g [Eg pg _]]] := reduced_positive P0 HP occ EB k0 HM pd pi0 Py gy.
by split=> //; exists g.
Qed.

Section Curv.
Variables (m k e : nat) (P : {mpoly CR[m.+2]}) (B : basis).
Hypothesis HB : basis_for k P B.
Hypothesis HP : P \is e.-homog.
Hypothesis k0 : (0 < k)%N.
Variable M : 'M[CR]_(size (power_matrix B)).
Hypothesis HM : hermitian M.
Hypothesis pd : posdef M.
Let o := on_patch k M P.

Lemma curvature_chart (i j : 'I_m.+2) (d d' : 'I_m.+1) (z : 'rV[CR]_m.+1) :
  homr i z 0 j != 0 -> peval (dehom i P) z = 0 -> peval ((dehom i P)^`M(d)) z != 0 ->
  peval ((dehom j P)^`M(d')) (chart i j z) != 0 -> same_curvature (rc PI) (o i d z) (o j d' (chart i j z)).
Proof.
move=> nz Pz gd gd'.
have pos := for_positive HP HB k0 pi_pos HM pd.
have [g [g' [R [R' [A H]]]]] := two_charts clog_pos_mul clog_near pi_pos HM k0 HP (for_class HP HB) pos nz Pz gd gd'.
exists g, g', R, R', A; split; first exact: H.
exact: (scalar_two_charts clog_pos_mul clog_near pi_pos HM k0 HP (for_class HP HB) pos nz Pz gd gd').
Qed.

Lemma curvature_patch (i j : 'I_m.+2) (d d' : 'I_m.+1) (z w : 'rV[CR]_m.+1) T :
  i != j -> hom_coord i j z != 0 -> chart_change i j z w T ->
  peval (dehom i P) z = 0 -> peval ((dehom i P)^`M(d)) z != 0 -> peval ((dehom j P)^`M(d')) w != 0 ->
  same_curvature (rc PI) (o i d z) (o j d' w).
Proof.
move=> ij nz cc; have [Ew _] := chart_changeE ij nz cc; subst w.
by move: nz; rewrite /hom_coord nth_homr; exact: curvature_chart.
Qed.

Lemma chart_self (i : 'I_m.+2) (z : 'rV[CR]_m.+1) : chart i i z = z.
Proof. by apply/rowP => a; rewrite mxE homr_patch divr1 homr_lift. Qed.

Lemma curvature_dep (i : 'I_m.+2) (d d' : 'I_m.+1) (z : 'rV[CR]_m.+1) :
  peval (dehom i P) z = 0 -> peval ((dehom i P)^`M(d)) z != 0 -> peval ((dehom i P)^`M(d')) z != 0 ->
  same_curvature (rc PI) (o i d z) (o i d' z).
Proof.
move=> Pz gd gd'; have := @curvature_chart i i d d' z; rewrite chart_self => H; apply: H => //.
by rewrite homr_patch oner_neq0.
Qed.
End Curv.

(** Instances: the two patches of the point (1 : 2 : 0), and the line X0 + X1 + X2 at (1 : -1 : 0). *)
Lemma two_curvature (e k : nat) : (0 < e)%N -> (0 < k)%N -> exists2 B, basis_full 2 k = Ok B &
  same_curvature (rc PI) (on_patch (B := B) k 1%:M (two_P CR e) 0 0 (two_pt CR))
    (on_patch (B := B) k 1%:M (two_P CR e) 1 0 (half_pt CR)).
Proof.
move=> e0 k0; have [B [EB _ _ _ _]] := full_class 2 k; exists B => //.
have [H N [T cc] v [g g']] := two_instance CR e0.
have nz : hom_coord 0 1 (two_pt CR) != 0 by rewrite -normr_eq0 N pnatr_eq0.
have HM := @herm1 CR (size (power_matrix B)); have PD := @pd1 CR (size (power_matrix B)).
exact: (@curvature_patch _ _ _ _ _ (or_introl EB) H k0 _ HM PD 0 1 0 0 _ _ T _ nz cc v g g').
Qed.

Definition line_P : {mpoly CR[3]} := 'X_0 + 'X_1 + 'X_2.

Lemma line_curvature (k : nat) : (0 < k)%N -> exists2 B, basis_full 2 k = Ok B &
  same_curvature (rc PI) (on_patch (B := B) k 1%:M line_P 0 0 (cubic_pt CR)) (on_patch (B := B) k 1%:M line_P 0 1 (cubic_pt CR)).
Proof.
move=> k0; have [B [EB _ _ _ _]] := full_class 2 k; exists B => //.
have E : dehom 0 line_P = 1 + 'X_0 + 'X_1 :> {mpoly CR[2]}.
  rewrite /line_P !dehomD !dehomX unlift_none.
  have -> : (2 : 'I_3) = lift 0 1 by exact: val_inj.
  have -> : unlift 0 (1 : 'I_3) = Some 0 by rewrite -(liftK 0 0); congr unlift; exact: val_inj.
  by rewrite !liftK.
have H : line_P \is 1.-homog by rewrite /line_P !rpredD //; rewrite dhomogX; apply/eqP; exact: mdeg1.
have D (a : 'I_2) : (dehom 0 line_P)^`M(a) = 1.
  rewrite E !mderivD -mpolyC1 mderivC !mderivX !mnm1E add0r.
  have U0 (b : 'I_2) : (U_(b) - U_(b) = 0)%MM by apply/mnmP => c; rewrite mnmBE subnn mnm0E.
  by case: (unliftP 0 a) => [a' ->|->]; rewrite ?ord1 /= ?scale0r ?scale1r ?add0r ?addr0 U0 mpolyX0.
apply: (curvature_dep (or_introl EB) H k0 (@herm1 _ _) (@pd1 _ _)).
- by rewrite E /peval !mevalD meval1 !mevalXU !mxE /= addr0 subrr.
- by rewrite D /peval meval1 oner_neq0.
by rewrite D /peval meval1 oner_neq0.
Qed.
