(** The curvature under linear changes of the homogeneous coordinates, over the complex numbers. *)
From Coq Require Import ZArith Reals.
From mathcomp Require Import all_ssreflect all_algebra.
From mathcomp Require Import complex.
From SsrMultinomials Require Import mpoly.
From Verif Require Import Base ModelUtil ModelProjective ModelBasis ModelDiff ModelGeom Deriv Bridge Wirtinger SpecGeom Herm Herm2
  SpecMon SpecBasis SpecSections SpecPatch ProofBasis3 ProofGeom3 ProofGeom4 PolyGrad Implicit Implicit2 ProofSections ProofPatch ProofRicci ProofRicci2
  RealField RealLog ComplexR SpecComplex ProofComplex SpecLinear ProofLinear ProofLinear2 ProofLinear3 ProofLinear4 ProofLinear7.
Delimit Scope Z_scope with Z.

Set Implicit Arguments.
Unset Strict Implicit.
Unset Printing Implicit Defensive.

Import GRing.Theory Num.Theory Order.POrderTheory.
Local Open Scope ring_scope.
Delimit Scope R_scope with RR.

Section Curv.
Variables (m k e : nat) (B : basis).
Hypothesis EB : basis_full m.+1 k = Ok B.
Hypothesis k0 : (0 < k)%N.
Notation N := (size (power_matrix B)).
Variables (A : 'M[CR]_m.+2) (R : 'M[CR]_N).
Hypothesis uA : A \in unitmx.
Hypothesis AR : lin_sections A R.
Variables (M : 'M[CR]_N) (P P' : {mpoly CR[m.+2]}).
Hypothesis HM : hermitian M.
Hypothesis pd : posdef M.
Hypothesis HP : P \is e.-homog.
Hypothesis PP : forall u, peval P' u = peval P (u *m A).

Let uR : R \in unitmx.
Proof. by have [R' [uR' _ U]] := lin_unit EB uA; rewrite (U _ AR). Qed.

Let pd' : posdef (R *m M *m adjm R).
Proof. exact: posdef_congr_unit. Qed.

Lemma curvature_lin (i j : 'I_m.+2) (d d' : 'I_m.+1) (z w : 'rV[CR]_m.+1) (T : 'M[CR]_m.+1) :
  lin_hom A i z 0 j != 0 -> lin_change A i j z w T ->
  peval (dehom i P') z = 0 -> peval ((dehom i P')^`M(d)) z != 0 -> peval ((dehom j P)^`M(d')) w != 0 ->
  same_curvature (rc PI) (on_patch k (R *m M *m adjm R) P' i d z) (on_patch k M P j d' w).
Proof.
rewrite lin_homE => nz /(lin_changeE nz)[-> _] Pz gd gd'.
have HM' : hermitian (R *m M *m adjm R) by exact: hermitian_congr.
have pos1 p dep y : peval (dehom p P) y = 0 -> peval ((dehom p P)^`M(dep)) y != 0 ->
  0 < ob_psi (on_patch k M P p dep y) /\ exists2 g, ob_g_loc (rc PI) (on_patch k M P p dep y) = Ok g & posdef g.
  move=> _ gy; have [p0 _ /(_ gy)[g [Eg pg _]]] := full_positive p EB k0 HM pd pi_pos (dehom p P) dep y.
  by split=> //; exists g.
have pos2 p dep y : peval (dehom p P') y = 0 -> peval ((dehom p P')^`M(dep)) y != 0 ->
  0 < ob_psi (on_patch k (R *m M *m adjm R) P' p dep y) /\
  exists2 g, ob_g_loc (rc PI) (on_patch k (R *m M *m adjm R) P' p dep y) = Ok g & posdef g.
  move=> _ gy; have [p0 _ /(_ gy)[g [Eg pg _]]] := full_positive p EB k0 HM' pd' pi_pos (dehom p P') dep y.
  by split=> //; exists g.
have hC : basis_class CR m.+1 k B by left.
have [g [g' [R1 [R2 [S H]]]]] := two_lin clog_pos_mul clog_near pi_pos AR HM uA k0 HP PP hC pos2 pos1 nz Pz gd gd'.
exists g, g', R1, R2, S; split; first exact: H.
exact: (scalar_two_lin clog_pos_mul clog_near pi_pos AR HM uA k0 HP PP hC pos2 pos1 nz Pz gd gd').
Qed.
End Curv.

(** Instance: the rotation of ProofLinear4, H the identity for the rotated equation. *)
Lemma rot_curvature (e k : nat) : (0 < e)%N -> (0 < k)%N -> exists2 B, basis_full 2 k = Ok B &
  exists (R : 'M[CR]_(size (power_matrix B))) (d : 'I_2), [/\ R \in unitmx, lin_sections (rot CR) R &
  same_curvature (rc PI) (on_patch k (R *m adjm R) (rot_P CR e) 0 d (rot_pt CR))
    (on_patch k 1%:M (two_P CR e) 1 0 (half_pt CR))].
Proof.
move=> e0 k0; have [B [EB _ _ _ _]] := full_class 2 k; exists B => //.
have [UR PP nz [T cc] [Pz [d gd] gd']] := rot_instance CR e0.
have uA : rot CR \in unitmx by have [] := mulmx1_unit UR.
have [R [uR AR _]] := lin_unit EB uA; exists R, d; split=> //.
have HM := @herm1 CR (size (power_matrix B)); have PD := @pd1 CR (size (power_matrix B)).
have [HP _ _ _ _] := two_instance CR e0.
have := curvature_lin EB k0 uA AR HM PD HP PP _ cc Pz gd gd'; rewrite mulmx1; apply.
by rewrite nz mulf_neq0 ?invr_eq0 ?pnatr_eq0.
Qed.
