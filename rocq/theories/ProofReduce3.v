(** The full and the reduced basis: curvature; instances. *)
From Coq Require Import ZArith Lia Reals.
From mathcomp Require Import all_ssreflect all_algebra.
From mathcomp Require Import zify ssrZ ring complex.
From SsrMultinomials Require Import mpoly.
From Verif Require Import Base ModelUtil ModelProjective SpecMon ModelExpr ModelPoly ModelHom ModelBasis ModelGeom ModelVariety ModelDiff ModelAlg ModelPipe
  Bridge Deriv Herm SpecGeom SpecBasis SpecSections SpecPatch SpecAlg SpecPipe SpecEta SpecReduce PolyGrad ProofSections
  ProofBasis ProofBasis3 ProofAlg ProofAlg3 ProofAlg6 ProofHom2 RealField ComplexR ProofComplex ProofRicci3 ProofEta5 ProofReduce ProofReduce2.
Delimit Scope Z_scope with Z.

Set Implicit Arguments.
Unset Strict Implicit.
Unset Printing Implicit Defensive.

Import GRing.Theory Num.Theory Order.POrderTheory.
Local Open Scope ring_scope.
Delimit Scope R_scope with RR.

(** eta is zero where the derivative by the dependent coordinate is zero *)
Lemma eta_degenerate (C : numClosedFieldType) (N m : nat) (pi : C) (o : objects C N m) (M : 'M[C]_N) (d : 'I_m.+1) :
  o_h o = HMat M -> o_dep o = Some (Z.of_nat d) -> o_grad o 0 d = 0 -> ob_eta pi o = Ok 0.
Proof.
move=> oM od g0; rewrite /ob_eta (loc_formE pi oM od) /= /ob_dependent od /= /eta.
have dm := ltn_ord d; rewrite py_pos_in; last by move: dm; lia.
by rewrite /= Nat2Z.id nth_row_seq g0 normr0 expr0n mulr0.
Qed.

Section CRsame.
Variable D : forall n : nat, ('rV[CR]_n -> CR) -> 'rV[CR]_n -> 'rV[CR]_n.
Hypothesis hD : diff_ok D.
Variables (m e : nat) (V : variety CR) (ps : seq CR) (Q : {mpoly CR[m.+2]}).
Hypotheses (hV : hypersurface V ps m e) (hQ : defined_by V ps Q).
Variables (k : nat) (F B : basis).
Hypothesis (k0 : (0 < k)%N).
Hypotheses (Q0 : Q != 0) (occ : forall i, variable_occurs Q i).
Hypotheses (hF : basis_full m.+1 k = Ok F) (hB : basis_reduced Q k = Ok B).

Lemma induced_ricci h h' : hermitian h -> posdef h -> hermitian h' -> posdef h' -> induced (F := F) (B := B) Q h h' ->
  same_ricci D (rc PI) m V ps h h'.
Proof.
move=> hh ph hh' ph' [T [q [HT E]]] lg ex x zs patch dep ha.
have [i [d [z [Qz Qd H]]]] := args_point hD lg ex hV hQ k0 pi_pos ha.
have fF : basis_for k Q F by left.
have fB : basis_for k Q B by right.
have [o1 _] := H _ _ fF hh ph; have [o2 _] := H _ _ fB hh' ph'.
have EE (y : 'rV[CR]_m.+1) : norm1 (y - z) < 1 -> peval (dehom i Q) y = 0 ->
    eta_at (rc PI) (on_patch k h Q i d) y = 1 * eta_at (rc PI) (on_patch k h' Q i d) y.
  move=> _ Qy; rewrite mul1r /eta_at; have [g0|gn] := eqVneq (peval ((dehom i Q)^`M(d)) y) 0; last first.
    by rewrite E (eta_red k HT).
  by rewrite (@eta_degenerate _ _ _ _ _ h d) ?(@eta_degenerate _ _ _ _ _ h' d) //= mxE.
have [R R1 R2] := eta_determines fF fB (V_homog hV hQ) k0 k0 hh ph hh' ph' Qz Qd ltr01 ltr01 EE.
rewrite /alg_ricci /alg_ricci_scalar o1 o2 /= R1 R2 /=; split=> //.
by rewrite /ob_ricci_scalar R1 R2 /= E (g_red k HT).
Qed.
End CRsame.

(** The Dwork and Fermat polynomials *)
Section Dwork.
Variables (C : numClosedFieldType) (m : nat) (c : C).

Lemma dwork_coef (i : 'I_m.+2) : (dwork_Q m c)@_(U_(i) *+ m.+2) = 1.
Proof.
rewrite /dwork_Q mcoeffD mcoeffZ raddf_sum (bigD1 i) //= big1 => [|j ji]; last first.
  rewrite mpolyXn mcoeffX; case: eqP => // /mnmP/(_ i).
  by rewrite !mulmnE !mnm1E eqxx (negPf ji) => E; exfalso; move: E; rewrite /=; lia.
rewrite mpolyXn mcoeffX eqxx addr0 mprodXE mcoeffX; case: eqP => [/mnmP/(_ i)|_]; last by rewrite mulr0 addr0.
rewrite mnm_sumE (bigD1 i) //= big1 => [|j /negPf ji]; last by rewrite mnm1E ji.
by rewrite mulmnE !mnm1E eqxx => E; exfalso; move: E; rewrite /=; lia.
Qed.

Lemma dwork_neq0 : dwork_Q m c != 0.
Proof. by apply/eqP => h; have /eqP := dwork_coef ord0; rewrite h mcoeff0 eq_sym oner_eq0. Qed.

Lemma dwork_occurs i : variable_occurs (dwork_Q m c) i.
Proof.
exists (U_(i) *+ m.+2)%MM; last by rewrite mulmnE mnm1E eqxx.
by rewrite mcoeff_msupp dwork_coef oner_neq0.
Qed.

Lemma dwork_bases k : (m.+2 <= k)%N -> exists F B, [/\ basis_full m.+1 k = Ok F, basis_reduced (dwork_Q m c) k = Ok B,
  (size (power_matrix B) < size (power_matrix F))%N & (basis_size F - basis_size B)%N = 'C(m.+1 + (k - m.+2), k - m.+2)].
Proof.
move=> mk; have HQ := dwork_Q_homog m c; have Q0 := dwork_neq0.
exists (MkBasis k (mons m.+2 k)), (MkBasis k [seq p <- mons m.+2 k | ~~ divides (mlead (dwork_Q m c) : seq nat) p]).
have sl : sumn (mlead (dwork_Q m c)) = m.+2.
  by have /dhomogP/(_ _ (mlead_supp Q0)) E := HQ; rewrite -[RHS]E sumnE.
have := @reduced_size m.+1 k (mlead (dwork_Q m c)); rewrite sl size_tuple => /(_ erefl mk).
rewrite !size_mons => S.
have p0 : (0 < 'C(m.+1 + (k - m.+2), k - m.+2))%N by rewrite bin_gt0 leq_addl.
split; first by rewrite /basis_full basisE.
- by rewrite (reduced_class _ Q0 HQ dwork_occurs).
- by move: S p0; rewrite /power_matrix; lia.
by move: S p0; rewrite /basis_size /power_matrix ?size_mons; lia.
Qed.
End Dwork.

Lemma fermat_args (C : numClosedFieldType) m : exists (x : 'rV[C]_m.+2) zs i d,
  point_args (@choice_D C) (fermat_variety C m) [::] x zs (Some i) (Some d) /\
  point_args (@choice_D C) (fermat_variety C m) [::] x (row_seq x) None None.
Proof.
pose w : C := m.+2.-root (-1); have wE : w ^+ m.+2 = -1 by rewrite rootCK.
pose x : 'rV[C]_m.+2 := \row_i (if i == ord0 then 1 else if i == lift ord0 ord0 then w else 0).
have x0 : x 0 ord0 != 0 by rewrite mxE oner_neq0.
have xn : x != 0 by apply/rV0Pn; exists ord0.
have Qx : peval (dwork_Q m 0) x = 0.
  rewrite dwork_Q_eval mul0r addr0 !big_ord_recl big1 => [|j _]; last by rewrite mxE /= expr0n.
  by rewrite !mxE /= wE expr1n addr0 subrr.
have [d [a [g sa]]] := smooth_every (@choice_D_ok C) (@fermat_hyp C m [::]) (@fermat_defined C m [::])
  (@fermat_smooth C _ (@choice_D_ok C) m [::]) xn Qx x0.
by exists x, a, (Z.of_nat (ord0 : 'I_m.+2)), (Z.of_nat d); split; exists ord0, d, a, g; split=> //; [left|right].
Qed.

(** Both bases *)
Lemma reduced_all : forall (C : numClosedFieldType) (D : forall n : nat, ('rV[C]_n -> C) -> 'rV[C]_n -> 'rV[C]_n), diff_ok D ->
  forall (pi : C) m e (V : variety C) ps (Q : {mpoly C[m.+2]}),
  hypersurface V ps m e -> defined_by V ps Q -> 0 < pi -> Q != 0 -> (forall i, variable_occurs Q i) ->
  forall k F B, (0 < k)%N -> basis_full m.+1 k = Ok F -> basis_reduced Q k = Ok B ->
  (forall h : 'M[C]_(size (power_matrix F)), hermitian h -> posdef h ->
     exists h' : 'M[C]_(size (power_matrix B)), [/\ hermitian h', posdef h' & same_metrics D pi m V ps h h']) /\
  (forall h' : 'M[C]_(size (power_matrix B)), hermitian h' -> posdef h' ->
     exists h : 'M[C]_(size (power_matrix F)), [/\ hermitian h, posdef h & same_metrics D pi m V ps h h']).
Proof.
move=> C D hD pi m e V ps Q hV hQ pi0 Q0 occ k F B k0 hF hB; split=> [h hh ph|h' hh' ph'].
  have [h' [hh' ph' I]] := full_to_reduced hV hQ Q0 occ hF hB hh ph.
  by exists h'; split=> //; exact: (induced_same hD hV hQ k0 pi0 Q0 occ hF hB hh ph hh' ph' I).
have [h [hh ph I]] := reduced_to_full hV hQ Q0 occ hF hB hh' ph'.
by exists h; split=> //; exact: (induced_same hD hV hQ k0 pi0 Q0 occ hF hB hh ph hh' ph' I).
Qed.

Lemma reduced_ricci_all : forall (D : forall n : nat, ('rV[CR]_n -> CR) -> 'rV[CR]_n -> 'rV[CR]_n), diff_ok D ->
  forall m e (V : variety CR) ps (Q : {mpoly CR[m.+2]}),
  hypersurface V ps m e -> defined_by V ps Q -> Q != 0 -> (forall i, variable_occurs Q i) ->
  forall k F B, (0 < k)%N -> basis_full m.+1 k = Ok F -> basis_reduced Q k = Ok B ->
  (forall h : 'M[CR]_(size (power_matrix F)), hermitian h -> posdef h ->
     exists h' : 'M[CR]_(size (power_matrix B)),
     [/\ hermitian h', posdef h', same_metrics D (rc PI) m V ps h h' & same_ricci D (rc PI) m V ps h h']) /\
  (forall h' : 'M[CR]_(size (power_matrix B)), hermitian h' -> posdef h' ->
     exists h : 'M[CR]_(size (power_matrix F)),
     [/\ hermitian h, posdef h, same_metrics D (rc PI) m V ps h h' & same_ricci D (rc PI) m V ps h h']).
Proof.
move=> D hD m e V ps Q hV hQ Q0 occ k F B k0 hF hB; split=> [h hh ph|h' hh' ph'].
  have [h' [hh' ph' I]] := full_to_reduced hV hQ Q0 occ hF hB hh ph.
  exists h'; split=> //; first exact: (induced_same hD hV hQ k0 pi_pos Q0 occ hF hB hh ph hh' ph' I).
  exact: (induced_ricci hD hV hQ k0 Q0 occ hF hB hh ph hh' ph' I).
have [h [hh ph I]] := reduced_to_full hV hQ Q0 occ hF hB hh' ph'.
exists h; split=> //; first exact: (induced_same hD hV hQ k0 pi_pos Q0 occ hF hB hh ph hh' ph' I).
exact: (induced_ricci hD hV hQ k0 Q0 occ hF hB hh ph hh' ph' I).
Qed.
