(** Donaldson steps on samples with a unitary symmetry. *)
From Coq Require Import ZArith Lia.
From mathcomp Require Import all_ssreflect all_algebra all_fingroup.
From mathcomp Require Import zify ssrZ ring.
From SsrMultinomials Require Import mpoly.
From Verif Require Import Base ModelUtil ModelVariety ModelBasis ModelDonaldson ModelAlg ModelPipe.
From Verif Require Import SpecPoly SpecHom SpecVariety SpecGeom SpecBasis SpecSections SpecPatch SpecAlg SpecDonaldson SpecPipe SpecStep SpecSymmetry Herm SpecFubini.
From Verif Require Import Deriv Bridge PolyGrad ProofBasis ProofPatch ProofAlg ProofAlg2 ProofAlg6 ProofPipe ProofPipe2 ProofPipe3 ProofStep ProofStep2 ProofDonaldson2 ProofSymmetry ProofSymmetry2.
From Verif Require Import SpecLinear SpecRotate ProofLinear ProofLinear2 ProofLinear3 ProofLinear5 ProofIdent ProofIdent3 ProofFubini4.
Delimit Scope Z_scope with Z.

Set Implicit Arguments.
Unset Strict Implicit.
Unset Printing Implicit Defensive.

Import GRing.Theory Num.Theory Order.POrderTheory.
Local Open Scope ring_scope.

Section Rot.
Variables (C : numClosedFieldType) (m k : nat) (B : basis).
Hypothesis hB : basis_full m.+1 k = Ok B.
Notation N := (size (power_matrix B)).
Variables (A : 'M[C]_m.+2) (R : 'M[C]_N).
Hypotheses (UA : unitary A) (AR : lin_sections A R).

Lemma norm_inv (h : 'M[C]_N) : norm_invariant A h <-> invariant R h.
Proof.
have E x : hform h (hom_sections B (row_seq (x *m A))) = hform (R *m h *m adjm R) (hom_sections B (row_seq x)).
  by rewrite AR !hformE adjm_mul !mulmxA.
split=> H; last by move=> x; rewrite E H.
apply: (form_unique hB) => x; have := H x; rewrite E !hformE => e.
by apply/matrixP => a b; rewrite !ord1.
Qed.

Lemma rot_det : `|\det R| = 1.
Proof.
have F0 : \det (diag_mx (fubini_h C B)) != 0.
  by rewrite -unitfE -unitmxE; apply: posdef_unit; have [] := fubini_h_pd C B.
have := congr1 (fun X => \det X) (fub_unitary hB UA AR); rewrite !det_mulmx det_adjm mulrAC -normCK => E.
have {}E : `|\det R| ^+ 2 = 1 by apply: (mulIf F0); rewrite mul1r.
by apply/eqP; rewrite -(eqr_expn2 (ltn0Sn 1)) ?expr1n ?E ?normr_ge0 ?ler01.
Qed.

Lemma rot_unit : R \in unitmx.
Proof. by rewrite unitmxE unitfE -normr_eq0 rot_det oner_eq0. Qed.

Variables (Q : {mpoly C[m.+2]}).
Hypotheses (HQ : Q \is m.+2.-homog) (QA : forall x, peval Q (x *m A) = peval Q x).

Lemma rot_weight pi c x w : c != 0 -> has_weight pi m.+2 Q (row_seq x) w -> has_weight pi m.+2 Q (row_seq (c *: (x *m A))) w.
Proof.
move=> c0 hw.
have {}hw : has_weight pi m.+2 Q (row_seq (x *m A)) w by apply: weight_lin hw => // y; rewrite QA.
have -> : x *m A = move (fun _ => 1) 1%g (x *m A) by apply/rowP => j; rewrite [RHS]mxE mul1r perm1.
apply: (@moved_weight _ _ _ _ HQ (fun _ => 1) 1%g _ 1 _ _ pi c _ w c0 hw) => [j||y]; rewrite ?normr1 // mul1r.
by congr peval; apply/rowP => j; rewrite [LHS]mxE mul1r perm1.
Qed.

Lemma rot_symmetric pi (zs : seq (seq C)) W : (forall z, z \in zs -> has_weight pi m.+2 Q z (W z)) -> rotated_to_itself A zs ->
  symmetric_under R [seq (hom_sections B z, Some (W z)) | z <- zs].
Proof.
move=> HW [c c0 pe]; exists (fun i => c i ^+ k) => [i|/=]; first by rewrite expf_neq0.
rewrite size_map; set f := fun z => (hom_sections B z, Some (W z)).
have -> : [seq (c i ^+ k *: ((nth (0, None) (map f zs) i).1 *m R), (nth (0, None) (map f zs) i).2) | i <- iota 0 (size zs)] =
   map f [seq row_seq (c i *: (seq_row m.+2 (nth [::] zs i) *m A)) | i <- iota 0 (size zs)].
  rewrite -map_comp; apply/eq_in_map => i; rewrite mem_iota => /= iz.
  have zi : nth [::] zs i \in zs by exact: mem_nth.
  rewrite (nth_map [::]) // /f /=; have [x [j [zE _ _ _]]] := HW _ zi.
  have xE : nth [::] zs i = row_seq (seq_row m.+2 (nth [::] zs i)) by rewrite zE row_seqK.
  rewrite (s_scale hB) AR -xE; congr (_, Some _).
  have wi : row_seq (c i *: (seq_row m.+2 (nth [::] zs i) *m A)) \in zs.
    by rewrite -(perm_mem pe); apply/mapP; exists i => //; rewrite mem_iota.
  have hw := HW _ zi; rewrite {1}xE in hw.
  exact: (weight_unique (rot_weight (c0 i) hw) (HW _ wi)).
exact: perm_map.
Qed.
End Rot.

Section Points.
Variable C : numClosedFieldType.
Variable D : forall n : nat, ('rV[C]_n -> C) -> 'rV[C]_n -> 'rV[C]_n.
Hypothesis hD : diff_ok D.
Variables (lg ex : C -> C).
Variables (pi : C) (m : nat) (V : variety C) (ps : seq C) (Q : {mpoly C[m.+2]}).
Hypotheses (hV : hypersurface V ps m m.+2) (hQ : defined_by V ps Q) (pi0 : 0 < pi).
Hypothesis hS : smooth D V ps m.
Variable A : 'M[C]_m.+2.
Hypotheses (UA : unitary A) (QA : forall x, peval Q (x *m A) = peval Q x).
Variable key : Type.
Variable draw : key -> seq C -> nat -> res (seq (seq C)).
Variables (k : nat) (B : basis).
Hypotheses (hB : basis_full m.+1 k = Ok B) (k0 : (0 < k)%N).
Notation N := (size (power_matrix B)).
Let HQ : Q \is m.+2.-homog := V_homog hV hQ.

Variables (splitn : key -> nat -> seq key) (kk : key) (batches bs : nat) (zss : seq (seq (seq C))) (W : seq C -> C).
Hypothesis Hd : rseq [seq draw k' ps bs | k' <- splitn kk batches] = Ok zss.
Hypothesis Hz : forall zs, zs \in zss -> size zs = bs /\ points_on V ps m zs.
Hypothesis HW : forall z, z \in flatten zss -> has_weight pi m.+2 Q z (W z).
Hypothesis sp : forall v : 'rV[C]_N, v != 0 -> exists2 z, z \in flatten zss & \sum_a v 0 a * hom_sections B z 0 a != 0.
Hypotheses (ne : zss != [::]) (bs0 : (0 < bs)%N).
Hypothesis Hm : rotated_to_itself A (flatten zss).
Let pts := [seq [seq (hom_sections B z, Some (W z)) | z <- zs] | zs <- zss].
Let vol := avg W (flatten zss).
Let step (h : 'M[C]_N) := alg_donaldson_step D lg ex pi splitn m V draw true kk h ps vol batches bs.
Let hF : basis_for k Q B := or_introl hB.

Let fl : flatten pts = [seq (hom_sections B z, Some (W z)) | z <- flatten zss].
Proof. by rewrite /pts map_flatten. Qed.

Lemma rot_step h H' : hermitian h -> posdef h -> norm_invariant A h -> step h = Ok H' -> norm_invariant A H'.
Proof.
have [R [uR AR _]] := lin_unit hB (unitary_unit UA).
move=> hh ph /(norm_inv hB AR) ih E.
have [g St] := sampled_step hD lg ex hV hQ pi0 hS hF k0 Hd Hz HW sp ne bs0.
have sy : symmetric_under R (flatten pts) by rewrite fl; exact: (rot_symmetric hB UA AR HQ QA HW Hm).
apply/(norm_inv hB AR); apply: (good_symmetric g uR sy hh ph ih).
by rewrite -St.
Qed.

Lemma rot_balanced g : hermitian g -> posdef g -> step g = Ok g -> indecomposable (flatten pts) -> norm_invariant A g.
Proof.
have [R [uR AR _]] := lin_unit hB (unitary_unit UA).
move=> hg pg E ind; have [gs St] := sampled_step hD lg ex hV hQ pi0 hS hF k0 Hd Hz HW sp ne bs0.
have sy : symmetric_under R (flatten pts) by rewrite fl; exact: (rot_symmetric hB UA AR HQ QA HW Hm).
apply/(norm_inv hB AR); apply: (balanced_symmetric gs uR sy ind _ (rot_det hB UA AR)).
by split=> //; rewrite -St.
Qed.
End Points.
