(** Property C153: sigma_accuracy of the Fubini-Study metric. *)
From Coq Require Import ZArith Lia.
From mathcomp Require Import all_ssreflect all_algebra.
From SsrMultinomials Require Import mpoly.
From Verif Require Import Base ModelUtil ModelBasis ModelGeom ModelDonaldson ModelAlg ModelPipe.
From Verif Require Import SpecGeom SpecBasis SpecPatch SpecAlg SpecPipe SpecFubini Herm ProofAlg ProofAlg6 ProofPipe2 ProofPipe5 ProofStep2 ProofStep8 ProofFubini4.
Delimit Scope Z_scope with Z.

Set Implicit Arguments.
Unset Strict Implicit.
Unset Printing Implicit Defensive.

Import GRing.Theory Num.Theory Order.POrderTheory.
Local Open Scope ring_scope.

(** ** C153 *)
Theorem sigma_of_fubini : forall (C : numClosedFieldType)
    (D : forall n : nat, ('rV[C]_n -> C) -> 'rV[C]_n -> 'rV[C]_n), diff_ok D ->
  forall (lg ex : C -> C) (pi : C) m e (V : variety C) ps (Q : {mpoly C[m.+2]}),
  hypersurface V ps m e -> defined_by V ps Q -> 0 < pi -> smooth D V ps m ->
  forall k B, basis_full m.+1 k = Ok B -> (0 < k)%N ->
  forall (key : Type) (draw : key -> seq C -> nat -> res (seq (seq C))) kk count zs W,
  draw kk ps count = Ok zs -> points_on V ps m zs -> zs != [::] ->
  (forall z, z \in zs -> has_weight pi e Q z (W z)) ->
  let vol := avg W zs in
  alg_sigma_accuracy D lg ex pi m V draw kk ps (HMat (diag_mx (fubini_h C B))) count =
  Ok (avg (fun z => `|W z - vol|) zs / vol).
Proof. exact sigma_fubini. Qed.
Print Assumptions sigma_of_fubini.

(** It vanishes exactly if all weights are the same. *)
Theorem sigma_of_fubini_zero : forall (C : numClosedFieldType) (W : seq C -> C) zs,
  zs != [::] -> (forall z, z \in zs -> 0 < W z) ->
  (avg (fun z => `|W z - avg W zs|) zs / avg W zs = 0 <-> forall z z', z \in zs -> z' \in zs -> W z = W z').
Proof. exact avg_dist0. Qed.
Print Assumptions sigma_of_fubini_zero.

(** The two points of the Fermat quadric in the projective line: the weights agree, sigma is zero. *)
Example pair_fubini (C : numClosedFieldType) (D : forall n : nat, ('rV[C]_n -> C) -> 'rV[C]_n -> 'rV[C]_n) (lg ex : C -> C) (pi : C) :
  diff_ok D -> 0 < pi ->
  alg_sigma_accuracy D lg ex pi 0 (fermat_variety C 0) (fun (_ : unit) _ _ => Ok (pair_points C)) tt [::]
    (HMat (diag_mx (fubini_h C pair_basis))) 2 = Ok 0.
Proof.
move=> hD pi0; have [[H1 H2 H3] _ Hp HW _] := pair_setting hD; have [W Hw] := HW pi pi0.
have W4 := pair_weights Hw.
rewrite (@sigma_of_fubini C D hD lg ex pi 0%N 2%N _ _ _ H1 H2 pi0 H3 1%N pair_basis erefl isT _ _ _ _ _ W erefl Hp isT Hw).
congr Ok; apply/sigma_of_fubini_zero => //; last by move=> z z' zi zi'; rewrite !W4.
by move=> z zi; rewrite W4 // invr_gt0 ltr0n.
Qed.

(** Two points of weights 1 and 3: 1/2. *)
Example two_weights (C : numClosedFieldType) (W := fun z : seq C => if z is [:: x] then x else 0) :
  avg (fun z => `|W z - avg W [:: [:: 1]; [:: 3%:R]]|) [:: [:: 1]; [:: 3%:R]] / avg W [:: [:: 1]; [:: 3%:R]] = 2%:R^-1.
Proof.
rewrite /avg !big_cons !big_nil /= !addr0.
have -> : (1 + 3%:R) / 2%:R = 2%:R :> C by rewrite -[1]/(1%:R) -natrD (natrM _ 2 2) mulfK // pnatr_eq0.
have -> : `|1 - 2%:R| = 1 :> C by rewrite distrC -[X in _ - X]/(1%:R) -natrB // normr1.
have -> : `|3%:R - 2%:R| = 1 :> C by rewrite -natrB // normr1.
by rewrite -[1 + 1]/(2%:R) divff ?mul1r // pnatr_eq0.
Qed.
