(** Property C151: repeated Donaldson steps on one sample converge at a geometric rate. *)
From Coq Require Import ZArith Lia Reals.
From mathcomp Require Import all_ssreflect all_algebra.
From mathcomp Require Import complex.
From SsrMultinomials Require Import mpoly.
From Verif Require Import Base ModelUtil ModelBasis ModelDonaldson ModelAlg ModelPipe.
From Verif Require Import SpecGeom SpecBasis SpecPatch SpecAlg SpecDonaldson SpecPipe SpecStep Herm.
From Verif Require Import ComplexR ProofAlg ProofAlg6 ProofPipe8 ProofDonaldson3 ProofStep ProofStep2 ProofStep7 ProofStep8.
From Verif Require Import ProofRate4.
Delimit Scope Z_scope with Z.

Set Implicit Arguments.
Unset Strict Implicit.
Unset Printing Implicit Defensive.

Import GRing.Theory Num.Theory Order.POrderTheory.
Local Open Scope ring_scope.

(** ** C151: the rate of convergence *)
Theorem steps_converge_geometrically : forall (C : numClosedFieldType) N (vol : C) (bs : seq (seq (sample C N))),
  good_sample vol bs -> forall (hs : nat -> 'M[C]_N) (L : 'M[C]_N), balanced vol bs L -> indecomposable (flatten bs) ->
  hermitian (hs 0%N) -> posdef (hs 0%N) -> iterates vol bs hs -> converges_to hs L ->
  exists K s : C, [/\ 0 <= K, 0 < s < 1 & forall k i j, `|hs k i j - L i j| <= K * s ^+ k].
Proof. exact rate. Qed.
Print Assumptions steps_converge_geometrically.

Theorem stable_steps_converge_geometrically : forall N (vol : CR) (bs : seq (seq (sample CR N))), good_sample vol bs ->
  forall hs : nat -> 'M[CR]_N, stable (flatten bs) -> hermitian (hs 0%N) -> posdef (hs 0%N) -> iterates vol bs hs ->
  exists L K s, [/\ balanced vol bs L, 0 <= K, 0 < s < 1 & forall k i j, `|hs k i j - L i j| <= K * s ^+ k].
Proof. exact rate_stable. Qed.
Print Assumptions stable_steps_converge_geometrically.

Theorem sampled_steps_converge_geometrically : forall (D : forall n : nat, ('rV[CR]_n -> CR) -> 'rV[CR]_n -> 'rV[CR]_n),
  diff_ok D -> forall (lg ex : CR -> CR) (pi : CR) m e (V : variety CR) ps (Q : {mpoly CR[m.+2]}),
  hypersurface V ps m e -> defined_by V ps Q -> 0 < pi -> smooth D V ps m ->
  forall (key : Type) (draw : key -> seq CR -> nat -> res (seq (seq CR))) k B,
  basis_for k Q B -> (0 < k)%N ->
  forall (splitn : key -> nat -> seq key) kk batches bs zss W,
  rseq [seq draw k' ps bs | k' <- splitn kk batches] = Ok zss ->
  (forall zs, zs \in zss -> size zs = bs /\ points_on V ps m zs) ->
  (forall z, z \in flatten zss -> has_weight pi e Q z (W z)) ->
  (forall v : 'rV[CR]_(size (power_matrix B)), v != 0 ->
     exists2 z, z \in flatten zss & \sum_a v 0 a * hom_sections B z 0 a != 0) ->
  zss != [::] -> (0 < bs)%N ->
  let pts := [seq [seq (hom_sections B z, Some (W z)) | z <- zs] | zs <- zss] in
  let vol := avg W (flatten zss) in
  stable (flatten pts) ->
  forall hs : nat -> 'M[CR]_(size (power_matrix B)), hermitian (hs 0%N) -> posdef (hs 0%N) ->
  (forall j, alg_donaldson_step D lg ex pi splitn m V draw true kk (hs j) ps vol batches bs = Ok (hs j.+1)) ->
  exists L K s, [/\ alg_donaldson_step D lg ex pi splitn m V draw true kk L ps vol batches bs = Ok L,
    0 <= K, 0 < s < 1 & forall j a b, `|hs j a b - L a b| <= K * s ^+ j].
Proof. exact sampled_rate. Qed.
Print Assumptions sampled_steps_converge_geometrically.

(** Three points of the projective line: from each start the steps approach a multiple of h3 geometrically. *)
Example three_geometric : forall hs : nat -> 'M[CR]_2, hermitian (hs 0%N) -> posdef (hs 0%N) -> iterates 1 (three CR) hs ->
  exists a K s, [/\ 0 < a, 0 < s < 1 & forall k i j, `|hs k i j - (a *: h3 CR) i j| <= K * s ^+ k].
Proof.
move=> hs hh ph it; have [L [bL cL /(_ (@three_indecomposable CR))[a a0 E]]] :=
  balanced_limit (three_good CR) (h3_balanced CR) hh ph it.
have [K [s [_ s01 H]]] := steps_converge_geometrically (three_good CR) bL (@three_indecomposable CR) hh ph it cL.
by exists a, K, s; rewrite -E.
Qed.
