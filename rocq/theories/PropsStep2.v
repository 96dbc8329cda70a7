(** Properties C128-C131: convergence of repeated Donaldson steps on one sample. *)
From Coq Require Import ZArith Lia Reals.
From mathcomp Require Import all_ssreflect all_algebra.
From mathcomp Require Import complex.
From SsrMultinomials Require Import mpoly.
From Verif Require Import Base ModelUtil ModelBasis ModelDonaldson ModelAlg ModelPipe.
From Verif Require Import SpecGeom SpecBasis SpecPatch SpecAlg SpecDonaldson SpecPipe SpecStep Herm.
From Verif Require Import ComplexR ProofAlg ProofAlg6 ProofPipe8 ProofDonaldson3 ProofStep ProofStep2 ProofStep7 ProofStep8.
Delimit Scope Z_scope with Z.

Set Implicit Arguments.
Unset Strict Implicit.
Unset Printing Implicit Defensive.

Import GRing.Theory Num.Theory Order.POrderTheory.
Local Open Scope ring_scope.

(** ** C128: limits of the steps *)
Theorem steps_limit_is_balanced : forall (C : numClosedFieldType) N (vol : C) (bs : seq (seq (sample C N))),
  good_sample vol bs -> forall (hs : nat -> 'M[C]_N) (L : 'M[C]_N), hermitian (hs 0%N) -> posdef (hs 0%N) ->
  iterates vol bs hs -> converges_to hs L -> posdef L -> balanced vol bs L.
Proof. exact limit_balanced. Qed.
Print Assumptions steps_limit_is_balanced.

Theorem steps_accumulate_only_at_limit : forall (C : numClosedFieldType) N (vol : C) (bs : seq (seq (sample C N))),
  good_sample vol bs -> forall (hs : nat -> 'M[C]_N) (L : 'M[C]_N), hermitian (hs 0%N) -> posdef (hs 0%N) ->
  iterates vol bs hs -> posdef L ->
  (exists k : nat -> nat, (forall j, (j <= k j)%N) /\ converges_to (fun j => hs (k j)) L) -> converges_to hs L.
Proof. exact accumulation_is_limit. Qed.
Print Assumptions steps_accumulate_only_at_limit.

Theorem steps_converge_to_balanced : forall N (vol : CR) (bs : seq (seq (sample CR N))),
  good_sample vol bs -> forall (g : 'M[CR]_N) (hs : nat -> 'M[CR]_N), balanced vol bs g ->
  hermitian (hs 0%N) -> posdef (hs 0%N) -> iterates vol bs hs ->
  exists L, [/\ balanced vol bs L, converges_to hs L &
    indecomposable (flatten bs) -> exists2 a, 0 < a & L = a *: g].
Proof. exact balanced_limit. Qed.
Print Assumptions steps_converge_to_balanced.

(** Three points of the projective line: from each start the steps converge to a multiple of h3. *)
Example three_converges : forall hs : nat -> 'M[CR]_2, hermitian (hs 0%N) -> posdef (hs 0%N) -> iterates 1 (three CR) hs ->
  exists2 a, 0 < a & converges_to hs (a *: h3 CR).
Proof.
move=> hs hh ph it; have [L [_ cL /(_ (@three_indecomposable CR))[a a0 E]]] :=
  steps_converge_to_balanced (three_good CR) (h3_balanced CR) hh ph it.
by exists a; rewrite // -E.
Qed.

(** ** C129: which samples have a balanced metric *)
Theorem balanced_bounds_weight : forall (C : numClosedFieldType) N (vol : C) (bs : seq (seq (sample C N))),
  good_sample vol bs -> forall g V : 'M[C]_N, balanced vol bs g ->
  N%:R * (\sum_(p <- flatten bs | (p.1 <= V)%MS) weight p) <= (\rank V)%:R * (\sum_(p <- flatten bs) weight p).
Proof. exact balanced_is_semistable. Qed.
Print Assumptions balanced_bounds_weight.

Theorem balanced_exists_iff_stable : forall N (vol : CR) (bs : seq (seq (sample CR N))), good_sample vol bs ->
  (stable (flatten bs) <-> (exists g, balanced vol bs g) /\ indecomposable (flatten bs)).
Proof. exact stable_iff_balanced. Qed.
Print Assumptions balanced_exists_iff_stable.

Theorem stable_steps_converge : forall N (vol : CR) (bs : seq (seq (sample CR N))), good_sample vol bs ->
  forall hs : nat -> 'M[CR]_N, stable (flatten bs) -> hermitian (hs 0%N) -> posdef (hs 0%N) -> iterates vol bs hs ->
  exists2 L, balanced vol bs L & converges_to hs L.
Proof. exact stable_limit. Qed.
Print Assumptions stable_steps_converge.

Example three_is_stable (C : numClosedFieldType) : good_sample 1 (three C) /\ stable (flatten (three C)).
Proof. split; [exact: three_good|exact: three_stable]. Qed.

(** A good sample on which the steps diverge: two points of which one has three quarters of the weight. *)
Theorem steps_may_diverge : forall C : numClosedFieldType,
  [/\ good_sample 2%:R (skew C), skew_hs C 0 = 1%:M, iterates 2%:R (skew C) (skew_hs C),
      ~ (exists L, converges_to (skew_hs C) L) & ~ exists g, balanced 2%:R (skew C) g].
Proof. exact skew_diverges. Qed.
Print Assumptions steps_may_diverge.

(** ** C130: points in general position *)
Theorem general_position_stable_iff : forall (C : numClosedFieldType) N (pts : seq (sample C N)),
  general_position pts -> (N <= size pts)%N -> (1 < N)%N ->
  (forall p, p \in pts -> 0 <= weight p /\ p.1 != 0) -> 0 < \sum_(p <- pts) weight p ->
  (stable pts <-> forall p, p \in pts -> N%:R * weight p < \sum_(q <- pts) weight q).
Proof. exact general_iff. Qed.
Print Assumptions general_position_stable_iff.

Theorem general_position_converges : forall N (vol : CR) (bs : seq (seq (sample CR N))) (hs : nat -> 'M[CR]_N),
  good_sample vol bs -> general_position (flatten bs) -> (N <= size (flatten bs))%N ->
  (forall p, p \in flatten bs -> N%:R * weight p < \sum_(q <- flatten bs) weight q) ->
  hermitian (hs 0%N) -> posdef (hs 0%N) -> iterates vol bs hs ->
  exists L, [/\ balanced vol bs L, converges_to hs L & forall g, balanced vol bs g -> exists2 a, 0 < a & g = a *: L].
Proof. exact general_limit. Qed.
Print Assumptions general_position_converges.

Example three_in_general_position (C : numClosedFieldType) : general_position (flatten (three C)) /\
  forall p, p \in flatten (three C) -> 2%:R * weight p < \sum_(q <- flatten (three C)) weight q.
Proof. split; [exact: three_general|exact: (three_weights C).2]. Qed.

(** ** C131: AlgebraicMetric.donaldson_step called again with the same key *)
Theorem sampled_steps_converge : forall (D : forall n : nat, ('rV[CR]_n -> CR) -> 'rV[CR]_n -> 'rV[CR]_n),
  diff_ok D -> forall (lg ex : CR -> CR) (pi : CR) m e (V : variety CR) ps (Q : {mpoly CR[m.+2]}),
  hypersurface V ps m e -> defined_by V ps Q -> 0 < pi -> smooth D V ps m ->
  forall (key : Type) (draw : key -> seq CR -> nat -> res (seq (seq CR))) k B,
  basis_for k Q B -> (0 < k)%N ->
  forall (splitn : key -> nat -> seq key) kk batches bs zss W,
  rseq [seq draw k' ps bs | k' <- splitn kk batches] = Ok zss ->
  (forall zs, zs \in zss -> size zs = bs /\ points_on V ps m zs) ->
  (forall z, z \in flatten zss -> has_weight pi e Q z (W z)) ->
  (forall v : 'rV[CR]_(size (power_matrix B)), v != 0 ->
     exists2 z, z \in flatten zss & \sum_a v 0 a * hom_sections B z 0 a != 0) ->
  zss != [::] -> (0 < bs)%N ->
  let pts := [seq [seq (hom_sections B z, Some (W z)) | z <- zs] | zs <- zss] in
  let vol := avg W (flatten zss) in
  stable (flatten pts) \/ (exists g, balanced vol pts g) ->
  forall hs : nat -> 'M[CR]_(size (power_matrix B)), hermitian (hs 0%N) -> posdef (hs 0%N) ->
  (forall j, alg_donaldson_step D lg ex pi splitn m V draw true kk (hs j) ps vol batches bs = Ok (hs j.+1)) ->
  exists L, [/\ hermitian L, posdef L, converges_to hs L &
    alg_donaldson_step D lg ex pi splitn m V draw true kk L ps vol batches bs = Ok L].
Proof. exact sampled_limit. Qed.
Print Assumptions sampled_steps_converge.

(** The two points of the Fermat quadric in the projective line (see pair_sampled for the other
    hypotheses): both weights are 1/4, and the identity is balanced. *)
Example pair_converges (C : numClosedFieldType) (pi : C) (W : seq C -> C) :
  (forall z, z \in pair_points C -> has_weight pi 2 (dwork_Q 0 0) z (W z)) ->
  balanced (avg W (pair_points C)) [:: [seq (hom_sections pair_basis z, Some (W z)) | z <- pair_points C]] (1%:M : 'M[C]_2).
Proof. move=> H; exact: pair_balanced (pair_weights H). Qed.
