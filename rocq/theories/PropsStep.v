(** Properties C124-C127: repeated Donaldson steps on one sample. *)
From Coq Require Import ZArith Lia Reals.
From mathcomp Require Import all_ssreflect all_algebra.
From mathcomp Require Import complex.
From SsrMultinomials Require Import mpoly.
From Verif Require Import Base ModelUtil ModelBasis ModelDonaldson ModelAlg ModelPipe.
From Verif Require Import SpecGeom SpecBasis SpecPatch SpecAlg SpecDonaldson SpecPipe SpecStep Herm.
From Verif Require Import ComplexR ProofAlg ProofAlg6 ProofPipe8 ProofDonaldson3 ProofStep ProofStep2.
Delimit Scope Z_scope with Z.

Set Implicit Arguments.
Unset Strict Implicit.
Unset Printing Implicit Defensive.

Import GRing.Theory Num.Theory Order.POrderTheory.
Local Open Scope ring_scope.

(** ** C124: the determinant and the energy *)
Theorem step_raises_determinant : forall (C : numClosedFieldType) N (vol : C) (bs : seq (seq (sample C N))),
  good_sample vol bs -> forall h H' : 'M[C]_N, hermitian h -> posdef h -> donaldson_step true h vol bs = Ok H' ->
  \det h <= \det H' /\ (\det h = \det H' <-> H' = h).
Proof. exact good_det. Qed.
Print Assumptions step_raises_determinant.

Theorem step_mean_norm : forall (C : numClosedFieldType) N (vol : C) (bs : seq (seq (sample C N))),
  good_sample vol bs -> forall h H' : 'M[C]_N, hermitian h -> posdef h -> donaldson_step true h vol bs = Ok H' ->
  \sum_(p <- flatten bs) weight p * (hform H' p.1 / hform h p.1) = \sum_(p <- flatten bs) weight p.
Proof. exact good_norms. Qed.
Print Assumptions step_mean_norm.

Theorem step_lowers_energy : forall (C : numClosedFieldType) N (vol : C) (bs : seq (seq (sample C N))),
  good_sample vol bs -> forall (lg : C -> C) (h H' : 'M[C]_N), log_like lg -> hermitian h -> posdef h ->
  donaldson_step true h vol bs = Ok H' ->
  energy lg (flatten bs) H' <= energy lg (flatten bs) h /\
  (energy lg (flatten bs) H' = energy lg (flatten bs) h <-> H' = h).
Proof. exact good_energy. Qed.
Print Assumptions step_lowers_energy.

Theorem complex_log_is_like : log_like clog.
Proof. exact clog_log_like. Qed.
Print Assumptions complex_log_is_like.

Theorem steps_do_not_cycle : forall (C : numClosedFieldType) N (vol : C) (bs : seq (seq (sample C N))),
  good_sample vol bs -> forall hs : nat -> 'M[C]_N, hermitian (hs 0%N) -> posdef (hs 0%N) -> iterates vol bs hs ->
  (forall k, hermitian (hs k) /\ posdef (hs k)) /\
  (forall j k, (j <= k)%N -> \det (hs j) <= \det (hs k)) /\
  (forall j k, (j < k)%N -> hs j = hs k -> forall l, (j <= l)%N -> hs l = hs j).
Proof. exact good_cycle. Qed.
Print Assumptions steps_do_not_cycle.

(** Three points of the projective line: from the identity the determinant grows to 9/8. *)
Example three_step (C : numClosedFieldType) : [/\ good_sample 1 (three C),
  donaldson_step true 1%:M 1 (three C) = Ok (mx2 (9%:R / 8%:R) (- 3%:R / 8%:R) (- 3%:R / 8%:R) (9%:R / 8%:R)) &
  \det (mx2 (9%:R / 8%:R) (- 3%:R / 8%:R) (- 3%:R / 8%:R) (9%:R / 8%:R)) = 9%:R / 8%:R :> C].
Proof. split; [exact: three_good|exact: three_from_one|exact: three_det]. Qed.

Example steps_exist (C : numClosedFieldType) N (vol : C) (bs : seq (seq (sample C N))) h :
  exists hs : nat -> 'M[C]_N, hs 0%N = h /\ iterates vol bs hs.
Proof. exact: good_iterates. Qed.

(** ** C125: the order of Hermitian matrices *)
Theorem step_keeps_order : forall (C : numClosedFieldType) N (vol : C) (bs : seq (seq (sample C N))),
  good_sample vol bs -> forall h1 h2 H1 H2 : 'M[C]_N, hermitian h1 -> posdef h1 -> hermitian h2 -> posdef h2 ->
  loewner h1 h2 -> donaldson_step true h1 vol bs = Ok H1 -> donaldson_step true h2 vol bs = Ok H2 -> loewner H1 H2.
Proof. exact good_order. Qed.
Print Assumptions step_keeps_order.

Theorem step_is_not_expanding : forall (C : numClosedFieldType) N (vol : C) (bs : seq (seq (sample C N))),
  good_sample vol bs -> forall (a b : C) (h1 h2 H1 H2 : 'M[C]_N), 0 < a -> 0 < b ->
  hermitian h1 -> posdef h1 -> hermitian h2 -> posdef h2 ->
  donaldson_step true h1 vol bs = Ok H1 -> donaldson_step true h2 vol bs = Ok H2 ->
  loewner (a *: h1) h2 -> loewner h2 (b *: h1) -> loewner (a *: H1) H2 /\ loewner H2 (b *: H1).
Proof. exact good_between. Qed.
Print Assumptions step_is_not_expanding.

Theorem steps_stay_bounded : forall (C : numClosedFieldType) N (vol : C) (bs : seq (seq (sample C N))),
  good_sample vol bs -> forall (a b : C) (g : 'M[C]_N) (hs : nat -> 'M[C]_N), balanced vol bs g ->
  hermitian (hs 0%N) -> posdef (hs 0%N) -> iterates vol bs hs -> 0 < a -> 0 < b ->
  loewner (a *: g) (hs 0%N) -> loewner (hs 0%N) (b *: g) ->
  forall k, loewner (a *: g) (hs k) /\ loewner (hs k) (b *: g).
Proof. exact good_bounded. Qed.
Print Assumptions steps_stay_bounded.

(** The three points have a balanced metric, and the identity lies between multiples of it. *)
Example three_balanced (C : numClosedFieldType) : balanced 1 (three C) (h3 C) /\
  loewner (3%:R^-1 *: h3 C) 1%:M /\ loewner 1%:M (1 *: h3 C).
Proof. split; [exact: h3_balanced|exact: h3_bounds]. Qed.

(** ** C126: balanced metrics *)
Theorem balanced_minimises_energy : forall (C : numClosedFieldType) N (vol : C) (bs : seq (seq (sample C N))),
  good_sample vol bs -> forall (lg : C -> C) (g h : 'M[C]_N), log_like lg -> balanced vol bs g ->
  hermitian h -> posdef h -> energy lg (flatten bs) g <= energy lg (flatten bs) h.
Proof. exact good_min. Qed.
Print Assumptions balanced_minimises_energy.

Theorem balanced_unique_to_scale : forall (C : numClosedFieldType) N (vol : C) (bs : seq (seq (sample C N))),
  good_sample vol bs -> forall g h : 'M[C]_N, indecomposable (flatten bs) -> balanced vol bs g -> balanced vol bs h ->
  exists2 a, 0 < a & h = a *: g.
Proof. exact good_unique. Qed.
Print Assumptions balanced_unique_to_scale.

Example three_unique (C : numClosedFieldType) : indecomposable (flatten (three C)).
Proof. exact: three_indecomposable. Qed.

(** Without this condition a sample may have balanced metrics which are not multiples of each other. *)
Theorem balanced_not_unique : forall C : numClosedFieldType, exists (bs : seq (seq (sample C 2))) (g h : 'M[C]_2),
  [/\ good_sample 1 bs, balanced 1 bs g, balanced 1 bs h & ~ exists a, h = a *: g].
Proof. exact two_metrics. Qed.
Print Assumptions balanced_not_unique.

(** ** C127: AlgebraicMetric.donaldson_step called again with the same key *)
Theorem sampled_steps : forall (C : numClosedFieldType) (D : forall n : nat, ('rV[C]_n -> C) -> 'rV[C]_n -> 'rV[C]_n),
  diff_ok D -> forall (lg ex : C -> C) (pi : C) m e (V : variety C) ps (Q : {mpoly C[m.+2]}),
  hypersurface V ps m e -> defined_by V ps Q -> 0 < pi -> smooth D V ps m ->
  forall (key : Type) (draw : key -> seq C -> nat -> res (seq (seq C))) k B,
  basis_for k Q B -> (0 < k)%N ->
  forall (splitn : key -> nat -> seq key) kk batches bs zss W,
  rseq [seq draw k' ps bs | k' <- splitn kk batches] = Ok zss ->
  (forall zs, zs \in zss -> size zs = bs /\ points_on V ps m zs) ->
  (forall z, z \in flatten zss -> has_weight pi e Q z (W z)) ->
  (forall v : 'rV[C]_(size (power_matrix B)), v != 0 ->
     exists2 z, z \in flatten zss & \sum_a v 0 a * hom_sections B z 0 a != 0) ->
  zss != [::] -> (0 < bs)%N ->
  let pts := [seq [seq (hom_sections B z, Some (W z)) | z <- zs] | zs <- zss] in
  let vol := avg W (flatten zss) in
  good_sample vol pts /\
  forall h : 'M[C]_(size (power_matrix B)),
    alg_donaldson_step D lg ex pi splitn m V draw true kk h ps vol batches bs = donaldson_step true h vol pts.
Proof. exact sampled_step. Qed.
Print Assumptions sampled_steps.

Theorem sampled_steps_raise_determinant : forall (C : numClosedFieldType)
    (D : forall n : nat, ('rV[C]_n -> C) -> 'rV[C]_n -> 'rV[C]_n),
  diff_ok D -> forall (lg ex : C -> C) (pi : C) m e (V : variety C) ps (Q : {mpoly C[m.+2]}),
  hypersurface V ps m e -> defined_by V ps Q -> 0 < pi -> smooth D V ps m ->
  forall (key : Type) (draw : key -> seq C -> nat -> res (seq (seq C))) k B,
  basis_for k Q B -> (0 < k)%N ->
  forall (splitn : key -> nat -> seq key) kk batches bs zss W,
  rseq [seq draw k' ps bs | k' <- splitn kk batches] = Ok zss ->
  (forall zs, zs \in zss -> size zs = bs /\ points_on V ps m zs) ->
  (forall z, z \in flatten zss -> has_weight pi e Q z (W z)) ->
  (forall v : 'rV[C]_(size (power_matrix B)), v != 0 ->
     exists2 z, z \in flatten zss & \sum_a v 0 a * hom_sections B z 0 a != 0) ->
  zss != [::] -> (0 < bs)%N ->
  forall hs : nat -> 'M[C]_(size (power_matrix B)), hermitian (hs 0%N) -> posdef (hs 0%N) ->
  (forall j, alg_donaldson_step D lg ex pi splitn m V draw true kk (hs j) ps (avg W (flatten zss)) batches bs = Ok (hs j.+1)) ->
  (forall j k, (j <= k)%N -> \det (hs j) <= \det (hs k)) /\
  (forall j k, (j < k)%N -> hs j = hs k -> forall l, (j <= l)%N -> hs l = hs j).
Proof. exact sampled_det. Qed.
Print Assumptions sampled_steps_raise_determinant.

(** The Fermat quadric of two points in the projective line, with the coordinates as sections *)
Example pair_sampled (C : numClosedFieldType) (D : forall n : nat, ('rV[C]_n -> C) -> 'rV[C]_n -> 'rV[C]_n) : diff_ok D ->
  [/\ [/\ hypersurface (fermat_variety C 0) [::] 0 2, @defined_by C (fermat_variety C 0) [::] 0 (dwork_Q 0 0) &
          smooth D (fermat_variety C 0) [::] 0],
      basis_for 1 (dwork_Q 0 (0 : C)) pair_basis,
      points_on (fermat_variety C 0) [::] 0 (pair_points C),
      forall pi, 0 < pi -> exists W : seq C -> C, forall z, z \in pair_points C -> has_weight pi 2 (dwork_Q 0 0) z (W z) &
      forall v : 'rV[C]_2, v != 0 ->
        exists2 z, z \in pair_points C & \sum_a v 0 a * hom_sections pair_basis z 0 a != 0].
Proof. exact: pair_setting. Qed.
