(** Properties C149 and C150: complex conjugation of the point, and real matrices H. *)
From Coq Require Import ZArith Lia Reals.
From mathcomp Require Import all_ssreflect all_algebra.
From mathcomp Require Import complex.
From SsrMultinomials Require Import mpoly.
From Verif Require Import Base ModelUtil ModelExpr ModelPoly ModelHom ModelVariety ModelBasis ModelGeom ModelDonaldson ModelAlg ModelPipe.
From Verif Require Import SpecGeom SpecBasis SpecPatch SpecAlg SpecDonaldson SpecPipe SpecStep SpecConj Herm PolyGrad Deriv Bridge.
From Verif Require Import ComplexR ProofAlg ProofStep ProofStep2 ProofConj2 ProofConj3 ProofConj4.
Delimit Scope Z_scope with Z.

Set Implicit Arguments.
Unset Strict Implicit.
Unset Printing Implicit Defensive.

Import GRing.Theory Num.Theory Order.POrderTheory.
Local Open Scope ring_scope.

(** ** C149: the conjugate point *)

(** Whatever the matrix: conjugate coordinates, parameters and matrix give the conjugate results. *)
Theorem conjugate_point : forall (C : numClosedFieldType)
    (D : forall n : nat, ('rV[C]_n -> C) -> 'rV[C]_n -> 'rV[C]_n), diff_ok D ->
  forall (lg ex : C -> C) (pi : C) (m e : nat) (V : variety C) (ps : seq C)
    (Q : {mpoly C[m.+2]}), real_hypersurface V ps m e -> defined_by V ps Q ->
  forall (k : nat) (B : basis), basis_for k Q B -> (0 < k)%N -> 0 < pi ->
  forall (M : 'M[C]_(size (power_matrix B)))
    (x : 'rV[C]_m.+2) (i : 'I_m.+2) (d : 'I_m.+1) (a g : seq C), smooth_at D V ps x i d a g ->
  let metric h zs qs := alg_metric D lg ex pi m V h zs (PArr qs) None None None in
  let ricci h zs qs := alg_ricci D lg ex pi m V h zs (PArr qs) None None None in
  let scalar h zs qs := alg_ricci_scalar D lg ex pi m V h zs (PArr qs) None None None in
  let eta h zs qs := alg_eta D lg ex pi m V h zs (PArr qs) None None None in
  let h := HMat M in let h' := HMat (map_mx conjC M) in
  let zs := row_seq x in let zs' := [seq c^* | c <- zs] in let ps' := [seq c^* | c <- ps] in
  exists i0 d0 G R r E,
  [/\ metric h zs ps = Ok (G, i0, d0), ricci h zs ps = Ok (R, i0, d0), scalar h zs ps = Ok r & eta h zs ps = Ok E] /\
  [/\ metric h' zs' ps' = Ok (map_mx conjC G, i0, d0), ricci h' zs' ps' = Ok (map_mx conjC R, i0, d0),
      scalar h' zs' ps' = Ok r^* & eta h' zs' ps' = Ok E^*].
Proof. exact conj_point_wrap. Qed.
Print Assumptions conjugate_point.

(** With an admissible H the ratio of volume forms and the Kahler potential are the same. *)
Theorem conjugate_point_same_eta : forall (C : numClosedFieldType)
    (D : forall n : nat, ('rV[C]_n -> C) -> 'rV[C]_n -> 'rV[C]_n), diff_ok D ->
  forall (lg ex : C -> C) (pi : C) (m e : nat) (V : variety C) (ps : seq C)
    (Q : {mpoly C[m.+2]}), real_hypersurface V ps m e -> defined_by V ps Q ->
  forall (k : nat) (B : basis), basis_for k Q B -> (0 < k)%N -> 0 < pi ->
  forall M : 'M[C]_(size (power_matrix B)), hermitian M -> posdef M ->
  forall (x : 'rV[C]_m.+2) (i : 'I_m.+2) (d : 'I_m.+1) (a g : seq C), smooth_at D V ps x i d a g ->
  let eta h zs qs := alg_eta D lg ex pi m V h zs (PArr qs) None None None in
  let kahler h zs := alg_kahler lg ex pi m V h zs None in
  let h := HMat M in let h' := HMat (map_mx conjC M) in
  let zs := row_seq x in let zs' := [seq c^* | c <- zs] in let ps' := [seq c^* | c <- ps] in
  exists E K, [/\ eta h zs ps = Ok E, eta h' zs' ps' = Ok E, kahler h zs = Ok K & kahler h' zs' = Ok K].
Proof. exact eta_kahler_conj. Qed.
Print Assumptions conjugate_point_same_eta.

(** At a real point with real parameters and a real H the metric and the Ricci tensor are real. *)
Theorem real_point_real_metric : forall (C : numClosedFieldType)
    (D : forall n : nat, ('rV[C]_n -> C) -> 'rV[C]_n -> 'rV[C]_n), diff_ok D ->
  forall (lg ex : C -> C) (pi : C) (m e : nat) (V : variety C) (ps : seq C)
    (Q : {mpoly C[m.+2]}), real_hypersurface V ps m e -> defined_by V ps Q ->
  forall (k : nat) (B : basis), basis_for k Q B -> (0 < k)%N -> 0 < pi -> all (fun c => c \is Num.real) ps ->
  forall M : 'M[C]_(size (power_matrix B)), real_entries M ->
  forall (x : 'rV[C]_m.+2) (i : 'I_m.+2) (d : 'I_m.+1) (a g : seq C), real_entries x -> smooth_at D V ps x i d a g ->
  exists i0 d0 G R,
  [/\ alg_metric D lg ex pi m V (HMat M) (row_seq x) (PArr ps) None None None = Ok (G, i0, d0),
      alg_ricci D lg ex pi m V (HMat M) (row_seq x) (PArr ps) None None None = Ok (R, i0, d0),
      real_entries G & real_entries R].
Proof. exact real_point. Qed.
Print Assumptions real_point_real_metric.

(** A smooth point of the Fermat quartic surface whose conjugate is another point. *)
Example quartic_point (C : numClosedFieldType) (D : forall n : nat, ('rV[C]_n -> C) -> 'rV[C]_n -> 'rV[C]_n) : diff_ok D ->
  [/\ real_hypersurface (fermat_variety C 2) [::] 2 4, @defined_by C (fermat_variety C 2) [::] 2 (dwork_Q 2 0),
      exists d a g, smooth_at D (fermat_variety C 2) [::] (quartic_x C) 0 d a g &
      forall c, conj_rv (quartic_x C) <> c *: quartic_x C].
Proof. exact: quartic_conj. Qed.

(** ** C150: real H from samples closed under conjugation *)

Theorem step_keeps_real : forall (C : numClosedFieldType) N (vol : C) (bs : seq (seq (sample C N))),
  good_sample vol bs -> conj_symmetric (flatten bs) ->
  forall h H' : 'M[C]_N, real_entries h -> donaldson_step true h vol bs = Ok H' -> real_entries H'.
Proof. exact good_real. Qed.
Print Assumptions step_keeps_real.

Theorem steps_keep_real : forall (C : numClosedFieldType) N (vol : C) (bs : seq (seq (sample C N))),
  good_sample vol bs -> conj_symmetric (flatten bs) ->
  forall hs : nat -> 'M[C]_N, iterates vol bs hs -> real_entries (hs 0%N) -> forall k, real_entries (hs k).
Proof. exact iterates_real. Qed.
Print Assumptions steps_keep_real.

Theorem balanced_is_real : forall (C : numClosedFieldType) N (vol : C) (bs : seq (seq (sample C N))),
  good_sample vol bs -> conj_symmetric (flatten bs) ->
  forall g : 'M[C]_N, indecomposable (flatten bs) -> balanced vol bs g -> real_entries g.
Proof. exact balanced_real. Qed.
Print Assumptions balanced_is_real.

(** The limit is real, whichever hermitian matrix the steps start from. *)
Theorem steps_real_limit : forall N (vol : CR) (bs : seq (seq (sample CR N))), good_sample vol bs ->
  forall hs : nat -> 'M[CR]_N, conj_symmetric (flatten bs) -> stable (flatten bs) ->
  hermitian (hs 0%N) -> posdef (hs 0%N) -> iterates vol bs hs ->
  exists L, [/\ balanced vol bs L, converges_to hs L & real_entries L].
Proof. exact stable_real_limit. Qed.
Print Assumptions steps_real_limit.

(** The same for points of a variety with real coefficients, given by their coordinates. *)
Theorem sampled_steps_keep_real : forall (C : numClosedFieldType) (D : forall n : nat, ('rV[C]_n -> C) -> 'rV[C]_n -> 'rV[C]_n),
  diff_ok D -> forall (lg ex : C -> C) (pi : C) m e (V : variety C) ps (Q : {mpoly C[m.+2]}),
  real_hypersurface V ps m e -> defined_by V ps Q -> 0 < pi -> all (fun c => c \is Num.real) ps -> smooth D V ps m ->
  forall (key : Type) (draw : key -> seq C -> nat -> res (seq (seq C))) k B,
  basis_for k Q B -> (0 < k)%N ->
  forall (splitn : key -> nat -> seq key) kk batches bs zss W,
  rseq [seq draw k' ps bs | k' <- splitn kk batches] = Ok zss ->
  (forall zs, zs \in zss -> size zs = bs /\ points_on V ps m zs) ->
  (forall z, z \in flatten zss -> has_weight pi e Q z (W z)) ->
  (forall v : 'rV[C]_(size (power_matrix B)), v != 0 ->
     exists2 z, z \in flatten zss & \sum_a v 0 a * hom_sections B z 0 a != 0) ->
  zss != [::] -> (0 < bs)%N -> conj_to_itself (flatten zss) ->
  forall h H' : 'M[C]_(size (power_matrix B)), real_entries h ->
  alg_donaldson_step D lg ex pi splitn m V draw true kk h ps (avg W (flatten zss)) batches bs = Ok H' -> real_entries H'.
Proof. exact sampled_real_wrap. Qed.
Print Assumptions sampled_steps_keep_real.

Theorem sampled_steps_real_limit : forall (D : forall n : nat, ('rV[CR]_n -> CR) -> 'rV[CR]_n -> 'rV[CR]_n),
  diff_ok D -> forall (lg ex : CR -> CR) (pi : CR) m e (V : variety CR) ps (Q : {mpoly CR[m.+2]}),
  real_hypersurface V ps m e -> defined_by V ps Q -> 0 < pi -> all (fun c => c \is Num.real) ps -> smooth D V ps m ->
  forall (key : Type) (draw : key -> seq CR -> nat -> res (seq (seq CR))) k B,
  basis_for k Q B -> (0 < k)%N ->
  forall (splitn : key -> nat -> seq key) kk batches bs zss W,
  rseq [seq draw k' ps bs | k' <- splitn kk batches] = Ok zss ->
  (forall zs, zs \in zss -> size zs = bs /\ points_on V ps m zs) ->
  (forall z, z \in flatten zss -> has_weight pi e Q z (W z)) ->
  (forall v : 'rV[CR]_(size (power_matrix B)), v != 0 ->
     exists2 z, z \in flatten zss & \sum_a v 0 a * hom_sections B z 0 a != 0) ->
  zss != [::] -> (0 < bs)%N -> conj_to_itself (flatten zss) ->
  let pts := [seq [seq (hom_sections B z, Some (W z)) | z <- zs] | zs <- zss] in let vol := avg W (flatten zss) in
  stable (flatten pts) ->
  forall hs : nat -> 'M[CR]_(size (power_matrix B)), hermitian (hs 0%N) -> posdef (hs 0%N) ->
  (forall j, alg_donaldson_step D lg ex pi splitn m V draw true kk (hs j) ps vol batches bs = Ok (hs j.+1)) ->
  exists L, [/\ hermitian L, posdef L, converges_to hs L & real_entries L].
Proof. exact sampled_real_limit. Qed.
Print Assumptions sampled_steps_real_limit.

(** The two points (1 : i), (1 : -i), and three points of the projective line. *)
Example pair_conjugate (C : numClosedFieldType) : conj_to_itself (pair_points C) /\ pair_points C = [:: [:: 1; 'i]; [:: 1; - 'i]].
Proof. by split; first exact: pair_conj. Qed.

Example three_conjugate (C : numClosedFieldType) : conj_symmetric (flatten (three C)).
Proof. exact: three_conj. Qed.
