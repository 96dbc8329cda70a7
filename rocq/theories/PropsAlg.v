(** Properties C94-C101: AlgebraicMetric, from the defining equation to the values. *)
From Coq Require Import ZArith Reals.
From mathcomp Require Import all_ssreflect all_algebra.
From mathcomp Require Import complex.
From SsrMultinomials Require Import mpoly.
From Verif Require Import Base ModelUtil ModelProjective ModelExpr ModelPoly ModelHom ModelVariety ModelBasis ModelGeom ModelAlg.
From Verif Require Import SpecPoly SpecHom SpecVariety SpecGeom SpecBasis SpecSections SpecPatch SpecAlg Herm.
From Verif Require Import Deriv Bridge PolyGrad RealField ComplexR ProofPolyExpr ProofAlg2 ProofAlg3 ProofAlg4 ProofAlg7.
Delimit Scope Z_scope with Z.

Set Implicit Arguments.
Unset Strict Implicit.
Unset Printing Implicit Defensive.

Import GRing.Theory Num.Theory.
Local Open Scope ring_scope.
Delimit Scope R_scope with RR.

(** *** C94: the defining equation of a homogeneous polynomial object is a polynomial.

    Without a patch [defining] is a unique multivariate polynomial, homogeneous of
    the degree of the object; on a patch it is the polynomial with that coordinate
    set to one. *)
Theorem defining_is_polynomial : forall (C : numClosedFieldType) (norm : expr C -> expr C) (m : nat), norm_ok norm ->
  forall (P : poly C) (V : hompoly C) (ps : seq C), hom_ok P -> hom_init P = Ok V -> variable_indices P = dim_indices [:: m.+2] ->
  size ps = size (parameters P) ->
  exists Q : {mpoly C[m.+2]},
  [/\ forall z, defining norm V (row_seq z) (PArr ps) (PatchNone C) = Ok (peval Q z),
      forall (p : 'I_m.+2) z, defining norm V (row_seq z) (PArr ps) (PatchInt C (Z.of_nat p)) = Ok (peval (dehom p Q) z),
      forall Q', (forall z, defining norm V (row_seq z) (PArr ps) (PatchNone C) = Ok (peval Q' z)) -> Q' = Q &
      forall e, homogeneous P e -> Q \is e.-homog].
Proof. exact defining_mpoly. Qed.
Print Assumptions defining_is_polynomial.

(** *** C95: homogeneous coordinates are defined up to a factor; without a patch the
    largest coordinate is the patch. *)
Theorem algebraic_rescaling : forall (C : numClosedFieldType)
    (D : forall n : nat, ('rV[C]_n -> C) -> 'rV[C]_n -> 'rV[C]_n)
    (lg ex : C -> C) (pi : C) (m : nat) (V : variety C) (B : basis)
    (h : hvalue C (size (power_matrix B))) (params : pyval C) (g : option 'rV[C]_m.+1) (dep : option Z) (zs : seq C) (c : C),
  c != 0 ->
  [/\ alg_kahler lg ex pi m V h [seq c * x | x <- zs] None = alg_kahler lg ex pi m V h zs None,
      alg_metric D lg ex pi m V h [seq c * x | x <- zs] params None g dep =
      alg_metric D lg ex pi m V h zs params None g dep,
      alg_eta D lg ex pi m V h [seq c * x | x <- zs] params None g dep =
      alg_eta D lg ex pi m V h zs params None g dep,
      alg_ricci D lg ex pi m V h [seq c * x | x <- zs] params None g dep =
      alg_ricci D lg ex pi m V h zs params None g dep &
      alg_ricci_scalar D lg ex pi m V h [seq c * x | x <- zs] params None g dep =
      alg_ricci_scalar D lg ex pi m V h zs params None g dep].
Proof. exact projective_functions. Qed.
Print Assumptions algebraic_rescaling.

Theorem algebraic_default_patch : forall (C : numClosedFieldType)
    (D : forall n : nat, ('rV[C]_n -> C) -> 'rV[C]_n -> 'rV[C]_n)
    (lg ex : C -> C) (pi : C) (m : nat) (V : variety C) (B : basis)
    (h : hvalue C (size (power_matrix B))) (params : pyval C) (g : option 'rV[C]_m.+1) (dep : option Z) (zs a : seq C) (p : nat),
  hom_to_affine_auto zs = Ok (a, p) ->
  [/\ alg_kahler lg ex pi m V h zs None = alg_kahler lg ex pi m V h a (Some (Z.of_nat p)),
      alg_metric D lg ex pi m V h zs params None g dep =
      alg_metric D lg ex pi m V h a params (Some (Z.of_nat p)) g dep,
      alg_eta D lg ex pi m V h zs params None g dep =
      alg_eta D lg ex pi m V h a params (Some (Z.of_nat p)) g dep,
      alg_ricci D lg ex pi m V h zs params None g dep =
      alg_ricci D lg ex pi m V h a params (Some (Z.of_nat p)) g dep &
      alg_ricci_scalar D lg ex pi m V h zs params None g dep =
      alg_ricci_scalar D lg ex pi m V h a params (Some (Z.of_nat p)) g dep].
Proof. exact explicit_functions. Qed.
Print Assumptions algebraic_default_patch.

(** *** C96: the metric on any patch with any dependent coordinate, and the default *)
Theorem algebraic_metric_point : forall (C : numClosedFieldType)
    (D : forall n : nat, ('rV[C]_n -> C) -> 'rV[C]_n -> 'rV[C]_n), diff_ok D ->
  forall (lg ex : C -> C) (pi : C) (m e : nat) (V : variety C) (ps : seq C)
    (Q : {mpoly C[m.+2]}), hypersurface V ps m e -> defined_by V ps Q ->
  forall (k : nat) (B : basis), basis_for k Q B -> (0 < k)%N -> 0 < pi ->
  forall M : 'M[C]_(size (power_matrix B)), hermitian M -> posdef M ->
  forall (x : 'rV[C]_m.+2) (i : 'I_m.+2) (d : 'I_m.+1) (a g : seq C), smooth_at D V ps x i d a g ->
  exists (i0 : 'I_m.+2) (d0 : 'I_m.+1) G G0 A,
  [/\ alg_metric D lg ex pi m V (HMat M) a (PArr ps) (Some (Z.of_nat i)) None (Some (Z.of_nat d)) =
        Ok (G, Z.of_nat i, Z.of_nat d),
      alg_metric D lg ex pi m V (HMat M) (row_seq x) (PArr ps) None None None = Ok (G0, Z.of_nat i0, Z.of_nat d0),
      A \in unitmx /\ G = A *m G0 *m adjm A, posdef G0 &
      (forall j : 'I_m.+2, `|x 0 j| <= `|nth 0 (row_seq x) i0|) /\
      exists a0 g0, [/\ hom_to_affine (row_seq x) (Z.of_nat i0) = Ok a0,
        v_grad_defining D V a0 (PArr ps) (PatchInt C (Z.of_nat i0)) = Ok g0 &
        forall b : 'I_m.+1, `|nth 0 g0 b| <= `|nth 0 g0 d0|]].
Proof. exact metric_wrap. Qed.
Print Assumptions algebraic_metric_point.

(** *** C97: the Ricci tensor and scalar, over the complex numbers *)
Theorem algebraic_ricci_point : forall (D : forall n : nat, ('rV[CR]_n -> CR) -> 'rV[CR]_n -> 'rV[CR]_n), diff_ok D ->
  forall (lg ex : CR -> CR) (m e : nat) (V : variety CR) (ps : seq CR)
    (Q : {mpoly CR[m.+2]}), hypersurface V ps m e -> defined_by V ps Q ->
  forall (k : nat) (B : basis), basis_for k Q B -> (0 < k)%N ->
  forall M : 'M[CR]_(size (power_matrix B)), hermitian M -> posdef M ->
  forall (x : 'rV[CR]_m.+2) (i : 'I_m.+2) (d : 'I_m.+1) (a g : seq CR), smooth_at D V ps x i d a g ->
  exists i0 d0 G G0 R R0 A r,
  [/\ alg_metric D lg ex (rc PI) m V (HMat M) a (PArr ps) (Some (Z.of_nat i)) None (Some (Z.of_nat d)) =
        Ok (G, Z.of_nat i, Z.of_nat d),
      alg_metric D lg ex (rc PI) m V (HMat M) (row_seq x) (PArr ps) None None None = Ok (G0, i0, d0),
      alg_ricci D lg ex (rc PI) m V (HMat M) a (PArr ps) (Some (Z.of_nat i)) None (Some (Z.of_nat d)) =
        Ok (R, Z.of_nat i, Z.of_nat d) &
      alg_ricci D lg ex (rc PI) m V (HMat M) (row_seq x) (PArr ps) None None None = Ok (R0, i0, d0)] /\
  [/\ A \in unitmx, G = A *m G0 *m adjm A, R = A *m R0 *m adjm A,
      alg_ricci_scalar D lg ex (rc PI) m V (HMat M) a (PArr ps) (Some (Z.of_nat i)) None (Some (Z.of_nat d)) = Ok r &
      alg_ricci_scalar D lg ex (rc PI) m V (HMat M) (row_seq x) (PArr ps) None None None = Ok r].
Proof. exact ricci_wrap. Qed.
Print Assumptions algebraic_ricci_point.

(** *** C98: eta *)
Theorem algebraic_eta_point : forall (C : numClosedFieldType)
    (D : forall n : nat, ('rV[C]_n -> C) -> 'rV[C]_n -> 'rV[C]_n), diff_ok D ->
  forall (lg ex : C -> C) (pi : C) (m e : nat) (V : variety C) (ps : seq C)
    (Q : {mpoly C[m.+2]}), hypersurface V ps m e -> defined_by V ps Q ->
  forall (k : nat) (B : basis), basis_for k Q B -> (0 < k)%N -> 0 < pi ->
  forall M : 'M[C]_(size (power_matrix B)), hermitian M -> posdef M ->
  forall (x : 'rV[C]_m.+2) (i : 'I_m.+2) (d : 'I_m.+1) (a g : seq C), smooth_at D V ps x i d a g ->
  exists (i0 : 'I_m.+2) E E0,
  [/\ alg_eta D lg ex pi m V (HMat M) a (PArr ps) (Some (Z.of_nat i)) None (Some (Z.of_nat d)) = Ok E,
      alg_eta D lg ex pi m V (HMat M) (row_seq x) (PArr ps) None None None = Ok E0,
      E * `|x 0 i0 / x 0 i| ^+ (2 * m.+2) = `|x 0 i0 / x 0 i| ^+ (2 * e) * E0, e = m.+2 -> E = E0 &
      forall j : 'I_m.+2, `|x 0 j| <= `|x 0 i0|].
Proof. exact eta_wrap. Qed.
Print Assumptions algebraic_eta_point.

(** *** C99: the Kaehler potential *)
Theorem algebraic_kahler_point : forall (C : numClosedFieldType)
    (D : forall n : nat, ('rV[C]_n -> C) -> 'rV[C]_n -> 'rV[C]_n), diff_ok D ->
  forall (lg ex : C -> C) (pi : C) (m e : nat) (V : variety C) (ps : seq C)
    (Q : {mpoly C[m.+2]}), hypersurface V ps m e -> defined_by V ps Q ->
  forall (k : nat) (B : basis), basis_for k Q B -> (0 < k)%N -> 0 < pi ->
  forall M : 'M[C]_(size (power_matrix B)), hermitian M -> posdef M ->
  forall (x : 'rV[C]_m.+2) (i : 'I_m.+2) (d : 'I_m.+1) (a g : seq C), smooth_at D V ps x i d a g ->
  (forall u v, 0 < u -> 0 < v -> lg (u * v) = lg u + lg v) ->
  exists (i0 : 'I_m.+2) K K0,
  [/\ alg_kahler lg ex pi m V (HMat M) a (Some (Z.of_nat i)) = Ok K,
      alg_kahler lg ex pi m V (HMat M) (row_seq x) None = Ok K0,
      K = K0 + lg (`|x 0 i0 / x 0 i| ^+ 2) / pi &
      forall j : 'I_m.+2, `|x 0 j| <= `|x 0 i0|].
Proof. exact kahler_wrap. Qed.
Print Assumptions algebraic_kahler_point.

(** *** C100: a wrong number of coordinates *)
Theorem algebraic_wrong_length : forall (C : numClosedFieldType)
    (D : forall n : nat, ('rV[C]_n -> C) -> 'rV[C]_n -> 'rV[C]_n)
    (lg ex : C -> C) (pi : C) (m : nat) (V : variety C) (B : basis)
    (h : hvalue C (size (power_matrix B))) (zs : seq C) (params : pyval C) (patch : option Z)
    (g : option 'rV[C]_m.+1) (dep : option Z),
  v_coordinates V = Ok m.+2 ->
  (if patch is Some p then size zs <> m.+1 else size zs <> m.+2 /\ has (fun x => x != 0) zs) ->
  [/\ alg_kahler lg ex pi m V h zs patch = Err AssertionError,
      alg_metric D lg ex pi m V h zs params patch g dep = Err AssertionError,
      alg_eta D lg ex pi m V h zs params patch g dep = Err AssertionError,
      alg_ricci D lg ex pi m V h zs params patch g dep = Err AssertionError &
      alg_ricci_scalar D lg ex pi m V h zs params patch g dep = Err AssertionError].
Proof. exact wrong_length. Qed.
Print Assumptions algebraic_wrong_length.

(** *** C101: passing the gradient and the dependent coordinate *)
Theorem algebraic_gradient_argument : forall (C : numClosedFieldType)
    (D : forall n : nat, ('rV[C]_n -> C) -> 'rV[C]_n -> 'rV[C]_n)
    (lg ex : C -> C) (pi : C) (m : nat) (V : variety C) (B : basis)
    (h : hvalue C (size (power_matrix B))) (params : pyval C) (dep : option Z) (a : seq C) (p : Z) (gr : seq C) (d : Z),
  size a = m.+1 -> size gr = m.+1 -> v_coordinates V = Ok m.+2 ->
  v_grad_defining D V a params (PatchInt C p) = Ok gr -> choose_dependent gr dep = Ok d ->
  let G := Some (seq_row m.+1 gr) in
  [/\ alg_metric D lg ex pi m V h a params (Some p) None dep =
      alg_metric D lg ex pi m V h a params (Some p) G (Some d),
      alg_eta D lg ex pi m V h a params (Some p) None dep =
      alg_eta D lg ex pi m V h a params (Some p) G (Some d),
      alg_ricci D lg ex pi m V h a params (Some p) None dep =
      alg_ricci D lg ex pi m V h a params (Some p) G (Some d) &
      alg_ricci_scalar D lg ex pi m V h a params (Some p) None dep =
      alg_ricci_scalar D lg ex pi m V h a params (Some p) G (Some d)].
Proof. exact gradient_functions. Qed.
Print Assumptions algebraic_gradient_argument.

(** A gradient which is passed is used: multiplied by a factor it gives the same
    metric and Ricci tensor, and eta is multiplied by the squared modulus. *)
Theorem algebraic_gradient_scaled : forall (C : numClosedFieldType)
    (D : forall n : nat, ('rV[C]_n -> C) -> 'rV[C]_n -> 'rV[C]_n)
    (lg ex : C -> C) (pi : C) (m : nat) (V : variety C) (B : basis)
    (h : hvalue C (size (power_matrix B))) (zs : seq C) (params : pyval C) (patch dep : option Z) (g : 'rV[C]_m.+1) (c : C),
  c != 0 ->
  [/\ alg_metric D lg ex pi m V h zs params patch (Some (c *: g)) dep =
      alg_metric D lg ex pi m V h zs params patch (Some g) dep,
      alg_ricci D lg ex pi m V h zs params patch (Some (c *: g)) dep =
      alg_ricci D lg ex pi m V h zs params patch (Some g) dep,
      alg_ricci_scalar D lg ex pi m V h zs params patch (Some (c *: g)) dep =
      alg_ricci_scalar D lg ex pi m V h zs params patch (Some g) dep &
      alg_eta D lg ex pi m V h zs params patch (Some (c *: g)) dep =
      rmap (fun e => `|c| ^+ 2 * e) (alg_eta D lg ex pi m V h zs params patch (Some g) dep)].
Proof. exact gradient_scale. Qed.
Print Assumptions algebraic_gradient_scaled.

(** The quadric z0 z1 + z2^2 at (1 : -4 : 2), on patch 0, with the full basis of any
    degree and H the identity: every hypothesis of C96-C99 holds, and there is an
    operator D as required. *)
Example algebraic_instance (C : numClosedFieldType) (k : nat) (d : 'I_2) :
  diff_ok (@choice_D C) /\
  exists V B, [/\ hypersurface V [:: 1] 1 2, @defined_by C V [:: 1] 1 (quadric_Q C),
    basis_for k (quadric_Q C) B, hermitian (1%:M : 'M[C]_(size (power_matrix B))) /\ posdef (1%:M : 'M[C]_(size (power_matrix B))) &
    forall D, diff_ok D -> smooth_at D V [:: 1] (quadric_x C) 0 d (row_seq (quadric_a C)) [:: 1; 4%:R]].
Proof. exact: quadric_setting. Qed.

(** The same point with three coordinates multiplied by 3, and a point with a missing coordinate. *)
Example algebraic_inputs (C : numClosedFieldType) : exists V : variety C,
  [/\ alg_point 1 V [:: 3%:R; - 12%:R; 6%:R] None = alg_point 1 V [:: 1; - 4%:R; 2%:R] None,
      alg_point 1 V [:: 1; - 4%:R; 2%:R] None = Ok (\row_(i < 2) nth 0 [:: - 4%:R^-1; - 2%:R^-1] i, 1%Z),
      alg_point 1 V [:: 1; - 4%:R] None = Err AssertionError &
      alg_point 1 V [:: 1] (Some 0%Z) = Err AssertionError].
Proof. exact: quadric_inputs. Qed.
