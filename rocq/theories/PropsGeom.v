(** Properties C48-C53 and C74-C76: GeometricObjects of cyjax/donaldson.py. *)
From Coq Require Import ZArith.
From mathcomp Require Import all_ssreflect all_algebra.
From SsrMultinomials Require Import mpoly.
From Verif Require Import Base ModelUtil ModelGeom Deriv Bridge Wirtinger SpecGeom Herm
  ProofGeom3 ProofGeom4 PolyGrad.
Delimit Scope Z_scope with Z.

Set Implicit Arguments.
Unset Strict Implicit.
Unset Printing Implicit Defensive.

Import GRing.Theory Num.Theory Order.POrderTheory.
Local Open Scope ring_scope.

(** C48: g_proj is the matrix of mixed derivatives of the Kaehler potential, and
    Hermitian. *)
Theorem metric_is_hessian : forall (C : numClosedFieldType) (N m : nat) (log : C -> C) (pi : C)
    (o : 'rV[C]_m.+1 -> objects C N m) z (M : 'M[C]_N) k,
  hermitian M -> sections_contract o z M k -> (0 < k)%N -> 0 < pi -> ob_psi (o z) != 0 ->
  (log_near log (ob_psi (o z)) ->
   is_mixed (fun y => ob_kahler log pi (o y)) z (ob_g_proj pi (o z))) /\
  (forall i j, (ob_g_proj pi (o z) i j)^* = ob_g_proj pi (o z) j i).
Proof. exact kahler_thm. Qed.
Print Assumptions metric_is_hessian.

(** C48: in the coordinates of the variety, g_loc is the matrix of mixed
    derivatives of the restriction of the potential. *)
Theorem local_metric_is_hessian : forall (C : numClosedFieldType) (N m : nat) (log : C -> C) (pi : C)
    (o : 'rV[C]_m.+1 -> objects C N m) (M : 'M[C]_N) k (d : 'I_m.+1)
    (Q : 'rV[C]_m.+1 -> C) (phi : 'rV[C]_m -> 'rV[C]_m.+1) (x : 'rV[C]_m),
  local_parametrisation Q (fun y => o_grad (o y)) d phi x ->
  embedding_contract o (phi x) d -> hermitian M -> sections_contract o (phi x) M k ->
  ob_psi (o (phi x)) != 0 -> log_near log (ob_psi (o (phi x))) ->
  exists2 g, ob_g_loc pi (o (phi x)) = Ok g & is_mixed (fun y => ob_kahler log pi (o (phi y))) x g.
Proof. exact metric_pullback. Qed.
Print Assumptions local_metric_is_hessian.

(** C49 *)
Theorem ambient_metric_derivatives : forall (C : numClosedFieldType) (N m : nat) (pi : C)
    (o : 'rV[C]_m.+1 -> objects C N m) z (M : 'M[C]_N) k,
  hermitian M -> sections_contract o z M k -> (0 < k)%N -> 0 < pi -> ob_psi (o z) != 0 ->
  exists gh ga gha, [/\ ob_g_proj_h pi (o z) = Ok gh, ob_g_proj_a pi (o z) = Ok ga,
    ob_g_proj_ha pi (o z) = Ok gha,
    forall i j, is_wgrad (fun y => ob_g_proj pi (o y) i j) z (fun a => gh a i j) (fun a => ga a i j) &
    forall i j, is_mixed (fun y => ob_g_proj pi (o y) i j) z (fun a b => gha a b i j)].
Proof. exact ambient_thm. Qed.
Print Assumptions ambient_metric_derivatives.

(** C50 *)
Theorem local_metric_derivatives : forall (C : numClosedFieldType) (N m : nat) (pi : C)
    (o : 'rV[C]_m.+1 -> objects C N m) z (M : 'M[C]_N) k (d : 'I_m.+1),
  hermitian M -> sections_contract o z M k -> embedding_contract o z d ->
  (0 < k)%N -> 0 < pi -> ob_psi (o z) != 0 ->
  exists J g gh ga gha, [/\ ob_jac (o z) = Ok J /\ ob_g_loc pi (o z) = Ok g,
    ob_g_loc_h pi (o z) = Ok gh, ob_g_loc_a pi (o z) = Ok ga, ob_g_loc_ha pi (o z) = Ok gha &
    forall q s, [/\ g q s = \sum_i \sum_j J q i * ob_g_proj pi (o z) i j * (J s j)^*,
      is_wgrad (fun y => res_mx (ob_g_loc pi (o y)) q s) z (fun a => gh a q s) (fun a => ga a q s) &
      is_mixed (fun y => res_mx (ob_g_loc pi (o y)) q s) z (fun a b => gha a b q s)]].
Proof. exact local_thm. Qed.
Print Assumptions local_metric_derivatives.

(** C51: ricci_proj is the matrix of mixed derivatives of - log det g_loc in the
    ambient coordinates, ricci_loc its pullback, ricci_scalar its trace. *)
Theorem ricci_is_mixed_derivative : forall (C : numClosedFieldType) (N m : nat) (log : C -> C) (pi : C)
    (o : 'rV[C]_m.+1 -> objects C N m) z (M : 'M[C]_N) k (d : 'I_m.+1) (g : 'M[C]_m),
  hermitian M -> sections_contract o z M k -> embedding_contract o z d ->
  (0 < k)%N -> 0 < pi -> ob_psi (o z) != 0 ->
  ob_g_loc pi (o z) = Ok g -> \det g != 0 -> log_near log (\det g) ->
  exists J R, [/\ ob_jac (o z) = Ok J, ob_ricci_proj pi (o z) = Ok R,
    is_mixed (fun y => - log (\det (res_mx (ob_g_loc pi (o y))))) z R,
    ob_ricci_loc pi (o z) = Ok (J *m R *m adjm J) &
    ob_ricci_scalar pi (o z) = Ok (\tr (J *m R *m adjm J *m invmx g))].
Proof. exact ricci_thm. Qed.
Print Assumptions ricci_is_mixed_derivative.

(** C51: in the coordinates of the variety. *)
Theorem ricci_on_variety : forall (C : numClosedFieldType) (N m : nat) (log : C -> C) (pi : C)
    (o : 'rV[C]_m.+1 -> objects C N m) (M : 'M[C]_N) k (d : 'I_m.+1)
    (Q : 'rV[C]_m.+1 -> C) (phi : 'rV[C]_m -> 'rV[C]_m.+1) (x : 'rV[C]_m),
  local_parametrisation Q (fun y => o_grad (o y)) d phi x ->
  embedding_contract o (phi x) d -> hermitian M -> sections_contract o (phi x) M k ->
  0 < pi -> ob_psi (o (phi x)) != 0 ->
  forall g, ob_g_loc pi (o (phi x)) = Ok g -> \det g != 0 -> log_near log (\det g) ->
  exists2 R, ob_ricci_loc pi (o (phi x)) = Ok R &
    is_mixed (fun y => - log (\det (res_mx (ob_g_loc pi (o (phi y)))))) x R.
Proof. exact ricci_pullback. Qed.
Print Assumptions ricci_on_variety.

(** C51, C52: the scale of H. *)
Theorem scale_invariance : forall (C : numClosedFieldType) (N m : nat) (pi c : C) (o : objects C N m),
  c != 0 -> ob_psi o != 0 -> c^* = c ->
  let o' := with_h (scale_h c (o_h o)) o in
  [/\ ob_psi o' = c * ob_psi o /\ (forall i j, ob_g_proj pi o' i j = ob_g_proj pi o i j),
      ob_g_loc pi o' = ob_g_loc pi o,
      ob_eta pi o' = ob_eta pi o,
      ob_ricci_loc pi o' = ob_ricci_loc pi o &
      ob_ricci_scalar pi o' = ob_ricci_scalar pi o].
Proof. exact scale_thm. Qed.
Print Assumptions scale_invariance.

(** C52: eta is real. *)
Theorem eta_is_real : forall (C : numClosedFieldType) (N m : nat) (pi : C) (o : objects C N m) (M : 'M[C]_N),
  o_h o = HMat M -> hermitian M -> 0 < pi ->
  forall d : 'I_m.+1, o_dep o = Some (Z.of_nat d) -> o_grad o 0 d != 0 ->
  exists2 e, ob_eta pi o = Ok e & e \is Num.real.
Proof. exact eta_real. Qed.
Print Assumptions eta_is_real.

(** C52: g_loc and eta are positive when g_proj is. *)
Theorem eta_is_positive : forall (C : numClosedFieldType) (N m : nat) (pi : C) (o : objects C N m)
    (d : 'I_m.+1), o_dep o = Some (Z.of_nat d) -> o_grad o 0 d != 0 ->
  posdef (\matrix_(i, j) ob_g_proj pi o i j) ->
  exists g, [/\ ob_g_loc pi o = Ok g, posdef g & exists2 e, ob_eta pi o = Ok e & 0 < e].
Proof. exact g_loc_pos. Qed.
Print Assumptions eta_is_positive.

(** C52: eta does not depend on the dependent coordinate. *)
Theorem eta_dependent_free : forall (C : numClosedFieldType) (N m : nat) (pi : C) (o : objects C N m)
    (d d' : 'I_m.+1), o_grad o 0 d != 0 -> o_grad o 0 d' != 0 ->
  exists e, ob_eta pi (with_dep (Some (Z.of_nat d)) o) = Ok e /\
            ob_eta pi (with_dep (Some (Z.of_nat d')) o) = Ok e.
Proof. exact eta_indep. Qed.
Print Assumptions eta_dependent_free.

(** C53: where the branch for a one-dimensional H works. *)
Theorem diagonal_h : forall (C : numClosedFieldType) (N m : nat) (v : 'rV[C]_N) (o : objects C N m)
    (pi : C) (log : C -> C),
  let ov := with_h (HVec v) o in let od := with_h (HMat (diag_mx v)) o in
  [/\ ob_psi ov = ob_psi od, ob_kahler log pi ov = ob_kahler log pi od,
    forall i j, ob_g_proj pi ov i j = ob_g_proj pi od i j,
    ob_g_loc pi ov = ob_g_loc pi od & ob_eta pi ov = ob_eta pi od].
Proof. exact diag_agree. Qed.
Print Assumptions diagonal_h.

(** C53: where it does not. *)
Theorem diagonal_h_refuted : forall (C : numClosedFieldType) (N m : nat) (v : 'rV[C]_N)
    (o : objects C N m) (pi : C),
  let ov := with_h (HVec v) o in
  [/\ ob_psi_hh ov = Err ValueError, ob_g_proj_h pi ov = Err ValueError,
    ob_g_proj_ha pi ov = Err ValueError & forall J, ob_jac o = Ok J ->
    [/\ ob_g_loc_h pi ov = Err ValueError, ob_g_loc_ha pi ov = Err ValueError,
        ob_ricci_loc pi ov = Err ValueError & ob_ricci_scalar pi ov = Err ValueError]].
Proof. exact diag_raises. Qed.
Print Assumptions diagonal_h_refuted.

(** C74: polynomial sections and defining equations satisfy what the theorems
    above ask for. *)
Theorem polynomial_sections : forall (C : numClosedFieldType) (N m : nat) (M : 'M[C]_N) k
    (S : 'I_N -> {mpoly C[m.+1]}) (Q : {mpoly C[m.+1]}) (d : 'I_m.+1) z,
  sections_contract (poly_objects M k S Q d) z M k.
Proof. exact poly_sections. Qed.
Print Assumptions polynomial_sections.

Theorem polynomial_embedding : forall (C : numClosedFieldType) (N m : nat) (M : 'M[C]_N) k
    (S : 'I_N -> {mpoly C[m.+1]}) (Q : {mpoly C[m.+1]}) (d : 'I_m.+1) z,
  peval (Q^`M(d)) z != 0 -> embedding_contract (poly_objects M k S Q d) z d.
Proof. exact poly_embedding. Qed.
Print Assumptions polynomial_embedding.

(** C75: positivity of the metric. *)
Theorem metric_semidefinite : forall (C : numClosedFieldType) (N m : nat) (pi : C) (o : objects C N m)
    (M : 'M[C]_N), o_h o = HMat M -> hermitian M -> 0 < pi -> posdef M -> (0 < o_degree o)%N ->
  (exists a, o_s o a != 0) ->
  0 < ob_psi o /\ possemidef (\matrix_(i, j) ob_g_proj pi o i j).
Proof. exact metric_semidef_thm. Qed.
Print Assumptions metric_semidefinite.

Theorem metric_positive_iff : forall (C : numClosedFieldType) (N m : nat) (pi : C) (o : objects C N m)
    (M : 'M[C]_N), o_h o = HMat M -> hermitian M -> 0 < pi -> posdef M -> (0 < o_degree o)%N ->
  (exists a, o_s o a != 0) ->
  posdef (\matrix_(i, j) ob_g_proj pi o i j) <->
  forall (v : 'rV[C]_m.+1) (c : C), (forall a, \sum_i v 0 i * o_s1 o a i = c * o_s o a) -> v = 0.
Proof. exact gpm_pos. Qed.
Print Assumptions metric_positive_iff.

(** C76: the default dependent coordinate. *)
Theorem dependent_default : forall (C : numClosedFieldType) (N m : nat) (pi : C) (o : objects C N m),
  o_dep o = None -> exists d : 'I_m.+1,
  [/\ ob_dependent o = Ok (Z.of_nat d), forall i, `|o_grad o 0 i| <= `|o_grad o 0 d|,
      ob_g_loc pi o = ob_g_loc pi (with_dep (Some (Z.of_nat d)) o),
      ob_eta pi o = ob_eta pi (with_dep (Some (Z.of_nat d)) o) &
      ob_ricci_loc pi o = ob_ricci_loc pi (with_dep (Some (Z.of_nat d)) o) /\
      ob_ricci_scalar pi o = ob_ricci_scalar pi (with_dep (Some (Z.of_nat d)) o)].
Proof. exact dep_default. Qed.
Print Assumptions dependent_default.

(** The hypotheses hold together: sections 1, z_0, z_1 on the curve z_0 = z_1^2,
    H the identity, everywhere. *)
Example conic_hypotheses : forall (C : numClosedFieldType) (x : 'rV[C]_1) (pi : C), 0 < pi ->
  let z := conic_phi x in
  [/\ hermitian (1%:M : 'M[C]_3), sections_contract (@conic C) z 1%:M 1,
      embedding_contract (@conic C) z 0,
      local_parametrisation (peval (conic_Q C)) (fun y => o_grad (conic y)) 0 (@conic_phi C) x &
      0 < ob_psi (conic z) /\
      exists g, [/\ ob_g_loc pi (conic z) = Ok g, posdef g & exists2 e, ob_eta pi (conic z) = Ok e & 0 < e]].
Proof. exact conic_example. Qed.

(** The sections 1, z at z = 1 with H the identity: psi = 1 + |z|^2, and the
    metric and its derivatives are 1/4, -1/4 and 1/8. *)
Definition line_obj (C : numClosedFieldType) : objects C 2 0 :=
  Objects (HMat 1%:M) 1 (fun _ => 1) (fun s _ => if s == 0 then 0 else 1) (fun _ _ _ => 0)
    1 (Some 0%Z) (fun _ _ _ => 0).

Example line_metric : forall C : numClosedFieldType,
  [/\ ob_psi (line_obj C) = 2%:R, ob_g_proj 1 (line_obj C) 0 0 = 4%:R^-1,
      exists2 f, ob_g_proj_h 1 (line_obj C) = Ok f & f 0 0 0 = - 4%:R^-1 &
      exists2 f, ob_g_proj_ha 1 (line_obj C) = Ok f & f 0 0 0 0 = 8%:R^-1].
Proof. exact line_values. Qed.
