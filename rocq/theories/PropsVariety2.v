(** Properties C102-C109: VarietySingle, Dwork and Fermat: gradients, smooth points,
    the embedding, induced metrics, constructors. *)
From Coq Require Import ZArith Ascii String.
From mathcomp Require Import all_ssreflect all_algebra.
From SsrMultinomials Require Import mpoly.
From Verif Require Import Base ModelStr ModelUtil ModelProjective ModelDiff ModelExpr ModelPoly ModelHom ModelVariety ModelBasis ModelGeom ModelAlg.
From Verif Require Import SpecPoly SpecHom SpecVariety SpecGeom SpecBasis SpecSections SpecPatch SpecAlg Herm.
From Verif Require Import Deriv Bridge PolyGrad ProofAlg3 ProofAlg5 ProofAlg6 ProofParams.
Delimit Scope Z_scope with Z.

Set Implicit Arguments.
Unset Strict Implicit.
Unset Printing Implicit Defensive.

Import GRing.Theory Num.Theory.
Local Open Scope ring_scope.

(** *** C102: the gradients of the predefined equations *)
Theorem dwork_gradient_formula : forall (C : numClosedFieldType)
    (D : forall n : nat, ('rV[C]_n -> C) -> 'rV[C]_n -> 'rV[C]_n), diff_ok D ->
  forall (m : nat) (factor : dwork_factor C) (psi : C) (zs : seq C) (p : Z), size zs = m.+1 -> exists g,
  [/\ v_grad_defining D (dwork_variety m factor) zs (PArr [:: psi]) (PatchInt C p) = Ok g, size g = m.+1 &
      forall i : 'I_m.+1, nth 0 g i = m.+2%:R * nth 0 zs i ^+ m.+1 +
        dwork_factor_value factor * psi * \prod_(j < m.+1 | j != i) nth 0 zs j].
Proof. exact dwork_gradient. Qed.
Print Assumptions dwork_gradient_formula.

Theorem fermat_gradient_formula : forall (C : numClosedFieldType)
    (D : forall n : nat, ('rV[C]_n -> C) -> 'rV[C]_n -> 'rV[C]_n), diff_ok D ->
  forall (m : nat) (zs : seq C) (params : pyval C) (p : Z), size zs = m.+1 ->
  v_grad_defining D (fermat_variety C m) zs params (PatchInt C p) = Ok [seq m.+2%:R * x ^+ m.+1 | x <- zs].
Proof. exact fermat_gradient. Qed.
Print Assumptions fermat_gradient_formula.

(** z1^3 + z2^3 + 1 + i z1 z2 at (-1, 0) *)
Example dwork_gradient_ex (C : numClosedFieldType) (D : forall n : nat, ('rV[C]_n -> C) -> 'rV[C]_n -> 'rV[C]_n) :
  diff_ok D ->
  v_grad_defining D (dwork_variety 1 (FNum 'i)) [:: -1; 0] (PArr [:: 1]) (PatchInt C 0%Z) = Ok [:: 3%:R; - 'i].
Proof. exact: dwork_i_grad. Qed.

(** *** C103: which of the predefined varieties are smooth *)
Theorem dwork_smooth_iff : forall (C : numClosedFieldType)
    (D : forall n : nat, ('rV[C]_n -> C) -> 'rV[C]_n -> 'rV[C]_n), diff_ok D ->
  forall (m : nat) (factor : dwork_factor C) (psi : C),
  smooth D (dwork_variety m factor) [:: psi] m <->
  (dwork_factor_value factor * psi) ^+ m.+2 <> (- m.+2%:R) ^+ m.+2.
Proof. exact dwork_smooth. Qed.
Print Assumptions dwork_smooth_iff.

Theorem fermat_is_smooth : forall (C : numClosedFieldType)
    (D : forall n : nat, ('rV[C]_n -> C) -> 'rV[C]_n -> 'rV[C]_n), diff_ok D ->
  forall (m : nat) (ps : seq C), smooth D (fermat_variety C m) ps m.
Proof. exact fermat_smooth. Qed.
Print Assumptions fermat_is_smooth.

(** The quintic z0^5 + ... + z4^5 - 5 psi z0 z1 z2 z3 z4 *)
Example quintic_smooth_iff (C : numClosedFieldType) (D : forall n : nat, ('rV[C]_n -> C) -> 'rV[C]_n -> 'rV[C]_n)
    (psi : C) : diff_ok D -> (smooth D (dwork_variety 3 (FBool C true)) [:: psi] 3 <-> psi ^+ 5 <> 1).
Proof. exact: quintic_smooth. Qed.

(** *** C104: on a smooth hypersurface the metric is positive at every point *)
Theorem hypersurface_is_polynomial : forall (C : numClosedFieldType) (V : variety C) (ps : seq C) (m e : nat),
  hypersurface V ps m e ->
  exists Q : {mpoly C[m.+2]},
  [/\ forall z, v_defining V (row_seq z) (PArr ps) (PatchNone C) = Ok (peval Q z),
      forall (p : 'I_m.+2) z, v_defining V (row_seq z) (PArr ps) (PatchInt C (Z.of_nat p)) = Ok (peval (dehom p Q) z),
      forall Q', (forall z, v_defining V (row_seq z) (PArr ps) (PatchNone C) = Ok (peval Q' z)) -> Q' = Q &
      Q \is e.-homog].
Proof. exact poly_wrap. Qed.
Print Assumptions hypersurface_is_polynomial.

Theorem smooth_metric_everywhere : forall (C : numClosedFieldType)
    (D : forall n : nat, ('rV[C]_n -> C) -> 'rV[C]_n -> 'rV[C]_n), diff_ok D ->
  forall (lg ex : C -> C) (pi : C) (m e : nat) (V : variety C) (ps : seq C)
    (Q : {mpoly C[m.+2]}), hypersurface V ps m e -> defined_by V ps Q -> smooth D V ps m ->
  forall (k : nat) (B : basis), basis_for k Q B -> (0 < k)%N -> 0 < pi ->
  forall M : 'M[C]_(size (power_matrix B)), hermitian M -> posdef M ->
  forall x : 'rV[C]_m.+2, x != 0 -> v_defining V (row_seq x) (PArr ps) (PatchNone C) = Ok 0 ->
  exists G p d E,
  [/\ alg_metric D lg ex pi m V (HMat M) (row_seq x) (PArr ps) None None None = Ok (G, p, d), posdef G,
      alg_eta D lg ex pi m V (HMat M) (row_seq x) (PArr ps) None None None = Ok E &
      e = m.+2 -> forall (i : 'I_m.+2) (d : 'I_m.+1) (a g : seq C), smooth_at D V ps x i d a g ->
      alg_eta D lg ex pi m V (HMat M) a (PArr ps) (Some (Z.of_nat i)) None (Some (Z.of_nat d)) = Ok E].
Proof. exact metric_everywhere. Qed.
Print Assumptions smooth_metric_everywhere.

(** The predefined varieties have degree m + 2, so that the last clause applies. *)
Example predefined_hypersurfaces (C : numClosedFieldType) (m : nat) (factor : dwork_factor C) (psi : C) (ps : seq C) :
  hypersurface (dwork_variety m factor) [:: psi] m m.+2 /\ hypersurface (fermat_variety C m) ps m m.+2.
Proof. by split; [exact: dwork_hyp|exact: fermat_hyp]. Qed.

(** *** C105: jacobian_embed on a hypersurface *)
Theorem variety_jacobian : forall (C : numClosedFieldType)
    (D : forall n : nat, ('rV[C]_n -> C) -> 'rV[C]_n -> 'rV[C]_n), diff_ok D ->
  forall (m e : nat) (V : variety C) (ps : seq C) (x : 'rV[C]_m.+2) (i : 'I_m.+2) (d : 'I_m.+1) (a g : seq C),
  hypersurface V ps m e -> smooth_at D V ps x i d a g ->
  exists (J J0 : 'M[C]_(m, m.+1)) (d0 : 'I_m.+1),
  [/\ v_jacobian_embed D V a (PArr ps) (PatchInt C (Z.of_nat i)) (Some (Z.of_nat d)) =
        Ok ([seq row_seq (row r J) | r <- enum 'I_m], None),
      v_jacobian_embed D V a (PArr ps) (PatchInt C (Z.of_nat i)) None =
        Ok ([seq row_seq (row r J0) | r <- enum 'I_m], Some (Z.of_nat d0)),
      J *m (seq_row m.+1 g)^T = 0 /\ J0 *m (seq_row m.+1 g)^T = 0,
      (forall r q, J r (lift d q) = (r == q)%:R) /\ (forall r q, J0 r (lift d0 q) = (r == q)%:R) &
      forall b : 'I_m.+1, `|nth 0 g b| <= `|nth 0 g d0|].
Proof. exact jacobian_point. Qed.
Print Assumptions variety_jacobian.

(** The conic of [quadric_setting] at (1 : -4 : 2) on patch 0, gradient (1, 4): the
    hypotheses hold for both dependent coordinates, also those of C107. *)
Example variety_jacobian_ex (C : numClosedFieldType) (d : 'I_2) : exists V : variety C,
  hypersurface V [:: 1] 1 2 /\
  forall D, diff_ok D -> smooth_at D V [:: 1] (quadric_x C) 0 d (row_seq (quadric_a C)) [:: 1; 4%:R].
Proof. by have [_ [V [B [H _ _ _ S]]]] := quadric_setting C 0 d; exists V. Qed.

(** *** C106: induced_metric with explicit conjugate coordinates *)
Theorem induced_metric_conjugate : forall (C : numClosedFieldType)
    (D : forall n : nat, ('rV[C]_n -> C) -> 'rV[C]_n -> 'rV[C]_n), diff_ok D ->
  forall (m e : nat) (V : variety C) (ps : seq C) (M : 'M[C]_m.+1) (p : 'I_m.+2) (z : 'rV[C]_m.+1) (dep : option 'I_m.+1),
  real_hypersurface V ps m e ->
  let f zc := v_induced_metric D m V M (row_seq z) (PArr ps) (PatchInt C (Z.of_nat p)) zc
    (omap (fun d : 'I_m.+1 => Z.of_nat d) dep) in
  is_ok (f None) /\ f (Some [seq x^* | x <- row_seq z]) = f None.
Proof. exact induced_conj. Qed.
Print Assumptions induced_metric_conjugate.

(** Real coefficients are needed: a Dwork cubic with factor i, at the point (1 : -1 : 0). *)
Theorem induced_metric_conjugate_refuted : forall (C : numClosedFieldType)
    (D : forall n : nat, ('rV[C]_n -> C) -> 'rV[C]_n -> 'rV[C]_n), diff_ok D ->
  let V := dwork_variety 1 (FNum ('i : C)) in let zs : seq C := [:: -1; 0] in
  exists F F' : 'M[C]_1,
  [/\ v_defining V zs (PArr [:: 1]) (PatchInt C 0%Z) = Ok 0,
      v_induced_metric D 1 V 1%:M zs (PArr [:: 1]) (PatchInt C 0%Z) None (Some 0%Z) = Ok (F, None),
      v_induced_metric D 1 V 1%:M zs (PArr [:: 1]) (PatchInt C 0%Z) (Some [seq x^* | x <- zs]) (Some 0%Z) = Ok (F', None),
      F 0 0 = 10%:R / 9%:R & F' 0 0 = 8%:R / 9%:R].
Proof. exact dwork_conj_refuted_lemma. Qed.
Print Assumptions induced_metric_conjugate_refuted.

(** Without parameters the conjugate coordinates cannot be given. *)
Theorem induced_metric_no_parameters_refuted : forall (C : numClosedFieldType)
    (D : forall n : nat, ('rV[C]_n -> C) -> 'rV[C]_n -> 'rV[C]_n)
    (m : nat) (M : 'M[C]_m.+1) (p : Z) (zs : seq C) (dep : option 'I_m.+1), size zs = m.+1 ->
  let f zc := v_induced_metric D m (fermat_variety C m) M zs (@PNone C) (PatchInt C p) zc
    (omap (fun d : 'I_m.+1 => Z.of_nat d) dep) in
  is_ok (f None) /\ f (Some [seq x^* | x <- zs]) = Err TypeError.
Proof. exact fermat_none. Qed.
Print Assumptions induced_metric_no_parameters_refuted.

(** The parameter may be complex. *)
Example real_quintic (C : numClosedFieldType) (psi : C) :
  real_hypersurface (dwork_variety 3 (FBool C true)) [:: psi] 3 5.
Proof. by apply: Or32; exists (FBool C true), psi; split=> //=; rewrite rpredN realn. Qed.

(** *** C107: the induced Fubini-Study metric *)
Theorem induced_fs_point_patch : forall (C : numClosedFieldType)
    (D : forall n : nat, ('rV[C]_n -> C) -> 'rV[C]_n -> 'rV[C]_n), diff_ok D ->
  forall (m e : nat) (V : variety C) (ps : seq C) (x : 'rV[C]_m.+2) (i : 'I_m.+2) (d : 'I_m.+1) (a g : seq C)
    (j : 'I_m.+2) (a' : seq C),
  hypersurface V ps m e -> smooth_at D V ps x i d a g ->
  x 0 j != 0 -> hom_to_affine (row_seq x) (Z.of_nat j) = Ok a' ->
  exists (d0 : 'I_m.+1) F F0 A,
  [/\ v_induced_fs D m V a (PArr ps) (PatchInt C (Z.of_nat i)) None (Some (Z.of_nat d)) = Ok (F, None),
      v_induced_fs D m V a' (PArr ps) (PatchInt C (Z.of_nat j)) None None = Ok (F0, Some (Z.of_nat d0)),
      A \in unitmx, F = A *m F0 *m adjm A & posdef F /\ posdef F0].
Proof. exact induced_fs_point. Qed.
Print Assumptions induced_fs_point_patch.

(** *** C108: dimensions *)
Theorem variety_dimensions : forall (C : numClosedFieldType) (V : variety C) (ps : seq C) (m e : nat),
  hypersurface V ps m e ->
  [/\ v_coordinates V = Ok m.+2, v_dim_projective V = Ok m.+1, v_dim_variety V = Ok m & v_num_defining V = 1%N].
Proof. exact dims_lemma. Qed.
Print Assumptions variety_dimensions.

Theorem variety_one_variable : forall (C : numClosedFieldType) (norm : expr C -> expr C) (H : hompoly C),
  size (variable_names (hp H)) <> 1%N -> variety_init norm H = Err AssertionError.
Proof. exact init_names. Qed.
Print Assumptions variety_one_variable.

(** [par_count] is the number of parameters the defining equation needs: with that
    many the equation can be evaluated at every point, with fewer at none. *)
Theorem variety_parameter_count : forall (C : numClosedFieldType) (V : variety C) ps (m e : nat)
    (z : 'rV[C]_m.+2) (qs : seq C), hypersurface V ps m e ->
  (size qs = v_par_count V -> exists v, v_defining V (row_seq z) (PArr qs) (PatchNone C) = Ok v) /\
  ((size qs < v_par_count V)%N -> is_ok (v_defining V (row_seq z) (PArr qs) (PatchNone C)) = false).
Proof. exact param_count. Qed.
Print Assumptions variety_parameter_count.

(** *** C109: from_sympy takes the number of coordinates for poly_degree *)
Theorem from_sympy_coordinates : forall (C : numClosedFieldType) (norm : expr C -> expr C) (e : expr C) (syms : seq sym)
    (var_name : sym) (poly_degree : nat) (params : option (seq sym)) (V : variety C),
  variety_from_sympy norm e syms var_name poly_degree params = Ok V -> v_coordinates V = Ok poly_degree.
Proof. exact from_sympy_dims. Qed.
Print Assumptions from_sympy_coordinates.

Theorem from_sympy_degree_refuted : forall (C : numClosedFieldType) (norm : expr C -> expr C) (e : expr C) (syms : seq sym)
    (var_name : sym) (poly_degree : nat) (params : option (seq sym)) (v : sym) (i : Z),
  v \in syms -> split_subscript v = Ok (var_name, Some i) -> v \notin (if params is Some p then p else [::]) ->
  (Z.of_nat poly_degree <= i)%Z ->
  is_ok (variety_from_sympy norm e syms var_name poly_degree params) = false.
Proof. exact from_sympy_missing. Qed.
Print Assumptions from_sympy_degree_refuted.

(** The conic z0 z1 + a z2^2, of degree two *)
Definition conic (C : numClosedFieldType) : expr C :=
  EAdd [:: EMul [:: ESym (lit "z0"); ESym (lit "z1")]; EMul [:: ESym (lit "a"); EPow (ESym (lit "z2")) 2]].

Example conic_degree (C : numClosedFieldType) :
  let make d := variety_from_sympy id (conic C) [:: lit "z2"; lit "a"; lit "z0"; lit "z1"] (lit "z") d None in
  [/\ make 2%N = Err AssertionError, rbind (make 3%N) (@v_dim_variety C) = Ok 1%N &
      rbind (make 5%N) (@v_dim_variety C) = Ok 3%N].
Proof. by []. Qed.
