(** The theorems on the metric for the complex numbers, with their logarithm and pi. *)
From Coq Require Import ZArith Reals Lra.
From mathcomp Require Import all_ssreflect all_algebra.
From mathcomp Require Import complex.
From SsrMultinomials Require Import mpoly.
From Verif Require Import Base ModelUtil ModelProjective ModelBasis ModelDiff ModelGeom Deriv Bridge Wirtinger SpecGeom Herm Herm2
  SpecMon SpecBasis SpecSections ProofBasis3 ProofDiff ProofGeom3 ProofGeom4 PolyGrad Implicit Implicit2 ProofSections
  RealField RealLog ComplexR SpecComplex.
Delimit Scope Z_scope with Z.

Set Implicit Arguments.
Unset Strict Implicit.
Unset Printing Implicit Defensive.

Import GRing.Theory Num.Theory Order.POrderTheory.
Local Open Scope ring_scope.
Delimit Scope R_scope with RR.

Lemma clog_near (x : CR) : 0 < x -> log_near clog x.
Proof.
move=> x0; exists x => // y; have [t t0 ->] := pos_rc x0.
rewrite norm_modulus => /rc_lt h; apply: clog_deriv.
have := re_le_modulus (y - rc t); rewrite !ReImE /= => h'.
have := abs_cases (re y + - t)%RR; lra.
Qed.

Lemma cexp_clog_ok : @exp_log_ok CR clog cexp.
Proof. split; [exact: cexp0 | exact: cexpD | exact: cexp_clog]. Qed.

Lemma clog_rc (x : R) : (0 < x)%RR -> clog (rc x) = rc (ln x).
Proof.
move=> x0; have nx : rc x != 0 by apply/eqP => /rc_inj h; move: x0; rewrite h; exact: Rlt_irrefl.
have e : modulus (rc x) = x.
  by rewrite /modulus /= Rmult_0_l Rplus_0_r sqrt_square //; lra.
rewrite /clog e; congr Complex; rewrite arg_atan //= /Rdiv Rmult_0_l; exact: atan_0.
Qed.

Lemma clog_pos_mul (x y : CR) : 0 < x -> 0 < y -> clog (x * y) = clog x + clog y.
Proof.
move=> /pos_rc[s s0 ->] /pos_rc[t t0 ->]; rewrite -rcM !clog_rc ?ln_mult ?rcD //; nra.
Qed.

Lemma pi_pos : 0 < rc PI.
Proof. by rewrite -rc0; apply/rc_lt; exact: PI_RGT_0. Qed.

(** Sections whose metric is positive at a smooth point *)
Section EndToEnd.
Variables (m k N : nat) (S : 'I_N -> {mpoly CR[m.+1]}) (Q : {mpoly CR[m.+1]}) (d : 'I_m.+1).
Variables (M : 'M[CR]_N) (z : 'rV[CR]_m.+1).
Hypothesis k0 : (0 < k)%N.
Hypothesis HM : hermitian M.
Let o := poly_objects M k S Q d.
Hypothesis Qz : peval Q z = 0.
Hypothesis dQ : peval (Q^`M(d)) z != 0.
Hypothesis psi0 : 0 < ob_psi (o z).

Lemma hessian_end : is_mixed (fun y => ob_kahler clog (rc PI) (o y)) z (ob_g_proj (rc PI) (o z)).
Proof.
have [h _] := kahler_thm clog HM (poly_sections M k S Q d z) k0 pi_pos (lt0r_neq0 psi0).
exact/h/clog_near.
Qed.

Lemma variety_end g : ob_g_loc (rc PI) (o z) = Ok g -> posdef g ->
  exists phi : 'rV[CR]_m -> 'rV[CR]_m.+1, let x := others d z in
  [/\ phi x = z, local_parametrisation (peval Q) (pgrad Q) d phi x,
      exists2 r : CR, 0 < r & forall y, norm1 (y - z) < r -> peval Q y = 0 -> phi (others d y) = y,
      is_mixed (fun y => ob_kahler clog (rc PI) (o (phi y))) x g &
      exists2 R, ob_ricci_loc (rc PI) (o z) = Ok R &
        is_mixed (fun y => - clog (\det (res_mx (ob_g_loc (rc PI) (o (phi y)))))) x R].
Proof.
move=> Eg pdg; have [phi [phx par loc]] := implicit_function Qz dQ.
exists phi => x; rewrite -/x in phx par.
have emb : embedding_contract o (phi x) d by rewrite phx; exact: poly_embedding.
have sec : sections_contract o (phi x) M k by exact: poly_sections.
have par' : local_parametrisation (peval Q) (fun y => o_grad (o y)) d phi x by [].
have p1 : ob_psi (o (phi x)) != 0 by rewrite phx lt0r_neq0.
split=> //.
  have := metric_pullback (rc PI) par' emb HM sec p1 (log := clog).
  rewrite phx => /(_ (clog_near psi0)) [g' Eg']; move: Eg; rewrite Eg' => -[->]; exact.
have dg : 0 < \det g by exact: posdef_det.
have := ricci_pullback par' emb HM sec pi_pos p1 (log := clog).
rewrite phx => /(_ _ Eg (lt0r_neq0 dg) (clog_near dg)); exact.
Qed.
End EndToEnd.

Lemma full_end (m k : nat) (p : 'I_m.+2) (B : basis) : basis_full m.+1 k = Ok B -> (0 < k)%N ->
  forall M : 'M[CR]_(size (power_matrix B)), hermitian M -> posdef M ->
  forall (Q : {mpoly CR[m.+1]}) (d : 'I_m.+1) (z : 'rV[CR]_m.+1),
  let o := poly_objects M k (@section_polys CR _ p (power_matrix B)) Q d in
  is_mixed (fun y => ob_kahler clog (rc PI) (o y)) z (ob_g_proj (rc PI) (o z)) /\
  (peval Q z = 0 -> peval (Q^`M(d)) z != 0 -> metric_conclusion Q d z o).
Proof.
move=> EB k0 M HM pd Q d z o.
have [p0 _ H] := full_positive p EB k0 HM pd pi_pos Q d z.
split=> [|Qz dQ]; first exact: hessian_end.
have [g [Eg pg _]] := H dQ.
have [phi [h1 h2 h3 h4 [R ER h5]]] := variety_end HM Qz dQ p0 Eg pg.
by exists g, R, phi.
Qed.

Lemma reduced_end (m k e : nat) (p : 'I_m.+2) (P : {mpoly CR[m.+2]}) (B : basis) :
  P != 0 -> P \is e.-homog -> (forall i, variable_occurs P i) ->
  basis_reduced P k = Ok B -> (0 < k)%N ->
  forall M : 'M[CR]_(size (power_matrix B)), hermitian M -> posdef M ->
  let Q := dehom p P in
  forall (d : 'I_m.+1) (z : 'rV[CR]_m.+1), peval Q z = 0 -> peval (Q^`M(d)) z != 0 ->
  metric_conclusion Q d z (poly_objects M k (@section_polys CR _ p (power_matrix B)) Q d).
Proof.
move=> P0 Ph occ EB k0 M HM pd Q d z Qz dQ.
have [p0 [g [Eg pg _]]] := reduced_positive P0 Ph occ EB k0 HM pd pi_pos Qz dQ.
have [phi [h1 h2 h3 h4 [R ER h5]]] := variety_end HM Qz dQ p0 Eg pg.
by exists g, R, phi.
Qed.

(** The cubic x^3 + y^3 + z^3 *)
Section Fermat.
Variable C : numClosedFieldType.
Definition cubic_P : {mpoly C[3]} := 'X_0 ^+ 3 + 'X_1 ^+ 3 + 'X_2 ^+ 3.

Lemma ord3_cases (i : 'I_3) : [\/ i = 0, i = 1 | i = 2].
Proof. by case: i => [[|[|[|i]]] h] //; [constructor 1 | constructor 2 | constructor 3]; apply: val_inj. Qed.

Lemma cubic_coef i : cubic_P@_(U_(i) *+ 3) = 1.
Proof.
have E j : ('X_j ^+ 3 : {mpoly C[3]})@_(U_(i) *+ 3) = (i == j)%:R.
  rewrite mpolyXn mcoeffX; congr (nat_of_bool _)%:R; apply/eqP/eqP => [/mnmP/(_ j)|-> //].
  by rewrite !mulmnE !mnm1E eqxx; case: eqP.
by rewrite /cubic_P !mcoeffD !E; case: (ord3_cases i) => ->; rewrite /= ?addr0 ?add0r.
Qed.

Lemma cubic_occurs i : variable_occurs cubic_P i.
Proof.
exists (U_(i) *+ 3)%MM; last by rewrite mulmnE mnm1E eqxx.
by rewrite mcoeff_msupp cubic_coef oner_neq0.
Qed.

Lemma cubic_neq0 : cubic_P != 0.
Proof. by apply/eqP => h; have /eqP := cubic_coef 0; rewrite h mcoeff0 eq_sym oner_eq0. Qed.

Lemma cubic_homog : cubic_P \is 3.-homog.
Proof. by rewrite !rpredD //; exact: homX. Qed.

Lemma cubic_dehom : dehom (2 : 'I_3) cubic_P = cubic_Q C.
Proof.
rewrite /cubic_P /cubic_Q !dehomD !dehomXn !dehomX unlift_none expr1n.
have -> : (0 : 'I_3) = lift (2 : 'I_3) (0 : 'I_2) by exact: val_inj.
have -> : (1 : 'I_3) = lift (2 : 'I_3) (1 : 'I_2) by exact: val_inj.
by rewrite !liftK.
Qed.
End Fermat.

Lemma cubic_end (k : nat) : (0 < k)%N -> exists2 B, basis_reduced (cubic_P CR) k = Ok B &
  metric_conclusion (cubic_Q CR) 0 (cubic_pt CR)
    (poly_objects 1%:M k (@section_polys CR _ (2 : 'I_3) (power_matrix B)) (cubic_Q CR) 0).
Proof.
move=> k0.
have [B [E _ _ _ _]] := reduced_class_lemma k (cubic_neq0 CR) (cubic_homog CR) (@cubic_occurs CR).
exists B => //; rewrite -cubic_dehom; have [h1 h2] := cubic_value CR.
apply: (reduced_end (cubic_neq0 CR) (cubic_homog CR) (@cubic_occurs CR) E k0).
- exact: herm1.
- exact: pd1.
- by rewrite cubic_dehom.
by rewrite cubic_dehom.
Qed.
