(** Random points: ranges, spheres. *)
From Coq Require Import ZArith Reals Lra Psatz.
From mathcomp Require Import all_ssreflect all_algebra.
From mathcomp Require Import complex.
From Verif Require Import Base ModelUtil ModelProjective RealField ComplexR ModelRandom SpecRandom Herm Deriv Bridge ProofProjective.
Delimit Scope Z_scope with Z.

Set Implicit Arguments.
Unset Strict Implicit.
Unset Printing Implicit Defensive.

Import GRing.Theory Num.Theory Order.POrderTheory.
Local Open Scope ring_scope.
Delimit Scope R_scope with RR.

Lemma phaseD a b : phase (a + b)%RR = phase a * phase b.
Proof. by rewrite /phase -cexpD; congr cexp; apply: CR_eq; rewrite !ReImE /=; ring. Qed.

Lemma phase0 : phase 0%RR = 1.
Proof. by rewrite /phase -cexp0; congr cexp; apply: CR_eq => //=; rewrite Rmult_0_r. Qed.

Lemma phase1 : phase 1%RR = 1.
Proof. by apply: CR_eq; rewrite /= Rmult_1_r exp_0 ?cos_2PI ?sin_2PI -?[GRing.one _]/R1 -?[GRing.zero _]/R0; ring. Qed.

Lemma modulus_phase a : modulus (phase a) = 1%RR.
Proof. by rewrite modulus_cexp exp_0. Qed.

Lemma phase_neq0 a : phase a != 0.
Proof.
apply/eqP => /modulus_eq0; rewrite modulus_phase => h.
exact: R1_neq_R0.
Qed.

Lemma phaseN a : phase (- a)%RR = (phase a)^-1.
Proof. by apply: (mulfI (phase_neq0 a)); rewrite divff ?phase_neq0 // -phaseD Rplus_opp_r phase0. Qed.

Lemma phase_int k : phase (IZR k) = 1.
Proof.
have pos n : phase (IZR (Z.of_nat n)) = 1.
  elim: n => [|n IH]; first exact: phase0.
  by rewrite Nat2Z.inj_succ succ_IZR phaseD IH phase1 mulr1.
case: (Z_le_gt_dec 0 k) => h; first by rewrite -(Z2Nat.id k h).
have -> : k = (- Z.of_nat (Z.to_nat (- k)))%Z by rewrite Z2Nat.id ?Z.opp_involutive //; apply/Z.opp_nonneg_nonpos; lia.
by rewrite opp_IZR phaseN pos invr1.
Qed.

Lemma phase_frac x : phase (frac_part x) = phase x.
Proof. by rewrite /frac_part phaseD phaseN phase_int invr1 mulr1. Qed.

Lemma modulus_rc x : modulus (rc x) = Rabs x.
Proof. by rewrite /modulus /= Rmult_0_l Rplus_0_r -/(Rsqr x) sqrt_Rsqr_abs. Qed.

Lemma modulus_polar r a : modulus (rc r * phase a) = Rabs r.
Proof. by rewrite normM_modulus modulus_rc modulus_phase Rmult_1_r. Qed.

(** uniform_components *)
Lemma components_range ur ui : (0 <= ur < 1)%RR -> (0 <= ui < 1)%RR ->
  let z := uniform_components ur ui in (-1 <= re z < 1)%RR /\ (-1 <= im z < 1)%RR.
Proof. by rewrite /uniform_components /uniform /= => ? ?; lra. Qed.

Lemma components_onto (x y : R) : (-1 <= x < 1)%RR -> (-1 <= y < 1)%RR ->
  exists ur ui, [/\ (0 <= ur < 1)%RR, (0 <= ui < 1)%RR & uniform_components ur ui = Complex x y].
Proof.
move=> hx hy; exists ((x + 1) / 2)%RR, ((y + 1) / 2)%RR; split; [lra|lra|].
by apply: CR_eq; rewrite /= /uniform; field.
Qed.

Lemma components_doc_refuted : exists ur ui, [/\ (0 <= ur < 1)%RR, (0 <= ui < 1)%RR &
  (re (uniform_components ur ui) < 0)%RR /\ (im (uniform_components ur ui) < 0)%RR].
Proof. by exists 0%RR, 0%RR; rewrite /uniform_components /uniform /=; split; lra. Qed.

(** uniform_angle *)
Section Angle.
Variables (m M a u : R).
Hypotheses (m0 : (0 <= m)%RR) (mM : (m <= M)%RR) (u01 : (0 <= u < 1)%RR).

Let rad2 := (m * m + u * (M * M - m * m))%RR.

Lemma rad2_ge0 : (0 <= rad2)%RR. Proof. rewrite /rad2; nra. Qed.

Lemma angle_modulus : modulus (uniform_angle m M a u) = sqrt rad2.
Proof. by rewrite modulus_polar Rabs_pos_eq //; apply: sqrt_pos. Qed.

Lemma angle_polar : uniform_angle m M a u = rc (modulus (uniform_angle m M a u)) * phase a.
Proof. by rewrite angle_modulus. Qed.

Lemma angle_range : (m <= modulus (uniform_angle m M a u) <= M)%RR.
Proof.
have d : (0 <= M * M - m * m)%RR by nra.
have s1 := Rmult_le_pos _ _ (proj1 u01) d.
have s2 : (0 <= (1 - u) * (M * M - m * m))%RR by apply: Rmult_le_pos => //; lra.
rewrite angle_modulus; split.
  by have := sqrt_le_1_alt (m * m) rad2; rewrite sqrt_square //; apply; rewrite /rad2; lra.
by have := sqrt_le_1_alt rad2 (M * M); rewrite sqrt_square; [apply; rewrite /rad2; lra|lra].
Qed.

(** the fraction of the draws with modulus at most [rho] is the fraction of the
    area of the ring inside the radius [rho] *)
Lemma angle_cdf rho : (m < M)%RR -> (m <= rho <= M)%RR ->
  (modulus (uniform_angle m M a u) <= rho)%RR <->
  (u <= (PI * (rho * rho) - PI * (m * m)) / (PI * (M * M) - PI * (m * m)))%RR.
Proof.
move=> lt hr; rewrite angle_modulus.
have d0 : (0 < M * M - m * m)%RR by nra.
have -> : ((PI * (rho * rho) - PI * (m * m)) / (PI * (M * M) - PI * (m * m)) =
   (rho * rho - m * m) / (M * M - m * m))%RR.
  have p := PI_RGT_0; have pd := Rmult_lt_0_compat _ _ p d0.
  by field; repeat split; lra.
have r0 := rad2_ge0; have s0 := sqrt_pos rad2; have ss := sqrt_sqrt rad2 r0.
have e : ((rho * rho - m * m) / (M * M - m * m) * (M * M - m * m) = rho * rho - m * m)%RR by field; lra.
move: e; set q := (_ / _)%RR => e; split=> h.
  apply: (Rmult_le_reg_r (M * M - m * m)) => //; rewrite e.
  by move: ss; rewrite {3}/rad2; nra.
have : (rad2 <= rho * rho)%RR by rewrite /rad2; nra.
by nra.
Qed.
End Angle.

(** spheres *)
Lemma rnormE v : rnorm v = sqrt (\sum_(x <- v) x ^+ 2).
Proof. by rewrite /rnorm; congr sqrt; elim: v => [|x v IH] /=; rewrite ?big_nil // big_cons -IH expr2. Qed.

Lemma sumsq_ge0 (v : seq R) : (0 <= \sum_(x <- v) x ^+ 2)%RR.
Proof. by apply/RleP; apply: sumr_ge0 => x _; rewrite sqr_ge0. Qed.

Lemma sumsq_gt0 (v : seq R) : has (fun x => x != 0) v -> (0 < \sum_(x <- v) x ^+ 2)%RR.
Proof.
case/hasP=> x xv x0; apply/RltP; rewrite lt_def sumr_ge0 ?andbT; last by move=> y _; rewrite sqr_ge0.
rewrite big_seq psumr_eq0; last by move=> y _; rewrite sqr_ge0.
by apply/negP => /allP/(_ x xv); rewrite xv sqrf_eq0 (negbTE x0).
Qed.

Lemma rnorm_gt0 (v : seq R) : has (fun x => x != 0) v -> (0 < rnorm v)%RR.
Proof. by move=> h; rewrite rnormE; apply: sqrt_lt_R0; exact: sumsq_gt0. Qed.

Lemma rnorm_sqr v : rnorm v * rnorm v = \sum_(x <- v) x ^+ 2.
Proof. by rewrite rnormE; exact: sqrt_sqrt (sumsq_ge0 v). Qed.

Lemma real_sphereE v : has (fun x => x != 0) v -> real_sphere v = [seq x / rnorm v | x <- v].
Proof.
move=> h; have n0 := rnorm_gt0 h; apply: eq_map => x; apply: RdivE.
by apply/eqP => e; rewrite e in n0; apply: (Rlt_irrefl 0).
Qed.

Lemma real_sphere_unit v : has (fun x => x != 0) v ->
  size (real_sphere v) = size v /\ \sum_(x <- real_sphere v) x ^+ 2 = 1.
Proof.
move=> h; split; first by rewrite size_map.
have n0 : rnorm v != 0 by apply/eqP => e; have := rnorm_gt0 h; rewrite e; exact: Rlt_irrefl.
rewrite real_sphereE // big_map.
under eq_bigr do rewrite expr_div_n.
by rewrite -mulr_suml -rnorm_sqr expr2 divff // mulf_neq0.
Qed.

Lemma normsq_CR (z : CR) : `|z| ^+ 2 = rc (re z ^+ 2 + im z ^+ 2).
Proof. by rewrite norm_modulus expr2 -rcM modulus_sqr. Qed.


Lemma rc_sum (I : Type) (s : seq I) (f : I -> R) : rc (\sum_(i <- s) f i) = \sum_(i <- s) rc (f i).
Proof. by elim: s => [|x s IH]; rewrite ?big_nil ?rc0 // !big_cons rcD IH. Qed.

Lemma joined_norm n (v : seq R) : size v = (n + n)%N ->
  \sum_(z <- joined n v) `|z| ^+ 2 = rc (\sum_(x <- v) x ^+ 2).
Proof.
move=> sv; rewrite -[in RHS](cat_take_drop n v) big_cat /= big_map.
have : size (take n v) = size (drop n v) by rewrite size_take size_drop sv addnK; case: ltnP => //; case: n sv => // n; rewrite addSn addnS ltnS => _; rewrite leqNgt ltnS leq_addr.
elim: (take n v) (drop n v) => [|x s IH] [|y t] //=; first by rewrite !big_nil addr0.
by case=> e; rewrite !big_cons IH // normsq_CR /= -rcD; congr rc; rewrite addrACA.
Qed.

Lemma complex_sphereE n v : has (fun x => x != 0) v ->
  complex_sphere n v = [seq z / rc (rnorm v) | z <- joined n v].
Proof.
move=> h; have n0 := rnorm_gt0 h; rewrite /complex_sphere /joined /real_sphere -map_take -map_drop -map_comp.
elim: (take n v) (drop n v) => [|x s IH] [|y t] //=; rewrite IH; congr cons.
have nn : rnorm v <> R0 by move=> e; rewrite e in n0; exact: (Rlt_irrefl 0).
by rewrite -rcV //; apply: CR_eq; rewrite ReImE /= /Rdiv; ring.
Qed.

Lemma size_joined n (v : seq R) : size v = (n + n)%N -> size (joined n v) = n.
Proof. by move=> sv; rewrite size_map size_zip size_take size_drop sv addnK; case: ltnP => h; rewrite ?minnn // (minn_idPr _) // leq_addr. Qed.

Lemma complex_sphere_unit n v : size v = (n + n)%N -> has (fun x => x != 0) v ->
  size (complex_sphere n v) = n /\ \sum_(z <- complex_sphere n v) `|z| ^+ 2 = 1.
Proof.
move=> sv h; have n0 := rnorm_gt0 h.
have nn : rc (rnorm v) != 0 by apply/eqP => /rc_inj e; rewrite e in n0; exact: (Rlt_irrefl 0).
split; first by rewrite complex_sphereE // size_map size_joined.
rewrite complex_sphereE // big_map; under eq_bigr do rewrite normrM normfV exprMn exprVn.
rewrite -mulr_suml joined_norm // -rnorm_sqr rcM -expr2 ger0_norm ?divff ?expf_neq0 //.
by rewrite -rc0; apply/rc_le; exact: Rlt_le.
Qed.
