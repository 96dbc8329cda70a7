(** Second derivatives at a minimum, over the complex numbers. *)
From Coq Require Import Reals Lra.
From mathcomp Require Import all_ssreflect all_algebra.
From mathcomp Require Import complex.
From Verif Require Import Deriv Wirtinger Herm Implicit RealField ComplexR ProofRicci.

Set Implicit Arguments.
Unset Strict Implicit.
Unset Printing Implicit Defensive.

Import GRing.Theory Num.Theory Order.POrderTheory.
Local Open Scope ring_scope.
Delimit Scope R_scope with RR.

#[local] Hint Extern 0 (is_true (0 < _)) => solve [apply: ltr01 | apply: ltr0Sn] : core.

(** *** One real variable *)
Lemma real_min (f g : R -> R) (L d : R) : (0 < d)%RR ->
  (forall s, (Rabs s < d)%RR -> derivable_pt_lim f s (g s)) -> derivable_pt_lim g 0 L ->
  (forall s, (Rabs s < d)%RR -> (f 0 <= f s)%RR) -> (0 <= L)%RR.
Proof.
move=> d0 df dg mn.
have r0 : (Rabs 0 < d)%RR by rewrite Rabs_R0.
have g0 : g 0%RR = 0%RR.
  have pr : derivable_pt f 0 by exists (g 0%RR); exact: df.
  rewrite (uniqueness_limite _ _ _ _ (df _ r0) (proj2_sig pr)).
  apply: (deriv_minimum f (Ropp d) d 0 pr); try lra.
  by move=> s s1 s2; apply: mn; apply: Rabs_def1; lra.
case: (Rle_or_lt 0 L) => // L0; exfalso.
have [|[e e0] He] := dg (Ropp L / 2)%RR; first lra.
pose s := (Rmin e d / 2)%RR.
have m0 : (0 < Rmin e d)%RR by apply: Rmin_glb_lt.
have [m1 m2] : (Rmin e d <= e /\ Rmin e d <= d)%RR by split; [exact: Rmin_l|exact: Rmin_r].
have [s0 s1 s2] : [/\ (0 < s)%RR, (s < e)%RR & (s < d)%RR] by rewrite /s; split; lra.
have [c [Ec [c0 c1]]] : exists c, (f s - f 0 = g c * (s - 0))%RR /\ (0 < c < s)%RR.
  apply: MVT_cor2 => // c [c0 c1]; apply: df; apply: Rabs_def1; lra.
have gc : (g c < 0)%RR.
  have cn : c <> 0%RR by lra.
  have ce : (Rabs c < e)%RR by apply: Rabs_def1; lra.
  have := He c cn ce; rewrite Rplus_0_l g0 Rminus_0_r => /Rabs_def2[h1 h2].
  have -> : g c = (g c / c * c)%RR by field.
  nra.
have fs : (f 0 <= f s)%RR by apply: mn; apply: Rabs_def1; lra.
nra.
Qed.

Lemma rcJ s : (rc s)^* = rc s.
Proof.
apply: conj_Creal; rewrite realE; case: (Rle_or_lt 0 s) => h.
  by have /rc_le := h; rewrite rc0 => ->.
by have /rc_le := Rlt_le _ _ h; rewrite rc0 orbC => ->.
Qed.

Lemma conj_parts (z w : CR) : w = z^* -> re w = re z /\ im w = Ropp (im z).
Proof.
move=> Ew; have [E0|z0] := eqVneq z 0.
  by rewrite Ew E0 rmorph0 ComplexR.Re0 ComplexR.Im0 Ropp_0.
have m0 := modulus_gt0 z0; have sq := modulus_sqr z.
have E : z * w = rc (Rmult (modulus z) (modulus z)) by rewrite Ew -normCK norm_modulus rcM expr2.
have Er : (re z * re w - im z * im w = re z * re z + im z * im z)%RR by rewrite -ComplexR.ReM E -sq.
have Ei : (re z * im w + im z * re w = 0)%RR by rewrite -ComplexR.ImM E.
clear E Ew z0; move: (re w) (im w) (re z) (im z) sq Er Ei => c d a b sq Er Ei.
have p : (0 < a * a + b * b)%RR by nra.
have Ec : ((a * a + b * b) * (c - a) = 0)%RR.
  have -> : ((a * a + b * b) * (c - a) = a * (a * c - b * d) + b * (a * d + b * c) - a * (a * a + b * b))%RR by ring.
  by rewrite Ei Er; ring.
have Ed : ((a * a + b * b) * (d + b) = 0)%RR.
  have -> : ((a * a + b * b) * (d + b) = a * (a * d + b * c) - b * (a * c - b * d) + b * (a * a + b * b))%RR by ring.
  by rewrite Ei Er; ring.
by case: (Rmult_integral _ _ Ec); case: (Rmult_integral _ _ Ed); split; lra.
Qed.

Lemma CR_le_re (a b : CR) : a <= b -> (re a <= re b)%RR.
Proof.
rewrite -subr_ge0 le_eqVlt => /orP[/eqP E|/pos_rc[q q0 E]].
  have -> : b = a by apply/eqP; rewrite -subr_eq0 -E.
  exact: Rle_refl.
have -> : b = a + rc q by rewrite -E addrC subrK.
rewrite ComplexR.ReD /=; lra.
Qed.

Lemma re_sub (a b l : CR) h : re (a - b - rc h * l : CR) = (re a - re b - h * re l)%RR.
Proof.
rewrite !ComplexR.ReD !ComplexR.ReN ComplexR.ReM.
have [-> ->] : re (rc h) = h /\ im (rc h) = 0%RR by [].
move: (re a) (re b) (re l) (im l) => p q u v; lra.
Qed.

(** *** A line in several complex variables *)
Section Line.
Variables (n : nat) (w : 'rV[CR]_n).
Notation line x s := (x + rc s *: w).

Lemma norm1_rc (v : 'rV[CR]_n) : exists2 K, (0 <= K)%RR & norm1 v = rc K.
Proof.
rewrite /norm1; elim/big_ind: _ => [|x y [K1 h1 ->] [K2 h2 ->]|a _].
- by exists R0; [exact: Rle_refl|rewrite rc0].
- by exists (Rplus K1 K2); [exact: Rplus_le_le_0_compat|rewrite rcD].
by exists (modulus (v 0 a)); [exact: modulus_ge0|exact: norm_modulus].
Qed.

Lemma norm1_line s : norm1 (rc s *: w) = rc (Rabs s) * norm1 w.
Proof.
rewrite /norm1 mulr_sumr; apply: eq_bigr => a _; rewrite mxE normrM; congr (_ * _).
rewrite norm_modulus; congr rc; rewrite /modulus /= Rmult_0_l Rplus_0_r; exact: sqrt_Rsqr_abs.
Qed.

Lemma line_deriv (F : 'rV[CR]_n -> CR) x s g gc : is_wgrad F (line x s) g gc ->
  derivable_pt_lim (fun t => re (F (line x t))) s (re (wlin g gc w)).
Proof.
move=> H e e0; have [K K0 EK] := norm1_rc w; set l := wlin g gc w.
pose e1 := (e / (K + 1))%RR; have e10 : (0 < e1)%RR by apply: Rdiv_lt_0_compat; lra.
have [d dp Hd] := H (rc e1) ((rc_lt 0 e1).2 e10).
have [d1 d10 Ed] := pos_rc dp; subst d.
have d20 : (0 < d1 / (K + 1))%RR by apply: Rdiv_lt_0_compat; lra.
exists (mkposreal _ d20) => h h0 /= hd.
have lt1 : norm1 (rc h *: w) < rc d1.
  rewrite norm1_line EK -rcM; apply/rc_lt.
  have a0 := Rabs_pos h.
  have -> : d1 = (d1 / (K + 1) * (K + 1))%RR by field; lra.
  nra.
have := Hd _ lt1.
have -> : \sum_a g a * (rc h *: w) 0 a + \sum_a gc a * ((rc h *: w) 0 a)^* = rc h * l.
  rewrite /l /wlin mulrDr !mulr_sumr; congr (_ + _); apply: eq_bigr => a _; rewrite mxE ?cjM ?rcJ mulrCA //.
have -> : line x s + rc h *: w = line x (Rplus s h) by rewrite -addrA -scalerDl -rcD.
rewrite norm1_line EK norm_modulus -!rcM => /rc_le B.
pose D : CR := F (line x (Rplus s h)) - F (line x s) - rc h * l.
have {B} : (Rabs (re D) <= e1 * (Rabs h * K))%RR.
  by apply: Rle_trans B; exact: re_le_modulus.
have -> : re D =
    (re (F (line x (Rplus s h))) - re (F (line x s)) - h * re l)%RR.
  exact: re_sub.
move: (re (F (line x (Rplus s h)))) (re (F (line x s))) => a b B.
have -> : ((a - b) / h - re l = (a - b - h * re l) / h)%RR by field.
rewrite /Rdiv Rabs_mult Rabs_inv //.
have hp : (0 < Rabs h)%RR by exact: Rabs_pos_lt.
apply: (Rle_lt_trans _ (e1 * (Rabs h * K) * / Rabs h)).
  by apply: Rmult_le_compat_r B; left; exact: Rinv_0_lt_compat.
have -> : (e1 * (Rabs h * K) * / Rabs h = e1 * K)%RR by field; lra.
have -> : e = (e1 * (K + 1))%RR by rewrite /e1; field; lra.
nra.
Qed.
End Line.

(** At a minimum of a function with real values the mixed second derivatives form a positive
    semidefinite matrix. *)
Section Min.
Variables (n : nat) (f : 'rV[CR]_n -> CR) (x : 'rV[CR]_n) (H : 'I_n -> 'I_n -> CR) (r : CR).
Hypothesis r0 : 0 < r.
Hypothesis fr : forall y, norm1 (y - x) < r -> (f y)^* = f y.
Hypothesis Hm : is_mixed f x H.
Hypothesis mn : forall y, norm1 (y - x) < r -> f x <= f y.

Lemma line_radius (w : 'rV[CR]_n) (q : CR) : 0 < q -> exists2 d, (0 < d)%RR &
  forall s, (Rabs s < d)%RR -> norm1 (x + rc s *: w - x) < q.
Proof.
move=> /pos_rc[q1 q10 ->]; have [K K0 EK] := norm1_rc w.
have d0 : (0 < q1 / (K + 1))%RR by apply: Rdiv_lt_0_compat; lra.
exists (q1 / (K + 1))%RR => // s hs.
rewrite addrAC subrr add0r norm1_line EK -rcM; apply/rc_lt.
have a0 := Rabs_pos s.
have -> : q1 = (q1 / (K + 1) * (K + 1))%RR by field; lra.
nra.
Qed.

Definition ddir (D : 'I_n -> 'I_n -> CR) (w : 'rV[CR]_n) : CR := \sum_a (\sum_b D a b * w 0 b) * w 0 a.
Definition hdir (w : 'rV[CR]_n) : CR := \sum_a (\sum_b H a b * (w 0 b)^*) * w 0 a.

Definition adir D w : CR := ddir D w + hdir w.

Lemma dir_min : exists D, forall w, (0 <= re (adir D w))%RR.
Proof.
have [df [dfc [q [q0 [Hd Hdd]]]]] := Hm.
have [D HD] : exists D : 'I_n -> 'I_n -> CR, forall a, is_wgrad (fun y => df y a) x (D a) (H a).
  by have [D HD] := fin_all_exists Hdd; exists D.
exists D => w.
have [d1 d10 L1] := line_radius w q0; have [d2 d20 L2] := line_radius w r0.
pose d := Rmin d1 d2; have d0 : (0 < d)%RR by apply: Rmin_glb_lt.
have Dl s : (Rabs s < d)%RR -> (Rabs s < d1)%RR /\ (Rabs s < d2)%RR.
  by move=> hs; split; apply: (Rlt_le_trans _ _ _ hs); [exact: Rmin_l|exact: Rmin_r].
have xE : x + rc R0 *: w = x by rewrite rc0 scale0r addr0.
pose A y : CR := \sum_a df y a * w 0 a.
have cE y : norm1 (y - x) < q -> norm1 (y - x) < r -> re (wlin (df y) (dfc y) w) = (2 * re (A y))%RR.
  move=> yq yr; have W := Hd y yq.
  have rp : 0 < r - norm1 (y - x) by rewrite subr_gt0.
  have W' : is_wgrad f y (fun a => (dfc y a)^*) (fun a => (df y a)^*).
    apply: wgrad_near rp _ (wgrad_conj W) => u hu; apply: fr.
    have -> : u - x = (u - y) + (y - x) by rewrite addrA subrK.
    by apply: le_lt_trans (norm1D _ _) _; rewrite -ltr_subr_addr.
  have [_ Ec] := wgrad_unique W W'.
  have -> : wlin (df y) (dfc y) w = A y + (A y)^*.
    rewrite /wlin /A rmorph_sum; congr (_ + _); apply: eq_bigr => a _.
    by rewrite Ec rmorphM.
  have [w1 Ew] : exists w1 : CR, w1 = (A y)^* by exists ((A y)^*).
  by have [E1 _] := conj_parts Ew; rewrite -Ew ComplexR.ReD E1; lra.
have dA : is_wgrad A x (fun b => \sum_a w 0 a * D a b) (fun b => \sum_a w 0 a * H a b).
  have Hs a : predT a -> is_wgrad (fun y => w 0 a * df y a) x (fun b => w 0 a * D a b) (fun b => w 0 a * H a b).
    by move=> _; exact: wgrad_scale (HD a).
  have := @wgrad_sum _ _ _ (index_enum [finType of 'I_n]) predT _ _ _ _ Hs; apply: wgrad_ext => y.
  by apply: eq_bigr => a _; rewrite mulrC.
have El : wlin (fun b => \sum_a w 0 a * D a b) (fun b => \sum_a w 0 a * H a b) w = adir D w.
  rewrite /wlin /adir /ddir /hdir; congr (_ + _).
    under eq_bigr do rewrite mulr_suml; rewrite exchange_big; apply: eq_bigr => a _.
    by rewrite mulr_suml; apply: eq_bigr => b _; rewrite -mulrA mulrC.
  under eq_bigr do rewrite mulr_suml; rewrite exchange_big; apply: eq_bigr => a _.
  by rewrite mulr_suml; apply: eq_bigr => b _; rewrite -mulrA mulrC.
suff : (0 <= 2 * re (adir D w))%RR by lra.
pose g1 s := re (A (x + rc s *: w)).
apply: (@real_min (fun s => re (f (x + rc s *: w))) (fun s => Rmult 2 (g1 s)) (2 * re (adir D w))%RR d d0).
- rewrite /g1; move=> s /Dl[s1 s2]; rewrite -(cE _ (L1 _ s1) (L2 _ s2)); apply: line_deriv; exact: Hd (L1 _ s1).
- by rewrite -El; apply: (@derivable_pt_lim_scal g1); apply: line_deriv; rewrite xE.
move=> s /Dl[_ s2]; rewrite xE; have := mn (L2 _ s2).
exact: CR_le_re.
Qed.

(** The quadratic form of the mixed derivatives. *)
Theorem mixed_min (w : 'rV[CR]_n) : (0 <= re (hdir w))%RR.
Proof.
have [D HD] := dir_min; have h1 := HD w; have := HD ('i *: w); rewrite /adir.
have -> : ddir D ('i *: w) = - ddir D w.
  rewrite /ddir -sumrN; apply: eq_bigr => a _.
  have -> : \sum_b D a b * ('i *: w) 0 b = 'i * \sum_b D a b * w 0 b.
    by rewrite mulr_sumr; apply: eq_bigr => b _; rewrite mxE mulrCA.
  by rewrite mxE mulrACA -expr2 sqrCi mulN1r.
have -> : hdir ('i *: w) = hdir w.
  rewrite /hdir; apply: eq_bigr => a _.
  have -> : \sum_b H a b * (('i *: w) 0 b)^* = - 'i * \sum_b H a b * (w 0 b)^*.
    by rewrite mulr_sumr; apply: eq_bigr => b _; rewrite mxE cjM conjCi mulrCA.
  by rewrite mxE mulrACA mulNr -expr2 sqrCi opprK mul1r.
move: h1; rewrite /adir !ComplexR.ReD ComplexR.ReN; lra.
Qed.
End Min.
