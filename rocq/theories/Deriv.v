(** Complex differentiation, by its epsilon-delta definition, over an arbitrary
    [numClosedFieldType].  This is a specification file (what "derivative" means
    in the theorems about fs_metric, GeometricObjects, ...), not a model of code:
    jax's forward/reverse mode is trusted to compute derivatives. *)
From Coq Require Import ZArith.
From mathcomp Require Import all_ssreflect all_algebra.
From mathcomp Require Import ring.

Set Implicit Arguments.
Unset Strict Implicit.
Unset Printing Implicit Defensive.

Import GRing.Theory Num.Theory Order.POrderTheory.
Local Open Scope ring_scope.

#[local] Hint Extern 0 (is_true (0 < _)) => solve [apply: ltr01 | apply: ltr0Sn] : core.
#[local] Hint Extern 0 (is_true (0 <= _)) => solve [apply: ler01 | apply: ler0n | apply: normr_ge0] : core.

Section Def.
Variable C : numClosedFieldType.

(** Sum of the moduli of the entries. *)
Definition norm1 n (v : 'rV[C]_n) : C := \sum_i `|v 0 i|.

(** Sum of the products of the entries (no conjugation). *)
Definition dotv n (g v : 'rV[C]_n) : C := \sum_i g 0 i * v 0 i.

(** [g] is the (total, holomorphic) gradient of [f] at [z]. *)
Definition is_grad n (f : 'rV[C]_n -> C) (z g : 'rV[C]_n) : Prop :=
  forall e, 0 < e -> exists2 d, 0 < d &
    forall v, norm1 v < d -> `|f (z + v) - f z - dotv g v| <= e * norm1 v.

(** [d] is the derivative of the one-variable function [f] at [x]. *)
Definition is_deriv (f : C -> C) (x d : C) : Prop :=
  forall e, 0 < e -> exists2 r, 0 < r &
    forall t, `|t| < r -> `|f (x + t) - f x - d * t| <= e * `|t|.

(** [J] is the matrix of partial derivatives, J[a, i] = d phi_i / d x_a. *)
Definition is_jac m n (phi : 'rV[C]_m -> 'rV[C]_n) (x : 'rV[C]_m) (J : 'M[C]_(m, n)) : Prop :=
  forall i, is_grad (fun y => phi y 0 i) x (\row_a J a i).

Definition conj_rv n (z : 'rV[C]_n) : 'rV[C]_n := \row_i (z 0 i)^*.

Definition little_o n (r : 'rV[C]_n -> C) : Prop :=
  forall e, 0 < e -> exists2 d, 0 < d & forall v, norm1 v < d -> `|r v| <= e * norm1 v.

Definition big_O n (r : 'rV[C]_n -> C) : Prop :=
  exists K d, [/\ 0 < K, 0 < d & forall v, norm1 v < d -> `|r v| <= K * norm1 v].

Definition bounded0 n (r : 'rV[C]_n -> C) : Prop :=
  exists K d, [/\ 0 < K, 0 < d & forall v, norm1 v < d -> `|r v| <= K].
End Def.

Section Basic.
Variable C : numClosedFieldType.

Lemma pos_min (a b : C) : 0 < a -> 0 < b ->
  exists c, [/\ 0 < c, c <= a & c <= b].
Proof.
move=> a0 b0; case/orP: (real_leVge (gtr0_real a0) (gtr0_real b0)) => H.
- by exists a.
- by exists b.
Qed.

Lemma norm1_ge0 n (v : 'rV[C]_n) : 0 <= norm1 v.
Proof. by apply: sumr_ge0 => i _. Qed.

Lemma norm1_conj n (v : 'rV[C]_n) : norm1 (conj_rv v) = norm1 v.
Proof. by apply: eq_bigr => i _; rewrite mxE norm_conjC. Qed.

Lemma conj_rvK n (v : 'rV[C]_n) : conj_rv (conj_rv v) = v.
Proof. by apply/rowP => i; rewrite !mxE conjCK. Qed.

Lemma conj_rvD n (v w : 'rV[C]_n) : conj_rv (v + w) = conj_rv v + conj_rv w.
Proof. by apply/rowP => i; rewrite !mxE rmorphD. Qed.

Lemma dotvDl n (g h v : 'rV[C]_n) : dotv (g + h) v = dotv g v + dotv h v.
Proof. by rewrite /dotv -big_split; apply: eq_bigr => i _; rewrite mxE mulrDl. Qed.

Lemma dotvZl n c (g v : 'rV[C]_n) : dotv (c *: g) v = c * dotv g v.
Proof. by rewrite /dotv mulr_sumr; apply: eq_bigr => i _; rewrite mxE mulrA. Qed.

Lemma dotv0l n (v : 'rV[C]_n) : dotv 0 v = 0.
Proof. by rewrite /dotv big1 // => i _; rewrite mxE mul0r. Qed.

Lemma dotv_conj n (g v : 'rV[C]_n) : dotv (conj_rv g) (conj_rv v) = (dotv g v)^*.
Proof. by rewrite /dotv rmorph_sum; apply: eq_bigr => i _; rewrite !mxE rmorphM. Qed.

Lemma norm_le_norm1 n (v : 'rV[C]_n) i : `|v 0 i| <= norm1 v.
Proof. by rewrite /norm1 (bigD1 i) //= ler_addl sumr_ge0. Qed.

Lemma dotv_bound n (g v : 'rV[C]_n) : `|dotv g v| <= norm1 g * norm1 v.
Proof.
apply: (le_trans (ler_norm_sum _ _ _)).
rewrite /norm1 mulr_suml; apply: ler_sum => i _; rewrite normrM.
by rewrite ler_wpmul2l //; exact: (norm_le_norm1 v i).
Qed.

Lemma big_O_dotv n (g : 'rV[C]_n) : big_O (dotv g).
Proof.
exists (norm1 g + 1), 1; split; [exact: (ltr_spaddr ltr01 (norm1_ge0 _))|exact: ltr01|].
move=> v _; apply: (le_trans (dotv_bound g v)).
by rewrite ler_wpmul2r ?norm1_ge0 // ler_addl ler01.
Qed.

Section Fixed.
Variable n : nat.
Implicit Types (r s f : 'rV[C]_n -> C).

Lemma little_o_ext r s : r =1 s -> little_o r -> little_o s.
Proof. by move=> E H e /H[d d0 Hd]; exists d => // v; rewrite -E; exact: Hd. Qed.

Lemma big_O_ext r s : r =1 s -> big_O r -> big_O s.
Proof. by move=> E [K [d [K0 d0 H]]]; exists K, d; split=> // v; rewrite -E; exact: H. Qed.

Lemma little_o_add r s : little_o r -> little_o s -> little_o (fun v => r v + s v).
Proof.
move=> Hr Hs e e0; have e2 : 0 < e / 2%:R by rewrite divr_gt0.
have [d1 d10 H1] := Hr _ e2; have [d2 d20 H2] := Hs _ e2.
have [d [d0 dd1 dd2]] := pos_min d10 d20.
exists d => // v Hv; apply: (le_trans (ler_norm_add _ _)).
have -> : e * norm1 v = e / 2%:R * norm1 v + e / 2%:R * norm1 v by field.
by apply: ler_add; [apply: H1|apply: H2]; apply: (lt_le_trans Hv).
Qed.

Lemma big_O_add r s : big_O r -> big_O s -> big_O (fun v => r v + s v).
Proof.
move=> [K1 [d1 [K10 d10 H1]]] [K2 [d2 [K20 d20 H2]]].
have [d [d0 dd1 dd2]] := pos_min d10 d20.
exists (K1 + K2), d; split=> //; first by rewrite addr_gt0.
move=> v Hv; apply: (le_trans (ler_norm_add _ _)); rewrite mulrDl.
by apply: ler_add; [apply: H1|apply: H2]; apply: (lt_le_trans Hv).
Qed.

Lemma little_o_big_O r : little_o r -> big_O r.
Proof. by move=> /(_ 1 ltr01)[d d0 H]; exists 1, d. Qed.

Lemma big_O_bounded r : big_O r -> bounded0 r.
Proof.
move=> [K [d [K0 d0 H]]]; exists (K * d), d; split=> //; first by rewrite mulr_gt0.
move=> v Hv; apply: (le_trans (H v Hv)); rewrite ler_pmul2l //; exact: ltW.
Qed.

Lemma bounded_const c : bounded0 (fun _ : 'rV[C]_n => c).
Proof. by exists (`|c| + 1), 1; split; [exact: (ltr_spaddr ltr01 (normr_ge0 _))|exact: ltr01|move=> v _; rewrite ler_addl ler01]. Qed.

Lemma little_o_bounded r s : little_o r -> bounded0 s -> little_o (fun v => s v * r v).
Proof.
move=> Hr [K [d2 [K0 d20 H2]]] e e0.
have [d1 d10 H1] := Hr _ (divr_gt0 e0 K0).
have [d [d0 dd1 dd2]] := pos_min d10 d20.
exists d => // v Hv; rewrite normrM.
have -> : e * norm1 v = K * (e / K * norm1 v) by field; rewrite gt_eqF.
by apply: ler_pmul => //; [apply: H2|apply: H1]; apply: (lt_le_trans Hv).
Qed.

Lemma little_o_scale c r : little_o r -> little_o (fun v => c * r v).
Proof. by move=> H; apply: little_o_bounded => //; apply: bounded_const. Qed.

Lemma big_O_mul r s : big_O r -> big_O s -> little_o (fun v => r v * s v).
Proof.
move=> [K1 [d1 [K10 d10 H1]]] [K2 [d2 [K20 d20 H2]]] e e0.
have K0 : 0 < K1 * K2 by rewrite mulr_gt0.
have [d3 [d30 d31 d32]] := pos_min d10 d20.
have [d [d0 dd1 dd2]] := pos_min d30 (divr_gt0 e0 K0).
exists d => // v Hv; rewrite normrM.
have Hv1 : norm1 v < d1 by rewrite (lt_le_trans Hv) // (le_trans dd1).
have Hv2 : norm1 v < d2 by rewrite (lt_le_trans Hv) // (le_trans dd1).
have B : `|r v| * `|s v| <= (K1 * norm1 v) * (K2 * norm1 v).
  by apply: ler_pmul => //; [exact: H1|exact: H2].
apply: (le_trans B).
have -> : K1 * norm1 v * (K2 * norm1 v) = (K1 * K2 * norm1 v) * norm1 v by ring.
rewrite ler_wpmul2r ?norm1_ge0 // mulrC -ler_pdivl_mulr //.
by apply: ltW; exact: (lt_le_trans Hv).
Qed.

Lemma is_gradE f z g : is_grad f z g <-> little_o (fun v => f (z + v) - f z - dotv g v).
Proof. by []. Qed.

Lemma is_grad_big_O f z g : is_grad f z g -> big_O (fun v => f (z + v) - f z).
Proof.
move=> H; apply: (@big_O_ext (fun v => (f (z + v) - f z - dotv g v) + dotv g v)).
  by move=> v; ring.
by apply: big_O_add; [apply: little_o_big_O|apply: big_O_dotv].
Qed.

Lemma is_grad_ext f f' z g : f =1 f' -> is_grad f z g -> is_grad f' z g.
Proof. by move=> E; apply: little_o_ext => v; rewrite !E. Qed.

(** Only the values near z matter. *)
Lemma is_grad_near f f' z g (d0 : C) : 0 < d0 ->
  (forall v, norm1 v < d0 -> f (z + v) = f' (z + v)) ->
  is_grad f z g -> is_grad f' z g.
Proof.
move=> dd E H e e0; have [d d1 Hd] := H e e0.
have [d' [d'0 d'1 d'2]] := pos_min d1 dd.
have Ez : f z = f' z.
  have := E 0; rewrite addr0; apply.
  by rewrite /norm1 big1 // => i _; rewrite mxE normr0.
exists d' => // v Hv; rewrite -E -?Ez; first by apply: Hd; apply: (lt_le_trans Hv).
exact: (lt_le_trans Hv).
Qed.

Lemma is_grad_eq f z g g' : g = g' -> is_grad f z g -> is_grad f z g'.
Proof. by move=> ->. Qed.

Lemma is_grad_const c z : is_grad (fun _ : 'rV[C]_n => c) z 0.
Proof.
move=> e e0; exists 1 => // v _.
by rewrite dotv0l subrr subr0 normr0 mulr_ge0 ?norm1_ge0 // ltW.
Qed.

Lemma dotv_delta (v : 'rV[C]_n) i : dotv (delta_mx 0 i) v = v 0 i.
Proof.
rewrite /dotv (bigD1 i) //= mxE !eqxx mul1r big1 ?addr0 // => j ji.
by rewrite mxE eqxx (negbTE ji) mul0r.
Qed.

Lemma is_grad_coord i z : is_grad (fun y : 'rV[C]_n => y 0 i) z (delta_mx 0 i).
Proof.
move=> e e0; exists 1 => // v _.
rewrite dotv_delta mxE [z 0 i + _]addrC addrK subrr normr0.
by rewrite mulr_ge0 ?norm1_ge0 // ltW.
Qed.

Lemma is_grad_add f1 f2 z g1 g2 : is_grad f1 z g1 -> is_grad f2 z g2 ->
  is_grad (fun y => f1 y + f2 y) z (g1 + g2).
Proof.
move=> H1 H2; apply: (little_o_ext _ (little_o_add H1 H2)) => v.
by rewrite dotvDl; ring.
Qed.

Lemma is_grad_scale c f z g : is_grad f z g -> is_grad (fun y => c * f y) z (c *: g).
Proof.
move=> H; apply: (little_o_ext _ (little_o_scale c H)) => v.
by rewrite dotvZl; ring.
Qed.

Lemma is_grad_opp f z g : is_grad f z g -> is_grad (fun y => - f y) z (- g).
Proof.
move=> /(is_grad_scale (-1)); rewrite scaleN1r; apply: is_grad_ext => y.
by rewrite mulN1r.
Qed.

Lemma is_grad_sub f1 f2 z g1 g2 : is_grad f1 z g1 -> is_grad f2 z g2 ->
  is_grad (fun y => f1 y - f2 y) z (g1 - g2).
Proof. by move=> H1 /is_grad_opp H2; apply: is_grad_add. Qed.

Lemma is_grad_mul f1 f2 z g1 g2 : is_grad f1 z g1 -> is_grad f2 z g2 ->
  is_grad (fun y => f1 y * f2 y) z (f1 z *: g2 + f2 z *: g1).
Proof.
move=> H1 H2.
have H := little_o_add (little_o_add (little_o_scale (f1 z) H2) (little_o_scale (f2 z) H1))
  (big_O_mul (is_grad_big_O H1) (is_grad_big_O H2)).
apply: (little_o_ext _ H) => v; rewrite dotvDl !dotvZl; ring.
Qed.

Lemma is_grad_inv f z g : f z != 0 -> is_grad f z g ->
  is_grad (fun y => (f y)^-1) z (- (f z) ^- 2 *: g).
Proof.
move=> fz H.
set D := fun v => f (z + v) - f z.
have OD : big_O D := is_grad_big_O H.
(* the denominator stays away from zero *)
have [d [d0 Hd]] : exists d, 0 < d /\ forall v, norm1 v < d -> `|f z| / 2%:R <= `|f (z + v)|.
  case: OD => K [d1 [K0 d10 H1]].
  have f2 : 0 < `|f z| / 2%:R by rewrite divr_gt0 // normr_gt0.
  have [d [d0 dd1 dd2]] := pos_min d10 (divr_gt0 f2 K0).
  exists d; split=> // v Hv.
  have Hv1 : norm1 v < d1 by apply: (lt_le_trans Hv).
  have B : `|D v| <= `|f z| / 2%:R.
    apply: (le_trans (H1 v Hv1)); rewrite mulrC -ler_pdivl_mulr //.
    by apply: ltW; apply: (lt_le_trans Hv).
  have E : `|f z| <= `|f (z + v)| + `|D v|.
    have -> : f z = f (z + v) - D v by rewrite /D; ring.
    apply: (le_trans (ler_norm_sub _ _)); by rewrite /D.
  rewrite -(ler_add2r (`|D v|)); apply: (le_trans _ E).
  have -> : `|f z| = `|f z| / 2%:R + `|f z| / 2%:R by field.
  have -> : `|f z| / 2%:R + `|f z| / 2%:R = `|f z| by field.
  rewrite -[X in _ <= X](_ : `|f z| / 2%:R + `|f z| / 2%:R = `|f z|); last by field.
  by rewrite ler_add2l.
have nz v : norm1 v < d -> f (z + v) != 0.
  move=> Hv; rewrite -normr_gt0; apply: (lt_le_trans _ (Hd v Hv)).
  by rewrite divr_gt0 // normr_gt0.
have Bd : bounded0 (fun v => (f z ^+ 2 * f (z + v))^-1).
  exists (`|f z| ^- 2 * (2%:R / `|f z|)), d; split=> //.
    by rewrite mulr_gt0 ?invr_gt0 ?exprn_gt0 ?divr_gt0 // ?normr_gt0.
  move=> v Hv; rewrite normfV normrM normrX invfM ler_pmul2l; last first.
    by rewrite invr_gt0 exprn_gt0 // normr_gt0.
  rewrite -invf_div lef_pinv ?posrE //; first exact: Hd.
    by rewrite normr_gt0 nz.
  by rewrite divr_gt0 // normr_gt0.
have Hn : little_o (fun v => - f z * (f (z + v) - f z - dotv g v) + dotv g v * D v).
  apply: little_o_add; first exact: little_o_scale.
  by apply: big_O_mul => //; exact: big_O_dotv.
have Hq := little_o_bounded Hn Bd.
move=> e e0; have [d1 d10 H1] := Hq e e0.
have [d2 [d20 dd1 dd2]] := pos_min d10 d0.
exists d2 => // v Hv.
have Hvd : norm1 v < d by apply: (lt_le_trans Hv).
have := H1 v (lt_le_trans Hv dd1).
congr (`| _ | <= _); rewrite dotvZl /D.
by field; rewrite fz nz.
Qed.

Lemma is_grad_div f1 f2 z g1 g2 : f2 z != 0 -> is_grad f1 z g1 -> is_grad f2 z g2 ->
  is_grad (fun y => f1 y / f2 y) z ((f2 z)^-1 *: g1 - (f1 z / f2 z ^+ 2) *: g2).
Proof.
move=> nz H1 H2; apply: is_grad_eq (is_grad_mul H1 (is_grad_inv nz H2)).
rewrite addrC; congr (_ + _); rewrite scalerA -scaleNr; congr (_ *: _).
by rewrite mulrN.
Qed.

Lemma is_grad_sum (I : Type) (l : seq I) (P : pred I) (f : I -> 'rV[C]_n -> C) z
    (g : I -> 'rV[C]_n) :
  (forall i, P i -> is_grad (f i) z (g i)) ->
  is_grad (fun y => \sum_(i <- l | P i) f i y) z (\sum_(i <- l | P i) g i).
Proof.
move=> H; elim: l => [|i l IH].
  rewrite big_nil; apply: is_grad_ext (is_grad_const 0 z) => y.
  by rewrite big_nil.
rewrite big_cons; case Pi: (P i).
  apply: is_grad_ext (is_grad_add (H i Pi) IH) => y.
  by rewrite big_cons Pi.
by apply: is_grad_ext IH => y; rewrite big_cons Pi.
Qed.

Lemma is_grad_exp f z g k : is_grad f z g ->
  is_grad (fun y => f y ^+ k) z ((f z ^+ k.-1 *+ k) *: g).
Proof.
move=> H; elim: k => [|k IH].
  by rewrite mulr0n scale0r; apply: is_grad_ext (is_grad_const 1 z) => y; rewrite expr0.
apply: is_grad_ext (is_grad_eq _ (is_grad_mul H IH)); first by move=> y; rewrite exprS.
rewrite scalerA -scalerDl; congr (_ *: _).
case: k {IH} => [|k] /=; first by rewrite mulr0n mulr0 add0r expr0 mulr1n.
by rewrite mulrnAr -exprS [RHS]mulrS addrC.
Qed.

(** Chain rule with an outer function of one variable. *)
Lemma is_grad_comp1 (L : C -> C) l f z g : is_deriv L (f z) l -> is_grad f z g ->
  is_grad (fun y => L (f y)) z (l *: g).
Proof.
move=> HL H.
have H1 : little_o (fun v => L (f (z + v)) - L (f z) - l * (f (z + v) - f z)).
  have [K [d [K0 d0 Hd]]] := is_grad_big_O H.
  move=> e e0; have [r r0 Hr] := HL _ (divr_gt0 e0 K0).
  have [d' [d'0 dd1 dd2]] := pos_min d0 (divr_gt0 r0 K0).
  exists d' => // v Hv.
  have B := Hd v (lt_le_trans Hv dd1).
  have := Hr (f (z + v) - f z); rewrite [f z + _]addrC subrK => Hr'.
  apply: (le_trans (Hr' _)).
    apply: (le_lt_trans B); rewrite mulrC -ltr_pdivl_mulr //.
    exact: (lt_le_trans Hv).
  have -> : e * norm1 v = e / K * (K * norm1 v) by field; rewrite gt_eqF.
  by rewrite ler_pmul2l ?divr_gt0.
apply: (little_o_ext _ (little_o_add H1 (little_o_scale l H))) => v.
by rewrite dotvZl; ring.
Qed.

(** The gradient is unique. *)
Lemma is_grad_unique f z g g' : is_grad f z g -> is_grad f z g' -> g = g'.
Proof.
move=> H H'.
have Hd : little_o (fun v => dotv (g - g') v).
  have := little_o_add H' (little_o_scale (-1) H); apply: little_o_ext => v.
  by rewrite dotvDl -scaleN1r dotvZl; ring.
apply/rowP => i; apply/eqP; rewrite -subr_eq0 -normr_eq0.
apply/negPn/negP => nz.
have p0 : 0 < `|g 0 i - g' 0 i| by rewrite lt_def nz normr_ge0.
have [d d0 Hv] := Hd _ (divr_gt0 p0 (ltr0n C 2)).
pose t : C := d / 2%:R.
have t0 : 0 < t by rewrite divr_gt0.
have nt : norm1 (t *: delta_mx 0 i) = t.
  rewrite /norm1 (bigD1 i) //= big1 ?addr0; last first.
    by move=> j ji; rewrite !mxE eqxx (negbTE ji) mulr0 normr0.
  by rewrite !mxE !eqxx mulr1 gtr0_norm.
have := Hv (t *: delta_mx 0 i); rewrite nt.
have -> : dotv (g - g') (t *: delta_mx 0 i) = (g 0 i - g' 0 i) * t.
  rewrite /dotv (bigD1 i) //= big1 ?addr0; last first.
    by move=> j ji; rewrite !mxE eqxx (negbTE ji) !mulr0.
  by rewrite !mxE !eqxx mulr1.
have td : t < d by rewrite ltr_pdivr_mulr // ltr_pmulr // ltr1n.
move=> /(_ td); rewrite normrM (gtr0_norm t0) ler_pmul2r //.
by rewrite ler_pdivl_mulr // ger_pmulr // lern1.
Qed.
End Fixed.

(** Conjugation: the gradient of w |-> conj (f (conj w)). *)
Lemma is_grad_conj n (f : 'rV[C]_n -> C) z g : is_grad f z g ->
  is_grad (fun w => (f (conj_rv w))^*) (conj_rv z) (conj_rv g).
Proof.
move=> H e e0; have [d d0 Hd] := H e e0; exists d => // v Hv.
rewrite conj_rvD !conj_rvK.
have -> : dotv (conj_rv g) v = (dotv g (conj_rv v))^* by rewrite -dotv_conj conj_rvK.
rewrite -!rmorphB norm_conjC.
by have := Hd (conj_rv v); rewrite norm1_conj; apply.
Qed.

(** Chain rule for maps between coordinate spaces. *)
Lemma is_grad_comp m n (phi : 'rV[C]_m -> 'rV[C]_n) x J (f : 'rV[C]_n -> C) g :
  is_jac phi x J -> is_grad f (phi x) g ->
  is_grad (fun y => f (phi y)) x (\row_a \sum_i J a i * g 0 i).
Proof.
move=> HJ H.
pose D v : 'rV[C]_n := phi (x + v) - phi x.
have OD : exists K d, [/\ 0 < K, 0 < d &
     forall v, norm1 v < d -> norm1 (D v) <= K * norm1 v].
  have Hi (l : seq 'I_n) : exists K d, [/\ 0 < K, 0 < d &
     forall v, norm1 v < d -> \sum_(i <- l) `|D v 0 i| <= K * norm1 v].
    elim: l => [|i l [K [d [K0 d0 Hl]]]].
      by exists 1, 1; split=> // v _; rewrite big_nil mul1r norm1_ge0.
    have [K1 [d1 [K10 d10 H1]]] := is_grad_big_O (HJ i).
    have [d' [d'0 dd1 dd2]] := pos_min d0 d10.
    exists (K1 + K), d'; split=> //; first by rewrite addr_gt0.
    move=> v Hv; rewrite big_cons mulrDl; apply: ler_add.
      by have := H1 v (lt_le_trans Hv dd2); rewrite /D !mxE.
    exact: Hl (lt_le_trans Hv dd1).
  exact: Hi.
have H1 : little_o (fun v => f (phi (x + v)) - f (phi x) - dotv g (D v)).
  case: OD => K [d [K0 d0 Hd]] e e0.
  have [r r0 Hr] := H _ (divr_gt0 e0 K0).
  have [d' [d'0 dd1 dd2]] := pos_min d0 (divr_gt0 r0 K0).
  exists d' => // v Hv.
  have B := Hd v (lt_le_trans Hv dd1).
  have := Hr (D v); rewrite {1}/D [phi x + _]addrC subrK => Hr'.
  apply: (le_trans (Hr' _)).
    apply: (le_lt_trans B); rewrite mulrC -ltr_pdivl_mulr //.
    exact: (lt_le_trans Hv).
  have -> : e * norm1 v = e / K * (K * norm1 v) by field; rewrite gt_eqF.
  by rewrite ler_pmul2l ?divr_gt0.
have H2 : little_o (fun v => \sum_i g 0 i *
     (phi (x + v) 0 i - phi x 0 i - dotv (\row_a J a i) v)).
  elim: (index_enum _) => [|i l IH].
    move=> e e0; exists 1 => // v _; rewrite big_nil normr0.
    by rewrite mulr_ge0 ?norm1_ge0 // ltW.
  apply: little_o_ext (little_o_add (little_o_scale (g 0 i) (HJ i)) IH) => v.
  by rewrite big_cons.
apply: (little_o_ext _ (little_o_add H1 H2)) => v.
have -> : dotv (\row_a \sum_i J a i * g 0 i) v =
          \sum_i g 0 i * dotv (\row_a J a i) v.
  rewrite /dotv; under eq_bigr do rewrite mxE mulr_suml.
  rewrite exchange_big; apply: eq_bigr => i _.
  by rewrite mulr_sumr; apply: eq_bigr => a _; rewrite mxE; ring.
rewrite /dotv /D.
have -> : \sum_i g 0 i * (phi (x + v) - phi x) 0 i =
          \sum_i g 0 i * (phi (x + v) 0 i - phi x 0 i).
  by apply: eq_bigr => i _; rewrite !mxE.
rewrite -addrA; congr (_ + _).
rewrite -sumrN -big_split /= -sumrN; apply: eq_bigr => i _; ring.
Qed.

End Basic.
