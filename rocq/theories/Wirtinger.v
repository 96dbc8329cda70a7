(** Derivatives by z and by its conjugate (Wirtinger derivatives), by the
    epsilon-delta definition, over an arbitrary [numClosedFieldType].  A
    specification file like Deriv.v. *)
From Coq Require Import ZArith.
From mathcomp Require Import all_ssreflect all_algebra.
From mathcomp Require Import ring.
From Verif Require Import Deriv.

Set Implicit Arguments.
Unset Strict Implicit.
Unset Printing Implicit Defensive.

Import GRing.Theory Num.Theory Order.POrderTheory.
Local Open Scope ring_scope.

#[local] Hint Extern 0 (is_true (0 < _)) => solve [apply: ltr01 | apply: ltr0Sn] : core.
#[local] Hint Extern 0 (is_true (0 <= _)) => solve [apply: ler01 | apply: ler0n | apply: normr_ge0] : core.

Section Def.
Variable C : numClosedFieldType.

(** [g a] and [gc a] are the derivatives of [f] at [z] by the coordinate a and
    by its conjugate: f (z + v) = f z + sum_a g_a v_a + sum_a gc_a conj v_a + o(v). *)
Definition is_wgrad n (f : 'rV[C]_n -> C) (z : 'rV[C]_n) (g gc : 'I_n -> C) : Prop :=
  forall e, 0 < e -> exists2 d, 0 < d &
    forall v, norm1 v < d ->
    `|f (z + v) - f z - (\sum_a g a * v 0 a + \sum_a gc a * (v 0 a)^*)| <= e * norm1 v.

(** [H a b] is the derivative by the conjugate of coordinate b of the derivative
    by coordinate a. *)
Definition is_mixed n (f : 'rV[C]_n -> C) (z : 'rV[C]_n) (H : 'I_n -> 'I_n -> C) : Prop :=
  exists (df dfc : 'rV[C]_n -> 'I_n -> C) (r : C), 0 < r /\
    (forall y, norm1 (y - z) < r -> is_wgrad f y (df y) (dfc y)) /\
    (forall a, exists ddf, is_wgrad (fun y => df y a) z ddf (H a)).
End Def.

(** *** Differentials *)
Section Diff.
Variables (C : numClosedFieldType) (n : nat).
Implicit Types (f : 'rV[C]_n -> C) (z : 'rV[C]_n) (L : 'rV[C]_n -> C).

Definition is_diff f z L : Prop :=
  big_O L /\ little_o (fun v => f (z + v) - f z - L v).

Lemma norm10 : norm1 (0 : 'rV[C]_n) = 0.
Proof. by rewrite /norm1 big1 // => i _; rewrite mxE normr0. Qed.

Lemma big_O_scale c (r : 'rV[C]_n -> C) : big_O r -> big_O (fun v => c * r v).
Proof.
move=> [K [d [K0 d0 H]]]; exists ((`|c| + 1) * K), d; split=> //.
  by rewrite mulr_gt0 // (ltr_spaddr ltr01 (normr_ge0 _)).
move=> v Hv; rewrite normrM -mulrA; apply: ler_pmul => //; last exact: H.
by rewrite ler_addl ler01.
Qed.

Lemma diff_big_O f z L : is_diff f z L -> big_O (fun v => f (z + v) - f z).
Proof.
move=> [OL H]; apply: (@big_O_ext _ _ (fun v => (f (z + v) - f z - L v) + L v)).
  by move=> v; ring.
by apply: big_O_add => //; apply: little_o_big_O.
Qed.

Lemma diff_ext f f' z L : f =1 f' -> is_diff f z L -> is_diff f' z L.
Proof. by move=> E [OL H]; split=> //; apply: little_o_ext H => v; rewrite !E. Qed.

Lemma diff_eq f z L L' : L =1 L' -> is_diff f z L -> is_diff f z L'.
Proof.
move=> E [OL H]; split; first by apply: big_O_ext OL.
by apply: little_o_ext H => v; rewrite E.
Qed.

Lemma diff_near f f' z L (r : C) : 0 < r ->
  (forall y, norm1 (y - z) < r -> f y = f' y) -> is_diff f z L -> is_diff f' z L.
Proof.
move=> r0 E [OL H]; split=> // e e0; have [d d0 Hd] := H e e0.
have [d' [d'0 dd1 dd2]] := pos_min d0 r0.
exists d' => // v Hv; rewrite -!E; first by apply: Hd; apply: (lt_le_trans Hv).
  by rewrite subrr norm10.
by rewrite addrC addKr; apply: (lt_le_trans Hv).
Qed.

Lemma diff_const c z : is_diff (fun _ => c) z (fun _ => 0).
Proof.
split; first by exists 1, 1; split=> // v _; rewrite normr0 mul1r norm1_ge0.
by move=> e e0; exists 1 => // v _; rewrite subrr subr0 normr0 mulr_ge0 ?norm1_ge0 // ltW.
Qed.

Lemma diff_add f1 f2 z L1 L2 : is_diff f1 z L1 -> is_diff f2 z L2 ->
  is_diff (fun y => f1 y + f2 y) z (fun v => L1 v + L2 v).
Proof.
move=> [O1 H1] [O2 H2]; split; first exact: big_O_add.
by apply: (little_o_ext _ (little_o_add H1 H2)) => v; ring.
Qed.

Lemma diff_scale c f z L : is_diff f z L -> is_diff (fun y => c * f y) z (fun v => c * L v).
Proof.
move=> [OL H]; split; first exact: big_O_scale.
by apply: (little_o_ext _ (little_o_scale c H)) => v; ring.
Qed.

Lemma diff_mul f1 f2 z L1 L2 : is_diff f1 z L1 -> is_diff f2 z L2 ->
  is_diff (fun y => f1 y * f2 y) z (fun v => f1 z * L2 v + f2 z * L1 v).
Proof.
move=> H1 H2; split; first by apply: big_O_add; apply: big_O_scale; [case: H2 | case: H1].
have H := little_o_add (little_o_add (little_o_scale (f1 z) H2.2) (little_o_scale (f2 z) H1.2))
  (big_O_mul (diff_big_O H1) (diff_big_O H2)).
by apply: (little_o_ext _ H) => v; ring.
Qed.

(** a function differentiable at z stays close to its value *)
Lemma diff_close f z L (e : C) : is_diff f z L -> 0 < e ->
  exists2 d, 0 < d & forall y, norm1 (y - z) < d -> `|f y - f z| < e.
Proof.
move=> /diff_big_O[K [d1 [K0 d10 H1]]] e0.
have [d [d0 dd1 dd2]] := pos_min d10 (divr_gt0 e0 K0).
exists d => // y Hy; have {1}-> : y = z + (y - z) by rewrite addrC subrK.
apply: (le_lt_trans (H1 _ (lt_le_trans Hy dd1))); rewrite mulrC -ltr_pdivl_mulr //.
exact: (lt_le_trans Hy).
Qed.

Lemma diff_nonzero f z L : is_diff f z L -> f z != 0 ->
  exists2 d, 0 < d & forall y, norm1 (y - z) < d -> `|f z| / 2%:R <= `|f y| /\ f y != 0.
Proof.
move=> H fz; have f2 : 0 < `|f z| / 2%:R by rewrite divr_gt0 // normr_gt0.
have [d d0 Hd] := diff_close H f2; exists d => // y Hy.
have B : `|f y - f z| <= `|f z| / 2%:R by apply: ltW; apply: Hd.
have E : `|f z| <= `|f y| + `|f y - f z|.
  have {1}-> : f z = f y - (f y - f z) by ring.
  exact: ler_norm_sub.
have lo : `|f z| / 2%:R <= `|f y|.
  rewrite -(ler_add2r (`|f y - f z|)); apply: (le_trans _ E).
  rewrite -[X in _ <= X](_ : `|f z| / 2%:R + `|f z| / 2%:R = `|f z|); last by field.
  by rewrite ler_add2l.
by split=> //; rewrite -normr_gt0; apply: (lt_le_trans f2).
Qed.

Lemma diff_inv f z L : f z != 0 -> is_diff f z L ->
  is_diff (fun y => (f y)^-1) z (fun v => - (f z) ^- 2 * L v).
Proof.
move=> fz H; split; first by apply: big_O_scale; case: H.
have [d d0 Hd] := diff_nonzero H fz.
have sh v : norm1 v < d -> norm1 (z + v - z) < d by rewrite [z + v]addrC addrK.
have Bd : bounded0 (fun v => (f z ^+ 2 * f (z + v))^-1).
  exists (`|f z| ^- 2 * (2%:R / `|f z|)), d; split=> //.
    by rewrite mulr_gt0 ?invr_gt0 ?exprn_gt0 ?divr_gt0 // ?normr_gt0.
  move=> v Hv; have [lo nz] := Hd _ (sh v Hv).
  rewrite normfV normrM normrX invfM ler_pmul2l; last first.
    by rewrite invr_gt0 exprn_gt0 // normr_gt0.
  rewrite -invf_div lef_pinv ?posrE //; first by rewrite normr_gt0.
  by rewrite divr_gt0 // normr_gt0.
have OD := diff_big_O H; case: H => OL H.
have Hn : little_o (fun v => - f z * (f (z + v) - f z - L v) + L v * (f (z + v) - f z)).
  by apply: little_o_add; [exact: little_o_scale | exact: big_O_mul].
have Hq := little_o_bounded Hn Bd.
move=> e e0; have [d1 d10 H1] := Hq e e0.
have [d2 [d20 dd1 dd2]] := pos_min d10 d0.
exists d2 => // v Hv.
have [_ nz] := Hd _ (sh v (lt_le_trans Hv dd2)).
have := H1 v (lt_le_trans Hv dd1).
congr (`| _ | <= _).
by field; rewrite fz nz.
Qed.

Lemma diff_comp1 (F : C -> C) l f z L : is_deriv F (f z) l -> is_diff f z L ->
  is_diff (fun y => F (f y)) z (fun v => l * L v).
Proof.
move=> HF H; split; first by apply: big_O_scale; case: H.
have H1 : little_o (fun v => F (f (z + v)) - F (f z) - l * (f (z + v) - f z)).
  have [K [d [K0 d0 Hd]]] := diff_big_O H.
  move=> e e0; have [r r0 Hr] := HF _ (divr_gt0 e0 K0).
  have [d' [d'0 dd1 dd2]] := pos_min d0 (divr_gt0 r0 K0).
  exists d' => // v Hv.
  have B := Hd v (lt_le_trans Hv dd1).
  have := Hr (f (z + v) - f z); rewrite [f z + _]addrC subrK => Hr'.
  apply: (le_trans (Hr' _)).
    apply: (le_lt_trans B); rewrite mulrC -ltr_pdivl_mulr //.
    exact: (lt_le_trans Hv).
  have -> : e * norm1 v = e / K * (K * norm1 v) by field; rewrite gt_eqF.
  by rewrite ler_pmul2l ?divr_gt0.
apply: (little_o_ext _ (little_o_add H1 (little_o_scale l H.2))) => v.
by ring.
Qed.

Lemma diff_conj f z L : is_diff f z L -> is_diff (fun y => (f y)^*) z (fun v => (L v)^*).
Proof.
move=> [[K [d [K0 d0 OL]]] H]; split; first by exists K, d; split=> // v /OL; rewrite norm_conjC.
move=> e e0; have [d1 d10 H1] := H e e0; exists d1 => // v /H1.
by rewrite -!rmorphB norm_conjC.
Qed.
End Diff.

(** *** Wirtinger derivatives *)
Section Wirtinger.
Variables (C : numClosedFieldType) (n : nat).
Implicit Types (f : 'rV[C]_n -> C) (z : 'rV[C]_n) (g gc : 'I_n -> C).

Definition wlin g gc : 'rV[C]_n -> C := fun v => \sum_a g a * v 0 a + \sum_a gc a * (v 0 a)^*.

Lemma big_O_wlin g gc : big_O (wlin g gc).
Proof.
apply: big_O_add.
  by apply: (big_O_ext _ (big_O_dotv (\row_a g a))) => v; apply: eq_bigr => a _; rewrite mxE.
have [K [d [K0 d0 H]]] := big_O_dotv (\row_a gc a); exists K, d; split=> // v Hv.
have := H (conj_rv v); rewrite norm1_conj => /(_ Hv); congr (`|_| <= _).
by apply: eq_bigr => a _; rewrite !mxE.
Qed.

Lemma wgrad_diff f z g gc : is_wgrad f z g gc <-> is_diff f z (wlin g gc).
Proof. by split=> [H|[]//]; split=> //; exact: big_O_wlin. Qed.

Lemma wlinZ c g gc v : c * wlin g gc v = wlin (fun a => c * g a) (fun a => c * gc a) v.
Proof. by rewrite /wlin mulrDr !mulr_sumr; congr (_ + _); apply: eq_bigr => a _; rewrite mulrA. Qed.

Lemma wlinD g gc g' gc' v :
  wlin g gc v + wlin g' gc' v = wlin (fun a => g a + g' a) (fun a => gc a + gc' a) v.
Proof.
rewrite /wlin addrACA; congr (_ + _); rewrite -big_split; apply: eq_bigr => a _; by rewrite mulrDl.
Qed.

Lemma wlin_conj g gc v : (wlin g gc v)^* = wlin (fun a => (gc a)^*) (fun a => (g a)^*) v.
Proof.
rewrite /wlin rmorphD !rmorph_sum addrC; congr (_ + _); apply: eq_bigr => a _.
  by rewrite rmorphM conjCK.
by rewrite rmorphM.
Qed.

Lemma wlin_eq g gc g' gc' : g =1 g' -> gc =1 gc' -> wlin g gc =1 wlin g' gc'.
Proof. by move=> E E' v; congr (_ + _); apply: eq_bigr => a _; rewrite ?E ?E'. Qed.

Lemma wgrad_ext f f' z g gc : f =1 f' -> is_wgrad f z g gc -> is_wgrad f' z g gc.
Proof. by move=> E /wgrad_diff H; apply/wgrad_diff; apply: diff_ext H. Qed.

Lemma wgrad_eq f z g gc g' gc' : g =1 g' -> gc =1 gc' -> is_wgrad f z g gc -> is_wgrad f z g' gc'.
Proof. by move=> E E' /wgrad_diff H; apply/wgrad_diff; apply: diff_eq H; apply: wlin_eq. Qed.

Lemma wgrad_near f f' z g gc (r : C) : 0 < r ->
  (forall y, norm1 (y - z) < r -> f y = f' y) -> is_wgrad f z g gc -> is_wgrad f' z g gc.
Proof. by move=> r0 E /wgrad_diff H; apply/wgrad_diff; apply: (diff_near r0 E). Qed.

Lemma wgrad_const c z : is_wgrad (fun _ => c) z (fun _ => 0) (fun _ => 0).
Proof.
apply/wgrad_diff; apply: diff_eq (diff_const c z) => v.
by rewrite /wlin !big1 ?addr0 // => a _; rewrite mul0r.
Qed.

Lemma wgrad_add f1 f2 z g1 c1 g2 c2 : is_wgrad f1 z g1 c1 -> is_wgrad f2 z g2 c2 ->
  is_wgrad (fun y => f1 y + f2 y) z (fun a => g1 a + g2 a) (fun a => c1 a + c2 a).
Proof.
move=> /wgrad_diff H1 /wgrad_diff H2; apply/wgrad_diff; apply: diff_eq (diff_add H1 H2) => v.
exact: wlinD.
Qed.

Lemma wgrad_scale k f z g c : is_wgrad f z g c ->
  is_wgrad (fun y => k * f y) z (fun a => k * g a) (fun a => k * c a).
Proof.
move=> /wgrad_diff H; apply/wgrad_diff; apply: diff_eq (diff_scale k H) => v.
exact: wlinZ.
Qed.

Lemma wgrad_opp f z g c : is_wgrad f z g c ->
  is_wgrad (fun y => - f y) z (fun a => - g a) (fun a => - c a).
Proof.
move=> /(wgrad_scale (-1)) H; apply: wgrad_ext (wgrad_eq _ _ H) => a; by rewrite mulN1r.
Qed.

Lemma wgrad_sub f1 f2 z g1 c1 g2 c2 : is_wgrad f1 z g1 c1 -> is_wgrad f2 z g2 c2 ->
  is_wgrad (fun y => f1 y - f2 y) z (fun a => g1 a - g2 a) (fun a => c1 a - c2 a).
Proof. by move=> H1 /wgrad_opp H2; apply: wgrad_add. Qed.

Lemma wgrad_mul f1 f2 z g1 c1 g2 c2 : is_wgrad f1 z g1 c1 -> is_wgrad f2 z g2 c2 ->
  is_wgrad (fun y => f1 y * f2 y) z (fun a => f1 z * g2 a + f2 z * g1 a)
                                   (fun a => f1 z * c2 a + f2 z * c1 a).
Proof.
move=> /wgrad_diff H1 /wgrad_diff H2; apply/wgrad_diff; apply: diff_eq (diff_mul H1 H2) => v.
by rewrite !wlinZ wlinD.
Qed.

Lemma wgrad_inv f z g c : f z != 0 -> is_wgrad f z g c ->
  is_wgrad (fun y => (f y)^-1) z (fun a => - (f z) ^- 2 * g a) (fun a => - (f z) ^- 2 * c a).
Proof.
move=> nz /wgrad_diff H; apply/wgrad_diff; apply: diff_eq (diff_inv nz H) => v.
exact: wlinZ.
Qed.

Lemma wgrad_div f1 f2 z g1 c1 g2 c2 : f2 z != 0 -> is_wgrad f1 z g1 c1 -> is_wgrad f2 z g2 c2 ->
  is_wgrad (fun y => f1 y / f2 y) z (fun a => g1 a / f2 z - f1 z * g2 a / f2 z ^+ 2)
                                   (fun a => c1 a / f2 z - f1 z * c2 a / f2 z ^+ 2).
Proof.
move=> nz H1 H2; apply: wgrad_eq (wgrad_mul H1 (wgrad_inv nz H2)) => a; by field.
Qed.

Lemma wgrad_conj f z g c : is_wgrad f z g c ->
  is_wgrad (fun y => (f y)^*) z (fun a => (c a)^*) (fun a => (g a)^*).
Proof.
move=> /wgrad_diff H; apply/wgrad_diff; apply: diff_eq (diff_conj H) => v.
exact: wlin_conj.
Qed.

Lemma wgrad_sum (I : Type) (l : seq I) (P : pred I) (f : I -> 'rV[C]_n -> C) z
    (g c : I -> 'I_n -> C) :
  (forall i, P i -> is_wgrad (f i) z (g i) (c i)) ->
  is_wgrad (fun y => \sum_(i <- l | P i) f i y) z
    (fun a => \sum_(i <- l | P i) g i a) (fun a => \sum_(i <- l | P i) c i a).
Proof.
move=> H; elim: l => [|i l IH].
  by apply: wgrad_ext (wgrad_eq _ _ (wgrad_const 0 z)) => y; rewrite big_nil.
case Pi: (P i).
  by apply: wgrad_ext (wgrad_eq _ _ (wgrad_add (H i Pi) IH)) => y; rewrite big_cons Pi.
by apply: wgrad_ext (wgrad_eq _ _ IH) => y; rewrite big_cons Pi.
Qed.

Lemma wgrad_comp1 (F : C -> C) l f z g c : is_deriv F (f z) l -> is_wgrad f z g c ->
  is_wgrad (fun y => F (f y)) z (fun a => l * g a) (fun a => l * c a).
Proof.
move=> HF /wgrad_diff H; apply/wgrad_diff; apply: diff_eq (diff_comp1 HF H) => v.
exact: wlinZ.
Qed.

(** A holomorphic function *)
Lemma wgrad_hol f z (g : 'rV[C]_n) : is_grad f z g <->
  is_wgrad f z (fun a => g 0 a) (fun _ => 0).
Proof.
have E v : wlin (fun a => g 0 a) (fun _ => 0) v = dotv g v.
  by rewrite /wlin [X in _ + X]big1 ?addr0 // => a _; rewrite mul0r.
split=> [H|/wgrad_diff[_ H]].
  by apply/wgrad_diff; split; [exact: big_O_wlin | apply: little_o_ext H => v; rewrite E].
by apply: little_o_ext H => v; rewrite E.
Qed.

Lemma wgrad_prod (I : eqType) (l : seq I) (f : I -> 'rV[C]_n -> C) z (g c : I -> 'I_n -> C) :
  uniq l -> (forall i, i \in l -> is_wgrad (f i) z (g i) (c i)) ->
  is_wgrad (fun y => \prod_(i <- l) f i y) z
    (fun a => \sum_(k <- l) \prod_(i <- l) (if i == k then g k a else f i z))
    (fun a => \sum_(k <- l) \prod_(i <- l) (if i == k then c k a else f i z)).
Proof.
elim: l => [_ _|i l IH /andP[hi ul] H].
  by apply: wgrad_ext (wgrad_eq _ _ (wgrad_const 1 z)) => y; rewrite big_nil.
have Hl := IH ul (fun j hj => H j (mem_behead (s := i :: l) hj)).
have Hi := H i (mem_head _ _).
have E (h : I -> 'I_n -> C) a :
    f i z * (\sum_(k <- l) \prod_(j <- l) (if j == k then h k a else f j z)) +
    (\prod_(j <- l) f j z) * h i a =
    \sum_(k <- i :: l) \prod_(j <- i :: l) (if j == k then h k a else f j z).
  rewrite big_cons big_cons eqxx [RHS]addrC; congr (_ + _).
    rewrite mulr_sumr; apply: eq_big_seq => k hk; rewrite big_cons.
    by case: eqP hk hi => [->|//] ->.
  rewrite mulrC; congr (_ * _); apply: eq_big_seq => j hj.
  by case: eqP hj hi => [->|//] ->.
apply: wgrad_ext (wgrad_eq _ _ (wgrad_mul Hi Hl)); first by move=> y; rewrite big_cons.
  exact: E.
exact: E.
Qed.

Lemma wgrad_unique f z g c g' c' : is_wgrad f z g c -> is_wgrad f z g' c' -> g =1 g' /\ c =1 c'.
Proof.
move=> /wgrad_diff[_ H] /wgrad_diff[_ H'].
pose p a := g a - g' a; pose q a := c a - c' a.
have Hd : little_o (wlin p q).
  have := little_o_add H' (little_o_scale (-1) H); apply: little_o_ext => v.
  have -> : wlin p q v = wlin g c v + -1 * wlin g' c' v.
    by rewrite wlinZ wlinD; apply: wlin_eq => a; rewrite mulN1r.
  ring.
have Hz a (u : C) : `|u| = 1 -> p a * u + q a * u^* = 0.
  move=> u1; apply/eqP; rewrite -normr_eq0; apply/negPn/negP => nz.
  have p0 : 0 < `|p a * u + q a * u^*| by rewrite lt_def nz normr_ge0.
  have [d d0 Hv] := Hd _ (divr_gt0 p0 (ltr0n C 2)).
  pose t : C := d / 2%:R.
  have t0 : 0 < t by rewrite divr_gt0.
  pose v : 'rV[C]_n := (t * u) *: delta_mx 0 a.
  have va b : b != a -> v 0 b = 0 by move=> ba; rewrite !mxE eqxx (negbTE ba) mulr0.
  have vaa : v 0 a = t * u by rewrite !mxE !eqxx mulr1.
  have nt : norm1 v = t.
    rewrite /norm1 (bigD1 a) //= big1 ?addr0; last by move=> b /va ->; rewrite normr0.
    by rewrite vaa normrM u1 mulr1 gtr0_norm.
  have := Hv v; rewrite nt.
  have -> : wlin p q v = t * (p a * u + q a * u^*).
    have S (h w : 'I_n -> C) : (forall b, b != a -> w b = 0) -> \sum_b h b * w b = h a * w a.
      by move=> hw; rewrite (bigD1 a) //= big1 ?addr0 // => b /hw ->; rewrite mulr0.
    rewrite /wlin (S p (fun b => v 0 b)) // (S q (fun b => (v 0 b)^*)) //; last first.
      by move=> b /va ->; rewrite rmorph0.
    have tc : t^* = t by apply/CrealP/ger0_real/ltW.
    by rewrite vaa rmorphM tc mulrDr ![t * (_ * _)]mulrCA.
  have td : t < d by rewrite ltr_pdivr_mulr // ltr_pmulr // ltr1n.
  move=> /(_ td); rewrite normrM (gtr0_norm t0) mulrC ler_pmul2r //.
  by rewrite ler_pdivl_mulr // ger_pmulr // lern1.
suff E a : p a = 0 /\ q a = 0.
  by split=> a; apply/eqP; rewrite -subr_eq0; apply/eqP; case: (E a).
have h1 := Hz a 1 (normr1 _); have h2 := Hz a 'i (normCi _).
rewrite rmorph1 !mulr1 in h1; rewrite conjCi in h2.
have {}h2 : p a - q a = 0.
  apply: (mulIf (neq0Ci C)); rewrite mul0r -h2; ring.
have s2 : p a *+ 2 = 0.
  have -> : p a *+ 2 = (p a + q a) + (p a - q a) by ring.
  by rewrite h1 h2 addr0.
have pa : p a = 0 by apply/eqP; move/eqP: s2; rewrite -mulr_natl mulf_eq0 pnatr_eq0.
by split=> //; move: h1; rewrite pa add0r.
Qed.
End Wirtinger.
