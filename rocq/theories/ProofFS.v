(** Lemmas about the Fubini-Study metric (ModelProjective.v). *)
From Coq Require Import ZArith Lia.
From mathcomp Require Import all_ssreflect all_algebra.
From mathcomp Require Import zify ring.
From Verif Require Import Base ModelUtil ModelProjective ProofUtil ProofProjective Bridge Deriv Herm.
Delimit Scope Z_scope with Z.

Set Implicit Arguments.
Unset Strict Implicit.
Unset Printing Implicit Defensive.

Import GRing.Theory Num.Theory Order.POrderTheory.
Local Open Scope ring_scope.

Section FS.
Variable C : numClosedFieldType.

Lemma norm2p1_ip n (z : 'rV[C]_n) : norm2p1 z (conj_row z) = 1 + ip z z.
Proof. by congr (1 + _); apply: eq_bigr => i _; rewrite mxE. Qed.

Lemma norm2p1_gt0 n (z : 'rV[C]_n) : 0 < norm2p1 z (conj_row z).
Proof. by rewrite norm2p1_ip (ltr_spaddl ltr01) // ip_ge0. Qed.

Lemma norm2p1_conj n (z : 'rV[C]_n) : (norm2p1 z (conj_row z))^* = norm2p1 z (conj_row z).
Proof. by rewrite norm2p1_ip rmorphD rmorph1 ip_conj. Qed.

Lemma fs_formula n (z : 'rV[C]_n) :
  let N := 1 + \sum_i `|z 0 i| ^+ 2 in
  fs_metric_real z = N^-1 *: 1%:M - N ^- 2 *: ((conj_row z)^T *m z).
Proof.
move=> N; have EN : norm2p1 z (conj_row z) = N.
  by congr (1 + _); apply: eq_bigr => i _; rewrite mxE normCK.
have N0 : N != 0 by rewrite -EN gt_eqF // norm2p1_gt0.
apply/matrixP => i j; rewrite !mxE EN big_ord1 !mxE.
by case: (i == j) => /=; rewrite ?mulr1n ?mulr0n; field.
Qed.

Lemma fs_herm n (z : 'rV[C]_n) : hermitian (fs_metric_real z).
Proof.
move=> i j; rewrite !mxE rmorphM rmorphB !rmorphM fmorphV rmorphX /= norm2p1_conj conjCK.
by rewrite rmorph_nat eq_sym; congr ((_ - _) / _); exact: mulrC.
Qed.

Lemma fs_hform n (z v : 'rV[C]_n) : let N := norm2p1 z (conj_row z) in
  hform (fs_metric_real z) v = (N * ip v v - `|ip v z| ^+ 2) / N ^+ 2.
Proof.
move=> N.
have N0 : N != 0 by rewrite gt_eqF // norm2p1_gt0.
rewrite normCK ip_conj.
have -> : hform (fs_metric_real z) v =
   \sum_i \sum_j ((i == j)%:R * (v 0 i * (v 0 j)^* * N^-1)
                  - (v 0 i * (z 0 i)^*) * (z 0 j * (v 0 j)^*) * N ^- 2).
  by apply: eq_bigr => i _; apply: eq_bigr => j _; rewrite !mxE -/N; field.
transitivity (\sum_i (v 0 i * (v 0 i)^* * N^-1
    - v 0 i * (z 0 i)^* * (ip z v * N ^- 2))).
  apply: eq_bigr => i _; rewrite big_split /= sumrN; congr (_ - _).
    rewrite (bigD1 i) //= eqxx mul1r big1 ?addr0 // => j ji.
    by rewrite eq_sym (negbTE ji) mul0r.
  rewrite -mulr_suml -mulr_sumr -/(ip z v); ring.
rewrite big_split /= sumrN -!mulr_suml -/(ip v v) -/(ip v z).
by field.
Qed.

Lemma fs_posdef n (z : 'rV[C]_n) : posdef (fs_metric_real z).
Proof.
move=> v v0; rewrite fs_hform.
have N0 := norm2p1_gt0 z.
rewrite divr_gt0 ?exprn_gt0 // subr_gt0 (le_lt_trans (cauchy_schwarz v z)) //.
by rewrite mulrC ltr_pmul2r ?ip_gt0 // norm2p1_ip ltr_addr ltr01.
Qed.

(** Hessian of the potential *)
Lemma is_grad_norm2p1_l n (z w : 'rV[C]_n) : is_grad (fun y => norm2p1 y w) z w.
Proof.
have H : is_grad (fun y : 'rV[C]_n => 1 + \sum_i y 0 i * w 0 i) z
    (0 + \sum_i (w 0 i *: delta_mx 0 i)).
  apply: is_grad_add; first exact: is_grad_const.
  apply: is_grad_sum => i _.
  apply: is_grad_ext (is_grad_scale (w 0 i) (is_grad_coord i z)) => y.
  exact: mulrC.
apply: is_grad_eq H; by rewrite add0r -row_sum_delta.
Qed.

Lemma norm2p1C n (z w : 'rV[C]_n) : norm2p1 z w = norm2p1 w z.
Proof. by congr (1 + _); apply: eq_bigr => i _; rewrite mulrC. Qed.

Lemma is_grad_norm2p1_r n (z w : 'rV[C]_n) : is_grad (norm2p1 z) w z.
Proof.
apply: is_grad_ext (is_grad_norm2p1_l w z) => y; exact: norm2p1C.
Qed.

Lemma fs_grad n (log : C -> C) (z w : 'rV[C]_n) :
  is_deriv log (norm2p1 z w) (norm2p1 z w)^-1 ->
  is_grad (fun y => fs_potential log y w) z (\row_i (w 0 i / norm2p1 z w)).
Proof.
move=> H; apply: is_grad_eq (is_grad_comp1 (f := fun y => norm2p1 y w) H (is_grad_norm2p1_l z w)).
by apply/rowP => i; rewrite !mxE mulrC.
Qed.

Lemma fs_hess n (z w : 'rV[C]_n) i : norm2p1 z w != 0 ->
  is_grad (fun y : 'rV[C]_n => y 0 i / norm2p1 z y) w (row i (fs_metric z w)).
Proof.
move=> nz; apply: is_grad_eq (is_grad_div nz (is_grad_coord i w) (is_grad_norm2p1_r z w)).
by apply/rowP => j; rewrite !mxE eqxx /= eq_sym; case: (i == j) => /=; field.
Qed.

End FS.

Section Patch.
Variable C : numClosedFieldType.
Variable n : nat.
Variables i j : 'I_n.+1.

Lemma is_grad_homr (z : 'rV[C]_n) m :
  is_grad (fun y => homr i y 0 m) z (\row_a (lift i a == m)%:R).
Proof.
case: (unliftP i m) => [a ->|->].
  apply: is_grad_ext (is_grad_eq _ (is_grad_coord a z)).
    by move=> y; rewrite homr_lift.
  by apply/rowP => b; rewrite !mxE eqxx /= (inj_eq lift_inj).
apply: is_grad_ext (is_grad_eq _ (is_grad_const 1 z)); first by move=> y; rewrite homr_patch.
by apply/rowP => b; rewrite !mxE eq_sym eq_liftF.
Qed.

(** Jacobian of the chart change, indexed by all homogeneous indices. *)
Definition TT (z : 'rV[C]_n) (a : 'I_n) (m : 'I_n.+1) : C :=
  let h := homr i z in
  ((lift i a == m)%:R * h 0 j - h 0 m * (lift i a == j)%:R) / h 0 j ^+ 2.

Definition chart_jac (z : 'rV[C]_n) : 'M[C]_n := \matrix_(a, k) TT z a (lift j k).

Lemma chart_is_jac (z : 'rV[C]_n) : homr i z 0 j != 0 ->
  is_jac (chart i j) z (chart_jac z).
Proof.
move=> nz k.
have H := is_grad_div nz (is_grad_homr z (lift j k)) (is_grad_homr z j).
apply: is_grad_ext (is_grad_eq _ H); first by move=> y; rewrite mxE.
by apply/rowP => a; rewrite !mxE /TT; field.
Qed.

Lemma TT_j z a : TT z a j = 0.
Proof. by rewrite /TT [X in X - _]mulrC subrr mul0r. Qed.

Lemma sum_lift (f : 'I_n.+1 -> C) : f j = 0 -> \sum_k f (lift j k) = \sum_m f m.
Proof. by move=> f0; rewrite [RHS](bigD1_ord j) //= f0 add0r. Qed.

Lemma sum_pick (f : 'I_n.+1 -> C) p : \sum_m (p == m)%:R * f m = f p.
Proof.
rewrite (bigD1 p) //= eqxx mul1r big1 ?addr0 // => m mp.
by rewrite eq_sym (negbTE mp) mul0r.
Qed.

Lemma fs_congr m (T : 'M[C]_(m, n)) (w : 'rV[C]_n) a b :
  let M := norm2p1 w (conj_row w) in
  (T *m fs_metric_real w *m adjm T) a b =
  (\sum_k T a k * (T b k)^*) / M
  - (\sum_k T a k * (w 0 k)^*) * (\sum_k T b k * (w 0 k)^*)^* / M ^+ 2.
Proof.
move=> M; have M0 : M != 0 by rewrite gt_eqF // norm2p1_gt0.
rewrite mxE.
transitivity (\sum_l \sum_k ((k == l)%:R * (T a k * (T b l)^* / M)
   - (T a k * (w 0 k)^*) * (T b l * (w 0 l)^*)^* / M ^+ 2)).
  apply: eq_bigr => l _; rewrite !mxE mulr_suml; apply: eq_bigr => k _.
  by rewrite !mxE !cjE /= -/M; field.
transitivity (\sum_l (T a l * (T b l)^* / M
   - (\sum_k T a k * (w 0 k)^*) * (T b l * (w 0 l)^*)^* / M ^+ 2)).
  apply: eq_bigr => l _; rewrite big_split /= sumrN; congr (_ - _).
    rewrite (bigD1 l) //= eqxx mul1r big1 ?addr0 // => k kl.
    by rewrite (negbTE kl) mul0r.
  by rewrite -!mulr_suml.
by rewrite big_split /= sumrN -!mulr_suml -mulr_sumr rmorph_sum.
Qed.

Lemma norm2p1_homr (z : 'rV[C]_n) :
  norm2p1 z (conj_row z) = \sum_m homr i z 0 m * (homr i z 0 m)^*.
Proof.
rewrite (bigD1_ord i) //= homr_patch conjC1 mulr1; congr (1 + _).
by apply: eq_bigr => a _; rewrite homr_lift mxE.
Qed.

Lemma norm2p1_chart (z : 'rV[C]_n) : homr i z 0 j != 0 ->
  norm2p1 (chart i j z) (conj_row (chart i j z)) =
  norm2p1 z (conj_row z) / (homr i z 0 j * (homr i z 0 j)^*).
Proof.
move=> nz; have nzc : (homr i z 0 j)^* != 0 by rewrite conjC_eq0.
rewrite (norm2p1_homr z) (bigD1_ord j) //= mulrDl divff ?mulf_neq0 //; congr (1 + _).
rewrite mulr_suml; apply: eq_bigr => k _; rewrite !mxE !cjE.
by rewrite mulf_div.
Qed.

Lemma fs_patch (z : 'rV[C]_n) : homr i z 0 j != 0 ->
  fs_metric_real z =
  chart_jac z *m fs_metric_real (chart i j z) *m adjm (chart_jac z).
Proof.
move=> nz; apply/matrixP => a b; rewrite fs_congr norm2p1_chart //.
set h := homr i z in nz *; set N := norm2p1 z (conj_row z).
have N0 : N != 0 by rewrite gt_eqF // norm2p1_gt0.
have nzc : (h 0 j)^* != 0 by rewrite conjC_eq0.
have ea := homr_lift i z a; have eb := homr_lift i z b; rewrite -/h in ea eb.
(* first sum *)
have S1 : \sum_k chart_jac z a k * (chart_jac z b k)^* =
  ((a == b)%:R * (h 0 j * (h 0 j)^*)
   - h 0 j * (lift i b == j)%:R * (z 0 a)^* - (h 0 j)^* * (lift i a == j)%:R * z 0 b
   + (lift i a == j)%:R * (lift i b == j)%:R * N) / (h 0 j ^+ 2 * (h 0 j)^* ^+ 2).
  transitivity (\sum_k (fun m => TT z a m * (TT z b m)^*) (lift j k)).
    by apply: eq_bigr => k _; rewrite !mxE.
  rewrite (sum_lift (f := fun m => TT z a m * (TT z b m)^*)); last by rewrite TT_j mul0r.
  transitivity (\sum_m
    ((lift i a == m)%:R * ((lift i b == m)%:R * (h 0 j * (h 0 j)^*))
    - (lift i a == m)%:R * (h 0 j * (lift i b == j)%:R * (h 0 m)^*)
    - (lift i b == m)%:R * ((h 0 j)^* * (lift i a == j)%:R * h 0 m)
    + (lift i a == j)%:R * (lift i b == j)%:R * (h 0 m * (h 0 m)^*))
      / (h 0 j ^+ 2 * (h 0 j)^* ^+ 2)).
    apply: eq_bigr => m _; rewrite /TT -/h !cjE.
    by field; rewrite nz nzc.
  rewrite -mulr_suml; congr (_ / _).
  rewrite !big_split /= !sumrN !sum_pick -mulr_sumr -norm2p1_homr -/N ea eb.
  by rewrite (inj_eq lift_inj) eq_sym.
have S2 c : \sum_k chart_jac z c k * (chart i j z 0 k)^* =
   ((z 0 c)^* * h 0 j - N * (lift i c == j)%:R) / (h 0 j ^+ 2 * (h 0 j)^*).
  transitivity (\sum_k (fun m => TT z c m * (h 0 m / h 0 j)^*) (lift j k)).
    by apply: eq_bigr => k _; rewrite !mxE.
  rewrite (sum_lift (f := fun m => TT z c m * (h 0 m / h 0 j)^*)); last by rewrite TT_j mul0r.
  transitivity (\sum_m
    ((lift i c == m)%:R * ((h 0 m)^* * h 0 j) - h 0 m * (h 0 m)^* * (lift i c == j)%:R)
      / (h 0 j ^+ 2 * (h 0 j)^*)).
    apply: eq_bigr => m _; rewrite /TT -/h !cjE.
    by field; rewrite nz nzc.
  rewrite -mulr_suml; congr (_ / _).
  by rewrite big_split /= sumrN sum_pick -mulr_suml -norm2p1_homr -/N homr_lift.
have Nc : N^* = N by exact: norm2p1_conj.
rewrite S1 !S2 !mxE -/N; clearbody N; rewrite !cjE Nc.
have [{S1}->|/negbTE ab] := eqVneq a b; rewrite ?eqxx ?ab.
  by field; rewrite nz nzc N0.
by field; rewrite nz nzc N0.
Qed.

End Patch.

Section PotHom.
Variable C : numClosedFieldType.
Lemma fs_pot_hom n (log : C -> C) (h : 'rV[C]_n.+1) (p : 'I_n.+1) (z : 'rV[C]_n) :
  (forall x y, 0 < x -> 0 < y -> log (x * y) = log x + log y) ->
  h 0 p != 0 -> hom_to_affine (row_seq h) (Z.of_nat p) = Ok (row_seq z) ->
  fs_potential_hom log h (conj_row h) =
  fs_potential log z (conj_row z) + log (`|h 0 p| ^+ 2).
Proof.
move=> lg nz; rewrite hom_to_affine_seq => -[/(congr1 (seq_row n))]; rewrite !row_seqK => Ez.
rewrite /fs_potential /fs_potential_hom -lg ?norm2p1_gt0 //; last first.
  by rewrite exprn_gt0 // normr_gt0.
congr log; rewrite -Ez normCK /norm2p1 mulrDl mul1r (bigD1_ord p) //= mxE; congr (_ + _).
have nzc : (h 0 p)^* != 0 by rewrite conjC_eq0.
rewrite mulr_suml; apply: eq_bigr => k _; rewrite !mxE !cjE.
by field; rewrite nz nzc.
Qed.
End PotHom.
