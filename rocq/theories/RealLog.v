(** Elementary estimates for ln, atan and acos on the reals of the standard
    library, used for the derivative of the complex logarithm. *)
From Coq Require Import Reals Lra Psatz Machin.
Local Open Scope R_scope.

Lemma ln_upper s : -1 < s -> ln (1 + s) <= s.
Proof.
intros h. destruct (Req_dec s 0) as [e|e].
- subst; rewrite Rplus_0_r, ln_1; lra.
- rewrite <- (ln_exp s) at 2. apply Rlt_le, ln_increasing; [lra|]. now apply exp_ineq1.
Qed.

Lemma ln_est s : Rabs s <= 1/2 -> Rabs (ln (1 + s) - s) <= 2 * (s * s).
Proof.
intros h. assert (h' : -(1/2) <= s <= 1/2) by (apply Rabs_def2b in h || (revert h; unfold Rabs; destruct Rcase_abs; lra); lra).
assert (u := ln_upper s ltac:(lra)).
assert (l := ln_upper (- (s / (1 + s)))).
assert (e : 1 + - (s / (1 + s)) = / (1 + s)) by (field; lra).
rewrite e, ln_Rinv in l by lra.
assert (b : - (s / (1 + s)) > -1).
{ assert (i : 0 < / (1 + s)) by (apply Rinv_0_lt_compat; lra). lra. }
specialize (l b).
assert (d : s / (1 + s) = s - s * s * / (1 + s)) by (field; lra).
assert (i : / (1 + s) <= 2).
{ rewrite <- (Rinv_inv 2). apply Rinv_le_contravar; lra. }
assert (q : 0 <= s * s) by nra.
assert (i0 : 0 < / (1 + s)) by (apply Rinv_0_lt_compat; lra).
unfold Rabs; destruct Rcase_abs; nra.
Qed.

Lemma atan_diff a b : a < b -> exists c, atan b - atan a = / (1 + c * c) * (b - a) /\ a < c < b.
Proof.
intros ab. destruct (MVT_cor2 atan (fun c => / (1 + c ^ 2)) a b ab) as [c [e hc]].
- intros c _. apply derivable_pt_lim_atan.
- exists c; split; [|exact hc]. rewrite e; f_equal; f_equal; ring.
Qed.

Lemma inv_bounds c : 0 < / (1 + c * c) <= 1 /\ 1 - / (1 + c * c) <= c * c.
Proof.
assert (h : 0 <= c * c) by nra.
assert (e : / (1 + c * c) * (1 + c * c) = 1) by (apply Rinv_l; nra).
assert (p : 0 < / (1 + c * c)) by (apply Rinv_0_lt_compat; nra).
split; nra.
Qed.

Lemma atan_lip a b : Rabs (atan b - atan a) <= Rabs (b - a).
Proof.
destruct (Rtotal_order a b) as [h|[h|h]].
- destruct (atan_diff a b h) as [c [e hc]]; rewrite e.
  destruct (inv_bounds c) as [[p q] _].
  rewrite Rabs_mult, (Rabs_pos_eq (/ _)) by lra.
  assert (0 <= Rabs (b - a)) by apply Rabs_pos; nra.
- subst; right; f_equal; ring.
- destruct (atan_diff b a h) as [c [e hc]].
  rewrite <- (Rabs_Ropp (atan b - _)), <- (Rabs_Ropp (b - a)).
  replace (- (atan b - atan a)) with (atan a - atan b) by ring; rewrite e.
  replace (- (b - a)) with (a - b) by ring.
  destruct (inv_bounds c) as [[p q] _].
  rewrite Rabs_mult, (Rabs_pos_eq (/ _)) by lra.
  assert (0 <= Rabs (a - b)) by apply Rabs_pos; nra.
Qed.

Lemma atan_est_pos s : 0 < s -> Rabs (atan s - s) <= s * s * s.
Proof.
intros h. destruct (atan_diff 0 s h) as [c [e hc]].
rewrite atan_0, !Rminus_0_r in e; rewrite e.
destruct (inv_bounds c) as [[p q] r].
replace (/ (1 + c * c) * s - s) with (- ((1 - / (1 + c * c)) * s)) by ring.
rewrite Rabs_Ropp, Rabs_pos_eq by nra.
assert (c * c <= s * s) by nra. nra.
Qed.

Lemma atan_est s : Rabs (atan s - s) <= Rabs s * (s * s).
Proof.
destruct (Rtotal_order s 0) as [h|[h|h]].
- assert (g := atan_est_pos (- s) ltac:(lra)). rewrite atan_opp in g.
  replace (- atan s - - s) with (- (atan s - s)) in g by ring. rewrite Rabs_Ropp in g.
  rewrite (Rabs_left s) by lra. lra.
- subst; rewrite atan_0, Rminus_0_r, Rabs_R0; lra.
- assert (g := atan_est_pos s h). rewrite (Rabs_pos_eq s) by lra. lra.
Qed.

(** arctangent of the argument of a product close to the first factor *)
Lemma atan_mul x y p q : 0 < x -> -1/2 <= p -> 0 < x * (1 + p) - y * q ->
  Rabs ((y * (1 + p) + x * q) / (x * (1 + p) - y * q) - y / x) < 1 ->
  atan ((y * (1 + p) + x * q) / (x * (1 + p) - y * q)) = atan (y / x) + atan (q / (1 + p)).
Proof.
intros hx hp hd small.
set (u := _ / (x * (1 + p) - y * q)) in *.
assert (P1 : 1 < PI / 2) by (assert (g := PI2_1); unfold PI2 in g; lra).
assert (lip := atan_lip (y / x) u).
assert (bd : -PI/2 < atan u - atan (y / x) < PI/2).
{ apply Rabs_def2 with (a := PI / 2) in small || idtac.
  assert (g : Rabs (atan u - atan (y / x)) < PI / 2) by lra. apply Rabs_def2 in g. lra. }
assert (e : atan_sub u (y / x) = q / (1 + p)).
{ unfold atan_sub, u. field. repeat split; try lra.
  replace (_ + _) with ((1 + p) * (x * x + y * y)) by ring. nra. }
assert (ne : 1 + u * (y / x) <> 0).
{ unfold u. replace (1 + _) with ((1 + p) * (x * x + y * y) / (x * (x * (1 + p) - y * q))) by (field; lra).
  apply Rgt_not_eq, Rdiv_lt_0_compat; nra. }
rewrite (atan_sub_correct u (y / x)); [now rewrite e|exact ne|exact bd|].
rewrite e. assert (g := atan_bound (q / (1 + p))). lra.
Qed.
