(** Bounded sequences of complex matrices have limit points (over the real
    numbers of the standard library). *)
From Coq Require Import Reals Lra Lia Classical.
From mathcomp Require Import all_ssreflect all_algebra.
From mathcomp Require Import complex.
From Verif Require Import RealField RealLog Deriv ComplexR Herm Limits.

Set Implicit Arguments.
Unset Strict Implicit.
Unset Printing Implicit Defensive.

Import GRing.Theory Num.Theory Order.POrderTheory.
Local Open Scope ring_scope.
Delimit Scope R_scope with RR.

(** A bounded real sequence has a limit point along each infinite set. *)
Lemma cluster_R (S : pred nat) (u : nat -> R) (B : R) : infinite S -> (forall n, S n -> (-B <= u n <= B)%RR) ->
  exists l : R, forall e : R, (0 < e)%RR -> forall K : nat, exists2 n, (K <= n)%N & S n /\ (Rabs (u n - l) < e)%RR.
Proof.
move=> inf bd; pose E x := forall K : nat, exists2 n, (K <= n)%N & S n /\ (x <= u n)%RR.
have [l [ub lub]] : {l | is_lub E l}.
  apply: completeness.
    by exists B => x /(_ 0%N)[n _ [Sn xn]]; have := bd n Sn; lra.
  by exists (- B)%RR => K; have [n Kn Sn] := inf K; exists n => //; split=> //; have := bd n Sn; lra.
exists l => e e0 K.
have [L HL] : exists L : nat, forall n, (L <= n)%N -> S n -> (u n < l + e)%RR.
  apply: NNPP => H; have : E (l + e)%RR; last by move=> /ub; lra.
  move=> L; apply: NNPP => G; apply: H; exists L => n Ln Sn.
  by apply: Rnot_le_lt => le; apply: G; exists n.
have [x Ex lx] : exists2 x, E x & (l - e < x)%RR.
  apply: NNPP => H; have : (l <= l - e)%RR; last lra.
  apply: lub => x Ex; apply: Rnot_lt_le => lt; apply: H; by exists x.
have [n] := Ex (maxn K L); rewrite geq_max => /andP[Kn Ln] [Sn xn].
exists n => //; split=> //; have := HL n Ln Sn => lt.
by apply: Rabs_def1; lra.
Qed.

Section Pick.
Variables (S : pred nat) (u : nat -> CR) (l : CR).
Hypothesis cl : forall e, 0 < e -> forall K : nat, exists2 n, (K <= n)%N & S n /\ `|u n - l| < e.

Fixpoint picked (n : nat) : nat :=
  if n is m.+1 then (picked m + (S m && ((`|u m - l| : CR) < (picked m).+1%:R^-1)%R))%N else 0%N.
Definition pick_set : pred nat := fun n => S n && ((`|u n - l| : CR) < (picked n).+1%:R^-1).

Lemma picked_le m n : (m <= n)%N -> (picked m <= picked n)%N.
Proof.
elim: n => [|n IH]; first by rewrite leqn0 => /eqP ->.
rewrite leq_eqVlt => /orP[/eqP -> //|]; rewrite ltnS => /IH le /=.
exact: leq_trans le (leq_addr _ _).
Qed.

Lemma pick_next K : exists2 n, (K <= n)%N & pick_set n.
Proof.
have H : forall d, (exists2 n, (K <= n < K + d)%N & pick_set n) \/ picked (K + d) = picked K.
  elim=> [|d [[n /andP[Kn nd] P]|E]]; first by right; rewrite addn0.
    by left; exists n => //; rewrite Kn addnS ltnS ltnW.
  have [P|P] := boolP (pick_set (K + d)%N).
    by left; exists (K + d)%N => //; rewrite leq_addr addnS ltnS /=.
  by right; rewrite addnS /= -/(pick_set (K + d)%N) (negPf P) addn0.
have e0 : 0 < (picked K).+1%:R^-1 :> CR by rewrite invr_gt0 ltr0n.
have [n Kn [Sn lt]] := cl e0 K; have [[m /andP[Km _] P]|E] := H (n - K)%N.
  by exists m.
rewrite subnKC // in E; exists n => //; by rewrite /pick_set Sn E.
Qed.

Lemma picked_grows c : exists n, (c <= picked n)%N.
Proof.
elim: c => [|c [n cn]]; first by exists 0%N.
have [m nm P] := pick_next n; exists m.+1; rewrite /= -/(pick_set m) P addn1 ltnS.
exact: leq_trans cn (picked_le nm).
Qed.

Lemma CR_arch (e : CR) : 0 < e -> exists c : nat, c.+1%:R^-1 < e.
Proof.
move=> /pos_rc[x x0 ->]; have [c [lt c0]] := archimed_cor1 x x0; exists c.-1; rewrite prednK; last by apply/ltP.
rewrite -rc_nat -rcV; first exact/rc_lt.
by apply: not_0_INR; lia.
Qed.

Lemma pick_cvg : cvg pick_set u l.
Proof.
move=> e /CR_arch[c ce]; have [K cK] := picked_grows c; exists K => n Kn /andP[_ lt].
apply: lt_trans ce; apply: lt_le_trans lt _.
by rewrite lef_pinv ?posrE ?ltr0n // ler_nat ltnS; exact: leq_trans cK (picked_le Kn).
Qed.
End Pick.

Lemma rc_norm (x : R) : `|rc x| = rc (Rabs x).
Proof.
have [le|lt] := Rle_dec 0 x.
  by rewrite Rabs_pos_eq // ger0_norm //; apply/rc_le.
have lt' : (x < 0)%RR by lra.
by rewrite Rabs_left // rcN ltr0_norm //; apply/rc_lt.
Qed.

Lemma sub_R (S : pred nat) (u : nat -> R) (B : R) : infinite S -> (forall n, S n -> (-B <= u n <= B)%RR) ->
  exists T : pred nat, [/\ infinite T, forall n, T n -> S n & exists l : R, cvg T (fun n => rc (u n)) (rc l)].
Proof.
move=> inf bd; have [l cl] := cluster_R inf bd.
have cl' : forall e : CR, 0 < e -> forall K : nat, exists2 n, (K <= n)%N & S n /\ `|rc (u n) - rc l| < e.
  move=> e /pos_rc[x x0 ->] K; have [n Kn [Sn lt]] := cl x x0 K; exists n => //; split=> //.
  by rewrite -rcN -rcD rc_norm; apply/rc_lt.
exists (pick_set S (fun n => rc (u n)) (rc l)); split.
- exact: pick_next cl'.
- by move=> n /andP[].
- by exists l; exact: pick_cvg.
Qed.

Definition ic : CR := Complex R0 R1.

Lemma re_im (z : CR) : z = rc (re z) + ic * rc (im z).
Proof. by case: z => x y; apply: CR_eq; rewrite !ReImE /rc /ic; cbn [re im]; apply: esym; [rewrite Rmult_0_l Rmult_0_r|rewrite Rmult_0_l Rmult_1_l]; rewrite /Rminus ?Ropp_0 ?Rplus_0_l ?Rplus_0_r. Qed.

Lemma re_bound (z : CR) (b : R) : `|z| <= rc b -> (- b <= re z <= b)%RR /\ (- b <= im z <= b)%RR.
Proof.
rewrite norm_modulus => /rc_le le; have := modulus_sqr z; have := modulus_ge0 z.
by move: (modulus z) le => m le m0 e; split; nra.
Qed.

Lemma sub_C (S : pred nat) (u : nat -> CR) (b : CR) : infinite S -> (forall n, S n -> `|u n| <= b) ->
  exists T : pred nat, [/\ infinite T, forall n, T n -> S n & exists l, cvg T u l].
Proof.
move=> inf bd.
have [B [n0 _ Sn0]] : exists B : R, exists2 n, (0 <= n)%N & S n by exists R0; exact: inf.
have [B' E] : exists B', b = rc B'.
  have b0 : 0 <= b by apply: le_trans (normr_ge0 (u n0)) (bd n0 Sn0).
  move: b0; rewrite le0r => /orP[/eqP ->|/pos_rc[x _ ->]]; first by exists R0.
  by exists x.
have [T [iT TS [x cx]]] : exists T : pred nat, [/\ infinite T, forall n, T n -> S n &
    exists l : R, cvg T (fun n => rc (re (u n))) (rc l)].
  by apply: (@sub_R S _ B') => // n Sn; have := bd n Sn; rewrite E => /re_bound[].
have [T' [iT' TT' [y cy]]] : exists T' : pred nat, [/\ infinite T', forall n, T' n -> T n &
    exists l : R, cvg T' (fun n => rc (im (u n))) (rc l)].
  by apply: (@sub_R T _ B') => // n /TS Sn; have := bd n Sn; rewrite E => /re_bound[].
exists T'; split=> // [n /TT' /TS //|]; exists (rc x + ic * rc y).
apply: cvg_ext (cvg_add (cvg_sub TT' cx) (cvg_scale ic cy)) => n _.
by rewrite -re_im.
Qed.

Lemma sub_fin (I : finType) (S : pred nat) (u : I -> nat -> CR) (b : CR) : infinite S ->
  (forall i n, S n -> `|u i n| <= b) ->
  exists T : pred nat, [/\ infinite T, forall n, T n -> S n & exists l, forall i, cvg T (u i) (l i)].
Proof.
move=> inf bd.
have H : forall r : seq I, exists T : pred nat, [/\ infinite T, forall n, T n -> S n &
    forall i, i \in r -> exists l, cvg T (u i) l].
  elim=> [|i r [T [iT TS H]]]; first by exists S; split.
  have [T' [iT' TT' [l cl]]] := sub_C iT (fun n Tn => bd i n (TS n Tn)).
  exists T'; split=> // [n /TT' /TS //|j]; rewrite inE => /orP[/eqP ->|/H[m cm]]; first by exists l.
  by exists m; exact: cvg_sub cm.
have [T [iT TS G]] := H (enum I); exists T; split=> //.
have /fin_all_exists[l cl] : forall i, exists l, cvg T (u i) l by move=> i; apply: G; rewrite mem_enum.
by exists l.
Qed.

Lemma sub_mx m n (S : pred nat) (A : nat -> 'M[CR]_(m, n)) (b : CR) : infinite S ->
  (forall i j k, S k -> `|A k i j| <= b) ->
  exists T : pred nat, [/\ infinite T, forall k, T k -> S k & exists L, cvgmx T A L].
Proof.
move=> inf bd; have [T [iT TS [l cl]]] :=
  @sub_fin [finType of 'I_m * 'I_n] S (fun ij k => A k ij.1 ij.2) b inf (fun ij k => bd ij.1 ij.2 k).
exists T; split=> //; exists (\matrix_(i, j) l (i, j)) => i j; rewrite mxE; exact: (cl (i, j)).
Qed.
