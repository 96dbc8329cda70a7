(** A stable sample has a balanced metric, and repeated Donaldson steps converge
    to one from each start. *)
From Coq Require Import ZArith Lia Reals Lra Epsilon.
From mathcomp Require Import all_ssreflect all_algebra.
From mathcomp Require Import complex.
From Verif Require Import Base Herm Herm2 Herm3 Herm4 ModelDonaldson SpecDonaldson SpecStep ProofDonaldson2
  PolyGrad ProofDonaldson3 ProofDonaldson4 ProofDonaldson5 Limits ProofStep3.
From Verif Require Import RealField ComplexR Compact ProofStep4 ProofStep5.
Delimit Scope Z_scope with Z.
Delimit Scope R_scope with RR.

Set Implicit Arguments.
Unset Strict Implicit.
Unset Printing Implicit Defensive.

Import GRing.Theory Num.Theory Order.POrderTheory.
Local Open Scope ring_scope.

(** ** The real logarithm as a function of complex numbers *)
Definition lgr (z : CR) : CR := rc (ln (re z)).

Lemma ln_le1 (x : R) : (0 < x)%RR -> (ln x <= x - 1)%RR.
Proof. by move=> x0; have := exp_ineq1_le (ln x); rewrite exp_ln //; lra. Qed.

Lemma lgr_like : log_like lgr.
Proof.
split=> [x /pos_rc[a a0 ->]|x y /pos_rc[a a0 ->] /pos_rc[b b0 ->]]; rewrite /lgr.
  rewrite -rc1 -rcN -rcD; apply/rc_le; exact: ln_le1.
rewrite -rcV; last by apply: Rgt_not_eq.
rewrite -rcM -rcN -rcD; congr rc; cbn [re rc]; rewrite ln_mult //; last exact: Rinv_0_lt_compat.
by rewrite ln_Rinv.
Qed.

Lemma le_re (x y : CR) : x <= y -> (re x <= re y)%RR.
Proof. by case: x y => a b [c d]; rewrite lecE /= => /andP[_ /RleP]. Qed.

Lemma lgr_le (x b : CR) : 0 < x -> lgr x <= b -> x <= rc (exp (re b)).
Proof.
move=> /pos_rc[a a0 ->] /le_re; rewrite /lgr; cbn [re rc] => le; apply/rc_le.
rewrite -[a in (a <= _)%RR]exp_ln //; case: (Rle_lt_or_eq_dec _ _ le) => [lt|->]; last exact: Rle_refl.
by apply/Rlt_le/exp_increasing.
Qed.

Lemma lgr_ge (x b : CR) : 0 < x -> b <= lgr x -> rc (exp (re b)) <= x.
Proof.
move=> /pos_rc[a a0 ->] /le_re; rewrite /lgr; cbn [re rc] => le; apply/rc_le.
rewrite -[a in (_ <= a)%RR]exp_ln //; case: (Rle_lt_or_eq_dec _ _ le) => [lt|->]; last exact: Rle_refl.
by apply/Rlt_le/exp_increasing.
Qed.

Lemma uniform_below (C : numClosedFieldType) (I : eqType) (s : seq I) (T : pred nat) (f : I -> nat -> C) :
  (forall p, p \in s -> exists2 m, 0 < m & exists K : nat, forall k, (K <= k)%N -> T k -> m <= f p k) ->
  exists2 m, 0 < m & exists K : nat, forall p, p \in s -> forall k, (K <= k)%N -> T k -> m <= f p k.
Proof.
elim: s => [|q s IH] H; first by exists 1; [exact: ltr01|exists 0%N].
have [m m0 [K HK]] := H q (mem_head _ _).
have [|r r0 [L HL]] := IH; first by move=> p ps; apply: H; rewrite inE ps orbT.
have i0 : 0 < m^-1 + r^-1 by rewrite addr_gt0 ?invr_gt0.
exists (m^-1 + r^-1)^-1; first by rewrite invr_gt0.
exists (maxn K L) => p; rewrite inE => ps k; rewrite geq_max => /andP[Kk Lk] Tk.
case/orP: ps => [/eqP ->|ps].
  apply: le_trans (HK k Kk Tk); rewrite -[X in _ <= X]invrK lef_pinv ?posrE ?invr_gt0 //.
  by rewrite ler_addl invr_ge0 ltW.
apply: le_trans (HL p ps k Lk Tk); rewrite -[X in _ <= X]invrK lef_pinv ?posrE ?invr_gt0 //.
by rewrite ler_addr invr_ge0 ltW.
Qed.

Lemma unitary_bound (C : numClosedFieldType) n (J : 'M[C]_n) : J *m adjm J = 1%:M -> forall i j, `|J i j| <= 1.
Proof.
move=> /matrixP E i j; have := E i i; rewrite !mxE eqxx => e.
have : `|J i j| ^+ 2 <= 1 by rewrite -[X in _ <= X]e (bigD1 j) //= mxE normCK ler_addl sumr_ge0 // => k _; rewrite mxE mul_conjC_ge0.
by rewrite -[X in _ <= X](expr1n _ 2) ler_pexpn2r ?nnegrE ?normr_ge0 ?ler01.
Qed.

Lemma fchoice (A B : Type) (P : A -> B -> Prop) : (forall a, exists b, P a b) -> exists f, forall a, P a (f a).
Proof.
move=> H; exists (fun a => proj1_sig (constructive_indefinite_description _ (H a))) => a.
exact: (proj2_sig (constructive_indefinite_description _ (H a))).
Qed.

Section Conv.
Variables (n : nat) (vol : CR) (bs : seq (seq (sample CR n.+1))).
Hypotheses (good : good_sample vol bs) (st : stable (flatten bs)).
Variable hs : nat -> 'M[CR]_n.+1.
Hypotheses (hh : hermitian (hs 0%N)) (ph : posdef (hs 0%N)) (it : iterates vol bs hs).

Let pd k : hermitian (hs k) /\ posdef (hs k).
Proof. case: good => eb v0 sp wp vE; exact: (steps_pd eb v0 sp wp hh ph it). Qed.

Lemma steps_energy k : energy lgr (flatten bs) (hs k) <= energy lgr (flatten bs) (hs 0%N).
Proof.
case: good => eb v0 sp wp vE; have [l1 l2] := lgr_like.
elim: k => [//|k IH]; apply: le_trans IH; have [a b] := pd k.
by have [] := step_energy eb v0 sp wp vE l1 l2 a b (it k).
Qed.

Lemma steps_lognorm k : \sum_(p <- flatten bs) weight p * lgr (hform (hs k) p.1) <=
  \sum_(p <- flatten bs) weight p * lgr (hform (hs 0%N) p.1).
Proof.
case: good => eb v0 sp wp vE; have [l1 l2] := lgr_like.
elim: k => [//|k IH]; apply: le_trans IH; have [a b] := pd k.
exact: (step_lognorm eb v0 sp wp vE l1 l2 a b (it k)).
Qed.

Lemma stable_between : exists S a b, [/\ infinite S, 0 < a, 0 < b &
  forall k, S k -> loewner (a *: 1%:M) (hs k) /\ loewner (hs k) (b *: 1%:M)].
Proof.
have [l1 l2] := lgr_like.
case: (good) => eb v0 sp wp vE; have W0 := W_gt0 v0 vE.
have /fchoice[Jd HJ] : forall k, exists x : 'M[CR]_n.+1 * 'rV[CR]_n.+1,
    [/\ x.1 *m adjm x.1 = 1%:M, hs k = x.1 *m diag_mx x.2 *m adjm x.1, forall i, 0 < x.2 0 i &
      forall i j : 'I_n.+1, (i <= j)%N -> x.2 0 i <= x.2 0 j].
  by move=> k; have [a b] := pd k; have [J [d H]] := sorted_diag a b; exists (J, d).
pose Jk k := (Jd k).1; pose dk k := (Jd k).2.
have inf : infinite xpredT by move=> K; exists K.
have bd : forall i j k, xpredT k -> `|Jk k i j| <= 1.
  by move=> i j k _; apply: unitary_bound; case: (HJ k).
have [T [iT _ [J cJ]]] := sub_mx inf bd.
have JJ : J *m adjm J = 1%:M.
  apply: (cvgmx_unique iT (cvgmx_mul cJ (cvgmx_adj cJ))) => i j.
  by apply: cvg_ext (cvg_const T ((1%:M : 'M[CR]_n.+1) i j)) => k _; case: (HJ k) => <-.
have [uJ _] := mulmx1_unit JJ.
have [e e0 ee] := flag_eps good st uJ.
have [m m0 [K mp]] : exists2 m, 0 < m & exists K : nat, forall p, p \in flatten bs -> forall k, (K <= k)%N -> T k ->
    m <= `|(p.1 *m Jk k) 0 (top J p)| ^+ 2.
  apply: (uniform_below (f := fun p k => `|(p.1 *m Jk k) 0 (top J p)| ^+ 2)) => p pin.
  have [z0 _] := topP good uJ pin.
  have cp := cvgmx_mul (cvgmx_const T p.1) cJ 0 (top J p).
  have [L HL] := cvg_away cp z0.
  exists ((`|(p.1 *m J) 0 (top J p)| / 2%:R) ^+ 2).
    by rewrite exprn_gt0 // half_gt0 // normr_gt0.
  exists L => k Lk Tk; have lt := HL k Lk Tk; apply: ltW; rewrite ltr_pexpn2r ?nnegrE ?normr_ge0 //.
  by apply/ltW/half_gt0; rewrite normr_gt0.
pose E0 := energy lgr (flatten bs) (hs 0%N).
pose B := (E0 - n.+1%:R * lgr m) / e.
pose A1 := lgr (\det (hs 0%N)) / n.+1%:R.
pose W : CR := \sum_(p <- flatten bs) weight p.
pose D := (\sum_(p <- flatten bs) weight p * lgr (hform (hs 0%N) p.1) -
           \sum_(p <- flatten bs) weight p * lgr (hform 1%:M p.1)) / W.
have one k v : hform 1%:M v = \sum_i `|(v *m Jk k) 0 i| ^+ 2.
  by have [Ju _ _ _] := HJ k; rewrite -[in LHS]Ju -/(Jk k) -[X in X *m adjm _]mulmx1 hform_congr hform1.
have n0 : 0 < n.+1%:R :> CR by rewrite ltr0n.
have key k : (K <= k)%N -> T k -> A1 - B <= lgr (dk k 0 ord0) /\ lgr (dk k 0 ord_max) <= D + B.
  move=> Kk Tk; have [Ju hE d0 ds] := HJ k; rewrite -/(Jk k) -/(dk k) in Ju hE d0 ds.
  have mpk p : p \in flatten bs -> m <= `|(p.1 *m Jk k) 0 (top J p)| ^+ 2 by move=> pin; exact: mp.
  have := flag_energy good lgr_like ee Ju hE d0 ds m0 mpk => /le_trans/(_ (steps_energy k)).
  rewrite -ler_subr_addr -/E0 mulrC -ler_pdivl_mulr // -/B => cond.
  have [hk pk] := pd k.
  have low : A1 <= lgr (dk k 0 ord_max).
    rewrite /A1 ler_pdivr_mulr //.
    have le := steps_det eb v0 sp wp vE hh ph it (leq0n k).
    apply: le_trans (lg_mono l1 l2 (posdef_det ph) le) _.
    have -> : \det (hs k) = \prod_i dk k 0 i.
      have u1 : \det (Jk k) * \det (adjm (Jk k)) = 1 by rewrite -det_mulmx Ju det1.
      by rewrite hE !det_mulmx det_diag mulrAC u1 mul1r.
    rewrite (lg_prod lgr_like) //.
    apply: le_trans (_ : \sum_(i < n.+1) lgr (dk k 0 ord_max) <= _); last by rewrite sumr_const card_ord mulr_natr.
    by apply: ler_sum => i _; apply: (lg_mono l1 l2) => //; apply: ds; exact: leq_ord.
  have up : lgr (dk k 0 ord0) <= D.
    rewrite /D ler_pdivl_mulr // ler_subr_addr; apply: le_trans (steps_lognorm k).
    rewrite mulr_sumr -big_split /= big_seq [X in _ <= X]big_seq; apply: ler_sum => p pin.
    have [w0 p0] := wp p pin; rewrite [_ * weight p]mulrC -mulrDr; apply: ler_wpmul2l => //.
    have f1 : 0 < hform 1%:M p.1.
      by rewrite hform1; have := ip_gt0 p0; rewrite /ip; under eq_bigr do rewrite -normCK.
    rewrite -(lgM lgr_like) //; apply: (lg_mono l1 l2); first exact: mulr_gt0.
    rewrite (one k) hE hform_Jd mulr_sumr; apply: ler_sum => i _.
    apply: ler_wpmul2r; first exact: exprn_ge0.
    by apply: ds.
  split.
    by rewrite ler_subl_addr; apply: le_trans low _; rewrite addrC -ler_subl_addr.
  by rewrite -ler_subl_addr; apply: le_trans up; rewrite ler_subl_addr addrC -ler_subl_addr.
exists (fun k => T k && (K <= k)%N), (rc (exp (re (A1 - B)))), (rc (exp (re (D + B)))); split.
- by move=> L; have [k] := iT (maxn K L); rewrite geq_max => /andP[Kk Lk] Tk; exists k => //; rewrite Tk Kk.
- by rewrite -rc0; apply/rc_lt; exact: exp_pos.
- by rewrite -rc0; apply/rc_lt; exact: exp_pos.
- move=> k /andP[Tk Kk]; have [lo hi] := key k Kk Tk.
  have [Ju hE d0 ds] := HJ k; rewrite -/(Jk k) -/(dk k) in Ju hE d0 ds.
  have lo' := lgr_ge (d0 _) lo; have hi' := lgr_le (d0 _) hi.
  split; apply/loewnerE => v; rewrite hform_scale (one k) hE hform_Jd mulr_sumr; apply: ler_sum => i _;
    apply: ler_wpmul2r; rewrite ?exprn_ge0 //.
    by apply: le_trans lo' _; apply: ds.
  by apply: le_trans hi'; apply: ds; exact: leq_ord.
Qed.

Lemma stable_converges : exists2 L, balanced vol bs L & cvgmx xpredT hs L.
Proof.
have [S [a [b [iS a0 b0 btw]]]] := stable_between.
have h1 : hermitian (1%:M : 'M[CR]_n.+1) by move=> i j; rewrite !mxE eq_sym rmorph_nat.
have p1 : posdef (1%:M : 'M[CR]_n.+1).
  by move=> v v0; have := ip_gt0 v0; rewrite /ip hform1; under eq_bigr do rewrite -normCK.
exact: (between_converges good hh ph it iS h1 p1 a0 b0 btw).
Qed.
End Conv.
