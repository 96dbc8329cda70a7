(** Proofs about repeated Donaldson steps on one sample: the determinant does
    not decrease, the norms do not grow on average, no cycles. *)
From Coq Require Import ZArith Lia.
From mathcomp Require Import all_ssreflect all_algebra zify ssrZ ring.
From Verif Require Import Base Herm Herm2 Herm3 ModelDonaldson SpecDonaldson SpecStep ProofDonaldson2.
Delimit Scope Z_scope with Z.

Set Implicit Arguments.
Unset Strict Implicit.
Unset Printing Implicit Defensive.

Import GRing.Theory Num.Theory Order.POrderTheory.
Local Open Scope ring_scope.

Lemma sub_le_le (C : numClosedFieldType) (a b x y : C) : a - x = b - y -> a <= b -> x <= y.
Proof.
move=> e; rewrite -subr_le0 => le; rewrite -subr_le0; suff -> : x - y = a - b by [].
by rewrite -[a](subrK x) e; ring.
Qed.

Section Mono.
Variables (C : numClosedFieldType) (N : nat).
Notation sample := (sample C N).
Variables (vol : C) (bs : seq (seq sample)).
Hypotheses (eb : equal_batches bs) (v0 : 0 < vol) (sp : spanning (flatten bs)).
Hypothesis wp : forall p, p \in flatten bs -> 0 <= weight p /\ p.1 != 0.
Hypothesis vE : vol = (\sum_(p <- flatten bs) weight p) / (size (flatten bs))%:R.

Lemma size_flat_neq0 : (size (flatten bs))%:R != 0 :> C.
Proof. by apply: contraTneq v0 => s0; rewrite vE s0 invr0 mulr0 ltxx. Qed.

Lemma step_pd h H' : hermitian h -> posdef h -> donaldson_step true h vol bs = Ok H' ->
  hermitian H' /\ posdef H'.
Proof.
move=> hh ph E; have [H2 [E2 a b]] := step_posdef hh ph eb v0 wp sp.
by move: E2; rewrite E => -[->].
Qed.

Lemma step_Tu h H' : hermitian h -> posdef h -> donaldson_step true h vol bs = Ok H' ->
  T_of h vol (flatten bs) \in unitmx.
Proof.
move=> hh ph E; have [hH pH] := step_pd hh ph E.
by case: E pH => <- /posdef_unit; rewrite unitmx_tr unitmx_inv T_ofE.
Qed.

Lemma step_det h H' : hermitian h -> posdef h -> donaldson_step true h vol bs = Ok H' ->
  \det h <= \det H' /\ (\det h = \det H' <-> H' = h).
Proof.
move=> hh ph E; have [hH pH] := step_pd hh ph E; have uH := posdef_unit pH.
have d0 p : p \in flatten bs -> hform h p.1 != 0 by move=> /wp[_ /ph /lt0r_neq0].
have := step_trace hh eb (step_Tu hh ph E) d0 E.
rewrite -vE divfK ?(lt0r_neq0 v0) // => tr.
have [le eq] := det_trace2 hh ph (hermitian_inv uH hH) (posdef_inv hH pH) tr.
have dH := posdef_det pH; rewrite det_inv in le eq.
split; first by move: le; rewrite ler_pdivr_mulr // mul1r.
split=> [e|->//]; have := eq _; rewrite e mulfV ?(lt0r_neq0 dH) // => /(_ erefl) e1.
by rewrite -[h]mulmx1 -(mulVmx uH) mulmxA e1 mul1mx.
Qed.

Lemma step_norms h H' : hermitian h -> posdef h -> donaldson_step true h vol bs = Ok H' ->
  \sum_(p <- flatten bs) weight p * (hform H' p.1 / hform h p.1) = \sum_(p <- flatten bs) weight p.
Proof.
move=> hh ph E; have [N0|N0] := posnP N.
  have e0 p : p \in flatten bs -> false.
    move=> /wp[_ /negP[]]; apply/eqP/rowP => i; by have := ltn_ord i; rewrite [X in (_ < X)%N]N0.
  by rewrite !big1_seq // => p /andP[_ /e0].
have [H2] := step_inverse hh eb (step_Tu hh ph E); rewrite E => -[<-] inv.
have S : \sum_a \sum_b T_of h vol (flatten bs) a b * H' a b = N%:R.
  by rewrite (eq_bigr (fun=> 1)) => [|a _]; rewrite ?inv ?eqxx // sumr_const card_ord.
have S2 : \sum_a \sum_b T_of h vol (flatten bs) a b * H' a b =
   N%:R / vol * ((\sum_(p <- flatten bs) weight p * (hform H' p.1 / hform h p.1)) / (size (flatten bs))%:R).
  rewrite mulr_suml mulr_sumr.
  under eq_bigr => a _ do under eq_bigr => b _ do rewrite mxE mulr_suml mulr_sumr mulr_suml.
  under eq_bigr => a _ do rewrite exchange_big.
  rewrite exchange_big /=; apply: eq_bigr => p _.
  rewrite [hform H' _]/hform mulr_suml mulr_sumr mulr_suml mulr_sumr; apply: eq_bigr => a _.
  rewrite mulr_suml mulr_sumr mulr_suml mulr_sumr; apply: eq_bigr => b _.
  by ring.
move: S2; rewrite S => /esym S2.
have Nn : N%:R / vol != 0 by rewrite mulf_neq0 ?invr_eq0 ?pnatr_eq0 -?lt0n // lt0r_neq0.
have : N%:R / vol * vol = N%:R by rewrite divfK // lt0r_neq0.
rewrite -[X in _ = X]S2 => /(mulfI Nn); rewrite [in LHS]vE => /mulIf e.
by rewrite -e // invr_eq0 size_flat_neq0.
Qed.

(** ** The balancing functional. *)
Section Log.
Variable lg : C -> C.
Hypothesis lg_le : forall x, 0 < x -> lg x <= x - 1.
Hypothesis lg_div : forall x y, 0 < x -> 0 < y -> lg (x / y) = lg x - lg y.

Lemma lg_mono x y : 0 < x -> x <= y -> lg x <= lg y.
Proof.
move=> x0 xy; have y0 := lt_le_trans x0 xy; rewrite -subr_le0 -lg_div //.
by apply: le_trans (lg_le _) _; rewrite ?divr_gt0 // subr_le0 ler_pdivr_mulr // mul1r.
Qed.

Lemma step_lognorm h H' : hermitian h -> posdef h -> donaldson_step true h vol bs = Ok H' ->
  \sum_(p <- flatten bs) weight p * lg (hform H' p.1) <= \sum_(p <- flatten bs) weight p * lg (hform h p.1).
Proof.
move=> hh ph E; have [hH pH] := step_pd hh ph E.
rewrite -subr_le0 -sumrB.
have S : \sum_(p <- flatten bs) weight p * (hform H' p.1 / hform h p.1 - 1) = 0.
  under eq_bigr => p _ do rewrite mulrBr mulr1.
  by rewrite sumrB step_norms // subrr.
rewrite -[X in _ <= X]S big_seq [X in _ <= X]big_seq; apply: ler_sum => p /wp[w0 s0].
by rewrite -mulrBr; apply: ler_wpmul2l => //; rewrite -lg_div ?ph ?pH // lg_le // divr_gt0 ?ph ?pH.
Qed.

Lemma step_energy h H' : hermitian h -> posdef h -> donaldson_step true h vol bs = Ok H' ->
  energy lg (flatten bs) H' <= energy lg (flatten bs) h /\
  (energy lg (flatten bs) H' = energy lg (flatten bs) h <-> H' = h).
Proof.
move=> hh ph E; have [hH pH] := step_pd hh ph E; rewrite /energy.
have W0 : 0 < \sum_(p <- flatten bs) weight p.
  have z : 0 < (size (flatten bs))%:R :> C by rewrite lt0r size_flat_neq0 ler0n.
  by move: v0; rewrite vE pmulr_lgt0 // invr_gt0.
have le1 : N%:R / (\sum_(p <- flatten bs) weight p) * (\sum_(p <- flatten bs) weight p * lg (hform H' p.1)) <=
   N%:R / (\sum_(p <- flatten bs) weight p) * (\sum_(p <- flatten bs) weight p * lg (hform h p.1)).
  by apply: ler_wpmul2l; [apply: divr_ge0; rewrite ?ler0n // ltW | exact: step_lognorm].
have dh := posdef_det ph; have dH := posdef_det pH; have [dle deq] := step_det hh ph E.
have le2 := lg_mono dh dle.
split; first by apply: ler_sub.
split=> [e|->//]; apply/deq; apply: le_anti; rewrite dle /=.
have l0 : lg (\det H') <= lg (\det h).
  exact: sub_le_le e le1.
have : 0 <= lg (\det h / \det H') by rewrite lg_div // subr_ge0.
move=> /le_trans/(_ (lg_le _)) => /(_ (divr_gt0 dh dH)).
by rewrite subr_ge0 ler_pdivl_mulr // mul1r.
Qed.
End Log.

(** ** Repeated steps. *)
Variable hs : nat -> 'M[C]_N.
Hypotheses (hh0 : hermitian (hs 0%N)) (ph0 : posdef (hs 0%N)).
Hypothesis hsS : forall k, donaldson_step true (hs k) vol bs = Ok (hs k.+1).

Lemma steps_pd k : hermitian (hs k) /\ posdef (hs k).
Proof. by elim: k => [//|k [a b]]; apply: step_pd (hsS k). Qed.

Lemma steps_det j k : (j <= k)%N -> \det (hs j) <= \det (hs k).
Proof.
elim: k => [|k IH]; first by rewrite leqn0 => /eqP ->.
rewrite leq_eqVlt => /orP[/eqP -> //|]; rewrite ltnS => /IH le.
by have [a b] := steps_pd k; apply: le_trans le (step_det a b (hsS k)).1.
Qed.

Lemma steps_cycle j k l : (j < k)%N -> hs j = hs k -> (j <= l)%N -> hs l = hs j.
Proof.
move=> jk e; have fx : hs j.+1 = hs j.
  have [a b] := steps_pd j; apply/(step_det a b (hsS j)).2/le_anti.
  by rewrite (step_det a b (hsS j)).1 /= e; exact: steps_det.
elim: l => [|l IH]; first by rewrite leqn0 => /eqP ->.
rewrite leq_eqVlt => /orP[/eqP -> //|]; rewrite ltnS => /IH le.
by have := hsS l; rewrite le (hsS j) fx => -[<-].
Qed.
End Mono.
