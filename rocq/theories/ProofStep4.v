(** Repeated Donaldson steps over the complex numbers: the matrices converge
    when they stay between two multiples of a metric, in particular when the
    sample has a balanced metric. *)
From Coq Require Import ZArith Lia.
From mathcomp Require Import all_ssreflect all_algebra zify ssrZ ring.
From Verif Require Import Base Herm Herm2 Herm3 Herm4 ModelDonaldson SpecDonaldson SpecStep ProofDonaldson2
  PolyGrad ProofDonaldson3 ProofDonaldson4 ProofDonaldson5 Limits ProofStep3.
From Verif Require Import RealField ComplexR Compact.
Delimit Scope Z_scope with Z.

Set Implicit Arguments.
Unset Strict Implicit.
Unset Printing Implicit Defensive.

Import GRing.Theory Num.Theory Order.POrderTheory.
Local Open Scope ring_scope.

Section Loewner.
Variables (C : numClosedFieldType) (n : nat).
Implicit Types (g h : 'M[C]_n).

Lemma posdef_ge0 h v : posdef h -> 0 <= hform h v.
Proof.
move=> ph; have [->|/ph/ltW//] := eqVneq v 0.
by rewrite hformE mul0mx mul0mx mxE.
Qed.

Lemma between_bounded a b g h : hermitian g -> posdef g -> hermitian h -> 0 < a -> 0 < b ->
  loewner (a *: g) h -> loewner h (b *: g) ->
  forall i j, `|h i j| <= (1 + b) * \tr g + \sum_i \sum_j `|g i j|.
Proof.
move=> hg pg hh a0 b0 /loewnerE la /loewnerE lb i j.
have l1 : loewner ((1 - (1 + b)) *: g) h.
  apply/loewnerE => v; apply: le_trans (la v); rewrite !hform_scale.
  apply: ler_wpmul2r; first exact: posdef_ge0.
  by rewrite opprD addNKr; apply: ltW; apply: lt_trans a0; rewrite oppr_lt0.
have l2 : loewner h ((1 + (1 + b)) *: g).
  apply/loewnerE => v; apply: le_trans (lb v) _; rewrite !hform_scale.
  apply: ler_wpmul2r; first exact: posdef_ge0.
  by rewrite addrA ler_addr addr_ge0 ?ler01.
have b1 : 0 <= 1 + b by rewrite addr_ge0 ?ler01 // ltW.
have := between_near hg pg hh b1 l1 l2 i j => le.
rewrite -[h i j](subrK (g i j)); apply: le_trans (ler_norm_add _ _) (ler_add le _).
rewrite (bigD1 i) //= (bigD1 j) //= -addrA ler_addl addr_ge0 ?sumr_ge0 // => k _.
by rewrite sumr_ge0.
Qed.
End Loewner.

Section Conv.
Variables (N : nat) (vol : CR) (bs : seq (seq (sample CR N))).
Hypothesis good : good_sample vol bs.
Variable hs : nat -> 'M[CR]_N.
Hypotheses (hh : hermitian (hs 0%N)) (ph : posdef (hs 0%N)) (it : iterates vol bs hs).

Lemma between_converges S a b g : infinite S -> hermitian g -> posdef g -> 0 < a -> 0 < b ->
  (forall k, S k -> loewner (a *: g) (hs k) /\ loewner (hs k) (b *: g)) ->
  exists2 L, balanced vol bs L & cvgmx xpredT hs L.
Proof.
case: (good) => eb v0 sp wp vE inf hg pg a0 b0 btw.
have pd := steps_pd eb v0 sp wp hh ph it.
have bd : forall i j k, S k -> `|hs k i j| <= (1 + b) * \tr g + \sum_i \sum_j `|g i j|.
  move=> i j k Sk; have [la lb] := btw k Sk; have [hk _] := pd k.
  exact: between_bounded la lb i j.
have [T [iT TS [L cL]]] := sub_mx inf bd.
have pL : posdef L.
  move=> v v0'; have : hform (a *: g) v <= hform L v.
    apply: (cvg_le iT) (cvg_const T (hform (a *: g) v)) (cvg_hform v cL) => k /TS Sk.
    by have [/loewnerE la _] := btw k Sk.
  by apply: lt_le_trans; rewrite hform_scale mulr_gt0 // pg.
exists L; first exact: (cluster_balanced good hh ph it iT cL pL).
exact: (cluster_converges good hh ph it iT cL pL).
Qed.

Lemma balanced_converges g : balanced vol bs g -> exists2 L, balanced vol bs L & cvgmx xpredT hs L.
Proof.
move=> bg; case: (good) => eb v0 sp wp vE; have [hg pg Eg] := bg.
have [b b0 lb] := dominated hg pg hh; have [a a0 la] := dominated hh ph hg.
have la' : loewner (a^-1 *: g) (hs 0%N).
  apply/loewnerE => v; have /loewnerE/(_ v) := la; rewrite !hform_scale => le.
  by rewrite mulrC ler_pdivr_mulr // mulrC.
have ai : 0 < a^-1 by rewrite invr_gt0.
have inf : infinite xpredT by move=> K; exists K.
apply: (between_converges inf hg pg ai b0) => k _.
exact: (iterates_between eb v0 sp wp bg hh ph it ai b0 la' lb).
Qed.
End Conv.
