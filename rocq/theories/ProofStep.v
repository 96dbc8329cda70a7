(** Repeated Donaldson steps: statements for good samples, examples, the
    logarithm of the complex numbers, points of a hypersurface. *)
From Coq Require Import ZArith Lia.
From mathcomp Require Import all_ssreflect all_algebra zify ssrZ ring.
From Verif Require Import Base Herm Herm2 Herm3 Herm4 ModelDonaldson SpecDonaldson SpecStep ProofDonaldson2
  PolyGrad ProofDonaldson3 ProofDonaldson4 ProofDonaldson5.
Delimit Scope Z_scope with Z.

Set Implicit Arguments.
Unset Strict Implicit.
Unset Printing Implicit Defensive.

Import GRing.Theory Num.Theory Order.POrderTheory.
Local Open Scope ring_scope.

Section Good.
Variables (C : numClosedFieldType) (N : nat) (vol : C) (bs : seq (seq (sample C N))).
Hypothesis good : good_sample vol bs.

Lemma good_det h H' : hermitian h -> posdef h -> donaldson_step true h vol bs = Ok H' ->
  \det h <= \det H' /\ (\det h = \det H' <-> H' = h).
Proof. case: good => eb v0 sp wp vE; exact: step_det. Qed.

Lemma good_norms h H' : hermitian h -> posdef h -> donaldson_step true h vol bs = Ok H' ->
  \sum_(p <- flatten bs) weight p * (hform H' p.1 / hform h p.1) = \sum_(p <- flatten bs) weight p.
Proof. case: good => eb v0 sp wp vE; exact: step_norms. Qed.

Lemma good_energy lg h H' : log_like lg -> hermitian h -> posdef h -> donaldson_step true h vol bs = Ok H' ->
  energy lg (flatten bs) H' <= energy lg (flatten bs) h /\
  (energy lg (flatten bs) H' = energy lg (flatten bs) h <-> H' = h).
Proof. case: good => eb v0 sp wp vE [l1 l2]; exact: step_energy. Qed.

Lemma good_iterates h :
  exists hs : nat -> 'M[C]_N, hs 0%N = h /\ iterates vol bs hs.
Proof. by exists (fun k => iter k (fun x => (invmx (T_operator x vol bs))^T) h). Qed.

Lemma good_cycle hs : hermitian (hs 0%N) -> posdef (hs 0%N) -> iterates vol bs hs ->
  (forall k, hermitian (hs k) /\ posdef (hs k)) /\
  (forall j k, (j <= k)%N -> \det (hs j) <= \det (hs k)) /\
  (forall j k, (j < k)%N -> hs j = hs k -> forall l, (j <= l)%N -> hs l = hs j).
Proof.
case: good => eb v0 sp wp vE hh ph E; split; first exact: (steps_pd eb v0 sp wp hh ph E).
split; first by move=> j k; exact: (steps_det eb v0 sp wp vE hh ph E).
by move=> j k jk e l; exact: (steps_cycle eb v0 sp wp vE hh ph E jk e).
Qed.

Lemma good_between a b h1 h2 H1 H2 : 0 < a -> 0 < b -> hermitian h1 -> posdef h1 -> hermitian h2 -> posdef h2 ->
  donaldson_step true h1 vol bs = Ok H1 -> donaldson_step true h2 vol bs = Ok H2 ->
  loewner (a *: h1) h2 -> loewner h2 (b *: h1) -> loewner (a *: H1) H2 /\ loewner H2 (b *: H1).
Proof. case: good => eb v0 sp wp vE; exact: step_between. Qed.

Lemma good_order h1 h2 H1 H2 : hermitian h1 -> posdef h1 -> hermitian h2 -> posdef h2 -> loewner h1 h2 ->
  donaldson_step true h1 vol bs = Ok H1 -> donaldson_step true h2 vol bs = Ok H2 -> loewner H1 H2.
Proof. case: good => eb v0 sp wp vE; exact: step_order. Qed.

Lemma good_bounded a b g (hs : nat -> 'M[C]_N) : balanced vol bs g -> hermitian (hs 0%N) -> posdef (hs 0%N) -> iterates vol bs hs ->
  0 < a -> 0 < b -> loewner (a *: g) (hs 0%N) -> loewner (hs 0%N) (b *: g) ->
  forall k, loewner (a *: g) (hs k) /\ loewner (hs k) (b *: g).
Proof. case: good => eb v0 sp wp vE; exact: iterates_between. Qed.

Lemma good_min lg g h : log_like lg -> balanced vol bs g -> hermitian h -> posdef h ->
  energy lg (flatten bs) g <= energy lg (flatten bs) h.
Proof. case: good => eb v0 sp wp vE l; exact: balanced_min. Qed.

Lemma good_unique g h : indecomposable (flatten bs) -> balanced vol bs g -> balanced vol bs h ->
  exists2 a, 0 < a & h = a *: g.
Proof. case: good => eb v0 sp wp vE; exact: balanced_unique. Qed.
End Good.

(** ** Examples *)
Section Ex.
Variable C : numClosedFieldType.
Let n2 : (2%:R : C) != 0. Proof. exact: nat_neq0. Qed.
Let n3 : (3%:R : C) != 0. Proof. exact: nat_neq0. Qed.
Let n8 : (8%:R : C) != 0. Proof. exact: nat_neq0. Qed.

Definition mx2 (a b c d : C) : 'M[C]_2 := \matrix_(i, j) (if i == 0 then if j == 0 then a else b else if j == 0 then c else d).
Definition pt2 (a b : C) : 'rV[C]_2 := \row_j (if j == 0 then a else b).

(** Three points of the projective line, in one batch *)
Definition three : seq (seq (sample C 2)) :=
  [:: [:: (pt2 1 0, Some 1); (pt2 0 1, Some 1); (pt2 1 1, Some 1)]].

Lemma sum2 (V : zmodType) (F : 'I_2 -> V) : \sum_i F i = F 0 + F 1.
Proof. by rewrite !big_ord_recl big_ord0 addr0; congr (_ + F _); apply/val_inj. Qed.

Lemma hform_mx2 a b c d (v : 'rV[C]_2) : hform (mx2 a b c d) v =
  v 0 0 * a * (v 0 0)^* + v 0 0 * b * (v 0 1)^* + (v 0 1 * c * (v 0 0)^* + v 0 1 * d * (v 0 1)^*).
Proof. by rewrite /hform !sum2 !mxE /=. Qed.

Lemma mx2_eq (A B : 'M[C]_2) : A 0 0 = B 0 0 -> A 0 1 = B 0 1 -> A 1 0 = B 1 0 -> A 1 1 = B 1 1 -> A = B.
Proof.
by move=> e1 e2 e3 e4; apply/matrixP => i j; case: (ord2E i) => ->; case: (ord2E j) => ->.
Qed.

Lemma one_mx2 : 1%:M = mx2 1 0 0 1.
Proof. by apply: mx2_eq; rewrite !mxE. Qed.

Lemma mx2M a b c d a' b' c' d' : mx2 a b c d *m mx2 a' b' c' d' =
  mx2 (a * a' + b * c') (a * b' + b * d') (c * a' + d * c') (c * b' + d * d').
Proof. by apply: mx2_eq; rewrite !mxE sum2 !mxE. Qed.

Lemma inv_mx2 (A B : 'M[C]_2) : A *m B = 1%:M -> invmx A = B.
Proof. by move=> E; have /mulmx1_unit[uA _] := E; rewrite -[LHS]mulmx1 -E mulKmx. Qed.

Lemma tr_mx2 a b c d : (mx2 a b c d)^T = mx2 a c b d.
Proof. by apply: mx2_eq; rewrite !mxE. Qed.

Lemma det_mx2 a b c d : \det (mx2 a b c d) = a * d - b * c.
Proof.
rewrite (expand_det_row _ 0) sum2 /cofactor !det_mx11 !mxE /= !add0n expr0 expr1.
by rewrite mul1r mulN1r mulrN.
Qed.

Lemma herm_mx2 a b d : a^* = a -> b^* = b -> d^* = d -> hermitian (mx2 a b b d).
Proof. by move=> e1 e2 e3 i j; case: (ord2E i) => ->; case: (ord2E j) => ->; rewrite !mxE. Qed.

Lemma three_good : good_sample 1 three.
Proof.
split.
- by exists 3%N => b; rewrite inE => /eqP ->.
- exact: ltr01.
- move=> v v0; have [k vk] : exists k, v 0 k != 0 by apply/rV0Pn.
  case: (ord2E k) vk => -> vk; [exists (pt2 1 0, Some 1)|exists (pt2 0 1, Some 1)].
  + by rewrite /= !inE eqxx.
  + by rewrite /weight /= ltr01; split=> //; rewrite sum2 !mxE /= mulr1 mulr0 addr0.
  + by rewrite /= !inE eqxx orbT.
  + by rewrite /weight /= ltr01; split=> //; rewrite sum2 !mxE /= mulr1 mulr0 add0r.
- have nz a b : (a != 0) || (b != 0) -> pt2 a b != 0.
    apply: contraTneq => /rowP e; have := e 0; have := e 1; rewrite !mxE /= => -> ->.
    by rewrite eqxx.
  have o0 := oner_neq0 C.
  move=> p; rewrite /= !inE => /or3P[] /eqP ->; rewrite /weight /= ler01; split=> //.
  + by apply: nz; rewrite o0.
  + by apply: nz; rewrite o0 orbT.
  + by apply: nz; rewrite o0.
- by rewrite /= !big_cons big_nil /weight /=; field.
Qed.

Lemma T_three h : T_of h 1 (flatten three) =
  2%:R / 3%:R *: mx2 ((hform h (pt2 1 0))^-1 + (hform h (pt2 1 1))^-1) (hform h (pt2 1 1))^-1 (hform h (pt2 1 1))^-1
    ((hform h (pt2 0 1))^-1 + (hform h (pt2 1 1))^-1).
Proof.
apply: mx2_eq; rewrite !mxE /= !big_cons big_nil /weight /= !mxE /= ?conjC1 ?conjC0.
all: by move: (hform h (pt2 1 0))^-1 (hform h (pt2 0 1))^-1 (hform h (pt2 1 1))^-1 => x y z; field.
Qed.

Lemma step_three h x y z H' : hermitian h -> hform h (pt2 1 0) = x -> hform h (pt2 0 1) = y -> hform h (pt2 1 1) = z ->
  (2%:R / 3%:R *: mx2 (x^-1 + z^-1) z^-1 z^-1 (y^-1 + z^-1)) *m H'^T = 1%:M ->
  donaldson_step true h 1 three = Ok H'.
Proof.
move=> hh <- <- <- E; rewrite /donaldson_step /= T_ofE ?T_three /=; try by case: three_good.
by rewrite (inv_mx2 E) trmxK.
Qed.

Lemma scale_mx2 k a b c d : k *: mx2 a b c d = mx2 (k * a) (k * b) (k * c) (k * d).
Proof. by apply: mx2_eq; rewrite !mxE. Qed.

Lemma three_from_one : donaldson_step true 1%:M 1 three =
  Ok (mx2 (9%:R / 8%:R) (- 3%:R / 8%:R) (- 3%:R / 8%:R) (9%:R / 8%:R)).
Proof.
rewrite one_mx2; apply: (@step_three _ 1 1 2%:R).
- by apply: herm_mx2; rewrite ?conjC1 ?conjC0.
- by rewrite hform_mx2 !mxE /= conjC1 conjC0; ring.
- by rewrite hform_mx2 !mxE /= conjC1 conjC0; ring.
- by rewrite hform_mx2 !mxE /= conjC1; ring.
rewrite tr_mx2 scale_mx2 mx2M one_mx2; congr mx2; field; by rewrite ?n2 ?n3 ?n8.
Qed.

Definition h3 : 'M[C]_2 := mx2 2%:R (- 1) (- 1) 2%:R.

Lemma h3_posdef : posdef h3.
Proof.
move=> v v0; rewrite hform_mx2.
have -> : v 0 0 * 2%:R * (v 0 0)^* + v 0 0 * (- 1) * (v 0 1)^* + (v 0 1 * (- 1) * (v 0 0)^* + v 0 1 * 2%:R * (v 0 1)^*) =
  v 0 0 * (v 0 0)^* + v 0 1 * (v 0 1)^* + (v 0 0 - v 0 1) * (v 0 0 - v 0 1)^*.
  by rewrite cjB; ring.
rewrite -!normCK; have [k vk] : exists k, v 0 k != 0 by apply/rV0Pn.
have p k' : 0 <= `|v 0 k'| ^+ 2 by exact: exprn_ge0.
apply: ltr_spaddl; last exact: exprn_ge0.
by case: (ord2E k) vk => -> vk; [apply: ltr_spaddl|apply: ltr_spaddr] => //; rewrite exprn_gt0 // normr_gt0.
Qed.

Lemma h3_balanced : balanced 1 three h3.
Proof.
have hh : hermitian h3 by apply: herm_mx2; rewrite ?cjE.
split=> //; first exact: h3_posdef.
apply: (@step_three _ 2%:R 2%:R 2%:R) => //; rewrite ?hform_mx2 ?mxE /= ?conjC1 ?conjC0; try by ring.
by rewrite tr_mx2 scale_mx2 mx2M one_mx2; congr mx2; field; rewrite ?n2 ?n3.
Qed.

Lemma three_det : \det (mx2 (9%:R / 8%:R) (- 3%:R / 8%:R) (- 3%:R / 8%:R) (9%:R / 8%:R)) = 9%:R / 8%:R :> C.
Proof. by rewrite det_mx2; field. Qed.

Lemma h3_bounds : loewner (3%:R^-1 *: h3) 1%:M /\ loewner 1%:M (1 *: h3).
Proof.
rewrite /loewner one_mx2 !scale_mx2.
have sub a b c d a' b' c' d' : mx2 a b c d - mx2 a' b' c' d' = mx2 (a - a') (b - b') (c - c') (d - d').
  by apply: mx2_eq; rewrite !mxE.
have E1 : mx2 1 0 0 1 - mx2 (3%:R^-1 * 2%:R) (3%:R^-1 * -1) (3%:R^-1 * -1) (3%:R^-1 * 2%:R) = 3%:R^-1 *: mx2 1 1 1 1.
  by rewrite sub scale_mx2; congr mx2; field.
have E2 : mx2 (1 * 2%:R) (1 * -1) (1 * -1) (1 * 2%:R) - mx2 1 0 0 1 = mx2 1 (- 1) (- 1) 1.
  by rewrite sub; congr mx2; ring.
rewrite E1 E2; split=> v; rewrite ?hform_scale hform_mx2.
  have -> : v 0 0 * 1 * (v 0 0)^* + v 0 0 * 1 * (v 0 1)^* + (v 0 1 * 1 * (v 0 0)^* + v 0 1 * 1 * (v 0 1)^*) =
    (v 0 0 + v 0 1) * (v 0 0 + v 0 1)^* by rewrite cjD; ring.
  by rewrite -normCK mulr_ge0 ?exprn_ge0 // invr_ge0 ler0n.
have -> : v 0 0 * 1 * (v 0 0)^* + v 0 0 * -1 * (v 0 1)^* + (v 0 1 * -1 * (v 0 0)^* + v 0 1 * 1 * (v 0 1)^*) =
  (v 0 0 - v 0 1) * (v 0 0 - v 0 1)^* by rewrite cjB; ring.
by rewrite -normCK exprn_ge0.
Qed.

Lemma three_indecomposable : indecomposable (flatten three).
Proof.
move=> P PP P0 P1.
have r0 : pt2 1 0 *m P = row 0 P by apply/rowP => j; rewrite mxE sum2 !mxE /= mul1r mul0r addr0.
have r1 : pt2 0 1 *m P = row 1 P by apply/rowP => j; rewrite mxE sum2 !mxE /= mul1r mul0r add0r.
have r2 : pt2 1 1 *m P = row 0 P + row 1 P by apply/rowP => j; rewrite mxE sum2 !mxE /= !mul1r.
have w1 : 0 < weight (pt2 1 0, Some 1 : option C) by rewrite /weight /= ltr01.
have [|n00] := boolP ((pt2 1 0 *m P != 0) && (pt2 1 0 *m P != pt2 1 0)).
  by move=> /andP[? ?]; exists (pt2 1 0, Some 1); rewrite /= ?inE ?eqxx.
have [|n11] := boolP ((pt2 0 1 *m P != 0) && (pt2 0 1 *m P != pt2 0 1)).
  by move=> /andP[? ?]; exists (pt2 0 1, Some 1); rewrite /= ?inE ?eqxx ?orbT.
exists (pt2 1 1, Some 1); first by rewrite /= !inE eqxx !orbT.
split=> //=; rewrite r2; move: n00 n11; rewrite r0 r1 !negb_and !negbK.
have e10 : pt2 1 0 <> 0 by move=> /rowP/(_ 0); rewrite !mxE /= => /eqP; rewrite oner_eq0.
have e01 : pt2 0 1 <> 0 by move=> /rowP/(_ 1); rewrite !mxE /= => /eqP; rewrite oner_eq0.
have a1 : pt2 1 1 = pt2 1 0 + pt2 0 1 by apply/rowP => j; rewrite !mxE; case: ifP; rewrite ?addr0 ?add0r.
case/orP=> /eqP E0 /orP[] /eqP E1; rewrite E0 E1 ?addr0 ?add0r.
- by case/eqP: P0; apply/row_matrixP => i; case: (ord2E i) => ->; rewrite ?E0 ?E1 row0.
- split; apply/eqP => //; rewrite a1 => /eqP; rewrite eq_sym -subr_eq0 addrK => /eqP; exact: e10.
- split; apply/eqP => //; rewrite a1 => /eqP; rewrite eq_sym addrC -subr_eq0 addrK => /eqP; exact: e01.
- case/eqP: P1; apply/row_matrixP => i; rewrite row1; apply/rowP => j.
  by case: (ord2E i) => ->; rewrite ?E0 ?E1 !mxE /=; case: (ord2E j) => ->.
Qed.
End Ex.
