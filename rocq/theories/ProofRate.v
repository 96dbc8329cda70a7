(** Squares of Frobenius norms, and the gap of the linearised Donaldson step. *)
From Coq Require Import ZArith Lia.
From mathcomp Require Import all_ssreflect all_algebra zify ssrZ ring.
From Verif Require Import Base Herm Herm2 Herm3 Herm4 ModelDonaldson SpecDonaldson SpecStep ProofDonaldson2
  ProofDonaldson4 ProofDonaldson5 ProofStep3.
Delimit Scope Z_scope with Z.

Set Implicit Arguments.
Unset Strict Implicit.
Unset Printing Implicit Defensive.

Import GRing.Theory Num.Theory Order.POrderTheory.
Local Open Scope ring_scope.

Section Norm.
Variable C : numClosedFieldType.

Definition n2 m n (A : 'M[C]_(m, n)) : C := \sum_i \sum_j `|A i j| ^+ 2.

Lemma n2_ge0 m n (A : 'M[C]_(m, n)) : 0 <= n2 A.
Proof. by apply: sumr_ge0 => i _; apply: sumr_ge0 => j _; apply: exprn_ge0. Qed.

Lemma n2E m n (A : 'M[C]_(m, n)) : n2 A = \tr (A *m adjm A).
Proof.
by rewrite /mxtrace; apply: eq_bigr => i _; rewrite mxE; apply: eq_bigr => j _; rewrite adjmE normCK.
Qed.

Lemma n2_entry m n (A : 'M[C]_(m, n)) i j : `|A i j| ^+ 2 <= n2 A.
Proof.
rewrite /n2 (bigD1 i) //= (bigD1 j) //= -addrA ler_addl addr_ge0 //.
  by apply: sumr_ge0 => k _; apply: exprn_ge0.
by apply: sumr_ge0 => k _; apply: sumr_ge0 => l _; apply: exprn_ge0.
Qed.

Lemma n2_eq0 m n (A : 'M[C]_(m, n)) : n2 A = 0 -> A = 0.
Proof.
move=> e; apply/matrixP => i j; rewrite mxE; have := n2_entry A i j; rewrite e => le.
by apply/eqP; rewrite -normr_eq0 -sqrf_eq0 eq_le le exprn_ge0.
Qed.

Lemma n2_scale m n a (A : 'M[C]_(m, n)) : n2 (a *: A) = `|a| ^+ 2 * n2 A.
Proof.
rewrite /n2 mulr_sumr; apply: eq_bigr => i _; rewrite mulr_sumr; apply: eq_bigr => j _.
by rewrite mxE normrM exprMn.
Qed.

Lemma n2N m n (A : 'M[C]_(m, n)) : n2 (- A) = n2 A.
Proof. by rewrite -scaleN1r n2_scale normrN1 expr1n mul1r. Qed.

Lemma n2_mul m n p (A : 'M[C]_(m, n)) (B : 'M[C]_(n, p)) : n2 (A *m B) <= n2 A * n2 B.
Proof.
rewrite /n2 [X in _ * X]exchange_big mulr_suml; apply: ler_sum => i _.
rewrite mulr_sumr; apply: ler_sum => j _.
have := cauchy_schwarz (row i A) (\row_k (B k j)^*).
have -> : ip (row i A) (\row_k (B k j)^*) = (A *m B) i j.
  by rewrite mxE; apply: eq_bigr => k _; rewrite !mxE cjK.
have -> : ip (row i A) (row i A) = \sum_k `|A i k| ^+ 2 by apply: eq_bigr => k _; rewrite !mxE normCK.
have -> : ip (\row_k (B k j)^*) (\row_k (B k j)^*) = \sum_k `|B k j| ^+ 2 => //.
by apply: eq_bigr => k _; rewrite !mxE cjK normCK mulrC.
Qed.

Lemma sq_add (x y t : C) : 0 <= x -> 0 <= y -> 0 < t -> (x + y) ^+ 2 <= (1 + t) * x ^+ 2 + (1 + t^-1) * y ^+ 2.
Proof.
move=> x0 y0 t0; rewrite -subr_ge0.
have -> : (1 + t) * x ^+ 2 + (1 + t^-1) * y ^+ 2 - (x + y) ^+ 2 = (t * x - y) ^+ 2 / t.
  by have tn := lt0r_neq0 t0; field.
by rewrite divr_ge0 ?(ltW t0) // real_exprn_even_ge0 // rpredB // ?rpredM ?ger0_real // ltW.
Qed.

Lemma n2_add m n (A B : 'M[C]_(m, n)) t : 0 < t -> n2 (A + B) <= (1 + t) * n2 A + (1 + t^-1) * n2 B.
Proof.
move=> t0; rewrite /n2 !mulr_sumr -big_split /=; apply: ler_sum => i _.
rewrite !mulr_sumr -big_split /=; apply: ler_sum => j _; rewrite mxE.
apply: le_trans (sq_add (normr_ge0 _) (normr_ge0 _) t0).
by rewrite ler_expn2r ?nnegrE ?addr_ge0 // ler_norm_add.
Qed.

Lemma n2_add2 m n (A B : 'M[C]_(m, n)) : n2 (A + B) <= 2%:R * n2 A + 2%:R * n2 B.
Proof. by have := n2_add A B ltr01; rewrite invr1. Qed.

Lemma tr_adjm n (A : 'M[C]_n) : \tr (adjm A) = (\tr A)^*.
Proof. by rewrite /mxtrace cj_sum; apply: eq_bigr => i _; rewrite adjmE. Qed.

Lemma adjm_scalar n (a : C) : adjm (a%:M : 'M[C]_n) = (a^*)%:M.
Proof. by rewrite -scalemx1 adjm_scale adjm1 scalemx1. Qed.

Lemma n2_trace n (Y : 'M[C]_n) a : \tr Y = 0 -> n2 (Y + a%:M) = n2 Y + n%:R * `|a| ^+ 2.
Proof.
move=> t0; rewrite !n2E adjm_add adjm_scalar mulmxDl !mulmxDr !mul_mx_scalar !mul_scalar_mx.
rewrite -scalemx1 scalerA scalemx1 !linearD /= !linearZ /= tr_adjm t0 cj0 !mulr0 addr0 add0r.
by rewrite mxtrace_scalar normCK [_^* * _]mulrC mulr_natl.
Qed.

Lemma n2_tr n (X : 'M[C]_n) : `|\tr X| ^+ 2 <= n%:R * n2 X.
Proof.
case: n X => [|n] X; first by rewrite /mxtrace big_ord0 normr0 expr0n mul0r.
have n0 : (n.+1%:R : C) != 0 by rewrite pnatr_eq0.
have e : X = (X - (\tr X / n.+1%:R)%:M) + (\tr X / n.+1%:R)%:M by rewrite subrK.
rewrite {2}e n2_trace; last first.
  by rewrite linearB /= mxtrace_scalar -[_ *+ _]mulr_natr divfK // subrr.
rewrite normrM normfV [`|n.+1%:R|]normr_nat mulrDr.
have -> : n.+1%:R * (n.+1%:R * (`|\tr X| / n.+1%:R) ^+ 2) = `|\tr X| ^+ 2 by move: (n.+1%:R) n0 `|\tr X| => a a0 x; field.
by rewrite ler_addr mulr_ge0 ?ler0n ?n2_ge0.
Qed.

(** vectors of matrices *)
Lemma sum_mxvec m n (F : 'I_(m * n) -> C) : \sum_k F k = \sum_i \sum_j F (mxvec_index i j).
Proof.
rewrite pair_big /= (reindex (uncurry (@mxvec_index m n))) /=; last exact: curry_mxvec_bij.
by apply: eq_bigr => -[i j] _.
Qed.

Lemma n2_mxvec m n (A : 'M[C]_(m, n)) : n2 (mxvec A) = n2 A.
Proof.
rewrite /n2 big_ord1 sum_mxvec; apply: eq_bigr => i _; apply: eq_bigr => j _.
by rewrite mxvecE.
Qed.

Lemma tr_mxvec n (A : 'M[C]_n) : (mxvec A *m (mxvec (1%:M : 'M[C]_n))^T) 0 0 = \tr A.
Proof.
rewrite mxE sum_mxvec; apply: eq_bigr => i _; rewrite (bigD1 i) //= big1 => [|j ji].
  by rewrite mxE !mxvecE mxE eqxx mulr1 addr0.
by rewrite [(_^T) _ _]mxE !mxvecE mxE eq_sym (negPf ji) mulr0.
Qed.

Lemma hform_AA m n (A : 'M[C]_(m, n)) v : hform (A *m adjm A) v = n2 (v *m A).
Proof. by rewrite hformE n2E adjm_mul !mulmxA /mxtrace big_ord1. Qed.

Lemma herm_AA m n (A : 'M[C]_(m, n)) : hermitian (A *m adjm A).
Proof. by apply/hermitianP; rewrite adjm_mul adjmK. Qed.

Lemma hform1_n2 n (v : 'rV[C]_n) : hform 1%:M v = n2 v.
Proof. by rewrite hform1 /n2 big_ord1. Qed.

Lemma herm_one n : hermitian (1%:M : 'M[C]_n).
Proof. by apply/hermitianP; rewrite adjm1. Qed.

Lemma pd_one n : posdef (1%:M : 'M[C]_n).
Proof.
move=> v v0; rewrite hform1_n2 lt0r n2_ge0 andbT; apply: contra_neq v0; exact: n2_eq0.
Qed.

Lemma hformD n (A B : 'M[C]_n) v : hform (A + B) v = hform A v + hform B v.
Proof. by rewrite !hformE mulmxDr mulmxDl mxE. Qed.
End Norm.

Section Gap.
Variables (C : numClosedFieldType) (N : nat) (T : eqType) (r : seq T) (q : T -> C) (u : T -> 'rV[C]_N).
Implicit Types (Y A : 'M[C]_N).
Hypothesis q0 : forall p, p \in r -> 0 <= q p.
Hypothesis u1 : forall p, p \in r -> u p *m adjm (u p) = 1%:M.
Let P p := adjm (u p) *m u p.
Hypothesis P1 : \sum_(p <- r) q p *: P p = 1%:M.

Lemma n2_points Y : n2 Y = \sum_(p <- r) q p * n2 (u p *m Y).
Proof.
rewrite n2E -[Y *m adjm Y]mul1mx -P1 mulmx_suml raddf_sum /=; apply: eq_bigr => p _.
by rewrite -scalemxAl linearZ /= /P -mulmxA mxtrace_mulC n2E adjm_mul !mulmxA.
Qed.

Lemma point_id p Y : p \in r -> n2 (u p *m Y) = `|hform Y (u p)| ^+ 2 + n2 (u p *m Y *m (1%:M - P p)).
Proof.
move=> pr; have y1 : u p *m Y *m adjm (u p) = (hform Y (u p))%:M by rewrite hformE -mx11_scalar.
have yE : u p *m Y *m P p = hform Y (u p) *: u p by rewrite /P mulmxA y1 mul_scalar_mx.
rewrite mulmxBr mulmx1 yE; set y := hform _ _ in y1 *; set w := u p *m Y - y *: u p.
have -> : u p *m Y = w + y *: u p by rewrite subrK.
have wu : w *m adjm (u p) = 0.
  by rewrite mulmxBl y1 -scalemxAl u1 // scalemx1 subrr.
have uw : u p *m adjm w = 0 by rewrite -[u p]adjmK -adjm_mul wu; apply/matrixP => i j; rewrite !mxE cj0.
rewrite !n2E adjm_add adjm_scale mulmxDl !mulmxDr -!scalemxAl -!scalemxAr wu uw u1 // !scaler0 addr0 add0r.
by rewrite scalerA linearD /= linearZ /= mxtrace1 mulr1 normCK addrC.
Qed.

Lemma gap_id Y : n2 Y = \sum_(p <- r) q p * `|hform Y (u p)| ^+ 2 + \sum_(p <- r) q p * n2 (u p *m Y *m (1%:M - P p)).
Proof.
rewrite n2_points -big_split /= big_seq [RHS]big_seq; apply: eq_bigr => p pr.
by rewrite point_id // mulrDr.
Qed.

Lemma gap_le Y : \sum_(p <- r) q p * `|hform Y (u p)| ^+ 2 <= n2 Y.
Proof.
rewrite [n2 Y]gap_id ler_addl big_seq; apply: sumr_ge0 => p pr; apply: mulr_ge0; [exact: q0|exact: n2_ge0].
Qed.

Lemma point_le p Y : p \in r -> `|hform Y (u p)| ^+ 2 <= n2 Y.
Proof.
move=> pr; have up : n2 (u p) = 1 by rewrite n2E u1 // mxtrace1.
apply: (@le_trans _ _ (n2 (u p *m Y))); first by rewrite point_id // ler_addl n2_ge0.
by apply: le_trans (n2_mul _ _) _; rewrite up mul1r.
Qed.

Definition comb (z : T -> C) : 'M[C]_N := \sum_(p <- r) (q p * z p) *: P p.

Lemma tr_P p A : \tr (P p *m A) = hform A (u p).
Proof. by rewrite /P -mulmxA mxtrace_mulC hformE /mxtrace big_ord1. Qed.

Lemma herm_P p : adjm (P p) = P p. Proof. by rewrite /P adjm_mul adjmK. Qed.

Lemma comb_n2 z : n2 (comb z) <= \sum_(p <- r) q p * `|z p| ^+ 2.
Proof.
set K := comb z.
have e : n2 K = \sum_(p <- r) q p * (z p * (hform K (u p))^*).
  rewrite n2E {1}/K /comb mulmx_suml raddf_sum /=; apply: eq_bigr => p _.
  rewrite -scalemxAl linearZ /= tr_P -mulrA; congr (_ * (_ * _)).
  by rewrite !hformE -adjmE !adjm_mul adjmK mulmxA.
have n2K : n2 K <= \sum_(p <- r) q p * ((`|z p| ^+ 2 + `|hform K (u p)| ^+ 2) / 2%:R).
  rewrite -[X in X <= _](ger0_norm (n2_ge0 K)) e.
  apply: le_trans (ler_norm_sum _ _ _) _; rewrite big_seq [X in _ <= X]big_seq; apply: ler_sum => p pr.
  rewrite !normrM norm_conjC (ger0_norm (q0 pr)); apply: ler_wpmul2l; first exact: q0.
  exact: abs2.
have n20 : 0 < (2%:R : C) by rewrite ltr0n.
have {n2K} : n2 K * 2%:R <= \sum_(p <- r) q p * `|z p| ^+ 2 + n2 K.
  apply: (@le_trans _ _ (\sum_(p <- r) q p * `|z p| ^+ 2 + \sum_(p <- r) q p * `|hform K (u p)| ^+ 2)); last first.
    by rewrite ler_add2l gap_le.
  rewrite -ler_pdivl_mulr //; apply: le_trans n2K _; rewrite -big_split /= mulr_suml.
  by apply: ler_sum => p _; rewrite mulrA mulrDr.
by rewrite -[2%:R]/(1 + 1) mulrDr mulr1 ler_add2r.
Qed.

(** ** The gap *)
Hypothesis ind : forall S : 'M[C]_N, S *m S = S -> S != 0 -> S != 1%:M ->
  exists2 p, p \in r & 0 < q p /\ (u p *m S != 0 /\ u p *m S != u p).

Lemma gap_herm A : hermitian A -> (forall p, p \in r -> 0 < q p -> u p *m A = hform A (u p) *: u p) -> is_scalar_mx A.
Proof.
move=> hA ev; have [J [d [uJ J1 JA dr]]] := simdiag2 (@herm_one C N) (@pd_one C N) hA.
have {J1}J1 : J *m adjm J = 1%:M by move: J1; rewrite -one_diag mulmx1.
have [J2 _] := (mulmx1_unit J1, mulmx1C J1).
have {J2}J2 := mulmx1C J1.
have [/forallP a|/forallPn[i /forallPn[j /eqP dij]]] := boolP [forall i, forall j, d 0 i == d 0 j].
  have [N0|N0] := posnP N.
    by apply/is_scalar_mxP; exists 0; apply/matrixP => i; have := ltn_ord i; rewrite [X in (_ < X)%N]N0.
  apply/is_scalar_mxP; exists (d 0 (Ordinal N0)); rewrite JA.
  have -> : d = d 0 (Ordinal N0) *: const_mx 1.
    by apply/rowP => j; rewrite !mxE mulr1; apply/eqP; have /forallP := a j; apply.
  by rewrite linearZ /= -scalemxAr -scalemxAl -one_diag mulmx1 J1 scalemx1 !mxE mulr1.
exfalso; pose S0 : 'M[C]_N := diag_mx (\row_k (d 0 k == d 0 i)%:R).
have SS : S0 *m S0 = S0.
  by rewrite mulmx_diag; congr diag_mx; apply/rowP => k; rewrite !mxE; case: (_ == _); rewrite ?mulr1 ?mulr0.
pose S := J *m S0 *m adjm J.
have SE k : (adjm J *m S *m J) k k = (d 0 k == d 0 i)%:R.
  by rewrite /S !mulmxA J2 mul1mx -mulmxA J2 mulmx1 !mxE eqxx mulr1n.
have [|||p pr [qp [a b]]] := ind (S := S).
- by rewrite /S !mulmxA -(mulmxA (J *m S0)) J2 mulmx1 -(mulmxA J) SS.
- by apply/eqP => S00; have := SE i; rewrite S00 mulmx0 mul0mx mxE eqxx => /eqP; rewrite eq_sym oner_eq0.
- apply/eqP => S1; have := SE j; rewrite S1 mulmx1 J2 mxE eqxx eq_sym.
  by have /eqP/negPf -> : d 0 i <> d 0 j by []; move=> /eqP; rewrite oner_eq0.
have e := ev p pr qp; set y := hform A (u p) in e.
have eJ k : (u p *m J) 0 k * (d 0 k - y) = 0.
  have : u p *m A *m J = y *: (u p *m J) by rewrite e -scalemxAl.
  rewrite JA !mulmxA -mulmxA J2 mulmx1 => /rowP/(_ k); rewrite mul_mx_diag !mxE => E.
  by rewrite mulrBr E mulrC subrr.
have [yi|yi] := eqVneq y (d 0 i).
  case/eqP: b; have -> : u p *m S = u p *m J *m S0 *m adjm J by rewrite !mulmxA.
  have -> : u p *m J *m S0 = u p *m J.
    apply/rowP => k; rewrite mul_mx_diag mxE [(\row_j _) _ _]mxE; have [_|ne] := eqVneq (d 0 k) (d 0 i); first by rewrite mulr1.
    move/eqP: (eJ k); rewrite mulf_eq0 subr_eq0 yi (negPf ne) orbF => /eqP ->.
    by rewrite mulr0.
  by rewrite -mulmxA J1 mulmx1.
case/eqP: a; have -> : u p *m S = u p *m J *m S0 *m adjm J by rewrite !mulmxA.
have -> : u p *m J *m S0 = 0; last by rewrite mul0mx.
apply/rowP => k; rewrite mul_mx_diag mxE [(\row_j _) _ _]mxE [RHS]mxE; have [ek|_] := eqVneq (d 0 k) (d 0 i); last by rewrite mulr0.
move/eqP: (eJ k); rewrite mulf_eq0 subr_eq0 ek [d 0 i == y]eq_sym (negPf yi) orbF => /eqP ->.
by rewrite mul0r.
Qed.

(** the forms whose squares add up to the difference *)
Definition form p : 'M[C]_(N * N, 1 * N) := lin_mulmx (u p) *m lin_mulmxr (1%:M - P p).

Lemma formE p Y : mxvec Y *m form p = mxvec (u p *m Y *m (1%:M - P p)).
Proof. by rewrite /form mulmxA !mul_vec_lin. Qed.

Let t : 'cV[C]_(N * N) := (mxvec (1%:M : 'M[C]_N))^T.
Let G : 'M[C]_(N * N) := \sum_(p <- r) q p *: (form p *m adjm (form p)) + t *m adjm t.

Lemma gramE Y : hform G (mxvec Y) = \sum_(p <- r) q p * n2 (u p *m Y *m (1%:M - P p)) + `|\tr Y| ^+ 2.
Proof.
rewrite hformD hform_sum; congr (_ + _).
  by apply: eq_bigr => p _; rewrite hform_scale hform_AA formE n2_mxvec.
by rewrite hform_AA /n2 !big_ord1 tr_mxvec.
Qed.

Lemma gram_herm : hermitian G.
Proof.
apply/hermitianP; rewrite adjm_add adjm_mul adjmK; congr (_ + _).
rewrite big_seq; elim/big_ind: _ => [|A B eA eB|p pr]; first by apply/matrixP => i j; rewrite !mxE cj0.
- by rewrite adjm_add eA eB.
by rewrite adjm_scale adjm_mul adjmK; congr (_ *: _); apply/conj_Creal/ger0_real/q0.
Qed.

Lemma proj_eigen p A : p \in r -> u p *m A *m (1%:M - P p) = 0 -> u p *m A = hform A (u p) *: u p.
Proof.
move=> pr; rewrite mulmxBr mulmx1 /P mulmxA => /eqP; rewrite subr_eq0 => /eqP ->.
have -> : u p *m A *m adjm (u p) = (hform A (u p))%:M by rewrite hformE -mx11_scalar.
by rewrite mul_scalar_mx.
Qed.

Let rest Y := \sum_(p <- r) q p * n2 (u p *m Y *m (1%:M - P p)).

Lemma rest_ge0 Y : 0 <= rest Y.
Proof. by rewrite /rest big_seq; apply: sumr_ge0 => p pr; apply: mulr_ge0; [exact: q0|exact: n2_ge0]. Qed.

Lemma rest_eigen Y : rest Y = 0 -> forall p, p \in r -> 0 < q p -> u p *m Y = hform Y (u p) *: u p.
Proof.
move=> s1 p pr qp; apply: proj_eigen => //; apply: n2_eq0.
have : \sum_(p <- r | p \in r) q p * n2 (u p *m Y *m (1%:M - P p)) == 0 by rewrite -big_seq -/(rest Y) s1.
rewrite psumr_eq0 => [/allP/(_ p pr)|p' pr']; last by apply: mulr_ge0; [exact: q0|exact: n2_ge0].
by rewrite pr /= mulf_eq0 gt_eqF //= => /eqP.
Qed.

Lemma hform_adjm Y v : hform (adjm Y) v = (hform Y v)^*.
Proof. by rewrite !hformE -adjmE !adjm_mul adjmK mulmxA. Qed.

Lemma rest_adjm Y : rest (adjm Y) = rest Y.
Proof.
have : n2 (adjm Y) = n2 Y.
  by rewrite /n2 exchange_big; apply: eq_bigr => i _; apply: eq_bigr => j _; rewrite adjmE norm_conjC.
rewrite gap_id [in RHS]gap_id -!/(rest _).
under eq_bigr => p _ do rewrite hform_adjm norm_conjC.
by move/addrI.
Qed.

Lemma rest_scalar Y : rest Y = 0 -> is_scalar_mx Y.
Proof.
move=> s1; have s2 : rest (adjm Y) = 0 by rewrite rest_adjm.
have e1 := rest_eigen s1; have e2 := rest_eigen s2.
have ev a b p : p \in r -> 0 < q p -> u p *m (a *: Y + b *: adjm Y) = hform (a *: Y + b *: adjm Y) (u p) *: u p.
  move=> pr qp; rewrite mulmxDr -!scalemxAr e1 // e2 // hformD !hform_scale scalerDl !scalerA //.
have /is_scalar_mxP[a aE] : is_scalar_mx (1 *: Y + 1 *: adjm Y).
  apply: gap_herm (ev 1 1); apply/hermitianP.
  by rewrite adjm_add !adjm_scale adjmK cj1 addrC.
have /is_scalar_mxP[b bE] : is_scalar_mx ('i *: Y + (- 'i) *: adjm Y).
  apply: gap_herm (ev 'i (- 'i)); apply/hermitianP.
  by rewrite adjm_add !adjm_scale adjmK cjN conjCi opprK addrC.
apply/is_scalar_mxP; exists ((a - 'i * b) / 2%:R).
have n20 : (2%:R : C) != 0 by rewrite pnatr_eq0.
have e : 2%:R *: Y = (a - 'i * b)%:M.
  rewrite raddfB /= -scale_scalar_mx -aE -bE scalerDr !scalerA mulrN -expr2 sqrCi opprK scaleN1r !scale1r.
  by rewrite opprD opprK addrACA subrr addr0 -[2%:R]/(1 + 1) scalerDl scale1r.
by rewrite mulrC -scale_scalar_mx -e scalerA mulVf // scale1r.
Qed.

Lemma gram_pd : posdef G.
Proof.
move=> v v0; rewrite -[v]vec_mxK gramE -/(rest _); set Y := vec_mx v.
rewrite lt0r addr_ge0 ?exprn_ge0 ?rest_ge0 // andbT; apply: contra_neqN v0.
rewrite paddr_eq0 ?exprn_ge0 ?rest_ge0 // sqrf_eq0 normr_eq0 => /andP[/eqP s1 /eqP tr0].
have /is_scalar_mxP[a aE] := rest_scalar s1.
suff Y0 : Y = 0 by rewrite -[v]vec_mxK -/Y Y0 linear0.
move: tr0; rewrite aE mxtrace_scalar -mulr_natr => /eqP; rewrite mulf_eq0 => /orP[/eqP->|]; first by rewrite raddf0.
by rewrite pnatr_eq0 => /eqP N0; apply/matrixP => i; have := ltn_ord i; rewrite [X in (_ < X)%N]N0.
Qed.

(** On matrices of trace zero the points see less than the whole square. *)
Lemma gap : exists2 d : C, 0 < d <= 1 & forall Y, \tr Y = 0 ->
  \sum_(p <- r) q p * `|hform Y (u p)| ^+ 2 <= (1 - d) * n2 Y.
Proof.
have [b b0 le] := dominated gram_herm gram_pd (@herm_one C (N * N)).
have b1 : 0 < 1 + b by rewrite addr_gt0 ?ltr01.
exists (1 + b)^-1.
  by rewrite invr_gt0 b1 /= invf_le1 // ler_addl ltW.
move=> Y t0; have := (loewnerE _ _).1 le (mxvec Y).
rewrite hform_scale hform1_n2 n2_mxvec gramE t0 normr0 expr0n addr0 -/(rest Y) => le1.
rewrite mulrBl mul1r ler_subr_addr [X in _ <= X]gap_id ler_add2l -/(rest Y) ler_pdivr_mull //; apply: le_trans le1 _; apply: ler_wpmul2r; first exact: rest_ge0.
by rewrite ler_addr ler01.
Qed.
End Gap.
