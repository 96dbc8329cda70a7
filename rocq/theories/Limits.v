(** Limits of sequences of numbers and matrices along an infinite set of indices. *)
From Coq Require Import ZArith Lia.
From mathcomp Require Import all_ssreflect all_algebra.
From Verif Require Import Base Herm.

Set Implicit Arguments.
Unset Strict Implicit.
Unset Printing Implicit Defensive.

Import GRing.Theory Num.Theory Order.POrderTheory.
Local Open Scope ring_scope.

Definition infinite (S : pred nat) : Prop := forall K : nat, exists2 n, (K <= n)%N & S n.

Section Lim.
Variable C : numClosedFieldType.
Implicit Types (S T : pred nat) (u v : nat -> C) (l m : C).

Definition cvg S u l : Prop :=
  forall e, 0 < e -> exists K : nat, forall n, (K <= n)%N -> S n -> `|u n - l| < e.

Lemma half_gt0 (e : C) : 0 < e -> 0 < e / 2%:R.
Proof. by move=> e0; rewrite divr_gt0 // ltr0n. Qed.
Lemma half2 (e : C) : e / 2%:R + e / 2%:R = e.
Proof. by rewrite -mulrDr -mulr2n -[_ *+ 2]mulr_natr mulVf ?mulr1 // pnatr_eq0. Qed.

Lemma cvg_ext S u v l : (forall n, S n -> u n = v n) -> cvg S u l -> cvg S v l.
Proof. by move=> uv cu e /cu[K H]; exists K => n Kn Sn; rewrite -uv // H. Qed.

Lemma cvg_const S l : cvg S (fun _ => l) l.
Proof. by move=> e e0; exists 0%N => n _ _; rewrite subrr normr0. Qed.

Lemma cvg_sub S T u l : (forall n, T n -> S n) -> cvg S u l -> cvg T u l.
Proof. by move=> TS cu e /cu[K H]; exists K => n Kn /TS; exact: H. Qed.

Lemma cvg_add S u v l m : cvg S u l -> cvg S v m -> cvg S (fun n => u n + v n) (l + m).
Proof.
move=> cu cv e /half_gt0 e0; have [K H] := cu _ e0; have [L G] := cv _ e0.
exists (maxn K L) => n; rewrite geq_max => /andP[Kn Ln] Sn.
rewrite opprD addrACA -[e]half2.
by apply: le_lt_trans (ler_norm_add _ _) _; apply: ltr_add; [exact: H|exact: G].
Qed.

Lemma cvg_opp S u l : cvg S u l -> cvg S (fun n => - u n) (- l).
Proof. by move=> cu e /cu[K H]; exists K => n Kn Sn; rewrite -opprD normrN H. Qed.

Lemma cvg_subr S u v l m : cvg S u l -> cvg S v m -> cvg S (fun n => u n - v n) (l - m).
Proof. by move=> cu cv; apply: cvg_add cu (cvg_opp cv). Qed.

Lemma cvg_bounded S u l : cvg S u l -> exists K : nat, forall n, (K <= n)%N -> S n -> `|u n| <= `|l| + 1.
Proof.
move=> /(_ 1 ltr01)[K H]; exists K => n Kn Sn; rewrite -[u n](subrK l) addrC.
by apply: le_trans (ler_norm_add _ _) _; rewrite ler_add2l ltW // H.
Qed.

Lemma cvg0_mul S u v : cvg S u 0 -> (exists2 b, 0 < b & exists K : nat, forall n, (K <= n)%N -> S n -> `|v n| <= b) ->
  cvg S (fun n => u n * v n) 0.
Proof.
move=> cu [b b0 [K H]] e e0; have [L G] := cu (e / b) (divr_gt0 e0 b0).
exists (maxn K L) => n; rewrite geq_max => /andP[Kn Ln] Sn; have := G n Ln Sn.
rewrite !subr0 normrM ltr_pdivl_mulr //; apply: le_lt_trans.
by apply: ler_wpmul2l (H n Kn Sn); exact: normr_ge0.
Qed.

Lemma cvg_to0 S u l : cvg S u l <-> cvg S (fun n => u n - l) 0.
Proof. by split=> cu e /cu[K H]; exists K => n Kn Sn; have := H n Kn Sn; rewrite subr0. Qed.

Lemma cvg_mul S u v l m : cvg S u l -> cvg S v m -> cvg S (fun n => u n * v n) (l * m).
Proof.
move=> cu cv; apply: (proj2 (cvg_to0 _ _ _)).
have c1 : cvg S (fun n => (u n - l) * v n) 0.
  apply: cvg0_mul; first exact: (proj1 (cvg_to0 S u l)).
  by exists (`|m| + 1); [exact: ltr_paddl (normr_ge0 _) ltr01|exact: cvg_bounded].
have c2 : cvg S (fun n => (v n - m) * l) 0.
  apply: cvg0_mul; first exact: (proj1 (cvg_to0 S v m)).
  exists (`|l| + 1); first exact: ltr_paddl (normr_ge0 _) ltr01.
  by exists 0%N => n _ _; rewrite ler_addl ler01.
have := cvg_add c1 c2; rewrite addr0; apply: cvg_ext => n _.
by rewrite mulrBl mulrBl [v n * l]mulrC [m * l]mulrC addrA subrK.
Qed.

Lemma cvg_scale S c u l : cvg S u l -> cvg S (fun n => c * u n) (c * l).
Proof. exact/cvg_mul/cvg_const. Qed.

Lemma cvg_conj S u l : cvg S u l -> cvg S (fun n => (u n)^*) l^*.
Proof. by move=> cu e /cu[K H]; exists K => n Kn Sn; rewrite -rmorphB norm_conjC H. Qed.

Lemma cvg_norm S u l : cvg S u l -> cvg S (fun n => `|u n|) `|l|.
Proof.
move=> cu e /cu[K H]; exists K => n Kn Sn; apply: le_lt_trans (H n Kn Sn).
exact: ler_dist_dist.
Qed.

Lemma cvg_away S u l : cvg S u l -> l != 0 -> exists K : nat, forall n, (K <= n)%N -> S n -> `|l| / 2%:R < `|u n|.
Proof.
move=> cu l0; have /cu[K H] : 0 < `|l| / 2%:R by apply/half_gt0; rewrite normr_gt0.
exists K => n Kn Sn; have := H n Kn Sn; rewrite -[X in _ -> X < _](addrK (`|l| / 2%:R)) half2 ltr_subl_addr => lt.
have := ler_norm_add (u n) (l - u n); rewrite addrC subrK => le.
by apply: le_lt_trans le _; rewrite ltr_add2l distrC.
Qed.

Lemma cvg_inv S u l : (forall n, S n -> u n != 0) -> cvg S u l -> l != 0 -> cvg S (fun n => (u n)^-1) l^-1.
Proof.
move=> u0 cu l0; apply: (proj2 (cvg_to0 _ _ _)).
have c1 : cvg S (fun n => (l - u n) * (l^-1 * (u n)^-1)) 0.
  apply: cvg0_mul.
    by have := cvg_opp (cvg_subr cu (cvg_const S l)); rewrite subrr oppr0; apply: cvg_ext => n _; rewrite opprB.
  have n0 : 0 < `|l| by rewrite normr_gt0.
  have [K H] := cvg_away cu l0; exists (`|l|^-1 * (`|l| / 2%:R)^-1); first by rewrite mulr_gt0 // invr_gt0 // half_gt0.
  exists K => n Kn Sn; rewrite normrM !normfV ler_wpmul2l ?invr_ge0 //.
  by rewrite lef_pinv ?posrE ?half_gt0 ?normr_gt0 ?u0 // ltW // H.
by apply: cvg_ext c1 => n Sn; rewrite mulrBl mulrA divff // mul1r [l^-1 * _]mulrC mulrA divff ?u0 // mul1r.
Qed.

Lemma cvg_sum S (I : Type) (r : seq I) (P : pred I) (u : I -> nat -> C) (l : I -> C) :
  (forall i, cvg S (u i) (l i)) -> cvg S (fun n => \sum_(i <- r | P i) u i n) (\sum_(i <- r | P i) l i).
Proof.
move=> cu; elim: r => [|i r IH].
  by rewrite big_nil; apply: cvg_ext (cvg_const S 0) => n _; rewrite big_nil.
rewrite big_cons; case: ifP => Pi.
  by apply: cvg_ext (cvg_add (cu i) IH) => n _; rewrite big_cons Pi.
by apply: cvg_ext IH => n _; rewrite big_cons Pi.
Qed.

Lemma cvg_sum_in S (I : eqType) (r : seq I) (u : I -> nat -> C) (l : I -> C) :
  (forall i, i \in r -> cvg S (u i) (l i)) -> cvg S (fun n => \sum_(i <- r) u i n) (\sum_(i <- r) l i).
Proof.
elim: r => [|i r IH] cu.
  by rewrite big_nil; apply: cvg_ext (cvg_const S 0) => n _; rewrite big_nil.
have cr : cvg S (fun n => \sum_(i <- r) u i n) (\sum_(i <- r) l i).
  by apply: IH => j jr; apply: cu; rewrite inE jr orbT.
rewrite big_cons; apply: cvg_ext (cvg_add (cu i (mem_head _ _)) cr) => n _.
by rewrite big_cons.
Qed.

Lemma cvg_prod S (I : Type) (r : seq I) (P : pred I) (u : I -> nat -> C) (l : I -> C) :
  (forall i, cvg S (u i) (l i)) -> cvg S (fun n => \prod_(i <- r | P i) u i n) (\prod_(i <- r | P i) l i).
Proof.
move=> cu; elim: r => [|i r IH].
  by rewrite big_nil; apply: cvg_ext (cvg_const S 1) => n _; rewrite big_nil.
rewrite big_cons; case: ifP => Pi.
  by apply: cvg_ext (cvg_mul (cu i) IH) => n _; rewrite big_cons Pi.
by apply: cvg_ext IH => n _; rewrite big_cons Pi.
Qed.

Lemma small_eq0 (x : C) : (forall e, 0 < e -> `|x| < e) -> x = 0.
Proof.
move=> H; apply/eqP/negPn/negP => x0; have := H `|x|; rewrite normr_gt0 x0 ltxx.
by move=> /(_ isT).
Qed.

Lemma cvg_unique S u l m : infinite S -> cvg S u l -> cvg S u m -> l = m.
Proof.
move=> inf cl cm; apply/eqP; rewrite -subr_eq0; apply/eqP/small_eq0 => e e0.
have [K H] := cvg_subr cl cm e0; have [n Kn Sn] := inf K.
by have := H n Kn Sn; rewrite subrr sub0r normrN.
Qed.

Lemma cvg_ge0 S u l : infinite S -> (forall n, S n -> 0 <= u n) -> cvg S u l -> 0 <= l.
Proof.
move=> inf u0 cu; rewrite (_ : l = `|l|) ?normr_ge0 //.
have cn := cvg_norm cu; apply: cvg_unique inf cu _; apply: cvg_ext cn => n Sn.
by rewrite ger0_norm // u0.
Qed.

Lemma cvg_le S u v l m : infinite S -> (forall n, S n -> u n <= v n) -> cvg S u l -> cvg S v m -> l <= m.
Proof.
move=> inf uv cu cv; rewrite -subr_ge0; apply: cvg_ge0 inf _ (cvg_subr cv cu) => n Sn.
by rewrite subr_ge0 uv.
Qed.
End Lim.

Section Mx.
Variable C : numClosedFieldType.
Implicit Types (S : pred nat).

Definition cvgmx m n S (A : nat -> 'M[C]_(m, n)) (L : 'M[C]_(m, n)) : Prop :=
  forall i j, cvg S (fun k => A k i j) (L i j).

Lemma cvgmx_mul m n p S (A : nat -> 'M[C]_(m, n)) (B : nat -> 'M[C]_(n, p)) L M :
  cvgmx S A L -> cvgmx S B M -> cvgmx S (fun k => A k *m B k) (L *m M).
Proof.
move=> cA cB i j; rewrite mxE.
have H : forall l : 'I_n, cvg S (fun k => A k i l * B k l j) (L i l * M l j) by move=> l; apply: cvg_mul.
by apply: cvg_ext (cvg_sum (index_enum _) xpredT H) => k _; rewrite mxE.
Qed.

Lemma cvgmx_const m n S (A : 'M[C]_(m, n)) : cvgmx S (fun _ => A) A.
Proof. by move=> i j; apply: cvg_const. Qed.

Lemma cvgmx_adj m n S (A : nat -> 'M[C]_(m, n)) L : cvgmx S A L -> cvgmx S (fun k => adjm (A k)) (adjm L).
Proof. by move=> cA i j; rewrite mxE; apply: cvg_ext (cvg_conj (cA j i)) => k _; rewrite mxE. Qed.

Lemma cvgmx_unique m n S (A : nat -> 'M[C]_(m, n)) L M : infinite S -> cvgmx S A L -> cvgmx S A M -> L = M.
Proof. by move=> inf cL cM; apply/matrixP => i j; apply: cvg_unique inf (cL i j) (cM i j). Qed.

Lemma cvg_det n S (A : nat -> 'M[C]_n) L : cvgmx S A L -> cvg S (fun k => \det (A k)) (\det L).
Proof.
move=> cA; rewrite /determinant; apply: cvg_sum => s; apply: cvg_scale; apply: cvg_prod => i; exact: cA.
Qed.

Lemma cvg_invmx n S (A : nat -> 'M[C]_n) L : (forall k, S k -> A k \in unitmx) -> L \in unitmx ->
  cvgmx S A L -> cvgmx S (fun k => invmx (A k)) (invmx L).
Proof.
move=> uA uL cA i j; rewrite /invmx uL mxE.
have cd : cvg S (fun k => (\det (A k))^-1) (\det L)^-1.
  by apply: cvg_inv (cvg_det cA) _ => [k /uA|]; rewrite -unitfE -unitmxE.
have cc : cvg S (fun k => cofactor (A k) j i) (cofactor L j i).
  by rewrite /cofactor; apply: cvg_scale; apply: cvg_det => a b; rewrite !mxE;
     apply: cvg_ext (cA _ _) => k _; rewrite !mxE.
have -> : \adj L i j = cofactor L j i by rewrite mxE.
by apply: cvg_ext (cvg_mul cd cc) => k Sk; rewrite uA // !mxE.
Qed.

Lemma cvg_hform n S (A : nat -> 'M[C]_n) L v : cvgmx S A L -> cvg S (fun k => hform (A k) v) (hform L v).
Proof.
move=> cA; rewrite /hform; apply: cvg_sum => i; apply: cvg_sum => j.
by apply: cvg_mul; [apply: cvg_scale; exact: cA|exact: cvg_const].
Qed.

Lemma cvg_hermitian n S (A : nat -> 'M[C]_n) L : infinite S -> (forall k, S k -> hermitian (A k)) ->
  cvgmx S A L -> hermitian L.
Proof.
move=> inf hA cA i j; apply: cvg_unique inf (cA j i) _.
by apply: cvg_ext (cvg_conj (cA i j)) => k Sk; rewrite (hA k Sk i j).
Qed.

Lemma cvg_possemidef n S (A : nat -> 'M[C]_n) L : infinite S -> (forall k, S k -> possemidef (A k)) ->
  cvgmx S A L -> possemidef L.
Proof. by move=> inf pA cA v; apply: cvg_ge0 inf _ (cvg_hform v cA) => k /pA; exact. Qed.
End Mx.
