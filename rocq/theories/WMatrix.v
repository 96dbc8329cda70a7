(** Derivatives of determinants and inverses of matrices of functions. *)
From Coq Require Import ZArith.
From mathcomp Require Import all_ssreflect all_algebra.
From mathcomp Require Import perm ring.
From Verif Require Import Deriv Wirtinger.

Set Implicit Arguments.
Unset Strict Implicit.
Unset Printing Implicit Defensive.

Import GRing.Theory Num.Theory Order.POrderTheory.
Local Open Scope ring_scope.

Section Algebra.
Variable R : comRingType.

Definition set_row p (A : 'M[R]_p) (k : 'I_p) (r : 'I_p -> R) : 'M[R]_p :=
  \matrix_(i, j) (if i == k then r j else A i j).

Lemma cofactor_set_row p (A : 'M[R]_p) k r j : cofactor (set_row A k r) k j = cofactor A k j.
Proof.
case: p A k r j => [|p] A k r j; first by case: k.
rewrite /cofactor; congr (_ * \det _); apply/matrixP => i l; rewrite !mxE.
by rewrite eq_sym (negbTE (neq_lift k i)).
Qed.

Lemma det_set_row p (A : 'M[R]_p) k r : \det (set_row A k r) = \sum_j r j * cofactor A k j.
Proof.
rewrite (expand_det_row _ k); apply: eq_bigr => j _.
by rewrite cofactor_set_row mxE eqxx.
Qed.

Lemma tr_adj p (A D : 'M[R]_p) : \tr (\adj A *m D) = \sum_k \det (set_row A k (D k)).
Proof.
rewrite /mxtrace; under eq_bigr do rewrite mxE; rewrite exchange_big; apply: eq_bigr => k _ /=.
by rewrite det_set_row; apply: eq_bigr => j _; rewrite mxE mulrC.
Qed.
End Algebra.

Section Matrix.
Variables (C : numClosedFieldType) (n p : nat).
Implicit Types (A : 'rV[C]_n -> 'M[C]_p) (z : 'rV[C]_n) (D E : 'I_n -> 'M[C]_p).

(** all entries differentiable *)
Definition is_wmx A z D E : Prop :=
  forall i j, is_wgrad (fun y => A y i j) z (fun a => D a i j) (fun a => E a i j).

Lemma wgrad_det A z D E : is_wmx A z D E ->
  is_wgrad (fun y => \det (A y)) z (fun a => \tr (\adj (A z) *m D a)) (fun a => \tr (\adj (A z) *m E a)).
Proof.
move=> H.
have P (s : {perm 'I_p}) : is_wgrad (fun y => (-1) ^+ s * \prod_i A y i (s i)) z
    (fun a => (-1) ^+ s * (\sum_k \prod_i (if i == k then D a k (s k) else A z i (s i))))
    (fun a => (-1) ^+ s * (\sum_k \prod_i (if i == k then E a k (s k) else A z i (s i)))).
  apply: wgrad_scale.
  apply: (wgrad_prod (f := fun i y => A y i (s i)) (g := fun i a => D a i (s i)) (c := fun i a => E a i (s i))).
    exact: index_enum_uniq.
  by move=> i _; exact: H.
have T (F : 'I_n -> 'M[C]_p) a : \sum_(s : {perm 'I_p}) (-1) ^+ s *
      (\sum_k \prod_i (if i == k then F a k (s k) else A z i (s i))) = \tr (\adj (A z) *m F a).
  rewrite tr_adj; under [LHS]eq_bigr do rewrite mulr_sumr; rewrite exchange_big; apply: eq_bigr => k _ /=.
  apply: eq_bigr => s _; congr (_ * _); apply: eq_bigr => i _; rewrite mxE.
  by case: eqP => [->|].
by apply: wgrad_eq (wgrad_sum (index_enum _) (fun s _ => P s)) => a; exact: T.
Qed.
End Matrix.

Section Inverse.
Variables (C : numClosedFieldType) (n p : nat).
Implicit Types (A : 'rV[C]_n -> 'M[C]_p) (z : 'rV[C]_n) (D E : 'I_n -> 'M[C]_p).

Lemma wmx_minor A z D E (i j : 'I_p) : is_wmx A z D E ->
  is_wmx (fun y => row' i (col' j (A y))) z (fun a => row' i (col' j (D a))) (fun a => row' i (col' j (E a))).
Proof.
by move=> H k l; apply: wgrad_ext (wgrad_eq _ _ (H (lift i k) (lift j l))) => a; rewrite !mxE.
Qed.

Lemma wmx_unit A z D E : is_wmx A z D E -> A z \in unitmx ->
  exists2 r : C, 0 < r & forall y, norm1 (y - z) < r -> A y \in unitmx.
Proof.
move=> H u; have /wgrad_diff Hd := wgrad_det H.
have nz : \det (A z) != 0 by rewrite -unitfE.
have [r r0 Hr] := diff_nonzero Hd nz; exists r => // y /Hr[_ h].
by rewrite unitmxE unitfE.
Qed.

Lemma wmx_inv_exists A z D E : is_wmx A z D E -> A z \in unitmx ->
  exists D' E', is_wmx (fun y => invmx (A y)) z D' E'.
Proof.
move=> H u; have nz : \det (A z) != 0 by rewrite -unitfE.
have [r r0 Hr] := wmx_unit H u.
have K i j : exists gc : ('I_n -> C) * ('I_n -> C), is_wgrad (fun y => invmx (A y) i j) z gc.1 gc.2.
  have Hc := wgrad_scale ((-1) ^+ (j + i)) (wgrad_det (wmx_minor j i H)).
  have HH := wgrad_mul (wgrad_inv nz (wgrad_det H)) Hc.
  eexists (_, _); apply: (wgrad_near r0) HH => y /Hr uy.
  by rewrite /invmx uy !mxE.
have {}K ij : exists gc : ('I_n -> C) * ('I_n -> C), is_wgrad (fun y => invmx (A y) ij.1 ij.2) z gc.1 gc.2.
  exact: (K ij.1 ij.2).
have [gc Hgc] := fin_all_exists (fun ij : 'I_p * 'I_p => K ij).
exists (fun a => \matrix_(i, j) (gc (i, j)).1 a), (fun a => \matrix_(i, j) (gc (i, j)).2 a) => i j.
by apply: wgrad_eq (Hgc (i, j)) => a; rewrite mxE.
Qed.

Lemma wmx_mul A B z D E D' E' : is_wmx A z D E -> is_wmx B z D' E' ->
  is_wmx (fun y => A y *m B y) z (fun a => A z *m D' a + D a *m B z) (fun a => A z *m E' a + E a *m B z).
Proof.
move=> HA HB i j.
have H := wgrad_sum (index_enum _) (fun l (_ : true) => wgrad_mul (HA i l) (HB l j)).
apply: wgrad_ext (wgrad_eq _ _ H) => [y|a|a]; rewrite !mxE //.
  by rewrite big_split; congr (_ + _); apply: eq_bigr => l _; rewrite // mulrC.
by rewrite big_split; congr (_ + _); apply: eq_bigr => l _; rewrite // mulrC.
Qed.

Lemma wmx_inv A z D E : is_wmx A z D E -> A z \in unitmx ->
  is_wmx (fun y => invmx (A y)) z (fun a => - (invmx (A z) *m D a *m invmx (A z)))
                                  (fun a => - (invmx (A z) *m E a *m invmx (A z))).
Proof.
move=> H u; have [D' [E' H']] := wmx_inv_exists H u.
have [r r0 Hr] := wmx_unit H u.
have Hm := wmx_mul H H'.
have E0 (i j : 'I_p) : (forall a, (A z *m D' a + D a *m invmx (A z)) i j = 0) /\
                       (forall a, (A z *m E' a + E a *m invmx (A z)) i j = 0).
  have H1 := Hm i j.
  have H2 : is_wgrad (fun y => (A y *m invmx (A y)) i j) z (fun _ => 0) (fun _ => 0).
    apply: (wgrad_near r0) (wgrad_const ((1%:M : 'M[C]_p) i j) z) => y /Hr uy.
    by rewrite mulmxV.
  by have [e1 e2] := wgrad_unique H1 H2.
have S (X Y : 'M[C]_p) : A z *m X + Y *m invmx (A z) = 0 -> X = - (invmx (A z) *m Y *m invmx (A z)).
  move/eqP; rewrite addr_eq0 => /eqP h.
  by rewrite -[LHS](mulKmx u) h mulmxN mulmxA.
move=> i j; apply: wgrad_eq (H' i j) => a.
  rewrite -(S (D' a)) //; apply/matrixP => l q; by rewrite [RHS]mxE; case: (E0 l q).
rewrite -(S (E' a)) //; apply/matrixP => l q; by rewrite [RHS]mxE; case: (E0 l q).
Qed.

(** log det and its second derivative *)
Lemma wgrad_logdet (log : C -> C) A z D E : is_wmx A z D E -> A z \in unitmx ->
  is_deriv log (\det (A z)) (\det (A z))^-1 ->
  is_wgrad (fun y => log (\det (A y))) z (fun a => \tr (invmx (A z) *m D a)) (fun a => \tr (invmx (A z) *m E a)).
Proof.
move=> H u Hl; apply: wgrad_eq (wgrad_comp1 Hl (wgrad_det H)) => a;
  by rewrite /invmx u -scalemxAl mxtraceZ.
Qed.

Lemma wgrad_tr A z D E : is_wmx A z D E ->
  is_wgrad (fun y => \tr (A y)) z (fun a => \tr (D a)) (fun a => \tr (E a)).
Proof. by move=> H; apply: wgrad_sum => i _; exact: H. Qed.
End Inverse.
