(** Properties C19-C21: cyjax/differential.py. *)
From Coq Require Import ZArith.
From mathcomp Require Import all_ssreflect all_algebra all_field.
From Verif Require Import Base ModelUtil ModelProjective ModelDiff Bridge Deriv Herm
  ProofDiff ProofDiff2.
Delimit Scope Z_scope with Z.

Set Implicit Arguments.
Unset Strict Implicit.
Unset Printing Implicit Defensive.

Import GRing.Theory Num.Theory Order.POrderTheory.
Local Open Scope ring_scope.

(** C19: entries, tangency, and the rows are a basis of the kernel of G. *)
Theorem jacobian_embed_tangent : forall (F : fieldType) n (G : 'rV[F]_n.+1) (d : 'I_n.+1),
  exists J : 'M[F]_(n, n.+1),
  [/\ jacobian_embed (row_seq G) (Z.of_nat d) = Ok [seq row_seq (row r J) | r <- enum 'I_n],
      forall r c, J r (lift d c) = (r == c)%:R,
      forall r, J r d = - G 0 (lift d r) / G 0 d &
      G 0 d != 0 ->
        (forall r, \sum_c J r c * G 0 c = 0) /\
        (forall v : 'rV[F]_n.+1, \sum_c v 0 c * G 0 c = 0 ->
           exists! u : 'rV[F]_n, v = u *m J)].
Proof. exact jac_lemma. Qed.
Print Assumptions jacobian_embed_tangent.

(** C19: it is the Jacobian matrix of the embedding: [phi] is any differentiable
    map that parametrises the zero set of [Q] near [x] by the coordinates other
    than [d], and [G] is the gradient of [Q]. *)
Theorem jacobian_embed_is_jacobian : forall (C : numClosedFieldType) n
    (Q : 'rV[C]_n.+1 -> C) (phi : 'rV[C]_n -> 'rV[C]_n.+1)
    (x : 'rV[C]_n) (G : 'rV[C]_n.+1) (d : 'I_n.+1) (r : C) (J : 'M[C]_(n, n.+1)),
  is_grad Q (phi x) G -> G 0 d != 0 -> 0 < r ->
  (forall v, norm1 v < r -> Q (phi (x + v)) = 0) ->
  (forall y a, phi y 0 (lift d a) = y 0 a) ->
  is_jac phi x J ->
  jacobian_embed (row_seq G) (Z.of_nat d) = Ok [seq row_seq (row a J) | a <- enum 'I_n].
Proof. exact implicit_lemma. Qed.
Print Assumptions jacobian_embed_is_jacobian.

Example jacobian_embed_ex : jacobian_embed [:: 1; 2%:R; 4%:R : rat] 1 =
  Ok [:: [:: 1; - 2%:R^-1; 0]; [:: 0; - 2%:R; 1]].
Proof. by congr Ok; apply/eqP. Qed.

(** C68: with a negative dependent index the rows are not tangent. *)
Theorem jacobian_embed_negative_refuted :
  exists (G : seq rat) (rows : seq (seq rat)),
    jacobian_embed G (-1) = Ok rows /\ last 0 G != 0 /\
    \sum_(c < size G) nth 0 (nth [::] rows 0) c * nth 0 G c != 0.
Proof. exact jac_neg_witness. Qed.
Print Assumptions jacobian_embed_negative_refuted.

(** C20 *)
Theorem induced_metric_pullback : forall (C : numClosedFieldType) n
    (g : 'M[C]_n.+1) (G : 'rV[C]_n.+1) (d : 'I_n.+1),
  exists J : 'M[C]_(n, n.+1), exists h : 'M[C]_n,
  [/\ jacobian_embed (row_seq G) (Z.of_nat d) = Ok [seq row_seq (row r J) | r <- enum 'I_n],
      induced_metric g (row_seq G) (Z.of_nat d) None = Ok h,
      h = J *m g *m adjm J,
      induced_metric g (row_seq G) (Z.of_nat d) (Some (row_seq (conj_rv G))) = Ok h &
      (hermitian g -> hermitian h) /\ (posdef g -> posdef h)].
Proof. exact induced_full. Qed.
Print Assumptions induced_metric_pullback.

(** C21 *)
Theorem volume_ratio_closed_form : forall (C : numClosedFieldType) n
    (g : 'M[C]_n.+1) (G : 'rV[C]_n.+1) (d : 'I_n.+1) h,
  G 0 d != 0 -> induced_metric g (row_seq G) (Z.of_nat d) None = Ok h ->
  \det h * `|G 0 d| ^+ 2 = \det (g + G^T *m adjm G^T) - \det g.
Proof. exact volume_lemma. Qed.
Print Assumptions volume_ratio_closed_form.

Theorem volume_ratio_dependent_free : forall (C : numClosedFieldType) n
    (g : 'M[C]_n.+1) (G : 'rV[C]_n.+1) (d d' : 'I_n.+1) h h',
  G 0 d != 0 -> G 0 d' != 0 ->
  induced_metric g (row_seq G) (Z.of_nat d) None = Ok h ->
  induced_metric g (row_seq G) (Z.of_nat d') None = Ok h' ->
  \det h * `|G 0 d| ^+ 2 = \det h' * `|G 0 d'| ^+ 2.
Proof. exact volume_indep. Qed.
Print Assumptions volume_ratio_dependent_free.

(** n = 1, g = identity, G = (1, 2): the pulled back metric is 1 + 1/4 when the
    second coordinate is dependent. *)
Example induced_ex : forall C : numClosedFieldType,
  exists h : 'M_1, induced_metric (1%:M : 'M_2) [:: 1; 2%:R : C] 1 None = Ok h /\
  h 0 0 = 1 + 4%:R^-1.
Proof. exact induced_example. Qed.
