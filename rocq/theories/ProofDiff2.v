(** Forms of the differential.py lemmas used in PropsDiff.v. *)
From Coq Require Import ZArith Lia.
From mathcomp Require Import all_ssreflect all_algebra.
From mathcomp Require Import zify ring.
From Verif Require Import Base ModelUtil ModelProjective ModelDiff ProofUtil ProofUtil2
  ProofProjective Bridge Deriv Herm ProofDiff.
Delimit Scope Z_scope with Z.

Set Implicit Arguments.
Unset Strict Implicit.
Unset Printing Implicit Defensive.

Import GRing.Theory Num.Theory Order.POrderTheory.
Local Open Scope ring_scope.

Lemma jac_lemma (F : fieldType) n (G : 'rV[F]_n.+1) (d : 'I_n.+1) :
  exists J : 'M[F]_(n, n.+1),
  [/\ jacobian_embed (row_seq G) (Z.of_nat d) = Ok [seq row_seq (row r J) | r <- enum 'I_n],
      forall r c, J r (lift d c) = (r == c)%:R,
      forall r, J r d = - G 0 (lift d r) / G 0 d &
      G 0 d != 0 ->
        (forall r, \sum_c J r c * G 0 c = 0) /\
        (forall v : 'rV[F]_n.+1, \sum_c v 0 c * G 0 c = 0 ->
           exists! u : 'rV[F]_n, v = u *m J)].
Proof.
exists (Jm G d); split; [exact: jacobian_embed_rows|exact: Jm_lift|exact: Jm_d|].
move=> nz; split=> [r|v Hv].
  have := congr1 (fun A => fun_of_matrix A r 0) (Jm_ker nz); rewrite !mxE => E.
  by rewrite -[RHS]E; apply: eq_bigr => c _; rewrite [G^T _ _]mxE.
exists (\row_r v 0 (lift d r)); split; first exact: Jm_span.
move=> u ->; apply/rowP => r; by rewrite mxE mulJ_lift.
Qed.

Section Ind.
Variable C : numClosedFieldType.
Variable n : nat.
Implicit Types (G : 'rV[C]_n.+1) (g : 'M[C]_n.+1).

Lemma conj_rows m k (A : 'M[C]_(m, k)) :
  mx_rows m k [seq [seq x^* | x <- row] | row <- [seq row_seq (row r A) | r <- enum 'I_m]]
  = map_mx conjC A.
Proof.
apply/matrixP => i j; rewrite mxE -[X in nth [::] X]map_comp (nth_map i) ?size_enum_ord //.
rewrite nth_ord_enum /= (nth_map 0) ?size_row_seq // nth_row_seq.
by rewrite !mxE.
Qed.

Lemma Jm_conj G d : Jm (conj_rv G) d = map_mx conjC (Jm G d).
Proof.
apply/matrixP => r c; rewrite [RHS]mxE; case: (unliftP d c) => [c' ->|->].
  by rewrite !Jm_lift cjn.
by rewrite !Jm_d !mxE !cjE.
Qed.

Lemma einsum_congr (J : 'M[C]_(n, n.+1)) g :
  (\matrix_(i, k) \sum_j \sum_l J i j * map_mx conjC J k l * g j l) = J *m g *m adjm J.
Proof.
apply/matrixP => i k; rewrite mxE [RHS]mxE exchange_big /=.
apply: eq_bigr => l _; rewrite adjmE [(J *m g) _ _]mxE mulr_suml; apply: eq_bigr => j _.
by rewrite mxE; exact: mulrAC.
Qed.

Lemma induced_lemma g G (d : 'I_n.+1) :
  induced_metric g (row_seq G) (Z.of_nat d) None = Ok (Jm G d *m g *m adjm (Jm G d)) /\
  induced_metric g (row_seq G) (Z.of_nat d) (Some (row_seq (conj_rv G))) =
  Ok (Jm G d *m g *m adjm (Jm G d)).
Proof.
rewrite /induced_metric jacobian_embed_rows /= mx_rows_row conj_rows einsum_congr.
by split=> //; rewrite jacobian_embed_rows /= mx_rows_row Jm_conj einsum_congr.
Qed.

Lemma induced_full g G (d : 'I_n.+1) : exists J : 'M[C]_(n, n.+1), exists h : 'M[C]_n,
  [/\ jacobian_embed (row_seq G) (Z.of_nat d) = Ok [seq row_seq (row r J) | r <- enum 'I_n],
      induced_metric g (row_seq G) (Z.of_nat d) None = Ok h,
      h = J *m g *m adjm J,
      induced_metric g (row_seq G) (Z.of_nat d) (Some (row_seq (conj_rv G))) = Ok h &
      (hermitian g -> hermitian h) /\ (posdef g -> posdef h)].
Proof.
have [E1 E2] := induced_lemma g G d.
exists (Jm G d), (Jm G d *m g *m adjm (Jm G d)); split=> //.
  exact: jacobian_embed_rows.
split; first exact: hermitian_congr.
by move=> H; apply: posdef_congr => // v; exact: Jm_inj.
Qed.

Lemma volume_lemma g G (d : 'I_n.+1) h : G 0 d != 0 ->
  induced_metric g (row_seq G) (Z.of_nat d) None = Ok h ->
  \det h * `|G 0 d| ^+ 2 = \det (g + G^T *m adjm G^T) - \det g.
Proof. by move=> nz; rewrite (induced_lemma g G d).1 => -[<-]; exact: vol_lemma. Qed.

Lemma volume_indep g G (d d' : 'I_n.+1) h h' : G 0 d != 0 -> G 0 d' != 0 ->
  induced_metric g (row_seq G) (Z.of_nat d) None = Ok h ->
  induced_metric g (row_seq G) (Z.of_nat d') None = Ok h' ->
  \det h * `|G 0 d| ^+ 2 = \det h' * `|G 0 d'| ^+ 2.
Proof. by move=> n1 n2 H1 H2; rewrite (volume_lemma n1 H1) (volume_lemma n2 H2). Qed.
End Ind.

Section Implicit.
Variable C : numClosedFieldType.

(** The Jacobian of any differentiable local parametrisation of the zero set of
    Q by the independent coordinates. *)
Lemma implicit_lemma n (Q : 'rV[C]_n.+1 -> C) (phi : 'rV[C]_n -> 'rV[C]_n.+1)
    (x : 'rV[C]_n) (G : 'rV[C]_n.+1) (d : 'I_n.+1) (r : C) (J : 'M[C]_(n, n.+1)) :
  is_grad Q (phi x) G -> G 0 d != 0 -> 0 < r ->
  (forall v, norm1 v < r -> Q (phi (x + v)) = 0) ->
  (forall y a, phi y 0 (lift d a) = y 0 a) ->
  is_jac phi x J ->
  jacobian_embed (row_seq G) (Z.of_nat d) = Ok [seq row_seq (row a J) | a <- enum 'I_n].
Proof.
move=> HQ nz r0 Q0 ph HJ; rewrite jacobian_embed_rows; congr (Ok _).
suff -> : Jm G d = J by [].
have L a k : J a (lift d k) = (a == k)%:R.
  have E : is_grad (fun y => phi y 0 (lift d k)) x (delta_mx 0 k).
    by apply: is_grad_ext (is_grad_coord k x) => y; rewrite ph.
  by have := is_grad_unique (HJ (lift d k)) E => /rowP/(_ a); rewrite !mxE eqxx /=.
have Z : is_grad (fun y => Q (phi y)) x 0.
  by apply: is_grad_near r0 _ (is_grad_const 0 x) => v /Q0 ->.
have := is_grad_unique (is_grad_comp HJ HQ) Z.
move=> /rowP E; apply/matrixP => a c; case: (unliftP d c) => [k ->|->].
  by rewrite Jm_lift L.
rewrite Jm_d; have := E a; rewrite !mxE (bigD1_ord d) //=.
rewrite (bigD1 a) //= big1 ?addr0; last first.
  by move=> k ka; rewrite L eq_sym (negbTE ka) mul0r.
rewrite L eqxx mul1r => /eqP; rewrite addr_eq0 => /eqP E'.
by rewrite -E' mulfK.
Qed.
End Implicit.

Lemma jac_neg_witness :
  exists (G : seq rat) (rows : seq (seq rat)),
    jacobian_embed G (-1) = Ok rows /\ last 0 G != 0 /\
    \sum_(c < size G) nth 0 (nth [::] rows 0) c * nth 0 G c != 0.
Proof.
exists [:: 1; 2%:R; 3%:R]; eexists; split; first by [].
by rewrite !big_ord_recl big_ord0.
Qed.

Lemma induced_example (C : numClosedFieldType) :
  exists h : 'M_1, induced_metric (1%:M : 'M_2) [:: 1; 2%:R : C] 1 None = Ok h /\ h 0 0 = 1 + 4%:R^-1.
Proof.
eexists; split; first by [].
have n2 : 2%:R != 0 :> C by rewrite pnatr_eq0.
rewrite !mxE !(big_ord_recl, big_ord0) !mxE /= !cjE.
have -> : 4%:R = 2%:R * 2%:R :> C by rewrite -natrM.
by field.
Qed.
