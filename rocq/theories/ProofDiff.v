(** Lemmas about jacobian_embed and induced_metric. *)
From Coq Require Import ZArith Lia.
From mathcomp Require Import all_ssreflect all_algebra.
From mathcomp Require Import zify ring.
From Verif Require Import Base ModelUtil ModelProjective ModelDiff ProofUtil ProofUtil2
  ProofProjective Bridge Deriv Herm.
Delimit Scope Z_scope with Z.

Set Implicit Arguments.
Unset Strict Implicit.
Unset Printing Implicit Defensive.

Import GRing.Theory Num.Theory Order.POrderTheory.
Local Open Scope ring_scope.

Section Jac.
Variable F : fieldType.

(** The Jacobian as a matrix. *)
Definition Jm n (G : 'rV[F]_n.+1) (d : 'I_n.+1) : 'M[F]_(n, n.+1) :=
  \matrix_(r, c) (if unlift d c is Some c' then (r == c')%:R
                  else - G 0 (lift d r) / G 0 d).

Lemma Jm_d n (G : 'rV[F]_n.+1) d r : Jm G d r d = - G 0 (lift d r) / G 0 d.
Proof. by rewrite mxE unlift_none. Qed.
Lemma Jm_lift n (G : 'rV[F]_n.+1) d r c : Jm G d r (lift d c) = (r == c)%:R.
Proof. by rewrite mxE liftK. Qed.

Lemma zip_map2 (T U V : Type) (f : T -> U) (g : T -> V) s :
  zip (map f s) (map g s) = [seq (f x, g x) | x <- s].
Proof. by elim: s => //= x s ->. Qed.

Lemma jacobian_embed_rows n (G : 'rV[F]_n.+1) (d : 'I_n.+1) :
  jacobian_embed (row_seq G) (Z.of_nat d) =
  Ok [seq row_seq (row r (Jm G d)) | r <- enum 'I_n].
Proof.
have dn : (d < size (row_seq G))%N by rewrite size_row_seq.
rewrite /jacobian_embed (pop_del 0) // size_row_seq /= nth_row_seq.
set col := map _ _.
have Ecol : col = [seq - G 0 (lift d r) / G 0 d | r <- enum 'I_n].
  have sE : size (enum 'I_n) = n by rewrite size_enum_ord.
  apply: (@eq_from_nth _ 0); rewrite size_map size_del // size_row_seq.
    by rewrite size_map sE.
  move=> k; rewrite /= => kn; rewrite (nth_map 0) ?size_del ?size_row_seq // nth_del //.
  rewrite (nth_map (Ordinal kn)) ?size_enum_ord //.
  rewrite -[k in nth (Ordinal kn) _ k]/(nat_of_ord (Ordinal kn)) nth_ord_enum.
  rewrite -(nth_row_seq G (lift d _)) /= /bump; congr (- _ / _); congr (nth _ _ _).
  by case: ltnP; lia.
rewrite /insert_col1 insert_colE; first last.
- by rewrite all_map; apply/allP.
- have -> : size (eye_rows F n) = n by rewrite size_map size_iota.
  by rewrite Ecol size_map size_map size_enum_ord.
congr Ok; rewrite Ecol /eye_rows.
rewrite -[X in zip (map _ X)]val_enum_ord -[X in zip X _]map_comp -[X in zip _ X]map_comp.
rewrite zip_map2 -map_comp.
apply: eq_map => r /=; set er := map _ _.
have ser : size er = n by rewrite size_map size_iota.
have dsz : (d <= size er)%N by rewrite ser -ltnS.
rewrite insert_ins //; apply: row_seq_eq => [|c].
  by rewrite size_ins // ser.
rewrite nth_ins // [RHS]mxE; case: (unliftP d c) => [c' ->|->]; last first.
  by rewrite ltnn eqxx Jm_d.
rewrite Jm_lift /= /bump.
have E : nth 0 er c' = (r == c')%:R.
  by rewrite /er (nth_map 0%N) ?size_iota // nth_iota.
case: (leqP d c') => dc.
  have -> : (1 + c' < d)%N = false by lia.
  have -> : ((1 + c')%N == d) = false by lia.
  by rewrite add1n /= E.
by rewrite add0n dc E.
Qed.

Lemma mx_rows_row m n (A : 'M[F]_(m, n)) :
  mx_rows m n [seq row_seq (row r A) | r <- enum 'I_m] = A.
Proof.
apply/matrixP => i j; rewrite mxE (nth_map i) ?size_enum_ord // nth_ord_enum.
by rewrite nth_row_seq mxE.
Qed.

Lemma Jm_ker n (G : 'rV[F]_n.+1) d : G 0 d != 0 -> Jm G d *m G^T = 0.
Proof.
move=> nz; apply/matrixP => r o; rewrite (ord1 o) !mxE (bigD1_ord d) //= Jm_d.
under eq_bigr do rewrite Jm_lift mxE.
rewrite (bigD1 r) //= eqxx mul1r big1 ?addr0; last first.
  by move=> k kr; rewrite eq_sym (negbTE kr) mul0r.
by rewrite mxE divfK // addNr.
Qed.

Lemma mulJ_lift n (G : 'rV[F]_n.+1) d (v : 'rV[F]_n) r : (v *m Jm G d) 0 (lift d r) = v 0 r.
Proof.
rewrite mxE; under eq_bigr do rewrite Jm_lift.
rewrite (bigD1 r) //= eqxx mulr1 big1 ?addr0 // => k kr.
by rewrite (negbTE kr) mulr0.
Qed.

Lemma Jm_inj n (G : 'rV[F]_n.+1) d (v : 'rV[F]_n) : v *m Jm G d = 0 -> v = 0.
Proof. by move=> H; apply/rowP => r; rewrite -(mulJ_lift G d) H !mxE. Qed.

Lemma Jm_span n (G : 'rV[F]_n.+1) d (v : 'rV[F]_n.+1) : G 0 d != 0 ->
  \sum_c v 0 c * G 0 c = 0 -> v = (\row_r v 0 (lift d r)) *m Jm G d.
Proof.
move=> nz H; apply/rowP => c; case: (unliftP d c) => [r ->|->].
  by rewrite mulJ_lift mxE.
rewrite mxE; under eq_bigr do rewrite Jm_d mxE mulrA.
rewrite -mulr_suml; under eq_bigr do rewrite mulrN.
move: H; rewrite (bigD1_ord d) //= => /eqP; rewrite addr_eq0 => /eqP H.
by rewrite sumrN -H mulfK.
Qed.

(** Rank-one determinant identity. *)
Definition Mm n (G : 'rV[F]_n.+1) (d : 'I_n.+1) : 'M[F]_n.+1 :=
  \matrix_(r, c) (if unlift d r is Some r' then Jm G d r' c else (c == d)%:R).

Lemma Mm_d n (G : 'rV[F]_n.+1) d c : Mm G d d c = (c == d)%:R.
Proof. by rewrite mxE unlift_none. Qed.
Lemma Mm_lift n (G : 'rV[F]_n.+1) d r c : Mm G d (lift d r) c = Jm G d r c.
Proof. by rewrite mxE liftK. Qed.

Lemma det_update n (X : 'M[F]_n.+1) d c :
  \det (X + c *: delta_mx d d) = \det X + c * \det (row' d (col' d X)).
Proof.
rewrite !(expand_det_row _ d).
have co j : cofactor (X + c *: delta_mx d d) d j = cofactor X d j.
  rewrite /cofactor; congr (_ * \det _); apply/matrixP => a b; rewrite !mxE.
  by rewrite eq_sym (negbTE (neq_lift _ _)) mulr0 addr0.
transitivity (\sum_j (X d j * cofactor X d j + c * ((j == d)%:R * cofactor X d j))).
  by apply: eq_bigr => j _; rewrite co !mxE eqxx /= eq_sym; ring.
rewrite big_split /= -mulr_sumr; congr (_ + c * _).
rewrite (bigD1 d) //= eqxx mul1r big1 ?addr0; last first.
  by move=> j jd; rewrite (negbTE jd) mul0r.
by rewrite /cofactor addnn -mul2n exprM sqrrN expr1n expr1n mul1r.
Qed.

Lemma det_Mm n (G : 'rV[F]_n.+1) d : \det (Mm G d) = 1.
Proof.
have -> : Mm G d = Mm G d + 0 *: delta_mx d d by rewrite scale0r addr0.
set A := Mm G d.
rewrite (expand_det_row _ d) (bigD1 d) //= scale0r addr0.
rewrite {1}/A Mm_d eqxx mul1r big1 ?addr0; last first.
  by move=> j jd; rewrite Mm_d (negbTE jd) mul0r.
rewrite /cofactor addnn -mul2n exprM sqrrN expr1n expr1n mul1r.
have -> : row' d (col' d A) = 1%:M; last exact: det1.
by apply/matrixP => a b; rewrite !(mxE, liftK).
Qed.
End Jac.

Section Vol.
Variable C : numClosedFieldType.

Lemma minor_Mm n (g : 'M[C]_n.+1) G d :
  row' d (col' d (Mm G d *m g *m adjm (Mm G d))) = Jm G d *m g *m adjm (Jm G d).
Proof.
apply/matrixP => a b; rewrite [LHS]mxE [LHS]mxE [LHS]mxE [RHS]mxE.
apply: eq_bigr => k _; rewrite !adjmE Mm_lift; congr (_ * _).
by rewrite mxE [RHS]mxE; apply: eq_bigr => l _; rewrite Mm_lift.
Qed.

Lemma Mm_G n (G : 'rV[C]_n.+1) d : G 0 d != 0 ->
  Mm G d *m G^T = G 0 d *: delta_mx d 0.
Proof.
move=> nz; apply/matrixP => r o; rewrite (ord1 o) [RHS]mxE [RHS]mulrC.
case: (unliftP d r) => [r' ->|->].
  have := congr1 (fun A => fun_of_matrix A r' 0) (Jm_ker nz).
  rewrite !mxE => E; rewrite eq_sym (negbTE (neq_lift _ _)) /= mul0r -[RHS]E.
  by apply: eq_bigr => c _; rewrite Mm_lift.
rewrite mxE (bigD1 d) //= Mm_d eqxx mul1r big1 ?addr0; last first.
  by move=> j jd; rewrite Mm_d (negbTE jd) mul0r.
by rewrite !mxE !eqxx mul1r.
Qed.

Lemma vol_lemma n (g : 'M[C]_n.+1) (G : 'rV[C]_n.+1) d : G 0 d != 0 ->
  \det (Jm G d *m g *m adjm (Jm G d)) * `|G 0 d| ^+ 2 =
  \det (g + G^T *m adjm G^T) - \det g.
Proof.
move=> nz; set M := Mm G d.
have dM : \det M = 1 by exact: det_Mm.
have dX (A : 'M[C]_n.+1) : \det (M *m A *m adjm M) = \det A.
  by rewrite !det_mulmx det_adjm dM rmorph1 mul1r mulr1.
have E : M *m (g + G^T *m adjm G^T) *m adjm M =
   M *m g *m adjm M + `|G 0 d| ^+ 2 *: delta_mx d d.
  rewrite mulmxDr mulmxDl; congr (_ + _).
  rewrite mulmxA -mulmxA -adjm_mul Mm_G // adjm_scale -scalemxAl -scalemxAr scalerA.
  rewrite normCK; congr (_ *: _); apply/matrixP => a b.
  rewrite mxE big_ord1 !mxE /= andbT eqxx andbT cjn.
  by case: (a == d); case: (b == d); rewrite ?mul0r ?mulr0 ?mulr1.
by rewrite -dX E det_update minor_Mm dX addrC addKr mulrC.
Qed.
End Vol.
