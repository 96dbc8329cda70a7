(** The Hermitian form of a product of algebraic metrics. *)
From Coq Require Import ZArith Lia.
From mathcomp Require Import all_ssreflect all_algebra.
From mathcomp Require Import zify ssrZ ring.
From SsrMultinomials Require Import mpoly.
From Verif Require Import Base ModelUtil ModelProjective ModelDiff ModelExpr ModelPoly ModelHom ModelVariety ModelBasis ModelGeom ModelAlg ModelPipe.
From Verif Require Import SpecBasis SpecSections SpecAlg SpecFubini SpecProduct Herm Herm2 Herm3.
From Verif Require Import Deriv Bridge PolyGrad ProofBasis ProofBasis3 ProofDiff ProofGeom4 ProofSections ProofPolyExpr ProofAlg ProofAlg6 ProofFubini.
Delimit Scope Z_scope with Z.

Set Implicit Arguments.
Unset Strict Implicit.
Unset Printing Implicit Defensive.

Import GRing.Theory Num.Theory Order.POrderTheory.
Local Open Scope ring_scope.

Section Mons.

Lemma nth_mon_mul v w j : size v = size w -> nth 0%N (mon_mul v w) j = (nth 0%N v j + nth 0%N w j)%N.
Proof.
move=> sz; case: (ltnP j (size v)) => jv.
  by rewrite (nth_map (0%N, 0%N)) ?size_zip ?sz ?minnn -?sz // nth_zip.
by rewrite !nth_default // -?sz // size_map size_zip -sz minnn.
Qed.

Lemma size_mon_mul v w n : size v = n -> size w = n -> size (mon_mul v w) = n.
Proof. by move=> sv sw; rewrite size_map size_zip sv sw minnn. Qed.

Lemma mon_mul_mem n k1 k2 v w : v \in mons n k1 -> w \in mons n k2 -> mon_mul v w \in mons n (k1 + k2).
Proof.
move=> /is_monomialP[sv dv] /is_monomialP[sw dw]; apply/is_monomialP; split; first exact: size_mon_mul.
rewrite -dv -dw -big_split /=; apply: eq_bigr => j _; rewrite nth_mon_mul // sv sw //.
Qed.

(** Every monomial of degree k1 + k2 is a product. *)
Lemma mon_split n k1 k2 u : u \in mons n (k1 + k2) -> exists v w, [/\ v \in mons n k1, w \in mons n k2 & u = mon_mul v w].
Proof.
elim: k1 u => [|k1 IH] u.
  rewrite add0n => /is_monomialP[su du]; exists (nseq n 0%N), u; split.
  - apply/is_monomialP; split; first by rewrite size_nseq.
    apply: big1 => i _; by rewrite nth_nseq if_same.
  - by apply/is_monomialP.
  apply: (@eq_from_nth _ 0%N) => [|j _]; first by rewrite (size_mon_mul (n := n)) ?size_nseq.
  by rewrite nth_mon_mul ?size_nseq // nth_nseq if_same.
move=> /is_monomialP[su du].
have [i ui] : exists i : 'I_n, (0 < nth 0 u i)%N.
  apply/existsP; apply: contraPT du => /existsPn H; rewrite big1 // => i _; apply/eqP.
  by have := H i; rewrite -eqn0Ngt.
pose u' := mkseq (fun j => nth 0 u j - (j == i))%N n.
have nu' (j : 'I_n) : nth 0%N u' j = (nth 0 u j - (j == i))%N by rewrite nth_mkseq.
have hu' : u' \in mons n (k1 + k2).
  apply/is_monomialP; split; first by rewrite size_mkseq.
  apply: succn_inj; rewrite -addSn -du (bigD1 i) //= [RHS](bigD1 i) //= nu' eqxx subn1 -addSn prednK //.
  congr (_ + _)%N; apply: eq_bigr => j ji; by rewrite nu' (negPf ji) subn0.
have [v [w [hv hw E]]] := IH u' hu'; have /is_monomialP[sv dv] := hv; have /is_monomialP[sw dw] := hw.
exists (mkseq (fun j => nth 0 v j + (j == i))%N n), w; split=> //.
  apply/is_monomialP; split; first by rewrite size_mkseq.
  rewrite (bigD1 i) //= nth_mkseq // eqxx addn1 addSn; congr S; rewrite -dv [RHS](bigD1 i) //=; congr (_ + _)%N.
  by apply: eq_bigr => j ji; rewrite nth_mkseq // (negPf ji : (j == i :> nat) = false) addn0.
apply: (@eq_from_nth _ 0%N) => [|j]; first by rewrite (size_mon_mul (n := n)) ?size_mkseq.
rewrite su => jn; rewrite nth_mon_mul ?size_mkseq ?sw // nth_mkseq //.
have := nu' (Ordinal jn); rewrite E nth_mon_mul ?sv ?sw //= => K; rewrite addnAC K; rewrite -val_eqE /=.
by case: eqP => [->|_]; rewrite ?addn0 ?subn0 // subnK.
Qed.
End Mons.

Section Form.
Variable C : numClosedFieldType.
Variables (n k1 k2 : nat) (B1 B2 B : basis).
Hypotheses (h1B : power_matrix B1 = mons n k1) (h2B : power_matrix B2 = mons n k2) (hB : power_matrix B = mons n (k1 + k2)).
Notation N1 := (size (power_matrix B1)).
Notation N2 := (size (power_matrix B2)).
Notation N := (size (power_matrix B)).
Notation pow1 := (fun a : 'I_N1 => nth [::] (power_matrix B1) a).
Notation pow2 := (fun a : 'I_N2 => nth [::] (power_matrix B2) a).

Definition mprod (a : 'I_N1 * 'I_N2) := mon_mul (pow1 a.1) (pow2 a.2).

Lemma mprod_mem a : mprod a \in power_matrix B.
Proof. by rewrite hB mon_mul_mem // -?h1B -?h2B mem_nth. Qed.

Lemma pidx_lt a : (index (mprod a) (power_matrix B) < N)%N.
Proof. by rewrite index_mem mprod_mem. Qed.
Definition pidx a : 'I_N := Ordinal (pidx_lt a).

Lemma nth_pidx a : nth [::] (power_matrix B) (pidx a) = mprod a.
Proof. by rewrite nth_index // mprod_mem. Qed.

Lemma pidxP (i : 'I_N) a : (nth [::] (power_matrix B) i == mprod a) = (i == pidx a).
Proof.
rewrite -nth_pidx nth_uniq //; by rewrite hB uniq_mons.
Qed.

Lemma pidx_onto i : exists a, i = pidx a.
Proof.
have : nth [::] (power_matrix B) i \in mons n (k1 + k2) by rewrite -hB mem_nth.
move=> /mon_split[v [w [hv hw E]]].
have iv : (index v (power_matrix B1) < N1)%N by rewrite index_mem h1B.
have iw : (index w (power_matrix B2) < N2)%N by rewrite index_mem h2B.
exists (Ordinal iv, Ordinal iw); apply/eqP; rewrite -pidxP /mprod /= !nth_index ?h1B ?h2B //; exact/eqP.
Qed.

Definition form M' (M : 'M[C]_M') (x y : 'I_M' -> C) := \sum_i \sum_j x i * M i j * y j.

Lemma form_eq M' (M : 'M[C]_M') x x' y y' : x =1 x' -> y =1 y' -> form M x y = form M x' y'.
Proof. by move=> E F; apply: eq_bigr => i _; apply: eq_bigr => j _; rewrite E F. Qed.
Lemma form_conj M' (M : 'M[C]_M') x y : hermitian M -> (form M x y)^* = form M (fun i => (y i)^*) (fun i => (x i)^*).
Proof.
move=> hM; rewrite /form rmorph_sum /= [RHS]exchange_big /=; apply: eq_bigr => i _; rewrite rmorph_sum; apply: eq_bigr => j _.
by rewrite /= !rmorphM -hM mulrC mulrA mulrAC.
Qed.

Variables (h1 : 'M[C]_N1) (h2 : 'M[C]_N2).
Notation H := (h_product B h1 h2).

Lemma h_productE i j : H i j = \sum_a \sum_b (i == pidx a)%:R * (j == pidx b)%:R * (h1 a.1 b.1 * h2 a.2 b.2).
Proof.
rewrite mxE; apply: eq_bigr => a _; apply: eq_bigr => b _; congr (_ * _).
by rewrite -!pidxP -natrM mulnb.
Qed.

Lemma form_pairs x y : form H x y = \sum_a \sum_b x (pidx a) * (h1 a.1 b.1 * h2 a.2 b.2) * y (pidx b).
Proof.
rewrite /form.
transitivity (\sum_i \sum_j \sum_a \sum_b x i * ((i == pidx a)%:R * (j == pidx b)%:R * (h1 a.1 b.1 * h2 a.2 b.2)) * y j).
  apply: eq_bigr => i _; apply: eq_bigr => j _; rewrite h_productE mulr_sumr mulr_suml; apply: eq_bigr => a _.
  by rewrite mulr_sumr mulr_suml.
under eq_bigr do rewrite exchange_big /=.
rewrite exchange_big /=; apply: eq_bigr => a _.
under eq_bigr do rewrite exchange_big /=.
rewrite exchange_big /=; apply: eq_bigr => b _.
rewrite (bigD1 (pidx a)) //= [X in _ + X]big1 => [|i ia]; last first.
  by apply: big1 => j _; rewrite (negPf ia) !mul0r mulr0 mul0r.
rewrite addr0 (bigD1 (pidx b)) //= big1 => [|j jb]; last by rewrite (negPf jb) mulr0 mul0r mulr0 mul0r.
by rewrite addr0 !eqxx !mul1r.
Qed.

(** The form on the tensor product *)
Definition pform (u v : 'I_N1 * 'I_N2 -> C) := \sum_a \sum_b u a * (h1 a.1 b.1 * h2 a.2 b.2) * v b.

Lemma form_pform x y u v : (forall a, x (pidx a) = u a) -> (forall a, y (pidx a) = v a) -> form H x y = pform u v.
Proof. by move=> Ex Ey; rewrite form_pairs; apply: eq_bigr => a _; apply: eq_bigr => b _; rewrite Ex Ey. Qed.

Lemma pformDl u u' v : pform (fun a => u a + u' a) v = pform u v + pform u' v.
Proof. by rewrite -big_split; apply: eq_bigr => i _; rewrite -big_split; apply: eq_bigr => j _; rewrite !mulrDl. Qed.
Lemma pformDr u v v' : pform u (fun a => v a + v' a) = pform u v + pform u v'.
Proof. by rewrite -big_split; apply: eq_bigr => i _; rewrite -big_split; apply: eq_bigr => j _; rewrite mulrDr. Qed.

Lemma pform_prod x1 x2 y1 y2 : pform (fun a => x1 a.1 * x2 a.2) (fun a => y1 a.1 * y2 a.2) = form h1 x1 y1 * form h2 x2 y2.
Proof.
rewrite [RHS]big_distrlr /= [RHS]pair_bigA /=; apply: eq_bigr => a _.
rewrite big_distrlr /= [RHS]pair_bigA /=; apply: eq_bigr => b _.
by move: (x1 _) (x2 _) (y1 _) (y2 _) (h1 _ _) (h2 _ _) => ? ? ? ? ? ?; ring.
Qed.

Lemma h_product_herm : hermitian h1 -> hermitian h2 -> hermitian H.
Proof.
move=> H1 H2 i j; rewrite !h_productE rmorph_sum exchange_big /=; apply: eq_bigr => a _.
rewrite rmorph_sum; apply: eq_bigr => b _ /=.
by rewrite !rmorphM !rmorph_nat /= -H1 -H2 [X in X * _]mulrC.
Qed.

Lemma h_product_pd : hermitian h1 -> posdef h1 -> posdef h2 -> posdef H.
Proof.
move=> hh1 p1 p2 v v0; have [L uL E1] := cholesky hh1 p1.
pose w l : 'rV[C]_N2 := \row_c \sum_a L a l * v 0 (pidx (a, c)).
have -> : hform H v = \sum_l hform h2 (w l).
  have -> : hform H v = form H (fun i => v 0 i) (fun i => (v 0 i)^*) by [].
  rewrite form_pairs.
  transitivity (\sum_l \sum_(a : 'I_N1 * 'I_N2) \sum_(b : 'I_N1 * 'I_N2)
     (L a.1 l * v 0 (pidx a)) * h2 a.2 b.2 * (L b.1 l * v 0 (pidx b))^*).
    rewrite [RHS]exchange_big /=; apply: eq_bigr => a _; rewrite [RHS]exchange_big /=; apply: eq_bigr => b _.
    rewrite {1}E1 mxE mulr_suml mulr_sumr mulr_suml; apply: eq_bigr => l _; rewrite adjmE rmorphM /=.
    by move: (L _ _) (L _ _)^* (h2 _ _) (v _ _) (v _ _)^* => ? ? ? ? ?; ring.
  apply: eq_bigr => l _; rewrite /hform.
  transitivity (\sum_a1 \sum_a2 \sum_(b : 'I_N1 * 'I_N2) (L a1 l * v 0 (pidx (a1, a2))) * h2 a2 b.2 * (L b.1 l * v 0 (pidx b))^*).
    by rewrite [RHS]pair_bigA; apply: eq_bigr => -[a c].
  rewrite exchange_big /=; apply: eq_bigr => c _.
    transitivity (\sum_a \sum_d \sum_b L a l * v 0 (pidx (a, c)) * h2 c d * (L b l * v 0 (pidx (b, d)))^*).
      apply: eq_bigr => a _; rewrite exchange_big pair_bigA /=; by apply: eq_bigr => -[b d].
    rewrite exchange_big /=; apply: eq_bigr => d _; rewrite [w _ _ _]mxE [w _ _ d]mxE !mulr_suml.
    by apply: eq_bigr => a _; rewrite rmorph_sum mulr_sumr.
have ge l : 0 <= hform h2 (w l).
  by have [->|wl] := eqVneq (w l) 0; [rewrite /hform big1 // => i _; rewrite big1 // => j _; rewrite !mxE !mul0r|rewrite ltW // p2].
have [l wl] : exists l, w l != 0.
  have [i vi] : exists i, v 0 i != 0 by apply/rV0Pn.
  have [[a c] E] := pidx_onto i.
  apply/existsP; apply: contraNT vi => /existsPn K.
  have K' l : \sum_a L a l * v 0 (pidx (a, c)) = 0.
    by have := K l; rewrite negbK => /eqP/rowP/(_ c); rewrite !mxE.
  pose y : 'rV[C]_N1 := \row_a v 0 (pidx (a, c)).
  have yL : y *m L = 0 by apply/rowP => l; rewrite !mxE -[RHS](K' l); apply: eq_bigr => b _; rewrite mxE mulrC.
  have y0 : y = 0 by rewrite -(mulmxK uL y) yL mul0mx.
  by rewrite E; have /rowP/(_ a) := y0; rewrite !mxE => ->.
by rewrite (bigD1 l) //=; apply: ltr_spaddl; [exact: p2|apply: sumr_ge0].
Qed.
End Form.
