(** Linear changes of the homogeneous coordinates: the sections of a full basis. *)
From Coq Require Import ZArith Lia.
From mathcomp Require Import all_ssreflect all_algebra.
From mathcomp Require Import zify ssrZ ring.
From SsrMultinomials Require Import mpoly.
From Verif Require Import Base ModelUtil ModelProjective SpecMon ModelBasis ModelGeom ModelVariety
  Bridge Deriv Herm SpecGeom SpecBasis SpecSections SpecPatch SpecPipe PolyGrad ProofBasis ProofBasis3 ProofSections ProofPolyExpr ProofSymmetry2.
From Verif Require Import SpecLinear.
Delimit Scope Z_scope with Z.

Set Implicit Arguments.
Unset Strict Implicit.
Unset Printing Implicit Defensive.

Import GRing.Theory Num.Theory Order.POrderTheory.
Local Open Scope ring_scope.

Section Full.
Variables (C : numClosedFieldType) (m k : nat) (B : basis).
Hypothesis EB : basis_full m.+1 k = Ok B.
Notation N := (size (power_matrix B)).
Let ex (a : 'I_N) : 'X_{1..m.+2} := [multinom nth 0%N (nth [::] (power_matrix B) a) (val j) | j < m.+2].

Let memB v : v \in power_matrix B <-> is_monomial m.+2 k v.
Proof. by have [B' [E _ _ _ H]] := full_class m.+1 k; move: EB; rewrite E => -[<-]. Qed.
Let uB : uniq (power_matrix B).
Proof. by move: EB; rewrite /basis_full basisE => -[<-] /=; exact: uniq_mons. Qed.

Lemma ex_inj : injective ex.
Proof.
move=> a b E; apply: val_inj; apply/eqP; rewrite -(nth_uniq [::] (ltn_ord a) (ltn_ord b) uB); apply/eqP.
have sz (c : 'I_N) : size (nth [::] (power_matrix B) c) = m.+2.
  by have /memB[] : nth [::] (power_matrix B) c \in power_matrix B by exact: mem_nth.
apply: (@eq_from_nth _ 0%N); first by rewrite !sz.
move=> l; rewrite sz => lm; have := congr1 (fun v : 'X_{1..m.+2} => v (Ordinal lm)) E.
by rewrite /= !mnmE.
Qed.

Lemma ex_deg a : mdeg (ex a) = k.
Proof.
have /memB[_ <-] : nth [::] (power_matrix B) a \in power_matrix B by exact: mem_nth.
by rewrite mdegE; apply: eq_bigr => j _; rewrite mnmE.
Qed.

Lemma ex_onto (v : 'X_{1..m.+2}) : mdeg v = k -> exists a, v = ex a.
Proof.
move=> dv; have vB : [seq v j | j : 'I_m.+2] \in power_matrix B.
  apply/memB; split; first by rewrite size_map size_enum_ord.
  by rewrite -dv mdegE; apply: eq_bigr => j _; rewrite (nth_map j) ?size_enum_ord // nth_ord_enum.
have lt : (index [seq v j | j : 'I_m.+2] (power_matrix B) < N)%N by rewrite index_mem.
exists (Ordinal lt); apply/mnmP => j; rewrite mnmE /= nth_index //.
by rewrite (nth_map j) ?size_enum_ord // nth_ord_enum.
Qed.

Lemma hom_span (P : {mpoly C[m.+2]}) : P \is k.-homog -> P = \sum_a P@_(ex a) *: 'X_[ex a].
Proof.
move=> /dhomogP hP; apply/mpolyP => v; rewrite raddf_sum /=.
have [dv|dv] := eqVneq (mdeg v) k.
  have [a ->] := ex_onto dv; rewrite (bigD1 a) //= mcoeffZ mcoeffX eqxx mulr1 big1 ?addr0 // => b ba.
  by rewrite mcoeffZ mcoeffX (inj_eq ex_inj) (negbTE ba) mulr0.
rewrite big1 => [|a _]; last first.
  rewrite mcoeffZ mcoeffX; case: eqP => [E|_]; last by rewrite mulr0.
  by move: dv; rewrite -E ex_deg eqxx.
by apply/memN_msupp_eq0; apply: contra dv => /hP /= ->.
Qed.

(** The sections are independent functions. *)
Lemma hom_free (X Y : 'M[C]_N) : (forall x : 'rV[C]_m.+2, hom_sections B (row_seq x) *m X = hom_sections B (row_seq x) *m Y) -> X = Y.
Proof.
move=> H; apply/matrixP => b c; apply/eqP; rewrite -subr_eq0.
have Z : \sum_a (X a c - Y a c) *: 'X_[ex a] = 0 :> {mpoly C[m.+2]}.
  apply: peval_zero => x; have /rowP/(_ c) := H x; rewrite !mxE => E.
  rewrite /peval raddf_sum /=; apply/eqP; move/eqP: E; rewrite -subr_eq0 -sumrB; apply: etrans; congr (_ == 0).
  by apply: eq_bigr => a _; rewrite mevalZ -mulrBr hsE /peval /mono mulrC.
have := congr1 (fun P => P@_(ex b)) Z; rewrite raddf_sum mcoeff0 (bigD1 b) //= mcoeffZ mcoeffX eqxx mulr1 big1 ?addr0 => [->//|a ab].
by rewrite mcoeffZ mcoeffX (inj_eq ex_inj) (negbTE ab) mulr0.
Qed.

Section Lin.
Variable A : 'M[C]_m.+2.
Let lf j : {mpoly C[m.+2]} := \sum_l A l j *: 'X_l.
Let mA a : {mpoly C[m.+2]} := \prod_j lf j ^+ ex a j.

Lemma lf_eval j x : peval (lf j) x = (x *m A) 0 j.
Proof. by rewrite /peval raddf_sum mxE; apply: eq_bigr => l _; rewrite /= mevalZ mevalXU mulrC. Qed.

Lemma mA_eval a x : peval (mA a) x = hom_sections B (row_seq (x *m A)) 0 a.
Proof.
rewrite hsE /peval rmorph_prod /mono mevalX; apply: eq_bigr => j _.
by rewrite rmorphX /= -[(lf j).@[_]]/(peval (lf j) x) lf_eval.
Qed.

Lemma mA_homog a : mA a \is k.-homog.
Proof.
apply: peval_homog => t x; rewrite !mA_eval -scalemxAl !hsE /peval.
have h : ('X_[ex a] : {mpoly C[m.+2]}) \is k.-homog by rewrite dhomogX /= ex_deg.
rewrite -(ProofPatch.hom_scale _ _ h); apply: meval_eq => j; by rewrite mxE.
Qed.

Lemma lin_exists : exists R : 'M[C]_N, lin_sections A R.
Proof.
exists (\matrix_(b, a) (mA a)@_(ex b)) => x; apply/rowP => a.
rewrite -mA_eval [X in peval X](hom_span (mA_homog a)) /peval raddf_sum mxE.
by apply: eq_bigr => b _; rewrite /= mevalZ mulrC hsE !mxE.
Qed.
End Lin.

Lemma lin_mul (A A' : 'M[C]_m.+2) (R R' : 'M[C]_N) : lin_sections A R -> lin_sections A' R' -> lin_sections (A *m A') (R *m R').
Proof. by move=> H H' x; rewrite mulmxA H' H mulmxA. Qed.

Lemma lin_unique (A : 'M[C]_m.+2) (R R' : 'M[C]_N) : lin_sections A R -> lin_sections A R' -> R = R'.
Proof. by move=> H H'; apply: hom_free => x; rewrite -H -H'. Qed.

Lemma lin_unit (A : 'M[C]_m.+2) : A \in unitmx -> exists R : 'M[C]_N,
  [/\ R \in unitmx, lin_sections A R & forall R', lin_sections A R' -> R' = R].
Proof.
move=> uA; have [R HR] := lin_exists A; have [R' HR'] := lin_exists (invmx A).
have H1 : lin_sections (1%:M : 'M[C]_m.+2) (1%:M : 'M[C]_N) by move=> x; rewrite !mulmx1.
have E : R *m R' = 1%:M by have := lin_mul HR HR'; rewrite mulmxV // => H; exact: lin_unique H H1.
exists R; split=> // [|R'' H]; first by have [] := mulmx1_unit E.
exact: lin_unique H HR.
Qed.
End Full.
