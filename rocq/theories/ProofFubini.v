(** The multinomial theorem, and the algebraic metric for the H it gives. *)
From Coq Require Import ZArith Lia.
From mathcomp Require Import all_ssreflect all_algebra.
From mathcomp Require Import zify ssrZ ring.
From SsrMultinomials Require Import mpoly.
From Verif Require Import Base ModelUtil ModelProjective ModelBasis SpecBasis SpecSections SpecFubini.
From Verif Require Import Deriv Bridge PolyGrad ProofBasis ProofBasis3 ProofSections ProofPolyExpr ProofAlg5 ProofAlg6.
Delimit Scope Z_scope with Z.

Set Implicit Arguments.
Unset Strict Implicit.
Unset Printing Implicit Defensive.

Import GRing.Theory Num.Theory Order.POrderTheory.
Local Open Scope ring_scope.

Section Multinomial.
Variable C : numClosedFieldType.

Lemma coef_MXU n (p : {mpoly C[n]}) (i : 'I_n) m :
  (p * 'X_i)@_m = if m i == 0%N then 0 else p@_(m - U_(i)).
Proof.
case: eqP => [m0|/eqP m0]; last by rewrite -{1}(submK (m := U_(i)) (m' := m)) ?lep1mP // addmC mcoeffMX.
rewrite [p]mpolyE mulr_suml raddf_sum big1_seq //= => q _.
rewrite -scalerAl mcoeffZ -mpolyXD mcoeffX; case: eqP => [E|]; last by rewrite mulr0.
by move: m0; rewrite -E mnmDE mnm1E eqxx addn1.
Qed.

Definition mfact n (m : 'X_{1..n}) : C := (\prod_i (m i)`!)%:R.

Lemma mfact_ne0 n (m : 'X_{1..n}) : mfact m != 0.
Proof. by rewrite pnatr_eq0 -lt0n prodn_gt0 // => i; rewrite fact_gt0. Qed.

Lemma mfact_sub n (m : 'X_{1..n}) i : m i != 0%N -> mfact m = (m i)%:R * mfact (m - U_(i)).
Proof.
move=> mi; rewrite /mfact -natrM; congr (_%:R); rewrite (bigD1 i) //= [in RHS](bigD1 i) //= mulnA; congr (_ * _)%N.
  by rewrite mnmBE mnm1E eqxx subn1; case: (m i) mi => // k _; rewrite factS.
by apply: eq_bigr => j ji; rewrite mnmBE mnm1E eq_sym (negbTE ji) subn0.
Qed.

Lemma coef_power n k (m : 'X_{1..n}) :
  ((\sum_i 'X_i : {mpoly C[n]}) ^+ k)@_m = if mdeg m == k then k`!%:R / mfact m else 0.
Proof.
elim: k m => [|k IH] m.
  rewrite expr0 mcoeff1 mdeg_eq0; case: eqP => // ->.
  by rewrite /mfact big1 ?divr1 // => i _; rewrite mnmE.
rewrite exprSr mulr_sumr raddf_sum /=.
have E i : (((\sum_i 'X_i : {mpoly C[n]}) ^+ k) * 'X_i)@_m =
    (if mdeg m == k.+1 then (m i)%:R * (k`!%:R / mfact m) else 0).
  rewrite coef_MXU; case: eqP => [->|/eqP mi]; first by rewrite mul0r if_same.
  have dm : mdeg m = (mdeg (m - U_(i))).+1.
    by rewrite -{1}(submK (m := U_(i)) (m' := m)) ?lep1mP // mdegD mdeg1 addn1.
  rewrite IH dm eqSS; case: ifP => // _; by rewrite (mfact_sub mi) invfM [RHS]mulrCA mulVKf ?pnatr_eq0.
rewrite (eq_bigr _ (fun i _ => E i)); case: eqP => [dm|_]; last by rewrite big1.
by rewrite -mulr_suml -natr_sum -mdegE dm factS natrM mulrA.
Qed.

(** The multinomial theorem *)
Lemma mons_power n k (x : 'rV[C]_n) :
  \sum_(v <- mons n k) multinomial C k v * \prod_(j < n) x 0 j ^+ nth 0%N v j = (\sum_j x 0 j) ^+ k.
Proof.
pose T (v : seq nat) : 'X_{1..n} := [multinom nth 0%N v (val j) | j < n].
have -> : (\sum_j x 0 j) ^+ k = peval ((\sum_i 'X_i) ^+ k) x.
  by rewrite /peval rmorphX rmorph_sum /=; congr (_ ^+ _); apply: eq_bigr => i _; rewrite mevalXU.
have -> : (\sum_i 'X_i : {mpoly C[n]}) ^+ k = \sum_(v <- mons n k) multinomial C k v *: 'X_[T v].
  apply/mpolyP => m; rewrite coef_power raddf_sum /=.
  have sv v : v \in mons n k -> size v = n by move/is_monomialP => [].
  have Tv v : v \in mons n k -> (T v == m) = (v == m :> seq nat).
    move=> /sv s; apply/eqP/eqP => [<-|->]; last by apply/mnmP => j; rewrite mnmE -mnm_nth.
    apply: (@eq_from_nth _ 0%N) => [|j]; first by rewrite size_tuple.
    by rewrite s => jn; rewrite -[RHS]/(nth 0%N (T v) (Ordinal jn)) -mnm_nth mnmE.
  rewrite (eq_big_seq (fun v => if v == m :> seq nat then k`!%:R / mfact m else 0)); last first.
    move=> v vm; rewrite mcoeffZ mcoeffX Tv //; case: eqP => [->|]; last by rewrite mulr0.
    rewrite mulr1 /multinomial /mfact; congr (_ / _%:R).
    by rewrite big_tuple.
  rewrite -big_mkcond /= big_const_seq count_uniq_mem ?uniq_mons //.
  have -> : ((m : seq nat) \in mons n k) = (mdeg m == k).
    apply/idP/eqP => [/is_monomialP[_]|dm].
      by move=> <-; rewrite mdegE; apply: eq_bigr => j _; rewrite (mnm_nth 0%N).
    apply/is_monomialP; split; first by rewrite size_tuple.
    by rewrite -dm mdegE; apply: eq_bigr => j _; rewrite (mnm_nth 0%N).
  by case: eqP => _ //=; rewrite addr0.
rewrite /peval raddf_sum /=; apply: eq_bigr => v _; rewrite mevalZ mevalX; congr (_ * _).
by apply: eq_bigr => j _; rewrite mnmE.
Qed.

Variables (n k : nat) (p : 'I_n.+1) (B : basis).
Hypothesis hB : basis_full n k = Ok B.
Notation N := (size (power_matrix B)).
Notation sec := (@section_polys C n p (power_matrix B)).
Notation c s := (fubini_h C B 0 s).

Lemma full_mons : power_matrix B = mons n.+1 k /\ bdegree B = k.
Proof. by move: hB; rewrite /basis_full basisE => -[<-]. Qed.

Lemma sec_value (s : 'I_N) (z : 'rV[C]_n) :
  peval (sec s) z = \prod_(j < n.+1) homr p z 0 j ^+ nth 0%N (nth [::] (power_matrix B) s) j.
Proof. by rewrite dehom_eval mevalX; apply: eq_bigr => j _; rewrite mnmE. Qed.

Lemma sec_sum (z w : 'rV[C]_n) : \sum_s c s * peval (sec s) w * peval (sec s) z = (1 + \sum_i w 0 i * z 0 i) ^+ k.
Proof.
have [EB Ek] := full_mons; pose x : 'rV[C]_n.+1 := \row_j (homr p w 0 j * homr p z 0 j).
have -> : 1 + \sum_i w 0 i * z 0 i = \sum_j x 0 j.
  rewrite (bigD1_ord p) //= mxE !homr_patch mulr1; congr (_ + _).
  by apply: eq_bigr => i _; rewrite mxE !homr_lift.
rewrite -mons_power -EB (big_nth [::]) big_mkord; apply: eq_bigr => s _.
rewrite mxE Ek -mulrA !sec_value -big_split /=; congr (_ * _).
by apply: eq_bigr => j _; rewrite mxE exprMn.
Qed.

Lemma sec_poly (w : 'rV[C]_n) : \sum_s (c s * peval (sec s) w) *: sec s = (1 + \sum_i w 0 i *: 'X_i) ^+ k.
Proof.
apply: peval_inj => z; rewrite /peval raddf_sum rmorphX rmorphD rmorph1 rmorph_sum /=.
have -> : \sum_i (w 0 i *: 'X_i : {mpoly C[n]}).@[fun i => z 0 i] = \sum_i w 0 i * z 0 i.
  by apply: eq_bigr => i _; rewrite mevalZ mevalXU.
by rewrite -sec_sum; apply: eq_bigr => s _; rewrite mevalZ.
Qed.

Lemma mderiv_exp (q : {mpoly C[n]}) i j : (q ^+ j)^`M(i) = j%:R *: (q ^+ j.-1 * q^`M(i)).
Proof.
elim: j => [|j IH]; first by rewrite expr0 -mpolyC1 mderivC scale0r.
rewrite exprS mderivM IH; case: j {IH} => [|j]; first by rewrite expr0 !mulr1 mul1r scale0r mulr0 addr0 scale1r.
rewrite /= -scalerAr mulrA -exprS -[j.+2]addn1 natrD scalerDl scale1r addrC mulrC; congr (_ + _).
Qed.

Lemma mderiv_lin (w : 'rV[C]_n) i : (1 + \sum_i w 0 i *: 'X_i : {mpoly C[n]})^`M(i) = (w 0 i)%:MP.
Proof.
rewrite mderivD -mpolyC1 mderivC add0r raddf_sum /= (bigD1 i) //= mderivZ mderivU eqxx big1 ?addr0.
  by rewrite -mul_mpolyC mulr1.
by move=> j ji; rewrite mderivZ mderivU eq_sym (negbTE ji) scaler0.
Qed.
End Multinomial.
