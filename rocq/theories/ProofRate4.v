(** Repeated Donaldson steps converge at least as fast as a geometric sequence. *)
From Coq Require Import ZArith Lia Reals.
From mathcomp Require Import all_ssreflect all_algebra zify ssrZ ring.
From mathcomp Require Import complex.
From SsrMultinomials Require Import mpoly.
From Verif Require Import Base Herm Herm2 Herm3 Herm4 ModelUtil ModelBasis ModelDonaldson ModelAlg ModelPipe.
From Verif Require Import SpecGeom SpecBasis SpecPatch SpecAlg SpecDonaldson SpecPipe SpecStep.
From Verif Require Import ComplexR ProofAlg ProofAlg6 ProofPipe8 ProofDonaldson2 ProofDonaldson3
  ProofDonaldson4 ProofDonaldson5 ProofStep ProofStep2 ProofStep3 ProofStep5 ProofStep7 ProofStep8 Limits ProofRate ProofRate2 ProofRate3.
Delimit Scope Z_scope with Z.

Set Implicit Arguments.
Unset Strict Implicit.
Unset Printing Implicit Defensive.

Import GRing.Theory Num.Theory Order.POrderTheory.
Local Open Scope ring_scope.

Section Sequence.
Variables (C : numClosedFieldType).

Lemma cvg_n2 m n S (A : nat -> 'M[C]_(m, n)) L : cvgmx S A L -> cvg S (fun k => n2 (A k)) (n2 L).
Proof.
move=> cA; rewrite /n2; apply: cvg_sum => i.
apply: cvg_sum => j.
have c2 := cvg_mul (cvg_norm (cA i j)) (cvg_norm (cA i j)); rewrite expr2.
by apply: cvg_ext c2 => k _; rewrite expr2.
Qed.

Lemma cvg_tr n S (A : nat -> 'M[C]_n) L : cvgmx S A L -> cvg S (fun k => \tr (A k)) (\tr L).
Proof. by move=> cA; apply: cvg_sum => i; exact: cA. Qed.

(** steps of a geometric sequence bound the distance from the limit *)
Lemma tail_bound (f : nat -> C) a s : 0 <= a -> 0 < s < 1 -> cvg xpredT f 0 ->
  (forall j, `|f j.+1 - f j| <= a * s ^+ j) -> forall j, `|f j| <= a / (1 - s) * s ^+ j.
Proof.
move=> a0 /andP[s0 s1] cf H j; have s1' : 0 < 1 - s by rewrite subr_gt0.
pose b j := a / (1 - s) * s ^+ j.
have bS i : b i = a * s ^+ i + b i.+1.
  by rewrite /b exprS; have := lt0r_neq0 s1'; move: (s ^+ i) => x sn; field.
have b0 i : 0 <= b i by rewrite /b mulr_ge0 ?exprn_ge0 ?(ltW s0) // divr_ge0 // ltW.
have tel m : `|f j| <= `|f (j + m)%N| + b j - b (j + m)%N.
  elim: m => [|m IH]; first by rewrite addn0 addrK.
  apply: le_trans IH _; rewrite addnS [b (j + m)%N]bS opprD addrA ler_add2r ler_subl_addr addrAC ler_add2r.
  rewrite -ler_subl_addl; apply: le_trans (ler_sub_dist _ _) _; rewrite distrC; exact: H.
apply: (@cvg_le _ (fun n => (j <= n)%N) (fun=> `|f j|) (fun n => `|f n| + b j)).
- by move=> K; exists (maxn K j); rewrite ?leq_maxl ?leq_maxr.
- move=> n jn; have := tel (n - j)%N; rewrite subnKC // => h; apply: le_trans h _.
  by rewrite ler_subl_addr ler_addl.
- exact: cvg_const.
rewrite -[X in cvg _ _ X]add0r; apply: cvg_add; last exact: cvg_const.
by rewrite -[X in cvg _ _ X](normr0 C); apply: cvg_norm; apply: cvg_sub cf.
Qed.
End Sequence.

Section Rate.
Variables (C : numClosedFieldType) (N : nat) (vol : C) (bs : seq (seq (sample C N))).
Hypothesis good : good_sample vol bs.
Variables (hs : nat -> 'M[C]_N) (L : 'M[C]_N).
Hypotheses (bL : balanced vol bs L) (ind : indecomposable (flatten bs)).
Hypotheses (h0 : hermitian (hs 0%N)) (p0 : posdef (hs 0%N)) (it : iterates vol bs hs) (cv : converges_to hs L).

Lemma rate_late : exists (K : nat) (B s : C), [/\ 0 <= B, 0 < s < 1 & forall j, n2 (hs (K + j)%N - L) <= (B * s ^+ j) ^+ 2].
Proof.
have [hL pL EL] := bL; have [J [d [uJ JL _ _]]] := simdiag2 hL pL hL.
rewrite -one_diag mulmx1 in JL.
have [e [rho [e0 r01 step]]] := one_step good bL uJ JL ind.
have [pd _] := good_cycle good h0 p0 it.
set X := fun k => xi J (hs k).
have cX : cvgmx xpredT X 0.
  have cM : cvgmx xpredT (fun k => invmx J *m hs k *m adjm (invmx J)) (1%:M : 'M[C]_N).
    have -> : 1%:M = invmx J *m L *m adjm (invmx J).
      by rewrite JL !mulmxA mulVmx // mul1mx -adjm_mul mulVmx // adjm1.
    apply: cvgmx_mul; last exact: cvgmx_const.
    by apply: cvgmx_mul; [exact: cvgmx_const|apply/converges_cvg].
  move=> i j; apply: (@cvg_ext _ _ (fun k => (invmx J *m hs k *m adjm (invmx J)) i j - (1%:M : 'M[C]_N) i j)).
    by move=> k _; rewrite /X /xi [RHS]mxE [(- _ : 'M_N) _ _]mxE.
  by rewrite [X in cvg _ _ X]mxE; case: (cvg_to0 xpredT (fun k => (invmx J *m hs k *m adjm (invmx J)) i j) ((1%:M : 'M[C]_N) i j)) => H _; apply: H; exact: cM.
have [K HK] : exists K : nat, forall k, (K <= k)%N -> n2 (X k) <= e.
  have := cvg_n2 cX; have -> : n2 (0 : 'M[C]_N) = 0.
    by rewrite /n2 big1 // => i _; rewrite big1 // => j _; rewrite mxE normr0 expr0n.
  move=> /(_ e e0) [K HK]; exists K => k Kk; apply: ltW; have := HK k Kk isT.
  by rewrite subr0 ger0_norm ?n2_ge0.
have /andP[r0 r1] := r01.
have st k := step (hs k) (hs k.+1) (pd k).1 (pd k).2 (it k).
pose V j := n2 (tf (X (K + j)%N)); pose t j := ta (X (K + j)%N).
have V0 j : 0 <= V j by exact: n2_ge0.
have VS j : V j.+1 <= rho * V j.
  by rewrite /V addnS; have [|a _] := st (K + j)%N => //; apply: HK; rewrite leq_addr.
have tS j : `|t j.+1 - t j| ^+ 2 <= V j.
  by rewrite /V /t addnS; have [|_ a] := st (K + j)%N => //; apply: HK; rewrite leq_addr.
pose s := sqrtC rho; pose a := sqrtC (V 0%N).
have s0 : 0 < s by rewrite sqrtC_gt0.
have s1 : s < 1 by rewrite -[1]sqrtC1 ltr_sqrtC // ?nnegrE ?(ltW r0) ?ler01.
have a0 : 0 <= a by rewrite sqrtC_ge0.
have VE j : V j <= (a * s ^+ j) ^+ 2.
  rewrite exprMn exprAC !sqrtCK; elim: j => [|j IH]; first by rewrite expr0 mulr1.
  apply: le_trans (VS j) _; rewrite exprS mulrCA; apply: ler_wpmul2l => //; exact: ltW.
have as0 j : 0 <= a * s ^+ j by rewrite mulr_ge0 // exprn_ge0 // ltW.
have ct : cvg xpredT t 0.
  have := cvg_tr cX; rewrite mxtrace0 => c1 e1 e10; have [K1 HK1] := cvg_scale (N%:R)^-1 c1 e10.
  exists K1 => k Kk _; have := HK1 (K + k)%N (leq_trans Kk (leq_addl _ _)) isT.
  by rewrite mulr0 /t /ta mulrC.
have tb := tail_bound a0 (introT andP (conj s0 s1)) ct _.
have {}tb j : `|t j| <= a / (1 - s) * s ^+ j.
  apply: tb => i; rewrite -ler_sqr ?nnegrE ?normr_ge0 //.
  exact: le_trans (tS i) (VE i).
have sb : 0 <= a / (1 - s) by rewrite divr_ge0 // subr_ge0 ltW.
pose B := sqrtC (n2 J * (a ^+ 2 + N%:R * (a / (1 - s)) ^+ 2) * n2 (adjm J)).
have B0 : 0 <= n2 J * (a ^+ 2 + N%:R * (a / (1 - s)) ^+ 2) * n2 (adjm J).
  by rewrite !(mulr_ge0 (n2_ge0 _), mulr_ge0) ?n2_ge0 // addr_ge0 // ?(mulr_ge0 (ler0n _ _)) ?exprn_ge0.
exists K, B, s; split; rewrite ?sqrtC_ge0 ?s0 ?s1 // => j.
have -> : hs (K + j)%N - L = J *m X (K + j)%N *m adjm J.
  by rewrite {1}(xiK uJ (hs (K + j)%N)) mulmxDr mulmxDl mulmx1 -JL addrC addKr.
apply: le_trans (n2_mul _ _) _; rewrite exprMn sqrtCK mulrAC; apply: ler_wpmul2r; first exact: n2_ge0.
apply: le_trans (n2_mul _ _) _; rewrite -mulrA; apply: ler_wpmul2l; first exact: n2_ge0.
rewrite (n2_tf good) mulrDl; apply: ler_add; first by rewrite -exprMn; exact: VE.
rewrite -mulrA -exprMn; apply: ler_wpmul2l; first exact: ler0n.
by rewrite ler_sqr ?tb // nnegrE ?normr_ge0 //; apply: mulr_ge0 => //; rewrite exprn_ge0 // ltW.
Qed.

Lemma rate : exists K s : C, [/\ 0 <= K, 0 < s < 1 & forall k i j, `|hs k i j - L i j| <= K * s ^+ k].
Proof.
have [K [B [s [B0 /andP[s0 s1] H]]]] := rate_late.
pose F k := sqrtC (n2 (hs k - L)).
have F0 k : 0 <= F k by rewrite sqrtC_ge0 n2_ge0.
have en k i j : `|hs k i j - L i j| <= F k.
  rewrite -ler_sqr ?nnegrE ?normr_ge0 // sqrtCK; have := n2_entry (hs k - L) i j.
  by rewrite mxE [(- L) _ _]mxE.
have sn := lt0r_neq0 s0; have sk k : 0 < s ^+ k by rewrite exprn_gt0.
exists (\sum_(k < K) F k / s ^+ k + B / s ^+ K), s.
have S0 : 0 <= \sum_(k < K) F k / s ^+ k by apply: sumr_ge0 => k _; rewrite divr_ge0 // ltW.
have B1 : 0 <= B / s ^+ K by rewrite divr_ge0 // ltW.
split; rewrite ?addr_ge0 ?s0 // => k i j; apply: le_trans (en k i j) _.
have [kK|Kk] := ltnP k K.
  rewrite -ler_pdivr_mulr // (bigD1 (Ordinal kK)) //= -addrA ler_addl addr_ge0 //.
  by apply: sumr_ge0 => l _; rewrite divr_ge0 // ltW.
apply: (@le_trans _ _ (B / s ^+ K * s ^+ k)); last by rewrite ler_wpmul2r ?ler_addr // ltW.
rewrite -(subnKC Kk) exprD mulrA divfK ?lt0r_neq0 //; set j' := (k - K)%N.
by rewrite -ler_sqr ?nnegrE ?sqrtCK ?mulr_ge0 ?(ltW (sk _)) // H.
Qed.
End Rate.

Section Reals.
Variables (N : nat) (vol : CR) (bs : seq (seq (sample CR N))).
Hypothesis good : good_sample vol bs.

Lemma rate_stable hs : stable (flatten bs) -> hermitian (hs 0%N) -> posdef (hs 0%N) -> iterates vol bs hs ->
  exists L K s, [/\ balanced vol bs L, 0 <= K, 0 < s < 1 & forall k i j, `|hs k i j - L i j| <= K * s ^+ k].
Proof.
move=> st hh ph it; have [L bL cL] := stable_limit good st hh ph it.
have [K [s [K0 s01 H]]] := rate good bL (stable_indecomposable good st) hh ph it cL.
by exists L, K, s.
Qed.
End Reals.

Section Points.
Variable D : forall n : nat, ('rV[CR]_n -> CR) -> 'rV[CR]_n -> 'rV[CR]_n.
Hypothesis hD : diff_ok D.
Variables (lg ex : CR -> CR).
Variables (pi : CR) (m e : nat) (V : variety CR) (ps : seq CR) (Q : {mpoly CR[m.+2]}).
Hypotheses (hV : hypersurface V ps m e) (hQ : defined_by V ps Q) (pi0 : 0 < pi).
Hypothesis hS : smooth D V ps m.
Variable key : Type.
Variable draw : key -> seq CR -> nat -> res (seq (seq CR)).
Variables (k : nat) (B : basis).
Hypotheses (hB : basis_for k Q B) (k0 : (0 < k)%N).
Notation N := (size (power_matrix B)).

Lemma sampled_rate (splitn : key -> nat -> seq key) kk batches bs zss W :
  rseq [seq draw k' ps bs | k' <- splitn kk batches] = Ok zss ->
  (forall zs, zs \in zss -> size zs = bs /\ points_on V ps m zs) ->
  (forall z, z \in flatten zss -> has_weight pi e Q z (W z)) ->
  (forall v : 'rV[CR]_N, v != 0 -> exists2 z, z \in flatten zss & \sum_a v 0 a * hom_sections B z 0 a != 0) ->
  zss != [::] -> (0 < bs)%N ->
  let pts := [seq [seq (hom_sections B z, Some (W z)) | z <- zs] | zs <- zss] in let vol := avg W (flatten zss) in
  stable (flatten pts) ->
  forall hs : nat -> 'M[CR]_N, hermitian (hs 0%N) -> posdef (hs 0%N) ->
  (forall j, alg_donaldson_step D lg ex pi splitn m V draw true kk (hs j) ps vol batches bs = Ok (hs j.+1)) ->
  exists L K s, [/\ alg_donaldson_step D lg ex pi splitn m V draw true kk L ps vol batches bs = Ok L,
    0 <= K, 0 < s < 1 & forall j a b, `|hs j a b - L a b| <= K * s ^+ j].
Proof.
move=> Hd Hz HW sp ne bs0 pts vol H hs hh ph E.
have [g St] := sampled_step hD lg ex hV hQ pi0 hS hB k0 Hd Hz HW sp ne bs0.
have It : iterates vol pts hs by move=> j; rewrite -St.
have [L [K [s [[hL pL EL] K0 s01 R]]]] := rate_stable g H hh ph It.
by exists L, K, s; split=> //; rewrite St.
Qed.
End Points.
