(** AlgebraicMetric.kahler_potential determines H. *)
From Coq Require Import ZArith Lia.
From mathcomp Require Import all_ssreflect all_algebra.
From mathcomp Require Import zify ssrZ ring.
From SsrMultinomials Require Import mpoly.
From Verif Require Import Base ModelUtil ModelProjective ModelDiff ModelExpr ModelPoly ModelHom ModelVariety ModelBasis ModelGeom ModelAlg ModelPipe ModelMC ModelML.
From Verif Require Import SpecMon SpecGeom SpecBasis SpecSections SpecPatch SpecPipe SpecAlg SpecFubini.
From Verif Require Import Deriv Bridge PolyGrad Herm ProofBasis ProofBasis3 ProofDiff ProofGeom4 ProofSections ProofPatch ProofAlg6 ProofFubini ProofFubini3
  ProofSymmetry2 ProofML ProofML2 ProofChol ProofIdent.
Delimit Scope Z_scope with Z.

Set Implicit Arguments.
Unset Strict Implicit.
Unset Printing Implicit Defensive.

Import GRing.Theory Num.Theory Order.POrderTheory.
Local Open Scope ring_scope.

Section Kahler.
Variables (C : numClosedFieldType) (lg ex : C -> C).
Hypothesis lgm : forall u v, 0 < u -> 0 < v -> lg (u * v) = lg u + lg v.
Hypothesis lgi : forall u v, 0 < u -> 0 < v -> lg u = lg v -> u = v.
Variables (pi : C) (m k : nat) (V : variety C) (B : basis).
Hypotheses (pi0 : pi != 0) (hV : v_coordinates V = Ok m.+2) (hB : basis_full m.+1 k = Ok B) (k0 : (0 < k)%N).
Notation N := (size (power_matrix B)).
Variable p : 'I_m.+2.
Let S (z : 'rV[C]_m.+1) : 'rV[C]_N := hom_sections B (row_seq (homr p z)).

Lemma kahler_code (M : 'M[C]_N) zs : size zs = m.+1 ->
  alg_kahler lg ex pi m V (HMat M) zs (Some (Z.of_nat p)) = Ok (lg (hform M (S (seq_row m.+1 zs))) / (pi * k%:R)).
Proof.
move=> sz; rewrite /alg_kahler /alg_point /v_dim_projective hV /= sz eqxx /= (secs lg ex hB p zs) /=; congr Ok.
have [_ dk] := full_mons hB; rewrite dk /kahler; congr (lg _ / _).
have E0 (s : 'I_N) : nth 0 [seq peval (section_polys C p s) (seq_row m.+1 zs) | s <- enum 'I_N] s = S (seq_row m.+1 zs) 0 s.
  by rewrite (nth_map s) ?size_enum_ord // nth_ord_enum hsE dehom_eval.
by apply: eq_bigr => s _; apply: eq_bigr => t _; rewrite /s_c !E0.
Qed.

Lemma S_neq0 z : S z != 0.
Proof.
apply/negP => /eqP E.
have [a Ha] : exists a : 'I_N, nth [::] (power_matrix B) a = [seq (if j == p then k else 0%N) | j : 'I_m.+2].
  have [-> _] := full_mons hB.
  have M : [seq (if j == p then k else 0%N) | j : 'I_m.+2] \in mons m.+2 k.
    apply/is_monomialP; split; first by rewrite size_map size_enum_ord.
    rewrite (bigD1 p) //= (nth_map p) ?size_enum_ord // nth_ord_enum eqxx big1 ?addn0 // => j jp.
    by rewrite (nth_map p) ?size_enum_ord // nth_ord_enum (negbTE jp).
  have lt : (index [seq (if j == p then k else 0%N) | j : 'I_m.+2] (mons m.+2 k) < size (mons m.+2 k))%N by rewrite index_mem.
  by exists (Ordinal lt); rewrite /= nth_index.
have := congr1 (fun v : 'rV_N => v 0 a) E; rewrite /= hsE mxE /mono /peval mevalX Ha (bigD1 p) //= mnmE.
rewrite (nth_map p) ?size_enum_ord // nth_ord_enum eqxx homr_patch expr1n mul1r big1 => [/eqP|j jp]; first by rewrite oner_eq0.
by rewrite mnmE (nth_map p) ?size_enum_ord // nth_ord_enum (negbTE jp) expr0.
Qed.

Variables H H' : 'M[C]_N.
Hypotheses (h1 : hermitian H) (p1 : posdef H) (h2 : hermitian H') (p2 : posdef H').

Lemma kahler_h c : (forall zs a, size zs = m.+1 -> alg_kahler lg ex pi m V (HMat H) zs (Some (Z.of_nat p)) = Ok a ->
    alg_kahler lg ex pi m V (HMat H') zs (Some (Z.of_nat p)) = Ok (a + c)) ->
  exists r, [/\ 0 < r, H' = r *: H, c = lg r / (pi * k%:R) & c = 0 -> H' = H].
Proof.
move=> K; have pk : pi * k%:R != 0 by rewrite mulf_neq0 // pnatr_eq0 -lt0n.
have q1 z : 0 < hform H (S z) by apply: p1; exact: S_neq0.
have q2 z : 0 < hform H' (S z) by apply: p2; exact: S_neq0.
have L z : lg (hform H' (S z)) = lg (hform H (S z)) + c * (pi * k%:R).
  have sz : size (row_seq z) = m.+1 by rewrite size_row_seq.
  have := K _ _ sz (kahler_code H sz); rewrite (kahler_code H' sz) !row_seqK => -[E].
  by rewrite -[LHS](divfK pk) E mulrDl divfK.
pose r := hform H' (S 0) / hform H (S 0).
have r0 : 0 < r by rewrite divr_gt0.
have Er : lg r = c * (pi * k%:R).
  have := L 0; rewrite -[hform H' _](divfK (lt0r_neq0 (q1 0))) -/r lgm // addrC => /eqP.
  by rewrite (inj_eq (addrI _)) => /eqP.
have EH : H' = r *: H.
  apply: (patch_unique hB (p := p)) => z.
  have E : hform H' (S z) = r * hform H (S z) by apply: lgi (q2 z) (mulr_gt0 r0 (q1 z)) _; rewrite L lgm // Er addrC.
  rewrite -scalemxAr -scalemxAl; apply/matrixP => a b; rewrite !ord1 [RHS]mxE; move: E; rewrite !hformE; exact.
exists r; split=> //; first by rewrite Er mulfK.
move=> c0; rewrite EH; have -> : r = 1; last by rewrite scale1r.
have l1 : lg 1 = 0.
  by have := lgm ltr01 ltr01; rewrite mulr1 => /eqP; rewrite -subr_eq0 opprD addNKr oppr_eq0 => /eqP.
by apply: lgi r0 ltr01 _; rewrite l1 Er c0 mul0r.
Qed.

(** The Cholesky parameters *)
Lemma kahler_params (t t' : seq C) : size t = (N ^ 2)%N -> size t' = (N ^ 2)%N ->
  all (fun x => x \is Num.real) t -> all (fun x => x \is Num.real) t' ->
  all (fun x => 0 < x) (take N t) -> all (fun x => 0 < x) (take N t') ->
  cholesky_from_param t = Ok (SqMx H) -> cholesky_from_param t' = Ok (SqMx H') ->
  (forall zs, size zs = m.+1 -> alg_kahler lg ex pi m V (HMat H) zs (Some (Z.of_nat p)) =
    alg_kahler lg ex pi m V (HMat H') zs (Some (Z.of_nat p))) -> t = t'.
Proof.
move=> st st' rt rt' pt pt' Et Et' K; apply: (param_unique st st' rt rt' pt pt').
have [|r [_ _ _ /(_ erefl) E]] := @kahler_h 0; last by rewrite Et Et' E.
by move=> zs a sz E; rewrite -K // E addr0.
Qed.
End Kahler.

Lemma param_pd (C : numClosedFieldType) n (t : seq C) (H : 'M[C]_n) : size t = (n ^ 2)%N -> all (fun x => 0 < x) (take n t) ->
  cholesky_from_param t = Ok (SqMx H) -> hermitian H /\ posdef H.
Proof.
move=> st pt; have [H0 [-> hH _ pH] E] := from_param_square st.
have <- : H0 = H by move: E => /(congr1 (fun r => if r is Ok x then x else SqMx (0 : 'M[C]_0)))/sqmx_inj.
split=> //.
by apply/pH; apply/allP => x /(allP pt)/lt0r_neq0.
Qed.

Lemma params_of_kahler : forall (C : numClosedFieldType) (lg ex : C -> C),
  (forall u v, 0 < u -> 0 < v -> lg (u * v) = lg u + lg v) -> (forall u v, 0 < u -> 0 < v -> lg u = lg v -> u = v) ->
  forall (pi : C) (m k : nat) (V : variety C) (B : basis), pi != 0 -> v_coordinates V = Ok m.+2 ->
  basis_full m.+1 k = Ok B -> (0 < k)%N ->
  forall (p : 'I_m.+2) (H H' : 'M[C]_(size (power_matrix B))) (t t' : seq C), let N := size (power_matrix B) in
  size t = (N ^ 2)%N -> size t' = (N ^ 2)%N ->
  all (fun x => x \is Num.real) t -> all (fun x => x \is Num.real) t' ->
  all (fun x => 0 < x) (take N t) -> all (fun x => 0 < x) (take N t') ->
  cholesky_from_param t = Ok (SqMx H) -> cholesky_from_param t' = Ok (SqMx H') ->
  (forall zs, size zs = m.+1 -> alg_kahler lg ex pi m V (HMat H) zs (Some (Z.of_nat p)) =
    alg_kahler lg ex pi m V (HMat H') zs (Some (Z.of_nat p))) -> t = t'.
Proof.
move=> C lg ex lgm lgi pi m k V B pi0 hV hB k0 p H H' t t' N st st' rt rt' pt pt' Et Et' K.
have [_ p1] := param_pd st pt Et; have [_ p2] := param_pd st' pt' Et'.
exact: (@kahler_params _ lg ex lgm lgi pi m k V B pi0 hV hB k0 p H H').
Qed.
