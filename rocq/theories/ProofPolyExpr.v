(** The defining function of a hypersurface as a polynomial: translation of
    expressions, uniqueness and homogeneity. *)
From Coq Require Import ZArith Lia Ascii String.
From mathcomp Require Import all_ssreflect all_algebra.
From mathcomp Require Import zify ssrZ.
From SsrMultinomials Require Import mpoly.
From Verif Require Import Base ModelUtil ModelProjective ModelStr ModelExpr ModelPoly ModelHom ModelVariety SpecPoly SpecHom SpecVariety.
From Verif Require Import Deriv Bridge PolyGrad SpecSections ProofSections ProofPatch ProofPoly ProofPoly2 ProofPoly3 ProofUtil ProofProjective ProofHom ProofHom2.
From Verif Require Import ProofVariety ProofVariety2 ProofVariety3.
Delimit Scope Z_scope with Z.

Set Implicit Arguments.
Unset Strict Implicit.
Unset Printing Implicit Defensive.

Import GRing.Theory Num.Theory Order.POrderTheory.
Local Open Scope ring_scope.

Section Vanish.
Variables (C : numClosedFieldType) (n : nat).
Implicit Types (p Q : {mpoly C[n]}).

Lemma peval_zero p : (forall z, peval p z = 0) -> p = 0.
Proof.
move=> H.
have D q i : (forall z, peval q z = 0) -> forall z, peval (q^`M(i)) z = 0.
  move=> Hq z; have := is_grad_unique (poly_grad q z) (is_grad_ext (fun y => esym (Hq y)) (is_grad_const 0 z)).
  by move/rowP/(_ i); rewrite !mxE.
have Dm m z : peval (p^`M[m]) z = 0.
  rewrite mderivm_foldr /=; move: z; elim: flatten => [//|i s IH] z /=; exact: D.
apply/mpolyP => m; rewrite mcoeff0; apply/eqP.
have E : (p^`M[m])@_0 = 0.
  rewrite -(Dm m 0) /peval mevalE; rewrite -[LHS]addr0.
  case: (boolP (0%MM \in msupp (p^`M[m]))) => s0.
    rewrite (perm_big _ (perm_to_rem s0)) /= big_cons big1 ?mulr1 // => [|i _]; last by rewrite mnm0E expr0.
    congr (_ + _); rewrite big_seq big1 // => m' m's.
    have m'0 : m' != 0%MM by move: m's; rewrite (mem_rem_uniq _ (msupp_uniq _)) inE => /andP[].
    have [i mi] : exists i, m' i != 0%N.
      apply/existsP; rewrite -negb_forall; apply/negP => /forallP a; case/eqP: m'0.
      by apply/mnmP => i; rewrite mnm0E; apply/eqP.
    by rewrite (bigD1 i) //= mxE expr0n (negbTE mi) mul0r mulr0.
  rewrite (memN_msupp_eq0 s0) add0r; rewrite big_seq big1 // => m' m's.
  have m'0 : m' != 0%MM by apply/eqP => e; rewrite e (negbTE s0) in m's.
  have [i mi] : exists i, m' i != 0%N.
    apply/existsP; rewrite -negb_forall; apply/negP => /forallP a; case/eqP: m'0.
    by apply/mnmP => i; rewrite mnm0E; apply/eqP.
  by rewrite (bigD1 i) //= mxE expr0n (negbTE mi) mul0r mulr0.
move: E => /eqP; rewrite mcoeff_mderivm addm0 mulrn_eq0 => /orP[|//].
rewrite -leqn0 leqNgt prodn_gt0 // => i; by rewrite ffact_gt0.
Qed.

Lemma peval_inj p Q : (forall z, peval p z = peval Q z) -> p = Q.
Proof.
move=> H; apply/eqP; rewrite -subr_eq0; apply/eqP/peval_zero => z.
by rewrite /peval mevalB -!/(peval _ _) H subrr.
Qed.

Lemma peval_homog Q e : (forall l z, peval Q (l *: z) = l ^+ e * peval Q z) -> Q \is e.-homog.
Proof.
move=> H; set k := mmeasure [measure of mdeg] Q.
have part := pihomog_partitionE (leqnn k).
have ev l z : peval Q (l *: z) = \sum_(d < k) l ^+ d * peval (pihomog [measure of mdeg] d Q) z.
  rewrite {1}part /peval raddf_sum; apply: eq_bigr => d _ /=.
  rewrite -hom_scale; last exact: pihomogP.
  by apply: meval_eq => i; rewrite mxE.
have zero d : d != e -> pihomog [measure of mdeg] d Q = 0.
  move=> de; have [dk|kd] := ltnP d k; last first.
    rewrite pihomogE big_seq_cond big1 // => m' /andP[ms /eqP md].
    have := msize_mdeg_lt ms; move: kd; rewrite /k -md; move=> kd lt; exfalso.
    have : (mdeg m' < msize Q)%N by [].
    by rewrite ltnNge kd.
  apply: peval_zero => z.
  pose A : {poly C} := \poly_(d < k) peval (pihomog [measure of mdeg] d Q) z - peval Q z *: 'X^e.
  have A0 : A = 0.
    apply: poly_zero_all => l; rewrite /A hornerD hornerN hornerZ hornerXn mulrC -H ev horner_poly.
    apply/eqP; rewrite subr_eq0; apply/eqP; apply: eq_bigr => i _; exact: mulrC.
  by have := congr1 (fun q : {poly C} => q`_d) A0; rewrite /A coefB coef_poly dk coefZ coefXn (negbTE de) mulr0 subr0 coef0.
rewrite homog_piE; apply/eqP; rewrite [RHS]part.
have [ek|ke] := ltnP e k.
  by rewrite (bigD1 (Ordinal ek)) //= big1 ?addr0 // => i ie; apply: zero; apply: contraNneq ie => E; apply/eqP/val_inj.
rewrite big1 => [|i _]; last by apply: zero; rewrite neq_ltn (leq_trans (ltn_ord i) ke).
rewrite {1}part big1 ?pihomog0 // => i _; by apply: zero; rewrite neq_ltn (leq_trans (ltn_ord i) ke).
Qed.

(** Expressions as polynomials, given polynomials for the symbols. *)
Variable f : sym -> {mpoly C[n]}.
Fixpoint epoly (e : expr C) : {mpoly C[n]} :=
  match e with
  | ENum c => c%:MP
  | EI => 'i%:MP
  | ESym s => f s
  | EAdd es => \sum_(v <- map epoly es) v
  | EMul es => \prod_(v <- map epoly es) v
  | EPow e n => epoly e ^+ n
  end.

Lemma epoly_eval e z : peval (epoly e) z = sem (fun s => peval (f s) z) e.
Proof.
elim/expr_nest_ind: e => [c||s|es IH|es IH|e k IH] //=.
- by rewrite /peval mevalC.
- by rewrite /peval mevalC.
- rewrite /peval raddf_sum -(map_ext_List IH) !big_map; exact: eq_bigr.
- rewrite /peval rmorph_prod -(map_ext_List IH) !big_map; exact: eq_bigr.
- by rewrite /peval rmorphX /= -/(peval _ _) IH.
Qed.
End Vanish.

Section Defining.
Variables (C : numClosedFieldType) (norm : expr C -> expr C) (m : nat).
Hypothesis nk : norm_ok norm.
Variables (P : poly C) (H : hompoly C) (ps : seq C).
Hypotheses (hP : hom_ok P) (hi : hom_init P = Ok H) (Ei : variable_indices P = dim_indices [:: m.+2]).
Hypothesis sps : size ps = size (parameters P).

Let one_nm : exists nm, variable_names P = [:: nm].
Proof.
have [[[_ _ s _] _ _] _ _ _] := hP; move: s; rewrite Ei; case: (variable_names P) => [//|nm [|]] // _.
by exists nm.
Qed.

Let l := [seq Z.of_nat i | i <- iota 0 m.+2].
Let sl : size l = m.+2. Proof. by rewrite size_map size_iota. Qed.

Definition sym_poly (vs : seq sym) (s : sym) : {mpoly C[m.+2]} :=
  if s \in vs then (if insub (index s vs) is Some i then 'X_i else 0) else (nth 0 ps (index s (parameters P)))%:MP.

Lemma defining_mpoly : exists Q : {mpoly C[m.+2]},
  [/\ forall z, defining norm H (row_seq z) (PArr ps) (PatchNone C) = Ok (peval Q z),
      forall (p : 'I_m.+2) z, defining norm H (row_seq z) (PArr ps) (PatchInt C (Z.of_nat p)) = Ok (peval (dehom p Q) z),
      forall Q', (forall z, defining norm H (row_seq z) (PArr ps) (PatchNone C) = Ok (peval Q' z)) -> Q' = Q &
      forall e, homogeneous P e -> Q \is e.-homog].
Proof.
have [nm En] := one_nm; have [wP _ _ uP] := hP.
pose vs := [seq merge_subscript nm i | i <- l].
have [_ _ [g [e [E se _]]]] := wP.
pose Q := epoly (sym_poly vs) e.
have QE z : peval Q z = F P nm l (row_seq z) ps.
  rewrite /Q epoly_eval /F /value E; apply: eq_sem => s /se.
  rewrite (all_syms_single En Ei) mem_cat -/vs /sym_poly /asg -/vs.
  case: (boolP (s \in vs)) => [sv _|_ /= _]; last by rewrite /peval mevalC.
  have li : (index s vs < m.+2)%N by rewrite -sl -(size_map (merge_subscript nm)) index_mem.
  by rewrite (insubT (fun i => i < m.+2)%N li) /peval mevalXU -nth_row_seq.
have call z : call_num P [:: PArr (row_seq z); PArr ps] [::] = Ok (peval Q z).
  by rewrite (call_F wP uP En Ei) ?size_row_seq // QE.
have D0 z : defining norm H (row_seq z) (PArr ps) (PatchNone C) = Ok (peval Q z).
  by rewrite /defining (transform_none norm _ _ hi) (call_kw _ _ En).
exists Q; split=> //.
- move=> p z; rewrite (@defining_call C norm P H nm _ _ _ hi En).
  have [||||//|v [E1 E2]] := @transform_valid C norm nk P H [:: m.+2] [:: row_seq z] ps [:: Z.of_nat p] hP hi Ei.
  + by [].
  + by [].
  + by case=> //=; rewrite size_row_seq.
  + by [].
  + by rewrite /valid_patch /= andbT; apply/andP; have := ltn_ord p; split; lia.
  move: E1 E2 => /= -> E2; rewrite -E2 homr_seq call dehom_eval; congr Ok; exact: meval_eq.
- by move=> Q' HQ; apply: peval_inj => z; have := HQ z; rewrite D0 => -[->].
- move=> d hd; apply: peval_homog => x z; rewrite !QE -(F_scale wP En Ei _ _ hd) ?size_row_seq ?sl //.
  congr (F _ _ _ _ _); symmetry; apply: row_seq_eq => [|i]; first by rewrite size_map size_row_seq.
  by rewrite (nth_map 0) ?size_row_seq // nth_row_seq mxE.
Qed.
End Defining.
