(** Limit points of repeated Donaldson steps on one sample. *)
From Coq Require Import ZArith Lia.
From mathcomp Require Import all_ssreflect all_algebra zify ssrZ ring.
From Verif Require Import Base Herm Herm2 Herm3 Herm4 ModelDonaldson SpecDonaldson SpecStep ProofDonaldson2
  ProofDonaldson4 ProofDonaldson5 Limits.
Delimit Scope Z_scope with Z.

Set Implicit Arguments.
Unset Strict Implicit.
Unset Printing Implicit Defensive.

Import GRing.Theory Num.Theory Order.POrderTheory.
Local Open Scope ring_scope.

Section Near.
Variables (C : numClosedFieldType) (n : nat).
Implicit Types (g h M J : 'M[C]_n) (v : 'rV[C]_n).

Lemma hformB g h v : hform (g - h) v = hform g v - hform h v.
Proof. by rewrite !hformE mulmxBr mulmxBl mxE [(- _ : 'M_1) _ _]mxE. Qed.

Lemma loewnerE g h : loewner g h <-> forall v, hform g v <= hform h v.
Proof. by split=> H v; have := H v; rewrite hformB subr_ge0. Qed.

Lemma hform1 v : hform 1%:M v = \sum_i `|v 0 i| ^+ 2.
Proof. by rewrite one_diag hform_diag; apply: eq_bigr => i _; rewrite mxE mul1r. Qed.

Lemma dominated g h : hermitian g -> posdef g -> hermitian h -> exists2 b, 0 < b & loewner h (b *: g).
Proof.
move=> hg pg hh; have [J [d [uJ E1 E2 dr]]] := simdiag2 hg pg hh.
exists (1 + \sum_i `|d 0 i|).
  by rewrite ltr_paddr ?ltr01 // sumr_ge0.
apply/loewnerE => v; rewrite hform_scale E1 E2 !hform_Jd mulr_sumr; apply: ler_sum => i _.
rewrite [const_mx _ _ _]mxE mul1r; apply: ler_wpmul2r; first exact: exprn_ge0.
apply: le_trans (real_ler_norm (dr i)) _; rewrite (bigD1 i) //= addrCA ler_addl.
by rewrite addr_ge0 ?ler01 // sumr_ge0.
Qed.

Lemma abs2 (x y : C) : `|x| * `|y| <= (`|x| ^+ 2 + `|y| ^+ 2) / 2%:R.
Proof.
have n2 : 0 < (2%:R : C) by rewrite ltr0n.
rewrite ler_pdivl_mulr // -subr_ge0.
have -> : `|x| ^+ 2 + `|y| ^+ 2 - `|x| * `|y| * 2%:R = (`|x| - `|y|) ^+ 2 by move: `|x| `|y| => a b; ring.
by rewrite real_exprn_even_ge0 // rpredB ?normr_real.
Qed.

Lemma hform_small M v (e : C) : 0 <= e -> (forall i j, `|M i j| <= e) -> `|hform M v| <= e * n%:R * hform 1%:M v.
Proof.
move=> e0 H; rewrite /hform -/(hform 1%:M v).
apply: le_trans (ler_norm_sum _ _ _) _.
have le i : `|\sum_j v 0 i * M i j * (v 0 j)^*| <= \sum_j e * ((`|v 0 i| ^+ 2 + `|v 0 j| ^+ 2) / 2%:R).
  apply: le_trans (ler_norm_sum _ _ _) _; apply: ler_sum => j _.
  rewrite !normrM norm_conjC mulrAC mulrC; apply: ler_pmul => //; last exact: abs2.
  by rewrite mulr_ge0.
apply: le_trans (ler_sum _ (fun i _ => le i)) _.
under eq_bigr => i _ do rewrite -mulr_sumr -mulr_suml big_split /= sumr_const card_ord.
rewrite -mulr_sumr -mulr_suml big_split /= sumr_const card_ord -mulrA; apply: ler_wpmul2l => //.
rewrite hform1 sumrMnl -[(\sum_i _) *+ n]mulr_natl; move: (\sum_i _) n%:R => x y.
have -> : (y * x + y * x) / 2%:R = y * x by field.
by rewrite lexx.
Qed.

Lemma near_between g e : hermitian g -> posdef g -> 0 < e -> exists2 d, 0 < d & forall h, hermitian h ->
  (forall i j, `|h i j - g i j| < d) -> loewner ((1 - e) *: g) h /\ loewner h ((1 + e) *: g).
Proof.
move=> hg pg e0; have h1 : hermitian (1%:M : 'M[C]_n).
  by move=> i j; rewrite !mxE eq_sym rmorph_nat.
have [b b0 /loewnerE B] := dominated hg pg h1.
have nb : 0 < n.+1%:R * b by rewrite mulr_gt0 // ltr0n.
exists (e / (n.+1%:R * b)); first exact: divr_gt0.
move=> h hh H.
have small v : `|hform (h - g) v| <= e * hform g v.
  have d0 : 0 <= e / (n.+1%:R * b) by apply/ltW/divr_gt0.
  have /(_ v) := @hform_small (h - g) _ _ d0 => /(_ _) le.
  apply: le_trans (le _) _ => [i j|]; first by rewrite !mxE ltW.
  have h0 : 0 <= hform g v by exact: posdef_ge0.
  have le1 : e / (n.+1%:R * b) * n%:R * hform 1%:M v <= e / (n.+1%:R * b) * n%:R * (b * hform g v).
    by apply: ler_wpmul2l; [rewrite mulr_ge0 ?ler0n|rewrite -hform_scale; exact: B].
  apply: le_trans le1 _.
  have -> : e / (n.+1%:R * b) * n%:R * (b * hform g v) = e * hform g v * (n%:R / n.+1%:R).
    have b1 := lt0r_neq0 b0; have n1 : n.+1%:R != 0 :> C by rewrite pnatr_eq0.
    by move: (hform g v) n.+1%:R n1 => x y y0; field; rewrite y0 b1.
  rewrite -[X in _ <= X]mulr1; apply: ler_wpmul2l; first by rewrite mulr_ge0 // ltW.
  by rewrite ler_pdivr_mulr ?ltr0n // mul1r ler_nat.
have hr v : hform h v - hform g v \is Num.real by rewrite rpredB // hform_real.
split; apply/loewnerE => v; have := small v; rewrite hformB hform_scale real_ler_norml // => /andP[le1 le2].
  by rewrite mulrBl mul1r -subr_ge0 opprB addrA [_ + _ - _]addrAC -[_ * _]opprK subr_ge0.
by rewrite mulrDl mul1r -ler_subl_addl.
Qed.

Lemma between_near g h e : hermitian g -> posdef g -> hermitian h -> 0 <= e ->
  loewner ((1 - e) *: g) h -> loewner h ((1 + e) *: g) -> forall i j, `|h i j - g i j| <= e * \tr g.
Proof.
move=> hg pg hh e0 /loewnerE l1 /loewnerE l2 i j.
have hM : hermitian (h - g) by move=> a b; rewrite !mxE cjB -hh -hg.
have [J [d [uJ E1 E2 dr]]] := simdiag2 hg pg hM.
have dE k : d 0 k = hform (h - g) (row k (invmx J)).
  have -> : hform (h - g) (row k (invmx J)) = hform (J *m diag_mx d *m adjm J) (row k (invmx J)) by rewrite -E2.
  rewrite hform_Jd -row_mul mulVmx // (bigD1 k) //= !mxE eqxx normr1 expr1n mulr1 big1 ?addr0 // => a ak.
  by rewrite !mxE eq_sym (negPf ak) normr0 expr0n mulr0.
have gE k : hform g (row k (invmx J)) = 1.
  rewrite {1}E1 hform_Jd -row_mul mulVmx // (bigD1 k) //= !mxE eqxx normr1 expr1n mulr1 big1 ?addr0 // => a ak.
  by rewrite !mxE eq_sym (negPf ak) normr0 expr0n mulr0.
have de k : `|d 0 k| <= e.
  rewrite real_ler_norml // dE hformB gE; have := l1 (row k (invmx J)); have := l2 (row k (invmx J)).
  rewrite !hform_scale !gE !mulr1 => a1 a2; apply/andP; split; first by rewrite ler_subr_addr addrC.
  by rewrite ler_subl_addl.
have gii a : g a a = \sum_k `|J a k| ^+ 2.
  rewrite {1}E1 diag_const_mx mulmx1 mxE; apply: eq_bigr => k _; by rewrite mxE normCK.
have -> : h i j - g i j = \sum_k J i k * d 0 k * (J j k)^*.
  have := congr1 (fun A : 'M[C]_n => A i j) E2; rewrite [LHS]mxE [(- _ : 'M_n) _ _]mxE => ->.
  rewrite mxE; apply: eq_bigr => k _; rewrite [adjm _ _ _]mxE; congr (_ * _).
  rewrite mxE (bigD1 k) //= !mxE eqxx mulr1n big1 ?addr0 // => a ak.
  by rewrite mxE (negPf ak) mulr0n mulr0.
apply: le_trans (ler_norm_sum _ _ _) _.
have le k : `|J i k * d 0 k * (J j k)^*| <= e * ((`|J i k| ^+ 2 + `|J j k| ^+ 2) / 2%:R).
  rewrite !normrM norm_conjC [_ * `|d 0 k|]mulrC -mulrA; apply: ler_pmul => //; first by rewrite mulr_ge0.
  exact: abs2.
apply: le_trans (ler_sum _ (fun k _ => le k)) _.
rewrite -mulr_sumr -mulr_suml big_split /= -!gii; apply: ler_wpmul2l => //.
have tr_ge a : g a a <= \tr g.
  rewrite /mxtrace (bigD1 a) //= ler_addl; apply: sumr_ge0 => k _; apply: ltW; exact: posdef_diag.
by rewrite ler_pdivr_mulr ?ltr0n // mulr_natr mulr2n ler_add.
Qed.
End Near.

Section Cluster.
Variables (C : numClosedFieldType) (N : nat) (vol : C) (bs : seq (seq (sample C N))).
Hypothesis good : good_sample vol bs.

Lemma step_cvg S (hs : nat -> 'M[C]_N) (Hs : nat -> 'M[C]_N) g G :
  (forall k, hermitian (hs k)) -> (forall k, posdef (hs k)) -> hermitian g -> posdef g ->
  (forall k, donaldson_step true (hs k) vol bs = Ok (Hs k)) -> donaldson_step true g vol bs = Ok G ->
  cvgmx S hs g -> cvgmx S Hs G.
Proof.
case: good => eb v0 sp wp vE hh ph hg pg EH EG ch.
have uk k : T_of (hs k) vol (flatten bs) \in unitmx by exact: (step_Tu eb v0 sp wp (hh k) (ph k) (EH k)).
have ug : T_of g vol (flatten bs) \in unitmx by exact: (step_Tu eb v0 sp wp hg pg EG).
have cT : cvgmx S (fun k => T_of (hs k) vol (flatten bs)) (T_of g vol (flatten bs)).
  move=> a b; rewrite mxE.
  have c1 : cvg S (fun k => \sum_(p <- flatten bs) weight p * (p.1 0 a * (p.1 0 b)^*) / hform (hs k) p.1)
     (\sum_(p <- flatten bs) weight p * (p.1 0 a * (p.1 0 b)^*) / hform g p.1).
    apply: cvg_sum_in => p /wp[_ p0]; apply: cvg_scale; apply: cvg_inv.
    - by move=> k _; rewrite lt0r_neq0 // ph.
    - exact: cvg_hform.
    - by rewrite lt0r_neq0 // pg.
  by apply: cvg_ext (cvg_scale _ (cvg_mul c1 (cvg_const _ _))) => k _; rewrite mxE.
have ci := cvg_invmx (fun k _ => uk k) ug cT.
move=> a b; move: EG; rewrite /donaldson_step /= T_ofE // => -[<-]; rewrite mxE.
apply: cvg_ext (ci b a) => k _; move: (EH k); rewrite /donaldson_step /= T_ofE // => -[<-].
by rewrite mxE.
Qed.

Variable hs : nat -> 'M[C]_N.
Hypotheses (hh : hermitian (hs 0%N)) (ph : posdef (hs 0%N)) (it : iterates vol bs hs).

Lemma cluster_balanced S g : infinite S -> cvgmx S hs g -> posdef g -> balanced vol bs g.
Proof.
case: (good) => eb v0 sp wp vE inf cg pg.
have pd := steps_pd eb v0 sp wp hh ph it; have dt := steps_det eb v0 sp wp vE hh ph it.
have hg : hermitian g by apply: cvg_hermitian inf _ cg => k _; case: (pd k).
have [G EG] := step_ok eb v0 sp wp hg pg.
have cG := @step_cvg S hs (fun k => hs k.+1) g G (fun k => (pd k).1) (fun k => (pd k).2) hg pg it EG cg.
have [le eqv] := step_det eb v0 sp wp vE hg pg EG.
have up k : \det (hs k) <= \det g.
  apply: (@cvg_le _ (fun n => S n && (k <= n)%N) (fun _ => \det (hs k)) (fun n => \det (hs n))).
  - move=> K; have [n] := inf (maxn K k); rewrite geq_max => /andP[Kn kn] Sn.
    by exists n => //; rewrite Sn.
  - by move=> n /andP[_ kn]; apply: dt.
  - exact: cvg_const.
  - by apply: cvg_sub (cvg_det cg) => n /andP[].
have ge : \det G <= \det g.
  by apply: (cvg_le inf _ (cvg_det cG) (cvg_const S (\det g))) => n _; exact: up.
by split=> //; rewrite EG; congr Ok; apply/eqv/le_anti; rewrite le.
Qed.

Lemma cluster_converges S g : infinite S -> cvgmx S hs g -> posdef g -> cvgmx xpredT hs g.
Proof.
case: (good) => eb v0 sp wp vE inf cg pg; have bg := cluster_balanced inf cg pg.
have pd := steps_pd eb v0 sp wp hh ph it; have [hg _ Eg] := bg.
move=> i j e0 e0p.
have t0 : 0 <= \tr g by apply: sumr_ge0 => k _; apply/ltW/posdef_diag.
have tp : 0 < \tr g + 1 by rewrite ltr_paddl // ltr01.
have [e1 e1p [le1 le2]] : exists2 e, 0 < e & e <= 2%:R^-1 /\ e <= e0 / 2%:R / (\tr g + 1).
  have ep : 0 < e0 / 2%:R / (\tr g + 1) by rewrite !divr_gt0 // ltr0n.
  have hp : 0 < 2%:R^-1 :> C by rewrite invr_gt0 ltr0n.
  have [le|le] := real_leP (gtr0_real hp) (gtr0_real ep).
    by exists 2%:R^-1.
  by exists (e0 / 2%:R / (\tr g + 1)) => //; split=> //; exact: ltW.
have lt1 : 0 < 1 - e1.
  rewrite subr_gt0; apply: le_lt_trans le1 _; rewrite invf_lt1 ?ltr0n //.
  by rewrite (ltr_nat _ 1 2).
have [d d0 near] := near_between hg pg e1p.
have [n _ close] : exists2 n, S n & forall a b, `|hs n a b - g a b| < d.
  have [K HK] : exists K : nat, forall n, (K <= n)%N -> S n -> forall a b, `|hs n a b - g a b| < d.
    have H (ab : 'I_N * 'I_N) : exists K : nat, forall n, (K <= n)%N -> S n -> `|hs n ab.1 ab.2 - g ab.1 ab.2| < d.
      exact: cg.
    have [K HK] := fin_all_exists H; exists (\max_ab K ab) => n Kn Sn a b.
    by apply: (HK (a, b)) => //; apply: leq_trans Kn; exact: (leq_bigmax (a, b)).
  by have [n Kn Sn] := inf K; exists n => //; exact: HK.
have [b1 b2] := near _ (pd n).1 close.
have all_k k : loewner ((1 - e1) *: g) (hs (n + k)%N) /\ loewner (hs (n + k)%N) ((1 + e1) *: g).
  have it' : iterates vol bs (fun k => hs (n + k)%N) by move=> m; rewrite addnS; exact: it.
  have h0 : hermitian (hs (n + 0)%N) by case: (pd (n + 0)%N).
  have p0 : posdef (hs (n + 0)%N) by case: (pd (n + 0)%N).
  apply: (iterates_between eb v0 sp wp bg h0 p0 it' lt1) => //; rewrite ?addn0 //.
  by rewrite ltr_paddl ?ler01.
exists n => k nk _; have [c1 c2] := all_k (k - n)%N.
rewrite subnKC // in c1 c2.
have := between_near hg pg (pd k).1 (ltW e1p) c1 c2 i j => le.
apply: le_lt_trans le _.
apply: (@le_lt_trans _ _ (e0 / 2%:R)); last by rewrite -[X in _ < X]half2 ltr_addl half_gt0.
apply: le_trans (_ : e1 * (\tr g + 1) <= _); first by rewrite ler_wpmul2l ?ler_addl ?ler01 // ltW.
by rewrite -ler_pdivl_mulr.
Qed.
End Cluster.
