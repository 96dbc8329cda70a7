(** Scale of H, eta, diagonal H, positivity. *)
From Coq Require Import ZArith Lia.
From mathcomp Require Import all_ssreflect all_algebra.
From mathcomp Require Import zify ssrZ ring.
From Verif Require Import Base ModelUtil ModelHom ModelDiff ModelGeom Deriv Bridge Wirtinger WMatrix SpecGeom Herm Herm2.
From Verif Require Import ProofProjective ProofDiff ProofDiff2 ProofGeom ProofGeom2 ProofGeom3.
Delimit Scope Z_scope with Z.

Set Implicit Arguments.
Unset Strict Implicit.
Unset Printing Implicit Defensive.

Import GRing.Theory Num.Theory Order.POrderTheory.
Local Open Scope ring_scope.

#[local] Hint Extern 0 (is_true (0 < _)) => solve [apply: ltr01 | apply: ltr0Sn] : core.

Section Scale.
Variables (C : numClosedFieldType) (N m : nat) (pi : C).
Notation n := m.+1.

(** congruences *)
Lemma g_proj_h_eq (p : C) (a a' b b' c c' : 'I_n -> 'I_n -> 'I_n -> C) k x i j :
  a x i j = a' x i j -> b x i j = b' x i j -> c x i j = c' x i j ->
  g_proj_h pi p a b c k x i j = g_proj_h pi p a' b' c' k x i j.
Proof. by rewrite /g_proj_h => -> -> ->. Qed.

Lemma ricci_proj_eq (gh gh' ga ga' : 'I_n -> 'M[C]_m) gha gha' gi :
  gh =1 gh' -> ga =1 ga' -> gha =2 gha' -> ricci_proj gh ga gha gi = ricci_proj gh' ga' gha' gi.
Proof.
move=> e1 e2 e3; apply/matrixP => a b; rewrite !mxE; congr (_ - _).
  apply: eq_bigr => i _; apply: eq_bigr => j _; apply: eq_bigr => k _; apply: eq_bigr => l _.
  by rewrite e1 e2.
by apply: eq_bigr => i _; apply: eq_bigr => j _; rewrite e3.
Qed.

Lemma g_loc_eq (gp gp' : 'I_n -> 'I_n -> C) J Jc : gp =2 gp' -> g_loc gp J Jc = g_loc gp' J Jc :> 'M_m.
Proof. by move=> e; apply/matrixP => r s; rewrite !mxE; apply: eq_bigr => i _; apply: eq_bigr => j _; rewrite e. Qed.

Lemma g_loc_h_eq (gp gp' : 'I_n -> 'I_n -> C) gh gh' (J : 'M[C]_(m, n)) Jh Jc a : gp =2 gp' ->
  (forall a i j, gh a i j = gh' a i j) -> g_loc_h gp gh J Jh Jc a = g_loc_h gp' gh' J Jh Jc a.
Proof.
move=> e e'; apply/matrixP => r s; rewrite !mxE; congr (_ + _);
by apply: eq_bigr => i _; apply: eq_bigr => j _; rewrite ?e ?e'.
Qed.

Lemma g_loc_ha_eq (gp gp' : 'I_n -> 'I_n -> C) ga ga' gh gh' gha gha' (J Jc : 'M[C]_(m, n)) Jh a b :
  gp =2 gp' -> (forall a i j, ga a i j = ga' a i j) -> (forall a i j, gh a i j = gh' a i j) ->
  (forall a b i j, gha a b i j = gha' a b i j) ->
  g_loc_ha gp ga gh gha J Jc Jh a b = g_loc_ha gp' ga' gh' gha' J Jc Jh a b.
Proof.
move=> e e1 e2 e3; apply/matrixP => r s; rewrite !mxE; congr (_ + _ + _ + _);
by apply: eq_bigr => i _; apply: eq_bigr => j _; rewrite ?e ?e1 ?e2 ?e3.
Qed.

Variable (c : C).
Hypothesis c0 : c != 0.

Lemma psi_scale (h : hvalue C N) s sc : psi (scale_h c h) s sc = c * psi h s sc.
Proof.
case: h => [M|v] /=; rewrite mulr_sumr; apply: eq_bigr => i _.
  by rewrite mulr_sumr; apply: eq_bigr => j _; rewrite mxE -!mulrA [s i * (c * _)]mulrCA.
by rewrite mxE -!mulrA [s i * (c * _)]mulrCA.
Qed.

Lemma psi_h_scale (h : hvalue C N) (s : 'I_N -> 'I_n -> C) sc a : psi_h (scale_h c h) s sc a = c * psi_h h s sc a.
Proof. by rewrite -[RHS](psi_scale h (s^~ a) sc); case: h. Qed.
Lemma psi_ha_scale (h : hvalue C N) (s sc : 'I_N -> 'I_n -> C) a b :
  psi_ha (scale_h c h) s sc a b = c * psi_ha h s sc a b.
Proof. by rewrite -[RHS](psi_scale h (s^~ a) (sc^~ b)); case: h. Qed.
Lemma psi_hha_scale (h : hvalue C N) (s : 'I_N -> 'I_n -> 'I_n -> C) sc a b d :
  psi_hha (scale_h c h) s sc a b d = c * psi_hha h s sc a b d.
Proof. by rewrite -[RHS](psi_scale h (fun i => s i a b) (sc^~ d)); case: h. Qed.
Lemma psi_hhaa_scale (h : hvalue C N) (s sc : 'I_N -> 'I_n -> 'I_n -> C) a b d e :
  psi_hhaa (scale_h c h) s sc a b d e = c * psi_hhaa h s sc a b d e.
Proof. by rewrite -[RHS](psi_scale h (fun i => s i a b) (fun i => sc i d e)); case: h. Qed.

Variable o : objects C N m.
Hypothesis psi0 : ob_psi o != 0.
Hypothesis cr : c^* = c.
Notation o' := (with_h (scale_h c (o_h o)) o).

Lemma obp : ob_psi o' = c * ob_psi o. Proof. exact: psi_scale. Qed.
Lemma obph a : ob_psi_h o' a = c * ob_psi_h o a. Proof. exact: psi_h_scale. Qed.
Lemma obpa a : ob_psi_a o' a = c * ob_psi_a o a.
Proof. by rewrite /ob_psi_a /psi_a obph cjM cr. Qed.
Lemma obpha a b : ob_psi_ha o' a b = c * ob_psi_ha o a b. Proof. exact: psi_ha_scale. Qed.

Lemma g_proj_scale i j : ob_g_proj pi o' i j = ob_g_proj pi o i j.
Proof.
rewrite /ob_g_proj /g_proj obp obph obpa obpha /=; congr (_ / _).
by field; rewrite c0 psi0.
Qed.

Lemma jac_scale : ob_jac o' = ob_jac o. Proof. by []. Qed.

Lemma g_loc_scale : ob_g_loc pi o' = ob_g_loc pi o.
Proof.
rewrite /ob_g_loc jac_scale; case: (ob_jac o) => //= J; congr Ok; apply: g_loc_eq => i j.
exact: g_proj_scale.
Qed.

Lemma eta_scale : ob_eta pi o' = ob_eta pi o.
Proof. by rewrite /ob_eta g_loc_scale. Qed.

Lemma hh_scale : match ob_psi_hh o' , ob_psi_hh o with
  | Ok f, Ok g => forall a b, f a b = c * g a b
  | Err _, Err _ => True
  | _, _ => False end.
Proof.
rewrite /ob_psi_hh /=; case: (o_h o) => [M|v] //= a b.
by rewrite -[RHS](psi_scale (HMat M) (fun i => o_s2 o i a b) (s_c (o_s o))).
Qed.

Lemma ricci_proj_scale : ob_ricci_proj pi o' = ob_ricci_proj pi o.
Proof.
have := hh_scale; rewrite /ob_ricci_proj /ob_g_loc_a g_loc_scale /ob_g_loc_h /ob_g_loc_ha jac_scale.
rewrite /ob_g_proj_a /ob_g_proj_h /ob_g_proj_ha /ob_two_haha /ob_three_haha /ob_two_hha.
case: (ob_jac o) => [J|e] //=; case E: (ob_psi_hh o') => [f|e]; case E2: (ob_psi_hh o) => [g|e'] // Hf /=;
  last by move: E E2; rewrite /ob_psi_hh /=; case: (o_h o) => //= v [->] [->].
case: (ob_g_loc pi o) => //= gl.
set gh' := g_proj_h _ _ _ _ _ _; set gh := g_proj_h _ (ob_psi o) _ _ _ _.
set gha' := g_proj_ha _ _ _ _ _ _ _; set gha := g_proj_ha _ (ob_psi o) _ _ _ _ _.
have E3 x y z : ob_psi_hha o' x y z = c * ob_psi_hha o x y z by exact: psi_hha_scale.
have E4 x y z t : ob_psi_hhaa o' x y z t = c * ob_psi_hhaa o x y z t by exact: psi_hhaa_scale.
have Egh a i j : gh' a i j = gh a i j.
  rewrite /gh' /gh /g_proj_h obp; congr (_ / _).
  rewrite E3 /two_hha /ob_three_hha /three_hha !obpa !Hf.
  rewrite /ob_psi_h_psi_ha /psi_h_psi_ha !obph !obpha.
  move: (ob_psi_hha o) (ob_psi_ha o) (ob_psi_a o) (ob_psi_h o) (ob_psi o) psi0 => A B a1 b1 p p0.
  by field; rewrite c0 p0.
have Egha a b i j : gha' a b i j = gha a b i j.
  rewrite /gha' /gha /g_proj_ha obp; congr (_ / _).
  rewrite /two_haha /three_haha /ob_four_haha /four_haha /two_hha.
  rewrite /ob_three_hha /three_hha /psi_hha_psi_a /psi_ha_psi_ha /psi_aa !obpa !Hf.
  rewrite /ob_psi_h_psi_ha /psi_h_psi_ha !obph !obpha.
  rewrite E4 !E3 !cjM cr.
  move: (ob_psi_hha o) (ob_psi_ha o) (ob_psi_a o) (ob_psi_h o) (ob_psi_hhaa o) (ob_psi o) psi0.
  move=> A B a1 b1 D p p0.
  by field; rewrite c0 p0.
congr Ok; apply: ricci_proj_eq => [a|a|a b].
- by apply: g_loc_h_eq => [i j|b i j]; [exact: g_proj_scale|exact: Egh].
- apply/matrixP => r s; rewrite !mxE; congr (_ + _)^*;
  by apply: eq_bigr => i _; apply: eq_bigr => j _; rewrite ?g_proj_scale ?Egh.
apply: g_loc_ha_eq => [i j|x i j|x i j|x y i j]; rewrite ?g_proj_scale ?Egh ?Egha //.
by rewrite /g_proj_a Egh.
Qed.

Lemma ricci_loc_scale : ob_ricci_loc pi o' = ob_ricci_loc pi o.
Proof. by rewrite /ob_ricci_loc ricci_proj_scale jac_scale. Qed.
Lemma ricci_scalar_scale : ob_ricci_scalar pi o' = ob_ricci_scalar pi o.
Proof. by rewrite /ob_ricci_scalar ricci_loc_scale g_loc_scale. Qed.
End Scale.

Section Eta.
Variables (C : numClosedFieldType) (N m : nat) (pi : C).
Notation n := m.+1.
Variables (o : objects C N m) (d : 'I_n).

Definition gpm : 'M[C]_n := \matrix_(i, j) ob_g_proj pi o i j.

Lemma g_loc_dep : o_dep o = Some (Z.of_nat d) ->
  ob_g_loc pi o = Ok (Jm (o_grad o) d *m gpm *m adjm (Jm (o_grad o) d)).
Proof.
move=> E; rewrite /ob_g_loc /ob_jac /ob_dependent E /= /jac jacobian_embed_rows /= mx_rows_row.
congr Ok; apply/matrixP => r s; rewrite /g_loc mxE exchange_big [RHS]mxE; apply: eq_bigr => j _ /=.
by rewrite [(_ *m gpm) _ _]mxE mulr_suml; apply: eq_bigr => i _; rewrite !mxE.
Qed.

Lemma eta_dep : o_dep o = Some (Z.of_nat d) -> o_grad o 0 d != 0 ->
  ob_eta pi o = Ok (\det (gpm + (o_grad o)^T *m adjm (o_grad o)^T) - \det gpm).
Proof.
move=> E nz; rewrite /ob_eta (g_loc_dep E) /= /ob_dependent E /= /eta.
have -> : py_pos n (Z.of_nat d) = Ok (d : nat).
  rewrite /py_pos; have := ltn_ord d; move: (nat_of_ord d) => k kn.
  have -> : (0 <=? Z.of_nat k)%Z && (Z.of_nat k <? Z.of_nat n)%Z = true by lia.
  by rewrite Nat2Z.id.
by rewrite /= nth_row_seq vol_lemma.
Qed.
End Eta.

Section Pos.
Variables (C : numClosedFieldType) (N m : nat) (pi : C).
Notation n := m.+1.
Variables (o : objects C N m) (M : 'M[C]_N).
Hypothesis Eh : o_h o = HMat M.
Hypothesis HM : hermitian M.
Hypothesis pi0 : 0 < pi.

Lemma gpm_herm : hermitian (gpm pi o).
Proof.
move=> i j; rewrite !mxE.
by have /esym := @g_herm C N m pi (fun _ => o) 0 M HM (fun _ => Eh) i j pi0.
Qed.

Lemma eta_real (d : 'I_n) : o_dep o = Some (Z.of_nat d) -> o_grad o 0 d != 0 ->
  exists2 e, ob_eta pi o = Ok e & e \is Num.real.
Proof.
move=> E nz; rewrite (eta_dep pi E nz) -(vol_lemma _ nz); eexists; first by [].
apply: realM; last by rewrite realX // normr_real.
rewrite CrealE -det_adjm; apply/eqP; congr (\det _); apply/hermitianP.
exact/hermitian_congr/gpm_herm.
Qed.

Lemma g_loc_pos (d : 'I_n) : o_dep o = Some (Z.of_nat d) -> o_grad o 0 d != 0 ->
  posdef (gpm pi o) ->
  exists g, [/\ ob_g_loc pi o = Ok g, posdef g & exists2 e, ob_eta pi o = Ok e & 0 < e].
Proof.
move=> E nz pd; rewrite (eta_dep pi E nz) (g_loc_dep pi E) -(vol_lemma _ nz); eexists; split; first by [].
  by apply: posdef_congr => // v; exact: Jm_inj.
eexists; first by [].
apply: mulr_gt0; last by rewrite exprn_gt0 // normr_gt0.
by apply/posdef_det/posdef_congr => // v; exact: Jm_inj.
Qed.

Let s : 'rV[C]_N := \row_a o_s o a.
Let S1 : 'M[C]_(n, N) := \matrix_(i, a) o_s1 o a i.

Lemma psiE : ob_psi o = hform M s.
Proof.
rewrite /ob_psi Eh /= /hform; apply: eq_bigr => i _; apply: eq_bigr => j _.
by rewrite !mxE.
Qed.

Lemma gpmE : gpm pi o = (o_degree o)%:R^-1 * pi^-1 *:
  ((ob_psi o)^-1 *: (S1 *m M *m adjm S1) - (ob_psi o)^-2 *: (S1 *m M *m adjm s *m (s *m M *m adjm S1))).
Proof.
have E1 i : (S1 *m M *m adjm s) i 0 = ob_psi_h o i.
  rewrite mxE /ob_psi_h Eh /= exchange_big; apply: eq_bigr => j _ /=.
  by rewrite mxE mulr_suml; apply: eq_bigr => a _; rewrite !mxE.
have E2 i : (s *m M *m adjm S1) 0 i = ob_psi_a o i.
  rewrite /ob_psi_a /psi_a -E1 mxE [in RHS]mxE cj_sum; apply/esym.
  under eq_bigr do rewrite mxE cjM cj_sum mulr_suml.
  rewrite exchange_big; apply: eq_bigr => a _ /=; rewrite [(s *m M) _ _]mxE mulr_suml.
  by apply: eq_bigr => b _; rewrite !mxE !cjE -HM mulrC [(_)^* * _]mulrC mulrA.
have EA i j : (S1 *m M *m adjm S1) i j = ob_psi_ha o i j.
  rewrite mxE /ob_psi_ha Eh /= exchange_big; apply: eq_bigr => b _ /=.
  by rewrite mxE mulr_suml; apply: eq_bigr => a _; rewrite !mxE.
have EB i j : (S1 *m M *m adjm s *m (s *m M *m adjm S1)) i j = ob_psi_h o i * ob_psi_a o j.
  by rewrite mxE big_ord1 E1 E2.
move: (S1 *m M *m adjm S1) (S1 *m M *m adjm s *m (s *m M *m adjm S1)) EA EB => A B EA EB.
apply/matrixP => i j; rewrite !mxE EA EB.
by rewrite /ob_g_proj /g_proj mulrC; congr (_ * (_ - _)); rewrite ?invfM // mulrC.
Qed.

Hypothesis pd : posdef M.
Hypothesis k0 : (0 < o_degree o)%N.
Hypothesis s0 : exists a, o_s o a != 0.

Lemma psi_gt0 : 0 < ob_psi o.
Proof.
rewrite psiE; apply: pd; have [a Ha] := s0; apply: contra_neq Ha => /rowP/(_ a).
by rewrite !mxE.
Qed.

Let w v : 'rV[C]_N := v *m S1 - ((v *m S1 *m M *m adjm s) 0 0 / ob_psi o) *: s.

Lemma hform_gpm v : hform (gpm pi o) v = ((o_degree o)%:R * pi * ob_psi o)^-1 * hform M (w v).
Proof.
have p0 := psi_gt0; have pn : ob_psi o != 0 by rewrite gt_eqF.
have pc : (ob_psi o)^* = ob_psi o by apply/CrealP/ger0_real/ltW.
have -> : ((o_degree o)%:R * pi * ob_psi o)^-1 = (o_degree o)%:R^-1 * pi^-1 * (ob_psi o)^-1.
  by rewrite !invfM.
rewrite gpmE !hformE -scalemxAr -scalemxAl [LHS]mxE -[RHS]mulrA; congr (_ * _).
set u := v *m S1; pose b : C := (u *m M *m adjm s) 0 0.
have bE : u *m M *m adjm s = b%:M by rewrite [LHS]mx11_scalar.
have bE' : s *m M *m adjm u = (b^*)%:M.
  have : adjm (u *m M *m adjm s) = s *m M *m adjm u.
    by rewrite adjm_mul adjmK adjm_mul (hermitianP M).1 // mulmxA.
  rewrite bE => <-; apply/matrixP => i j; rewrite !mxE eq_sym.
  by rewrite rmorphMn.
have sE : s *m M *m adjm s = (ob_psi o)%:M by rewrite [LHS]mx11_scalar psiE hformE.
have -> : w v *m M *m adjm (w v) = u *m M *m adjm u - (b * b^* / ob_psi o)%:M.
  rewrite /w -/u -/b !mulmxBl -!scalemxAl adjm_add -scaleN1r adjm_scale adjm_scale cjN cj1.
  rewrite !mulmxDr ?mulmxBl -?scalemxAr -?scalemxAl.
  rewrite bE bE' sE.
  move: (u *m M *m adjm u) => X; apply/matrixP => i j; rewrite !ord1 !mxE eqxx !mulr1n.
  rewrite !cjE pc; by field.
have -> : v *m ((ob_psi o)^-1 *: (S1 *m M *m adjm S1) -
      (ob_psi o)^-2 *: (S1 *m M *m adjm s *m (s *m M *m adjm S1))) *m adjm v =
  (ob_psi o)^-1 *: (u *m M *m adjm u) - ((ob_psi o)^-2 * b * b^*)%:M.
  rewrite mulmxBr mulmxBl -!scalemxAr -!scalemxAl !mulmxA -/u bE.
  rewrite -![_ *m adjm S1 *m adjm v]mulmxA -!adjm_mul -/u.
  rewrite -(mulmxA b%:M) -(mulmxA b%:M) bE'.
  by rewrite -scalar_mxM scale_scalar_mx mulrA.
clearbody b; move: (u *m M *m adjm u) => X; rewrite !mxE eqxx !mulr1n; move: (X 0 0) pn => x; by move: (ob_psi o) => p pn; field.
Qed.

Lemma gpm_semidef : possemidef (gpm pi o).
Proof.
move=> v; rewrite hform_gpm; apply: mulr_ge0.
  by rewrite invr_ge0 !mulr_ge0 ?ler0n // ltW // psi_gt0.
have [->|/pd/ltW//] := eqVneq (w v) 0.
by rewrite /hform big1 // => i _; rewrite big1 // => j _; rewrite mxE !mul0r.
Qed.

Lemma hform_gpm_pos (v : 'rV[C]_n) :
  (forall c : C, (forall a, \sum_i v 0 i * o_s1 o a i = c * o_s o a) -> False) -> 0 < hform (gpm pi o) v.
Proof.
have p0 := psi_gt0 => H; rewrite hform_gpm; apply: mulr_gt0; first by rewrite invr_gt0 !mulr_gt0 ?ltr0n.
apply: pd; apply/eqP => /eqP; rewrite subr_eq0 => /eqP wE.
apply: (H ((v *m S1 *m M *m adjm s) 0 0 / ob_psi o)) => a.
move/rowP/(_ a): wE; rewrite [RHS]mxE [s 0 a]mxE => <-.
by rewrite mxE; apply: eq_bigr => i _; rewrite mxE.
Qed.

Lemma gpm_pos : posdef (gpm pi o) <->
  forall (v : 'rV[C]_n) (c : C), (forall a, \sum_i v 0 i * o_s1 o a i = c * o_s o a) -> v = 0.
Proof.
have p0 := psi_gt0; have pn : ob_psi o != 0 by rewrite gt_eqF.
have vS v a : (v *m S1) 0 a = \sum_i v 0 i * o_s1 o a i.
  by rewrite mxE; apply: eq_bigr => i _; rewrite mxE.
split=> [Hp v c E|Hi v v0].
  have [//|/Hp] := eqVneq v 0.
  have uE : v *m S1 = c *: s by apply/rowP => a; rewrite vS E !mxE.
  have -> : hform (gpm pi o) v = 0; last by rewrite ltxx.
  rewrite hform_gpm /w uE -!scalemxAl mxE -hformE -psiE mulfK // subrr.
  by rewrite /hform big1 ?mulr0 // => i _; rewrite big1 // => j _; rewrite mxE !mul0r.
rewrite hform_gpm; apply: mulr_gt0; first by rewrite invr_gt0 !mulr_gt0 ?ltr0n.
apply: pd; apply: contra_neq v0 => /eqP; rewrite subr_eq0 => /eqP wE.
have [c cE] : exists c : C, v *m S1 = c *: s by eexists; exact: wE.
apply: (Hi _ c) => a.
by rewrite -vS cE !mxE.
Qed.
End Pos.

Section Diag.
Variables (C : numClosedFieldType) (N m : nat).
Notation n := m.+1.
Variables (v : 'rV[C]_N).

Lemma psi_diag s sc : psi (HVec v) s sc = psi (HMat (diag_mx v)) s sc.
Proof.
apply: eq_bigr => i _; rewrite (bigD1 i) //= big1 ?addr0; last first.
  by move=> j ji; rewrite mxE eq_sym (negbTE ji) mulr0 mul0r.
by rewrite mxE eqxx.
Qed.
Lemma psi_h_diag (s : 'I_N -> 'I_n -> C) sc a : psi_h (HVec v) s sc a = psi_h (HMat (diag_mx v)) s sc a.
Proof. exact: (psi_diag (s^~ a)). Qed.
Lemma psi_ha_diag (s sc : 'I_N -> 'I_n -> C) a b : psi_ha (HVec v) s sc a b = psi_ha (HMat (diag_mx v)) s sc a b.
Proof. exact: (psi_diag (s^~ a) (sc^~ b)). Qed.
Lemma psi_hha_diag (s : 'I_N -> 'I_n -> 'I_n -> C) sc a b d :
  psi_hha (HVec v) s sc a b d = psi_hha (HMat (diag_mx v)) s sc a b d.
Proof. exact: (psi_diag (fun i => s i a b) (sc^~ d)). Qed.
Lemma psi_hhaa_diag (s sc : 'I_N -> 'I_n -> 'I_n -> C) a b d e :
  psi_hhaa (HVec v) s sc a b d e = psi_hhaa (HMat (diag_mx v)) s sc a b d e.
Proof. exact: (psi_diag (fun i => s i a b) (fun i => sc i d e)). Qed.

Variables (o : objects C N m) (pi : C) (log : C -> C).
Notation ov := (with_h (HVec v) o).
Notation od := (with_h (HMat (diag_mx v)) o).

Lemma diag_agree : [/\ ob_psi ov = ob_psi od, ob_kahler log pi ov = ob_kahler log pi od,
  forall i j, ob_g_proj pi ov i j = ob_g_proj pi od i j,
  ob_g_loc pi ov = ob_g_loc pi od & ob_eta pi ov = ob_eta pi od].
Proof.
have Ep : ob_psi ov = ob_psi od by exact: psi_diag.
have Eg i j : ob_g_proj pi ov i j = ob_g_proj pi od i j.
  have Eh a : ob_psi_h ov a = ob_psi_h od a by exact: psi_h_diag.
  by rewrite /ob_g_proj /g_proj Ep /ob_psi_a /psi_a !Eh [ob_psi_ha ov _ _]psi_ha_diag.
have El : ob_g_loc pi ov = ob_g_loc pi od.
  have EJ : ob_jac ov = ob_jac od by [].
  rewrite /ob_g_loc EJ; case: (ob_jac od) => [J|//] /=; congr Ok.
  exact: g_loc_eq.
by split; rewrite // /ob_kahler ?Ep // /ob_eta El.
Qed.

Lemma diag_raises : [/\ ob_psi_hh ov = Err ValueError, ob_g_proj_h pi ov = Err ValueError,
  ob_g_proj_ha pi ov = Err ValueError & forall J, ob_jac o = Ok J ->
  [/\ ob_g_loc_h pi ov = Err ValueError, ob_g_loc_ha pi ov = Err ValueError,
       ob_ricci_loc pi ov = Err ValueError & ob_ricci_scalar pi ov = Err ValueError]].
Proof.
split=> // J EJ; have E : ob_jac ov = Ok J by [].
have E1 : ob_g_loc_h pi ov = Err ValueError by rewrite /ob_g_loc_h E.
by split; rewrite // /ob_g_loc_ha ?E // /ob_ricci_scalar /ob_ricci_loc /ob_ricci_proj E1.
Qed.
End Diag.

Section Dep.
Variables (C : numClosedFieldType) (N m : nat) (pi : C) (o : objects C N m).

(** Without a dependent index the coordinate with the largest gradient entry is
    used. *)
Lemma dep_default : o_dep o = None -> exists d : 'I_m.+1,
  [/\ ob_dependent o = Ok (Z.of_nat d), forall i, `|o_grad o 0 i| <= `|o_grad o 0 d|,
      ob_g_loc pi o = ob_g_loc pi (with_dep (Some (Z.of_nat d)) o),
      ob_eta pi o = ob_eta pi (with_dep (Some (Z.of_nat d)) o) &
      ob_ricci_loc pi o = ob_ricci_loc pi (with_dep (Some (Z.of_nat d)) o) /\
      ob_ricci_scalar pi o = ob_ricci_scalar pi (with_dep (Some (Z.of_nat d)) o)].
Proof.
move=> E; have [||d [Ed [dn dm _]]] := @argmaxP C [seq `|x| | x <- row_seq (o_grad o)].
- by rewrite -size_eq0 size_map size_row_seq.
- by move=> y /mapP[x _ ->]; exact: normr_real.
rewrite size_map size_row_seq in dn dm; pose D := Ordinal dn; exists D.
have E1 : ob_dependent o = Ok (Z.of_nat D) by rewrite /ob_dependent E Ed.
have E2 : ob_dependent (with_dep (Some (Z.of_nat D)) o) = ob_dependent o by rewrite E1.
have EJ : ob_jac o = ob_jac (with_dep (Some (Z.of_nat D)) o) by rewrite /ob_jac E2.
have El : ob_g_loc pi o = ob_g_loc pi (with_dep (Some (Z.of_nat D)) o) by rewrite /ob_g_loc EJ.
have Er : ob_ricci_proj pi o = ob_ricci_proj pi (with_dep (Some (Z.of_nat D)) o).
  by rewrite /ob_ricci_proj /ob_g_loc_a /ob_g_loc_h /ob_g_loc_ha EJ El.
have Erl : ob_ricci_loc pi o = ob_ricci_loc pi (with_dep (Some (Z.of_nat D)) o).
  by rewrite /ob_ricci_loc Er EJ.
split=> //.
- have Ni (i : 'I_m.+1) : nth 0 [seq `|x| | x <- row_seq (o_grad o)] i = `|o_grad o 0 i|.
    by rewrite (nth_map 0) ?size_row_seq ?nth_row_seq.
  by move=> i; have := dm i (ltn_ord i); rewrite -[d]/(nat_of_ord D) !Ni.
- by rewrite /ob_eta El E2.
by split; rewrite // /ob_ricci_scalar Erl El.
Qed.
End Dep.

Lemma scale_thm (C : numClosedFieldType) (N m : nat) (pi c : C) (o : objects C N m) :
  c != 0 -> ob_psi o != 0 -> c^* = c ->
  let o' := with_h (scale_h c (o_h o)) o in
  [/\ ob_psi o' = c * ob_psi o /\ (forall i j, ob_g_proj pi o' i j = ob_g_proj pi o i j),
      ob_g_loc pi o' = ob_g_loc pi o,
      ob_eta pi o' = ob_eta pi o,
      ob_ricci_loc pi o' = ob_ricci_loc pi o &
      ob_ricci_scalar pi o' = ob_ricci_scalar pi o].
Proof.
move=> c0 p0 cr; split.
- by split=> [|i j]; [exact: obp|exact: g_proj_scale].
- exact: g_loc_scale.
- exact: eta_scale.
- exact: ricci_loc_scale.
- exact: ricci_scalar_scale.
Qed.

Lemma eta_indep (C : numClosedFieldType) (N m : nat) (pi : C) (o : objects C N m)
    (d d' : 'I_m.+1) : o_grad o 0 d != 0 -> o_grad o 0 d' != 0 ->
  exists e, ob_eta pi (with_dep (Some (Z.of_nat d)) o) = Ok e /\
            ob_eta pi (with_dep (Some (Z.of_nat d')) o) = Ok e.
Proof.
move=> n1 n2; eexists; split.
  exact: (@eta_dep C N m pi (with_dep (Some (Z.of_nat d)) o) d erefl n1).
exact: (@eta_dep C N m pi (with_dep (Some (Z.of_nat d')) o) d' erefl n2).
Qed.

Lemma metric_semidef_thm (C : numClosedFieldType) (N m : nat) (pi : C) (o : objects C N m)
    (M : 'M[C]_N) : o_h o = HMat M -> hermitian M -> 0 < pi -> posdef M -> (0 < o_degree o)%N ->
  (exists a, o_s o a != 0) ->
  0 < ob_psi o /\ possemidef (\matrix_(i, j) ob_g_proj pi o i j).
Proof.
move=> h1 h2 h3 h4 h5 h6; split; first exact: (psi_gt0 h1).
exact: (gpm_semidef h1).
Qed.
