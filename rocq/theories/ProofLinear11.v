(** Donaldson steps on samples with a unitary symmetry, for the full and the reduced basis. *)
From Coq Require Import ZArith Lia.
From mathcomp Require Import all_ssreflect all_algebra all_fingroup.
From mathcomp Require Import zify ssrZ ring.
From SsrMultinomials Require Import mpoly.
From Verif Require Import Base ModelUtil ModelVariety ModelBasis ModelDonaldson ModelAlg ModelPipe SpecMon.
From Verif Require Import SpecPoly SpecHom SpecVariety SpecGeom SpecBasis SpecSections SpecPatch SpecAlg SpecDonaldson SpecPipe SpecStep SpecSymmetry Herm.
From Verif Require Import Deriv Bridge PolyGrad ProofBasis ProofBasis3 ProofPatch ProofAlg ProofAlg2 ProofAlg6 ProofPipe ProofPipe2 ProofPipe3 ProofStep ProofStep2 ProofDonaldson2 ProofSymmetry ProofSymmetry2.
From Verif Require Import SpecLinear SpecRotate ProofLinear ProofLinear2 ProofLinear3 ProofLinear5 ProofLinear9 ProofReduce SpecRank ProofRank SpecRotate2.
Delimit Scope Z_scope with Z.

Set Implicit Arguments.
Unset Strict Implicit.
Unset Printing Implicit Defensive.

Import GRing.Theory Num.Theory Order.POrderTheory.
Local Open Scope ring_scope.

Section Kernel.
Variables (C : numClosedFieldType) (m k : nat) (B : basis).
Notation N := (size (power_matrix B)).
Notation s x := (hom_sections B (row_seq x)).

Lemma kernelE (h : 'M[C]_N) (x y : 'rV[C]_m.+2) : kernel h x y = (s x *m h *m adjm (s y)) 0 0.
Proof.
rewrite /kernel mxE exchange_big; apply: eq_bigr => b _; rewrite adjmE [(s x *m h) _ _]mxE mulr_suml.
by apply: eq_bigr.
Qed.

Lemma sc_scale (hC : basis_class C m.+1 k B) c (x : 'rV[C]_m.+2) : s (c *: x) = c ^+ k *: s x.
Proof.
apply/rowP => a; rewrite hsE [RHS]mxE hsE /peval -(ProofPatch.hom_scale _ _ (class_homog hC a)).
by apply: meval_eq => j; rewrite mxE.
Qed.
End Kernel.

Section Lin.
Variables (C : numClosedFieldType) (m k e : nat) (Q : {mpoly C[m.+2]}) (B : basis).
Notation N := (size (power_matrix B)).
Notation s x := (hom_sections B (row_seq x)).
Hypotheses (HQ : Q \is e.-homog) (hB : basis_for k Q B).
Variable A : 'M[C]_m.+2.

Lemma lin_on : exists R : 'M[C]_N, forall x : 'rV[C]_m.+2, peval Q x = 0 -> s (x *m A) = s x *m R.
Proof.
case: (hB) => [hF|[Q0 occ hR]].
  by have [R HR] := lin_exists hF A; exists R => x _.
have [F [hF _ _ _ _]] := full_class m.+1 k.
have [T [q [HT _]]] := red_matrix Q0 HQ occ hF hR.
have [RF HRF] := lin_exists hF A.
have [_ sB _] := red_facts Q0 HQ occ hR.
pose J : 'M[C]_(size (power_matrix F), N) := \matrix_(t, a) (nth [::] (power_matrix F) t == nth [::] (power_matrix B) a)%:R.
have uF : uniq (power_matrix F) by exact: (full_uniq hF).
have inc (x : 'rV[C]_m.+2) : s x = hom_sections F (row_seq x) *m J.
  apply/rowP => a; rewrite [RHS]mxE.
  have ht : nth [::] (power_matrix B) a \in power_matrix F by apply/(full_mem hF)/sB/mem_nth.
  have it : (index (nth [::] (power_matrix B) a) (power_matrix F) < size (power_matrix F))%N by rewrite index_mem.
  have D (t : 'I_(size (power_matrix F))) : J t a = (t == Ordinal it)%:R.
    rewrite mxE; congr (_%:R); apply: congr1; apply/eqP/eqP => [E|->]; last by rewrite /= nth_index.
    by apply: val_inj; rewrite /= -E index_uniq.
  transitivity (\sum_t (if t == Ordinal it then hom_sections F (row_seq x) 0 t else 0)); last first.
    by apply: eq_bigr => t _; rewrite D; case: eqP; rewrite ?mulr1 ?mulr0.
  by rewrite -big_mkcond big_pred1_eq !hsE; congr (peval (mono _ _ _) _); rewrite /= nth_index.
have red (x : 'rV[C]_m.+2) : peval Q x = 0 -> hom_sections F (row_seq x) = s x *m T.
  move=> z; apply/rowP => t; rewrite hsE HT /peval mevalD mevalM [Q.@[_]]z mulr0 add0r raddf_sum mxE.
  by apply: eq_bigr => b _; rewrite /= mevalZ mulrC hsE.
by exists (T *m RF *m J) => x z; rewrite inc HRF red // !mulmxA.
Qed.
End Lin.

Section Rot.
Variables (C : numClosedFieldType) (m k : nat) (Q : {mpoly C[m.+2]}) (B : basis).
Notation N := (size (power_matrix B)).
Notation s x := (hom_sections B (row_seq x)).
Variables (V : variety C) (ps : seq C).
Hypotheses (hQ : defined_by V ps Q) (HQ : Q \is m.+2.-homog) (hB : basis_for k Q B).
Variables (A : 'M[C]_m.+2) (R : 'M[C]_N).
Hypotheses (UA : unitary A) (QA : forall x, peval Q (x *m A) = peval Q x).
Hypothesis AR : forall x : 'rV[C]_m.+2, peval Q x = 0 -> s (x *m A) = s x *m R.
Variable zs : seq (seq C).
Hypothesis onz : points_on V ps m zs.
Hypothesis sp : forall v : 'rV[C]_N, v != 0 -> exists2 z, z \in zs & \sum_a v 0 a * hom_sections B z 0 a != 0.
Hypothesis Hm : rotated_to_itself A zs.

Let hC : basis_class C m.+1 k B.
Proof. by case: hB => [|[Q0 occ hR]]; [left|right; exists Q, m.+2]. Qed.

Let onE z : z \in zs -> exists x : 'rV[C]_m.+2, [/\ z = row_seq x, x != 0 & peval Q x = 0].
Proof. by move=> /onz[x [zE x0]]; rewrite zE hQ => -[q0]; exists x. Qed.

Let onx z : z \in zs -> z = row_seq (seq_row m.+2 z) /\ peval Q (seq_row m.+2 z) = 0 /\ seq_row m.+2 z != 0.
Proof. by move=> /onE[x [-> x0 z0]]; rewrite row_seqK. Qed.

Let form_ext (X Y : 'M[C]_N) : (forall z z', z \in zs -> z' \in zs ->
  hom_sections B z *m X *m adjm (hom_sections B z') = hom_sections B z *m Y *m adjm (hom_sections B z')) -> X = Y.
Proof.
have colv (v : 'cV[C]_N) : (forall z, z \in zs -> hom_sections B z *m v = 0) -> v = 0.
  move=> H; apply: trmx_inj; rewrite trmx0; apply/eqP; apply: contraT => /sp[z /H Hz /negP[]]; apply/eqP.
  by move/matrixP: Hz => /(_ 0 0); rewrite !mxE => Hz; rewrite -[RHS]Hz; apply: eq_bigr => a _; rewrite mxE mulrC.
have mat (Z : 'M[C]_N) : (forall z, z \in zs -> hom_sections B z *m Z = 0) -> Z = 0.
  move=> H; apply/matrixP => a b; rewrite [RHS]mxE; have : col b Z = 0.
    apply: colv => z /H/rowP/(_ b); rewrite !mxE => Hz; apply/matrixP => i j; rewrite !ord1 !mxE -[RHS]Hz.
    by apply: eq_bigr => c _; rewrite [col b Z _ _]mxE.
  by move/colP/(_ a); rewrite !mxE.
move=> H; apply/eqP; rewrite -subr_eq0; apply/eqP; apply: mat => z zi.
have : adjm (hom_sections B z *m (X - Y)) = 0.
  apply: colv => z' zi'; apply: (can_inj (@adjmK _ _ _)); rewrite adjm_mul adjmK mulmxBr mulmxBl H // subrr.
  by apply/matrixP => i j; rewrite !mxE conjC0.
by move/(congr1 (@adjm _ _ _)); rewrite adjmK => ->; apply/matrixP => i j; rewrite !mxE conjC0.
Qed.

Lemma kernel_inv (h : 'M[C]_N) : kernel_invariant V ps A h <-> invariant R h.
Proof.
have E x y : peval Q x = 0 -> peval Q y = 0 ->
    kernel h (x *m A) (y *m A) = (s x *m (R *m h *m adjm R) *m adjm (s y)) 0 0.
  by move=> x0 y0; rewrite kernelE !AR // adjm_mul !mulmxA.
split=> H; last first.
  by move=> x y /(point_onE hQ)[_ x0] /(point_onE hQ)[_ y0]; rewrite E // H kernelE.
apply: form_ext => z z' /onx[zE [z0 zn]] /onx[zE' [z0' zn']].
have := H _ _ (proj2 (point_onE hQ _) (conj zn z0)) (proj2 (point_onE hQ _) (conj zn' z0')).
rewrite E // kernelE -zE -zE' => e; by apply/matrixP => a b; rewrite !ord1.
Qed.

Let nrm (x : 'rV[C]_m.+2) : C := (x *m adjm x) 0 0.
Let wt z : C := (nrm (seq_row m.+2 z) ^+ k)^-1.
Let G : 'M[C]_N := \sum_(z <- zs) wt z *: (adjm (hom_sections B z) *m hom_sections B z).

Let nrm_gt0 x : x != 0 -> 0 < nrm x.
Proof.
move=> x0; have := @pd1 C m.+2 x x0; by rewrite hformE mulmx1.
Qed.

Let nrm_lin c x : nrm (c *: (x *m A)) = c * c^* * nrm x.
Proof.
rewrite /nrm adjm_scale adjm_mul -scalemxAl -scalemxAr scalerA mulmxA -[x *m A *m adjm A]mulmxA UA mulmx1.
by rewrite [LHS]mxE.
Qed.

Let wt_gt0 z : z \in zs -> 0 < wt z.
Proof. by move=> /onx[_ [_ x0]]; rewrite invr_gt0 exprn_gt0 // nrm_gt0. Qed.

Let G_unit : G \in unitmx.
Proof.
rewrite -row_free_unit -kermx_eq0; apply/eqP; apply/row_matrixP => i; rewrite row0.
set v := row i _; have vG : v *m G = 0 by apply/sub_kermxP; exact: row_sub.
apply/eqP; apply: contraT => v0.
have v0' : map_mx conjC v != 0.
  apply: contra v0 => /eqP E; apply/eqP/rowP => a; rewrite [RHS]mxE; apply: (can_inj (@conjCK C)).
  by move/rowP/(_ a): E; rewrite !mxE conjC0.
have [z zi /negP[]] := sp v0'.
have S0 : \sum_(y <- zs) wt y * `|\sum_a map_mx conjC v 0 a * hom_sections B y 0 a| ^+ 2 = 0.
  transitivity ((v *m G *m adjm v) 0 0); last by rewrite vG mul0mx mxE.
  rewrite /G mulmx_sumr mulmx_suml summxE; apply: eq_bigr => y _.
  rewrite -scalemxAr -scalemxAl [RHS]mxE; congr (_ * _).
  rewrite [v *m (_ *m _)]mulmxA -[_ *m adjm v]mulmxA [RHS]mxE big_ord1 normCK mulrC; congr (_ * _).
    rewrite mxE rmorph_sum; apply: eq_bigr => a _; by rewrite rmorphM !mxE conjCK.
  by rewrite mxE; apply: eq_bigr => a _; rewrite !mxE mulrC.
move/eqP: S0; rewrite big_seq psumr_eq0 => [/allP/(_ z zi)|y yi]; last first.
  by rewrite mulr_ge0 ?exprn_ge0 // ltW // wt_gt0.
by rewrite zi /= mulf_eq0 gt_eqF ?wt_gt0 //= expf_eq0 normr_eq0.
Qed.

Let G_inv : adjm R *m G *m R = G.
Proof.
have [c c0 pe] := Hm.
rewrite {1}/G mulmx_sumr mulmx_suml /G; apply: etrans; last exact: (perm_big _ pe).
rewrite [RHS]big_map.
rewrite [LHS](big_nth [::]) /index_iota subn0; apply: eq_big_seq => i; rewrite mem_iota => /= iz.
have /onx[zE [z0 x0]] : nth [::] zs i \in zs by exact: mem_nth.
rewrite -scalemxAr -scalemxAl /wt row_seqK nrm_lin.
set x := seq_row m.+2 _ in zE z0 x0 *; rewrite zE.
rewrite (sc_scale hC) AR // adjm_scale adjm_mul -scalemxAl -scalemxAr !scalerA !mulmxA.
congr (_ *: _).
have p0 : c i ^+ k * (c i ^+ k)^* != 0 by rewrite mulf_neq0 ?conjC_eq0 ?expf_neq0.
by rewrite !exprMn -rmorphX /= invfM [RHS]mulrAC -!mulrA mulrCA mulVf ?mulr1.
Qed.

Lemma on_det : `|\det R| = 1.
Proof.
have G0 : \det G != 0 by rewrite -unitfE -unitmxE.
have := congr1 (fun X => \det X) G_inv; rewrite !det_mulmx det_adjm mulrAC [_^* * _]mulrC -normCK => E.
have {}E : `|\det R| ^+ 2 = 1 by apply: (mulIf G0); rewrite mul1r.
by apply/eqP; rewrite -(eqr_expn2 (ltn0Sn 1)) ?expr1n ?E ?normr_ge0 ?ler01.
Qed.

Lemma on_unit : R \in unitmx.
Proof. by rewrite unitmxE unitfE -normr_eq0 on_det oner_eq0. Qed.

Lemma on_symmetric pi W : (forall z, z \in zs -> has_weight pi m.+2 Q z (W z)) ->
  symmetric_under R [seq (hom_sections B z, Some (W z)) | z <- zs].
Proof.
move=> HW; have [c c0 pe] := Hm; exists (fun i => c i ^+ k) => [i|/=]; first by rewrite expf_neq0.
rewrite size_map; set f := fun z => (hom_sections B z, Some (W z)).
have -> : [seq (c i ^+ k *: ((nth (0, None) (map f zs) i).1 *m R), (nth (0, None) (map f zs) i).2) | i <- iota 0 (size zs)] =
   map f [seq row_seq (c i *: (seq_row m.+2 (nth [::] zs i) *m A)) | i <- iota 0 (size zs)].
  rewrite -map_comp; apply/eq_in_map => i; rewrite mem_iota => /= iz.
  have zi : nth [::] zs i \in zs by exact: mem_nth.
  rewrite (nth_map [::]) // /f /=; have [xE [x0 _]] := onx zi.
  rewrite (sc_scale hC) AR // -xE; congr (_, Some _).
  have wi : row_seq (c i *: (seq_row m.+2 (nth [::] zs i) *m A)) \in zs.
    by rewrite -(perm_mem pe); apply/mapP; exists i => //; rewrite mem_iota.
  have hw := HW _ zi; rewrite {1}xE in hw.
  exact: (weight_unique (rot_weight UA HQ QA (c0 i) hw) (HW _ wi)).
exact: perm_map.
Qed.
End Rot.
