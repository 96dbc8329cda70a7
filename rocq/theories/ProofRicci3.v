(** The Ricci tensor is Hermitian. *)
From Coq Require Import ZArith.
From mathcomp Require Import all_ssreflect all_algebra.
From mathcomp Require Import ring.
From Verif Require Import Base ModelUtil ModelGeom Herm Herm2.
Delimit Scope Z_scope with Z.

Set Implicit Arguments.
Unset Strict Implicit.
Unset Printing Implicit Defensive.

Import GRing.Theory Num.Theory.
Local Open Scope ring_scope.

Section RicciHerm.
Variables (C : numClosedFieldType) (N m : nat) (pi : C) (o : objects C N m) (M : 'M[C]_N).
Notation n := m.+1.
Hypothesis Hh : o_h o = HMat M.
Hypothesis HM : hermitian M.
Hypothesis sym2 : forall s i j, o_s2 o s i j = o_s2 o s j i.
Hypothesis pir : pi^* = pi.

Lemma hermitian_inv p (A : 'M[C]_p) : hermitian A -> hermitian (invmx A).
Proof.
move=> HA i j; have E : map_mx conjC A = A^T by apply/matrixP => r s; rewrite !mxE -HA.
by have := congr1 (fun X : 'M[C]_p => X i j) (map_invmx [rmorphism of (@conjC C)] A); rewrite E -trmx_inv !mxE.
Qed.

Lemma form_conj (u v : 'I_N -> C) :
  (\sum_i \sum_j u i * M i j * (v j)^*)^* = \sum_i \sum_j v i * M i j * (u j)^*.
Proof.
rewrite exchange_big cj_sum; apply: eq_bigr => j _; rewrite cj_sum; apply: eq_bigr => i _.
by rewrite !cjM cjK -HM -mulrA mulrC [M j i * _]mulrC.
Qed.

Notation ps := (ob_psi o).
Notation ph := (ob_psi_h o).
Notation pha := (ob_psi_ha o).
Notation phha := (ob_psi_hha o).
Notation phhaa := (ob_psi_hhaa o).

Lemma psi_conj : ps^* = ps.
Proof. by rewrite /ob_psi Hh /psi form_conj. Qed.

Lemma pha_conj a b : (pha a b)^* = pha b a.
Proof. by rewrite /ob_psi_ha Hh /psi_ha form_conj. Qed.

Lemma phhaa_conj a b c d : (phhaa a b c d)^* = phhaa c d a b.
Proof. by rewrite /ob_psi_hhaa Hh /psi_hhaa form_conj. Qed.

Lemma phha_sym a b c : phha a b c = phha b a c.
Proof.
by rewrite /ob_psi_hha Hh /psi_hha; apply: eq_bigr => s _; apply: eq_bigr => t _; rewrite sym2.
Qed.

Definition phh a b : C := \sum_i \sum_j o_s2 o i a b * M i j * (o_s o j)^*.

Lemma phhE : ob_psi_hh o = Ok phh.
Proof. by rewrite /ob_psi_hh Hh. Qed.

Lemma phh_sym a b : phh a b = phh b a.
Proof. by apply: eq_bigr => s _; apply: eq_bigr => t _; rewrite sym2. Qed.

Lemma gp_conj i j : (ob_g_proj pi o i j)^* = ob_g_proj pi o j i.
Proof.
rewrite /ob_g_proj /g_proj /ob_psi_a /psi_a !(cjM, cjB, cjV, cjX, cjn) cjK pir psi_conj pha_conj.
by congr ((_ - _ / _) / _); rewrite mulrC.
Qed.

Lemma gha_conj G a b i j : ob_g_proj_ha pi o = Ok G -> (G a b i j)^* = G b a j i.
Proof.
rewrite /ob_g_proj_ha /ob_two_haha /ob_three_haha /ob_two_hha phhE /= => -[<-].
rewrite /g_proj_ha /ob_four_haha /ob_three_hha /ob_psi_h_psi_ha /ob_psi_a.
rewrite /two_haha /three_haha /four_haha /three_hha /two_hha /psi_hha_psi_a /psi_ha_psi_ha /psi_h_psi_ha /psi_aa /psi_a.
rewrite !(cjM, cjB, cjD, cjV, cjX, cjn) !cjK pir psi_conj phhaa_conj !pha_conj.
rewrite [phha i a b]phha_sym [phha i a j]phha_sym [phha j b i]phha_sym [phha j b a]phha_sym.
have [p1 E1] : exists f, forall a, (ph a)^* = f a by exists (fun a => (ph a)^*).
have [p2 E2] : exists f, forall a b, (phh a b)^* = f a b by exists (fun a b => (phh a b)^*).
have [p3 E3] : exists f, forall a b c, (phha a b c)^* = f a b c by exists (fun a b c => (phha a b c)^*).
rewrite !E1 !E2 !E3; congr ((_ - _ / _ + _ / _ - _ / _) / _); ring.
Qed.

Lemma gph_gpa G a i j : ob_g_proj_h pi o = Ok G -> forall A, ob_g_proj_a pi o = Ok A -> A a i j = (G a j i)^*.
Proof. by rewrite /ob_g_proj_a => -> A [<-]. Qed.

Lemma gl_conj g : ob_g_loc pi o = Ok g -> hermitian g.
Proof.
rewrite /ob_g_loc; case: ob_jac => [J|] // [<-] r s; rewrite !mxE cj_sum.
rewrite exchange_big; apply: eq_bigr => j _; rewrite cj_sum; apply: eq_bigr => i _ /=.
by rewrite !mxE cjM cjM gp_conj cjK -mulrA mulrC [ob_g_proj _ _ _ _ * _]mulrC mulrC.
Qed.

Lemma sum_conj (p : nat) (F G : 'I_p -> 'I_p -> C) : (forall i j, (F i j)^* = G j i) ->
  (\sum_i \sum_j F i j)^* = \sum_i \sum_j G i j.
Proof.
move=> E; rewrite exchange_big cj_sum; apply: eq_bigr => j _; rewrite cj_sum; apply: eq_bigr => i _; exact: E.
Qed.

Lemma ricci_proj_herm R : ob_ricci_proj pi o = Ok R -> hermitian R.
Proof.
rewrite /ob_ricci_proj /ob_g_loc_a /ob_g_loc_ha /ob_g_loc_h.
case EJ: (ob_jac o) => [J|] //; case Eh: (ob_g_proj_h pi o) => [gh|] //.
rewrite /ob_g_proj_a Eh {1}/rbind {1}/rbind {1}/rmap; case Eg: (ob_g_proj_ha pi o) => [gha|] //.
case El: (ob_g_loc pi o) => [g|] // [<-] a b; rewrite ![ricci_proj _ _ _ _ _ _]mxE.
set hh := g_loc_h _ _ _ _ _; set ha := g_loc_ha _ _ _ _ _ _ _.
have gi : hermitian (g_loc_inv g) by exact/hermitian_inv/gl_conj.
have hac c d' r s : (ha c d' r s)^* = ha d' c s r.
  have sw (x y w : C) : x * y * w = w * y * x by rewrite mulrC [x * y]mulrC mulrA.
  rewrite /ha !mxE 3!cjD.
  have P4 (x y w t : C) : x + y + w + t = t + y + w + x by ring.
  rewrite [LHS]P4; congr (_ + _ + _ + _); apply: sum_conj => i j; rewrite cjM cjM ?mxE ?cjK sw //.
  - by rewrite gha_conj.
  by rewrite gp_conj.
rewrite cjB; congr (_ - _).
  rewrite [RHS]cj_sum [LHS]exchange_big; apply: eq_bigr => i _; rewrite cj_sum; apply: eq_bigr => j _.
  rewrite [LHS]exchange_big cj_sum; apply: eq_bigr => k _; rewrite cj_sum; apply: eq_bigr => l _ /=.
  rewrite 3!cjM !mxE cjK -!gi; move: (g_loc_inv g) (hh a i k)^* (hh b j l) => q u v; ring.
by apply/esym/sum_conj => i j; rewrite cjM hac -gi.
Qed.

Lemma ricci_loc_herm R : ob_ricci_loc pi o = Ok R -> hermitian R.
Proof.
rewrite /ob_ricci_loc; case ER: (ob_ricci_proj pi o) => [R0|] //; case: (ob_jac o) => [J|] // [<-] r s.
rewrite !mxE; apply/esym/sum_conj => i j.
by rewrite cjM cjM -(ricci_proj_herm ER) !mxE cjK -mulrA mulrC [R0 _ _ * _]mulrC mulrC.
Qed.

Lemma ricci_scalar_real r : ob_ricci_scalar pi o = Ok r -> r \is Num.real.
Proof.
rewrite /ob_ricci_scalar; case ER: (ob_ricci_loc pi o) => [R|] //; case Eg: (ob_g_loc pi o) => [g|] // [<-].
rewrite CrealE; apply/eqP/sum_conj => i j.
by rewrite cjM -(ricci_loc_herm ER) -(hermitian_inv (gl_conj Eg)).
Qed.
End RicciHerm.
