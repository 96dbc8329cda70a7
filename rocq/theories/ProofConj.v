(** GeometricObjects at the conjugate point: every entry is the conjugate. *)
From Coq Require Import ZArith Lia FunctionalExtensionality.
From mathcomp Require Import all_ssreflect all_algebra.
From mathcomp Require Import zify ssrZ.
From Verif Require Import Base ModelUtil ModelProjective ModelDiff ModelHom ModelGeom.
From Verif Require Import Deriv Bridge Herm ProofDiff ProofDiff2 ProofGeom2 ProofGeom4.
Delimit Scope Z_scope with Z.

Set Implicit Arguments.
Unset Strict Implicit.
Unset Printing Implicit Defensive.

Import GRing.Theory Num.Theory.
Local Open Scope ring_scope.

Section Conj.
Variables (C : numClosedFieldType) (log : C -> C) (pi : C) (N m : nat).
Hypothesis piC : pi^* = pi.
Notation n := m.+1.
Notation mcj := (map_mx (conjC : C -> C)).

Definition hcj (h : hvalue C N) : hvalue C N :=
  match h with HMat M => HMat (mcj M) | HVec v => HVec (mcj v) end.

Definition f1 I (f : I -> C) := fun a => (f a)^*.
Definition f2 I J (f : I -> J -> C) := fun a b => (f a b)^*.
Definition f3 I J K (f : I -> J -> K -> C) := fun a b c => (f a b c)^*.
Definition f4 I J K L (f : I -> J -> K -> L -> C) := fun a b c d => (f a b c d)^*.

(** All values conjugated *)
Definition cob (o : objects C N m) : objects C N m :=
  Objects (hcj (o_h o)) (o_degree o) (f1 (o_s o)) (f2 (o_s1 o)) (f3 (o_s2 o)) (mcj (o_grad o)) (o_dep o) (f3 (o_jach o)).

Variable o : objects C N m.

Lemma sum2 I J (P : seq I) (Q : seq J) (F G : I -> J -> C) : (forall i j, F i j = (G i j)^*) ->
  \sum_(i <- P) \sum_(j <- Q) F i j = (\sum_(i <- P) \sum_(j <- Q) G i j)^*.
Proof. by move=> H; rewrite cj_sum; apply: eq_bigr => i _; rewrite cj_sum; apply: eq_bigr => j _. Qed.
Lemma sum1 I (P : seq I) (F G : I -> C) : (forall i, F i = (G i)^*) -> \sum_(i <- P) F i = (\sum_(i <- P) G i)^*.
Proof. by move=> H; rewrite cj_sum; apply: eq_bigr. Qed.

Lemma psi_cob : ob_psi (cob o) = (ob_psi o)^*.
Proof. by rewrite /ob_psi /=; case: (o_h o) => M /=; [apply: sum2 => i j|apply: sum1 => i]; rewrite !cjM mxE. Qed.
Lemma psi_h_cob : ob_psi_h (cob o) = f1 (ob_psi_h o).
Proof.
apply: functional_extensionality => a.
by rewrite /ob_psi_h /f1 /=; case: (o_h o) => M /=; [apply: sum2 => i j|apply: sum1 => i]; rewrite !cjM mxE.
Qed.
Lemma psi_a_cob : ob_psi_a (cob o) = f1 (ob_psi_a o).
Proof. by rewrite /ob_psi_a psi_h_cob. Qed.
Lemma psi_ha_cob : ob_psi_ha (cob o) = f2 (ob_psi_ha o).
Proof.
do 2 apply: functional_extensionality => ?.
by rewrite /ob_psi_ha /f2 /=; case: (o_h o) => M /=; [apply: sum2 => i j|apply: sum1 => i]; rewrite !cjM mxE.
Qed.
Lemma psi_hha_cob : ob_psi_hha (cob o) = f3 (ob_psi_hha o).
Proof.
do 3 apply: functional_extensionality => ?.
by rewrite /ob_psi_hha /f3 /=; case: (o_h o) => M /=; [apply: sum2 => i j|apply: sum1 => i]; rewrite !cjM mxE.
Qed.
Lemma psi_hhaa_cob : ob_psi_hhaa (cob o) = f4 (ob_psi_hhaa o).
Proof.
do 4 apply: functional_extensionality => ?.
by rewrite /ob_psi_hhaa /f4 /=; case: (o_h o) => M /=; [apply: sum2 => i j|apply: sum1 => i]; rewrite !cjM mxE.
Qed.
Lemma psi_hh_cob : ob_psi_hh (cob o) = rmap (@f2 _ _) (ob_psi_hh o).
Proof.
rewrite /ob_psi_hh /=; case: (o_h o) => M //=; congr Ok.
do 2 apply: functional_extensionality => ?.
by rewrite /f2; apply: sum2 => i j; rewrite !cjM mxE.
Qed.

Ltac cj := rewrite ?(cjM, cjD, cjN, cjV, cjX, cjn, piC).

Lemma g_proj_cob : ob_g_proj pi (cob o) = f2 (ob_g_proj pi o).
Proof.
do 2 apply: functional_extensionality => ?.
by rewrite /ob_g_proj psi_cob psi_h_cob psi_a_cob psi_ha_cob /g_proj /f2 /=; cj.
Qed.
Lemma two_hha_cob : ob_two_hha (cob o) = rmap (@f3 _ _ _) (ob_two_hha o).
Proof.
rewrite /ob_two_hha /ob_psi_h_psi_ha psi_hh_cob psi_h_cob psi_a_cob psi_ha_cob.
case: (ob_psi_hh o) => //= hh; congr Ok; do 3 apply: functional_extensionality => ?.
by rewrite /two_hha /psi_h_psi_ha /f3 /f1 /f2; cj.
Qed.
Lemma three_hha_cob : ob_three_hha (cob o) = f3 (ob_three_hha o).
Proof.
rewrite /ob_three_hha psi_h_cob psi_a_cob; do 3 apply: functional_extensionality => ?.
by rewrite /three_hha /f3 /f1; cj.
Qed.
Lemma g_proj_h_cob : ob_g_proj_h pi (cob o) = rmap (@f3 _ _ _) (ob_g_proj_h pi o).
Proof.
rewrite /ob_g_proj_h two_hha_cob psi_cob psi_hha_cob three_hha_cob.
case: (ob_two_hha o) => //= t; congr Ok; do 3 apply: functional_extensionality => ?.
by rewrite /g_proj_h /f3; cj.
Qed.
Lemma g_proj_a_cob : ob_g_proj_a pi (cob o) = rmap (@f3 _ _ _) (ob_g_proj_a pi o).
Proof. by rewrite /ob_g_proj_a g_proj_h_cob; case: (ob_g_proj_h pi o). Qed.
Lemma two_haha_cob : ob_two_haha (cob o) = rmap (@f4 _ _ _ _) (ob_two_haha o).
Proof.
rewrite /ob_two_haha psi_hh_cob psi_ha_cob psi_a_cob psi_hha_cob.
case: (ob_psi_hh o) => //= hh; congr Ok; do 4 apply: functional_extensionality => ?.
by rewrite /two_haha /psi_aa /psi_ha_psi_ha /psi_hha_psi_a /f4 /f3 /f1 /f2; cj.
Qed.
Lemma three_haha_cob : ob_three_haha (cob o) = rmap (@f4 _ _ _ _) (ob_three_haha o).
Proof.
rewrite /ob_three_haha psi_hh_cob two_hha_cob /ob_psi_h_psi_ha psi_h_cob psi_a_cob psi_ha_cob.
case: (ob_psi_hh o) => //= hh; case: (ob_two_hha o) => //= t; congr Ok; do 4 apply: functional_extensionality => ?.
by rewrite /three_haha /psi_aa /psi_h_psi_ha /f4 /f3 /f1 /f2; cj.
Qed.
Lemma four_haha_cob : ob_four_haha (cob o) = f4 (ob_four_haha o).
Proof.
rewrite /ob_four_haha psi_a_cob three_hha_cob; do 4 apply: functional_extensionality => ?.
by rewrite /four_haha /f4 /f3 /f1; cj.
Qed.
Lemma g_proj_ha_cob : ob_g_proj_ha pi (cob o) = rmap (@f4 _ _ _ _) (ob_g_proj_ha pi o).
Proof.
rewrite /ob_g_proj_ha two_haha_cob three_haha_cob psi_cob psi_hhaa_cob four_haha_cob.
case: (ob_two_haha o) => //= t; case: (ob_three_haha o) => //= t3; congr Ok; do 4 apply: functional_extensionality => ?.
by rewrite /g_proj_ha /f4; cj.
Qed.

Definition fm (f : 'I_n -> 'M[C]_m) := fun a => mcj (f a).
Definition fm2 (f : 'I_n -> 'I_n -> 'M[C]_m) := fun a b => mcj (f a b).

Lemma row_seq_cj (g : 'rV[C]_n) : row_seq (mcj g) = [seq x^* | x <- row_seq g].
Proof. by rewrite /row_seq -[RHS]map_comp; apply: eq_map => i; rewrite mxE. Qed.

Lemma abs_cj (g : seq C) : [seq `|x| | x <- [seq y^* | y <- g]] = [seq `|x| | x <- g].
Proof. by rewrite -map_comp; apply: eq_map => x /=; rewrite norm_conjC. Qed.

Lemma dep_cob : ob_dependent (cob o) = ob_dependent o.
Proof. by rewrite /ob_dependent /= row_seq_cj abs_cj. Qed.

Variable d : 'I_n.
Hypothesis Hd : o_dep o = Some (Z.of_nat d).

Lemma jac_ok (o' : objects C N m) : o_dep o' = Some (Z.of_nat d) -> ob_jac o' = Ok (Jm (o_grad o') d).
Proof. by move=> E; rewrite /ob_jac /ob_dependent E /= /jac jacobian_embed_rows /= mx_rows_row. Qed.

Lemma jac_cob : ob_jac (cob o) = rmap (fun J => mcj J) (ob_jac o).
Proof. rewrite (jac_ok Hd) (@jac_ok (cob o)); last exact: Hd; rewrite /=; congr Ok; rewrite -Jm_conj; congr (Jm _ d); by apply/rowP => i; rewrite !mxE. Qed.

Lemma g_loc_cob : ob_g_loc pi (cob o) = rmap (fun g => mcj g) (ob_g_loc pi o).
Proof.
rewrite /ob_g_loc jac_cob g_proj_cob; case: (ob_jac o) => //= J; congr Ok.
by apply/matrixP => r s; rewrite !mxE; apply: sum2 => i j; rewrite !mxE /f2; cj.
Qed.

Lemma g_loc_h_cob : ob_g_loc_h pi (cob o) = rmap fm (ob_g_loc_h pi o).
Proof.
rewrite /ob_g_loc_h jac_cob g_proj_h_cob g_proj_cob; case: (ob_jac o) => //= J; case: (ob_g_proj_h pi o) => //= gh; congr Ok.
apply: functional_extensionality => a; apply/matrixP => r s; rewrite !mxE cjD.
by congr (_ + _); apply: sum2 => i j; rewrite !mxE /f2 /f3; cj.
Qed.

Lemma g_loc_a_cob : ob_g_loc_a pi (cob o) = rmap fm (ob_g_loc_a pi o).
Proof.
rewrite /ob_g_loc_a g_loc_h_cob; case: (ob_g_loc_h pi o) => //= g; congr Ok.
by apply: functional_extensionality => a; apply/matrixP => r s; rewrite !mxE.
Qed.

Lemma g_loc_ha_cob : ob_g_loc_ha pi (cob o) = rmap fm2 (ob_g_loc_ha pi o).
Proof.
rewrite /ob_g_loc_ha jac_cob g_proj_h_cob g_proj_a_cob g_proj_ha_cob g_proj_cob.
case: (ob_jac o) => //= J; case: (ob_g_proj_a pi o) => //= ga; case: (ob_g_proj_h pi o) => //= gh.
case: (ob_g_proj_ha pi o) => //= gha; congr Ok.
do 2 apply: functional_extensionality => ?; apply/matrixP => r s; rewrite !mxE !cjD.
by congr (_ + _ + _ + _); apply: sum2 => i j; rewrite ?mxE /f2 /f3 /f4; cj.
Qed.

Lemma ricci_proj_cob : ob_ricci_proj pi (cob o) = rmap (fun g => mcj g) (ob_ricci_proj pi o).
Proof.
rewrite /ob_ricci_proj g_loc_h_cob g_loc_a_cob g_loc_ha_cob g_loc_cob.
case: (ob_g_loc_h pi o) => //= gh; case: (ob_g_loc_a pi o) => //= ga; case: (ob_g_loc_ha pi o) => //= gha.
case: (ob_g_loc pi o) => //= g; congr Ok; apply/matrixP => a b; rewrite !mxE cjB /g_loc_inv -map_invmx.
congr (_ - _); last by apply: sum2 => i j; rewrite !mxE; cj.
apply: sum2 => i j; apply: sum2 => p q; rewrite !mxE; cj; by [].
Qed.

Lemma ricci_loc_cob : ob_ricci_loc pi (cob o) = rmap (fun g => mcj g) (ob_ricci_loc pi o).
Proof.
rewrite /ob_ricci_loc ricci_proj_cob jac_cob; case: (ob_ricci_proj pi o) => //= R; case: (ob_jac o) => //= J; congr Ok.
by apply/matrixP => r s; rewrite !mxE; apply: sum2 => i j; rewrite !mxE; cj.
Qed.

Lemma ricci_scalar_cob : ob_ricci_scalar pi (cob o) = rmap (fun c => c^*) (ob_ricci_scalar pi o).
Proof.
rewrite /ob_ricci_scalar ricci_loc_cob g_loc_cob; case: (ob_ricci_loc pi o) => //= R; case: (ob_g_loc pi o) => //= g; congr Ok.
by rewrite /ricci_scalar /g_loc_inv -map_invmx; apply: sum2 => i j; rewrite !mxE; cj.
Qed.

Lemma eta_cob : ob_eta pi (cob o) = rmap (fun c => c^*) (ob_eta pi o).
Proof.
rewrite /ob_eta g_loc_cob dep_cob; case: (ob_g_loc pi o) => //= g; case: (ob_dependent o) => //= p.
rewrite /eta; case: (py_pos m.+1 p) => //= q; congr Ok; rewrite row_seq_cj det_map_mx /= cjM cjX.
congr (_ * _ ^+ _); have -> : nth 0 [seq x^* | x <- row_seq (o_grad o)] q = (nth 0 (row_seq (o_grad o)) q)^*.
  by elim: (row_seq (o_grad o)) q => [|x l IH] [|q] //=; rewrite ?rmorph0 ?IH.
by rewrite norm_conjC; apply/esym/CrealP; exact: normr_real.
Qed.

Lemma kahler_cob : ((ob_psi o)^* = ob_psi o) -> ob_kahler log pi (cob o) = ob_kahler log pi o.
Proof. by move=> H; rewrite /ob_kahler psi_cob H. Qed.
End Conj.
