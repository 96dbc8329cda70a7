(** Derivatives of polynomial functions, and objects built from polynomial
    sections and a polynomial defining equation. *)
From Coq Require Import ZArith.
From mathcomp Require Import all_ssreflect all_algebra.
From mathcomp Require Import ring.
From SsrMultinomials Require Import mpoly.
From Verif Require Import Base ModelUtil ModelGeom Deriv Bridge Wirtinger SpecGeom Herm.
From Verif Require Import ProofDiff ProofDiff2 ProofGeom ProofGeom2 ProofGeom3 ProofGeom4.
Delimit Scope Z_scope with Z.

Set Implicit Arguments.
Unset Strict Implicit.
Unset Printing Implicit Defensive.

Import GRing.Theory Num.Theory Order.POrderTheory.
Local Open Scope ring_scope.

Lemma UsubU n (i : 'I_n) : (U_(i) - U_(i))%MM = 0%MM.
Proof. by apply/mnmP => a; rewrite mnmBE mnm0E subnn. Qed.

Section PolyGrad.
Variables (C : numClosedFieldType) (n : nat).

Definition peval (p : {mpoly C[n]}) (z : 'rV[C]_n) : C := p.@[fun i => z 0 i].

Definition pgrad (p : {mpoly C[n]}) (z : 'rV[C]_n) : 'rV[C]_n := \row_i peval (p^`M(i)) z.

Let G p := forall z, is_grad (peval p) z (pgrad p z).

Lemma G_const c : G c%:MP.
Proof.
move=> z; have -> : pgrad c%:MP z = 0.
  by apply/rowP => i; rewrite !mxE mderivC /peval meval0.
by apply: is_grad_ext (is_grad_const c z) => y; rewrite /peval mevalC.
Qed.

Lemma G_X i : G 'X_i.
Proof.
move=> z; have -> : pgrad 'X_i z = delta_mx 0 i.
  apply/rowP => j; rewrite !mxE eqxx /= mderivX mnm1E eq_sym /peval.
  case: (eqVneq j i) => [->|_]; last by rewrite scale0r meval0.
  by rewrite UsubU scale1r mpolyX0 mevalC.
by apply: is_grad_ext (is_grad_coord i z) => y; rewrite /peval mevalXU.
Qed.

Lemma G_add p q : G p -> G q -> G (p + q).
Proof.
move=> Hp Hq z; have -> : pgrad (p + q) z = pgrad p z + pgrad q z.
  by apply/rowP => i; rewrite !mxE mderivD /peval mevalD.
by apply: is_grad_ext (is_grad_add (Hp z) (Hq z)) => y; rewrite /peval mevalD.
Qed.

Lemma G_mul p q : G p -> G q -> G (p * q).
Proof.
move=> Hp Hq z; have -> : pgrad (p * q) z = peval p z *: pgrad q z + peval q z *: pgrad p z.
  by apply/rowP => i; rewrite !mxE mderivM /peval mevalD !mevalM addrC [X in _ + X]mulrC.
by apply: is_grad_ext (is_grad_mul (Hp z) (Hq z)) => y; rewrite /peval mevalM.
Qed.

Lemma G_exp p k : G p -> G (p ^+ k).
Proof.
move=> Hp; elim: k => [|k IH]; last by rewrite exprS; exact: G_mul.
by rewrite expr0 -mpolyC1; exact: G_const.
Qed.

Lemma G_mon m : G 'X_[m].
Proof.
rewrite mpolyXE_id; apply: big_ind => [|p q|i _]; last exact/G_exp/G_X.
  by rewrite -mpolyC1; exact: G_const.
exact: G_mul.
Qed.

Lemma poly_grad p z : is_grad (peval p) z (pgrad p z).
Proof.
move: z; rewrite -/(G p); elim/mpolyind: p => [|c m p _ _ IH].
  by rewrite -mpolyC0; exact: G_const.
apply: G_add IH; rewrite -mul_mpolyC; apply: G_mul; [exact: G_const|exact: G_mon].
Qed.
End PolyGrad.

Section Objects.
Variables (C : numClosedFieldType) (N m : nat).
Notation n := m.+1.
Variables (M : 'M[C]_N) (k : nat) (S : 'I_N -> {mpoly C[n]}) (Q : {mpoly C[n]}) (d : 'I_n).

(** derivative of - Q_i / Q_d *)
Definition pquot (i a : 'I_n) (z : 'rV[C]_n) : C :=
  - (peval (Q^`M(i)^`M(a)) z * peval (Q^`M(d)) z - peval (Q^`M(i)) z * peval (Q^`M(d)^`M(a)) z)
  / peval (Q^`M(d)) z ^+ 2.

Definition poly_objects (z : 'rV[C]_n) : objects C N m :=
  Objects (HMat M) k (fun s => peval (S s) z) (fun s i => peval ((S s)^`M(i)) z)
    (fun s i j => peval ((S s)^`M(i)^`M(j)) z) (pgrad Q z) (Some (Z.of_nat d))
    (fun q i a => if i == d then pquot (lift d q) a z else 0).

Lemma poly_sections z : sections_contract poly_objects z M k.
Proof.
split=> //; exists 1 => [|y _ s]; first exact: ltr01.
split=> [|i|i j|i j]; last by eexists; exact: poly_grad.
- exact: poly_grad.
- exact: poly_grad.
by rewrite /= mderiv_comm.
Qed.

Lemma poly_embedding z : peval (Q^`M(d)) z != 0 -> embedding_contract poly_objects z d.
Proof.
move=> nz; split=> //.
have [r [r0 Hr]] : exists r : C, 0 < r /\ forall y, norm1 (y - z) < r -> peval (Q^`M(d)) y != 0.
  have /wgrad_hol/wgrad_diff H := poly_grad (Q^`M(d)) z.
  have [r r0 Hr] := diff_nonzero H nz; exists r; split=> // y Hy.
  by have [] := Hr y Hy.
exists r => // y Hy; have ny := Hr y Hy.
have nd : forall x, norm1 (x - z) < r -> peval (Q^`M(d)) x != 0 by [].
have EJ x : ob_jac (poly_objects x) = Ok (Jm (pgrad Q x) d).
  by rewrite /ob_jac /= /jac jacobian_embed_rows /= mx_rows_row.
split.
- by rewrite /= mxE.
- by move=> i; eexists; apply: is_grad_ext (poly_grad (Q^`M(i)) y) => x; rewrite /= mxE.
- move=> q i; case: (unliftP d i) => [b ->|->].
    have -> : \row_a o_jach (poly_objects y) q (lift d b) a = 0.
      by apply/rowP => a; rewrite !mxE /= eq_sym (negbTE (neq_lift _ _)).
    apply: is_grad_ext (is_grad_const (q == b)%:R y) => x.
    by rewrite EJ /= Jm_lift.
  have H := is_grad_opp (is_grad_div ny (poly_grad (Q^`M(lift d q)) y) (poly_grad (Q^`M(d)) y)).
  have -> : \row_a o_jach (poly_objects y) q d a =
     - ((peval (Q^`M(d)) y)^-1 *: pgrad (Q^`M(lift d q)) y -
        (peval (Q^`M(lift d q)) y / peval (Q^`M(d)) y ^+ 2) *: pgrad (Q^`M(d)) y).
    apply/rowP => a; rewrite !mxE /= eqxx /pquot.
    by field.
  by apply: is_grad_ext H => x; rewrite EJ /= Jm_d !mxE mulNr.
move=> q i a; case: (unliftP d i) => [b ->|->].
  exists 0; apply: is_grad_ext (is_grad_const 0 y) => x.
  by rewrite /= eq_sym (negbTE (neq_lift _ _)).
pose A := (Q^`M(lift d q)^`M(a) * Q^`M(d) - Q^`M(lift d q) * Q^`M(d)^`M(a)) : {mpoly C[n]}.
pose B := (Q^`M(d) ^+ 2) : {mpoly C[n]}.
have EB x : peval B x = peval (Q^`M(d)) x ^+ 2 by exact: rmorphX.
have nB : peval B y != 0 by rewrite EB expf_neq0.
have H := is_grad_opp (is_grad_div nB (poly_grad A y) (poly_grad B y)).
eexists; apply: is_grad_ext H => x.
rewrite /= eqxx /pquot EB mulNr; congr (- (_ / _)).
by rewrite /peval /A mevalB !mevalM.
Qed.
End Objects.

(** An instance: the sections 1, z_0, z_1 and the curve z_0 = z_1 ^ 2. *)
Section Instance.
Variable C : numClosedFieldType.

Definition conic_S (s : 'I_3) : {mpoly C[2]} :=
  if s == 0 then 1 else if s == 1 then 'X_0 else 'X_1.
Definition conic_Q : {mpoly C[2]} := 'X_0 - 'X_1 ^+ 2.
Definition conic := @poly_objects C 3 1 1%:M 1 conic_S conic_Q 0.
Definition conic_phi (x : 'rV[C]_1) : 'rV[C]_2 := \row_i (if i == 0 then x 0 0 ^+ 2 else x 0 0).

Lemma ord2E (i : 'I_2) : i = 0 \/ i = 1.
Proof. by case: i => [[|[|i]]] // Hi; [left|right]; apply/val_inj. Qed.
Lemma ord3E (i : 'I_3) : [\/ i = 0, i = 1 | i = 2].
Proof. by case: i => [[|[|[|i]]]] // Hi; [constructor 1|constructor 2|constructor 3]; apply/val_inj. Qed.

Lemma conic_dQ z : peval (conic_Q^`M(0)) z = 1.
Proof.
have -> : conic_Q^`M(0) = 1 :> {mpoly C[2]}.
  rewrite /conic_Q mderivB mderivX mnm1E eqxx scale1r.
  by rewrite UsubU mpolyX0 expr2 mderivM !mderivX !mnm1E !scale0r mul0r mulr0 addr0 subr0.
by rewrite /peval meval1.
Qed.

Lemma conic_emb z : embedding_contract conic z 0.
Proof. by apply: poly_embedding; rewrite conic_dQ oner_neq0. Qed.

Lemma conic_par x : local_parametrisation (peval conic_Q) (fun y => o_grad (conic y)) 0 conic_phi x.
Proof.
exists 1 => [|]; first exact: ltr01.
split=> [z _|y a|y _].
- exact: poly_grad.
- by rewrite mxE /= (ord1 a).
split.
  have -> : peval conic_Q (conic_phi y) = conic_phi y 0 0 - conic_phi y 0 1 ^+ 2.
    by rewrite /peval /conic_Q mevalB rmorphX /= !mevalXU.
  by rewrite !mxE /= subrr.
have H i : exists g, is_grad (fun y : 'rV[C]_1 => conic_phi y 0 i) y g.
  have [->|->] := ord2E i.
    by eexists; apply: is_grad_ext (is_grad_exp 2 (is_grad_coord 0 y)) => x'; rewrite mxE.
  by eexists; apply: is_grad_ext (is_grad_coord 0 y) => x'; rewrite mxE.
have [g Hg] := fin_all_exists H.
exists (\matrix_(a, i) g i 0 a) => i; apply: is_grad_eq (Hg i).
by apply/rowP => a; rewrite !mxE.
Qed.

Lemma conic_s z : [/\ o_s (conic z) 0 = 1, o_s (conic z) 1 = z 0 0 & o_s (conic z) 2 = z 0 1].
Proof. by rewrite /conic /= /conic_S /peval /=; split; rewrite ?meval1 ?mevalXU. Qed.

Lemma conic_s1 z i : [/\ o_s1 (conic z) 0 i = 0, o_s1 (conic z) 1 i = (i == 0)%:R
  & o_s1 (conic z) 2 i = (i == 1)%:R].
Proof.
rewrite /conic /= /conic_S /=.
have HX (j : 'I_2) : peval ('X_j : {mpoly C[2]})^`M(i) z = (i == j)%:R.
  rewrite mderivX mnm1E eq_sym /peval; case: (eqVneq i j) => [->|_]; last by rewrite scale0r meval0.
  by rewrite UsubU scale1r mpolyX0 meval1.
by split; rewrite ?HX // -mpolyC1 mderivC /peval meval0.
Qed.

Lemma pd1 n : @posdef C n 1%:M.
Proof.
move=> v v0; rewrite hformE mulmx1 mxE.
have := ip_gt0 v0; rewrite /ip; congr (0 < _).
by apply: eq_bigr => i _; rewrite mxE.
Qed.

Lemma conic_imm z (v : 'rV[C]_2) c :
  (forall a, \sum_i v 0 i * o_s1 (conic z) a i = c * o_s (conic z) a) -> v = 0.
Proof.
move=> H; have [e0 e1 e2] := conic_s z.
have c0 : c = 0.
  have := H 0; rewrite e0 mulr1 => <-; apply: big1 => i _.
  by have [-> _ _] := conic_s1 z i; rewrite mulr0.
have := H 1; have := H 2; rewrite c0 !mul0r !big_ord_recl !big_ord0 !addr0.
have [_ -> ->] := conic_s1 z 0; have [_ -> ->] := conic_s1 z (lift 0 0).
rewrite /= !mulr0 !mulr1 addr0 add0r => h1 h0; apply/rowP => i; rewrite mxE.
by have [->|->] := ord2E i => //; rewrite -[RHS]h1; congr (v _ _); apply/val_inj.
Qed.
End Instance.

Lemma herm1 (C : numClosedFieldType) n : hermitian (1%:M : 'M[C]_n).
Proof. by move=> i j; rewrite !mxE conjC_nat eq_sym. Qed.

Lemma conic_example : forall (C : numClosedFieldType) (x : 'rV[C]_1) (pi : C), 0 < pi ->
  let z := conic_phi x in
  [/\ hermitian (1%:M : 'M[C]_3), sections_contract (@conic C) z 1%:M 1,
      embedding_contract (@conic C) z 0,
      local_parametrisation (peval (conic_Q C)) (fun y => o_grad (conic y)) 0 (@conic_phi C) x &
      0 < ob_psi (conic z) /\
      exists g, [/\ ob_g_loc pi (conic z) = Ok g, posdef g & exists2 e, ob_eta pi (conic z) = Ok e & 0 < e]].
Proof.
move=> C x pi pi0 z; split.
- exact: herm1.
- exact: poly_sections.
- exact: conic_emb.
- exact: conic_par.
have Hs : exists a, o_s (conic z) a != 0.
  by exists 0; have [-> _ _] := conic_s z; exact: oner_neq0.
split; first exact: (psi_gt0 (erefl : o_h (conic z) = HMat 1%:M) (@pd1 C 3)).
apply: (@g_loc_pos C 3 1 pi (conic z) 0) => //.
  by rewrite /= mxE conic_dQ oner_neq0.
apply/(gpm_pos (erefl : o_h (conic z) = HMat 1%:M) (@herm1 C 3) pi0 (@pd1 C 3)) => //.
exact: conic_imm.
Qed.

Definition line_ob (C : numClosedFieldType) : objects C 2 0 :=
  Objects (HMat 1%:M) 1 (fun _ => 1) (fun s _ => if s == 0 then 0 else 1) (fun _ _ _ => 0)
    1 (Some 0%Z) (fun _ _ _ => 0).

Lemma line_values : forall C : numClosedFieldType,
  [/\ ob_psi (line_ob C) = 2%:R, ob_g_proj 1 (line_ob C) 0 0 = 4%:R^-1,
      exists2 f, ob_g_proj_h 1 (line_ob C) = Ok f & f 0 0 0 = - 4%:R^-1 &
      exists2 f, ob_g_proj_ha 1 (line_ob C) = Ok f & f 0 0 0 0 = 8%:R^-1].
Proof.
move=> C.
have E0 : ob_psi (line_ob C) = 2%:R.
  by rewrite /ob_psi /= !big_ord_recl !big_ord0 !mxE /= /s_c conjC1; ring.
have E1 : ob_psi_h (line_ob C) 0 = 1.
  by rewrite /ob_psi_h /= !big_ord_recl !big_ord0 !mxE /= /s_c conjC1; ring.
have E2 : ob_psi_a (line_ob C) 0 = 1 by rewrite /ob_psi_a /psi_a E1 conjC1.
have E3 : ob_psi_ha (line_ob C) 0 0 = 1.
  by rewrite /ob_psi_ha /= !big_ord_recl !big_ord0 !mxE /= /s_1_c /= conjC1 conjC0; ring.
have E4 : ob_psi_hha (line_ob C) 0 0 0 = 0.
  by rewrite /ob_psi_hha /= big1 // => i _; rewrite big1 // => j _; rewrite !mul0r.
have E5 : ob_psi_hhaa (line_ob C) 0 0 0 0 = 0.
  by rewrite /ob_psi_hhaa /= big1 // => i _; rewrite big1 // => j _; rewrite !mul0r.
have [f Ef E6] : exists2 f, ob_psi_hh (line_ob C) = Ok f & f 0 0 = 0.
  eexists; first by []. by rewrite /= big1 // => i _; rewrite big1 // => j _; rewrite !mul0r.
split=> //.
- by rewrite /ob_g_proj /g_proj E0 E1 E2 E3 /=; field.
- rewrite /ob_g_proj_h /ob_two_hha Ef /=; eexists; first by [].
  rewrite /g_proj_h /two_hha /ob_three_hha /three_hha /ob_psi_h_psi_ha /psi_h_psi_ha.
  by rewrite E0 E1 E2 E3 E4 E6 /=; field.
rewrite /ob_g_proj_ha /ob_two_haha /ob_three_haha /ob_two_hha Ef /=; eexists; first by [].
rewrite /g_proj_ha /two_haha /three_haha /ob_four_haha /four_haha /psi_hha_psi_a /psi_ha_psi_ha.
rewrite /two_hha /ob_three_hha /three_hha /ob_psi_h_psi_ha /psi_h_psi_ha /psi_aa.
by rewrite E0 E1 E2 E3 E4 E5 E6 mul0r conjC0 /=; field.
Qed.
