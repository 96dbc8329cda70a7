(** Derivatives of the metric of the variety; Ricci tensor. *)
From Coq Require Import ZArith.
From mathcomp Require Import all_ssreflect all_algebra.
From mathcomp Require Import ring.
From Verif Require Import Base ModelUtil ModelDiff ModelGeom Deriv Bridge Wirtinger WMatrix SpecGeom Herm.
From Verif Require Import ProofDiff ProofGeom.
Delimit Scope Z_scope with Z.

Set Implicit Arguments.
Unset Strict Implicit.
Unset Printing Implicit Defensive.

Import GRing.Theory Num.Theory Order.POrderTheory.
Local Open Scope ring_scope.

#[local] Hint Extern 0 (is_true (0 < _)) => solve [apply: ltr01 | apply: ltr0Sn] : core.

Section Sesq.
Variables (C : numClosedFieldType) (n : nat).

(** sum_ij u_i g_ij w_j *)
Definition sesq (u : 'I_n -> C) (g : 'I_n -> 'I_n -> C) (w : 'I_n -> C) : C :=
  \sum_i \sum_j u i * g i j * w j.

Lemma sesq_eq u u' g g' w w' : u =1 u' -> g =2 g' -> w =1 w' -> sesq u g w = sesq u' g' w'.
Proof. by move=> e1 e2 e3; apply: eq_bigr => i _; apply: eq_bigr => j _; rewrite e1 e2 e3. Qed.

Lemma sesq_conj u g w :
  (sesq u g (fun j => (w j)^*))^* = sesq w (fun i j => (g j i)^*) (fun j => (u j)^*).
Proof.
rewrite /sesq exchange_big cj_sum; apply: eq_bigr => j _.
by rewrite cj_sum; apply: eq_bigr => i _; rewrite !cjE; ring.
Qed.

Lemma sesq0l g w : sesq (fun _ => 0) g w = 0.
Proof. by rewrite /sesq big1 // => i _; rewrite big1 // => j _; rewrite !mul0r. Qed.
Lemma sesq0r u g : sesq u g (fun _ => 0) = 0.
Proof. by rewrite /sesq big1 // => i _; rewrite big1 // => j _; rewrite mulr0. Qed.

Lemma wgrad_sesq k (u w : 'rV[C]_k -> 'I_n -> C) (g : 'rV[C]_k -> 'I_n -> 'I_n -> C) z du cu dw cw dg cg :
  (forall i, is_wgrad (fun y => u y i) z (du i) (cu i)) ->
  (forall i j, is_wgrad (fun y => g y i j) z (dg i j) (cg i j)) ->
  (forall i, is_wgrad (fun y => w y i) z (dw i) (cw i)) ->
  is_wgrad (fun y => sesq (u y) (g y) (w y)) z
    (fun a => sesq (fun i => du i a) (g z) (w z) + sesq (u z) (fun i j => dg i j a) (w z)
              + sesq (u z) (g z) (fun j => dw j a))
    (fun a => sesq (fun i => cu i a) (g z) (w z) + sesq (u z) (fun i j => cg i j a) (w z)
              + sesq (u z) (g z) (fun j => cw j a)).
Proof.
move=> Hu Hg Hw.
have H : is_wgrad (fun y => sesq (u y) (g y) (w y)) z
  (fun a => \sum_i \sum_j (du i a * g z i j * w z j + u z i * dg i j a * w z j + u z i * g z i j * dw j a))
  (fun a => \sum_i \sum_j (cu i a * g z i j * w z j + u z i * cg i j a * w z j + u z i * g z i j * cw j a)).
  apply: wgrad_sum => i _; apply: wgrad_sum => j _.
  apply: wgrad_eq (wgrad_mul (wgrad_mul (Hu i) (Hg i j)) (Hw j)) => a; ring.
by apply: wgrad_eq H => a; rewrite /sesq -!big_split; apply: eq_bigr => i _; rewrite -!big_split.
Qed.
End Sesq.

Section Traces.
Variables (F : comRingType) (p : nat).
Implicit Types A B D E : 'M[F]_p.
Lemma tr2 A B : \tr (A *m B) = \sum_i \sum_j A j i * B i j.
Proof. by rewrite /mxtrace exchange_big; apply: eq_bigr => j _; rewrite mxE. Qed.
Lemma tr4 A B D E : \tr (A *m B *m D *m E) = \sum_i \sum_j \sum_k \sum_l A j i * B i k * D k l * E l j.
Proof.
rewrite -!mulmxA tr2; apply: eq_bigr => i _; apply: eq_bigr => j _.
rewrite mxE mulr_sumr; apply: eq_bigr => k _; rewrite mxE !mulr_sumr; apply: eq_bigr => l _.
by rewrite !mulrA.
Qed.
End Traces.

Section Local.
Variables (C : numClosedFieldType) (N m : nat) (log : C -> C) (pi : C).
Notation n := m.+1.
Variables (o : 'rV[C]_n -> objects C N m) (z : 'rV[C]_n) (M : 'M[C]_N) (k : nat) (d : 'I_n).
Hypothesis HM : hermitian M.
Hypothesis Hh : forall y, o_h (o y) = HMat M.
Hypothesis Hk : forall y, o_degree (o y) = k.
Hypothesis Hdep : forall y, o_dep (o y) = Some (Z.of_nat d).
Hypothesis pi0 : 0 < pi.

Definition J y : 'M[C]_(m, n) := locked (Jm (o_grad (o y)) d).

Lemma jacE y : ob_jac (o y) = Ok (J y).
Proof. by rewrite /J -lock /ob_jac /ob_dependent Hdep /= /jac jacobian_embed_rows /= mx_rows_row. Qed.

Definition emb_point y :=
  (forall q i, is_grad (fun x => res_mx (ob_jac (o x)) q i) y (\row_a o_jach (o y) q i a)) /\
  (forall q i a, exists t, is_grad (fun x => o_jach (o x) q i a) y t).

Notation gp y := (ob_g_proj pi (o y)).
Notation gh y := (gh pi o M k y).
Notation gha y := (gha pi o M k y).
Notation Jc y s := (fun j => (J y s j)^*).

Definition gl y : 'M[C]_m := \matrix_(q, s) sesq (J y q) (gp y) (Jc y s).
Definition glh y a : 'M[C]_m := \matrix_(q, s)
  (sesq (fun i => o_jach (o y) q i a) (gp y) (Jc y s) + sesq (J y q) (gh y a) (Jc y s)).
Definition gla y a : 'M[C]_m := \matrix_(q, s) (glh y a s q)^*.
Definition glha y a b : 'M[C]_m := \matrix_(q, s)
  (sesq (fun i => o_jach (o y) q i a) (fun i j => (gh y b j i)^*) (Jc y s)
   + sesq (J y q) (gha y a b) (Jc y s)
   + sesq (fun i => o_jach (o y) q i a) (gp y) (fun j => (o_jach (o y) s j b)^*)
   + sesq (J y q) (gh y a) (fun j => (o_jach (o y) s j b)^*)).

Lemma g_locE y : ob_g_loc pi (o y) = Ok (gl y).
Proof.
rewrite /ob_g_loc jacE /=; congr Ok; apply/matrixP => q s; rewrite !mxE.
by apply: eq_bigr => i _; apply: eq_bigr => j _; rewrite mxE.
Qed.

Lemma g_loc_hE y : exists2 f, ob_g_loc_h pi (o y) = Ok f & forall a, f a = glh y a.
Proof.
have [f Ef Hf] := g_proj_hE pi Hh Hk y.
rewrite /ob_g_loc_h jacE Ef /=; eexists; first by []; move=> a; apply/matrixP => q s; rewrite !mxE.
by congr (_ + _); apply: eq_bigr => i _; apply: eq_bigr => j _; rewrite mxE ?Hf.
Qed.

Lemma g_loc_aE y : exists2 f, ob_g_loc_a pi (o y) = Ok f & forall a, f a = gla y a.
Proof.
have [f Ef Hf] := g_loc_hE y; rewrite /ob_g_loc_a Ef /=; eexists; first by [].
by move=> a; apply/matrixP => q s; rewrite !mxE Hf mxE.
Qed.

Lemma g_loc_haE y : exists2 f, ob_g_loc_ha pi (o y) = Ok f & forall a b, f a b = glha y a b.
Proof.
have [f Ef Hf] := g_proj_hE pi Hh Hk y; have [f2 Ef2 Hf2] := g_proj_haE pi HM Hh Hk y.
rewrite /ob_g_loc_ha jacE /ob_g_proj_a Ef Ef2 /=; eexists; first by [].
move=> a b; apply/matrixP => q s; rewrite !mxE /g_proj_a.
by congr (_ + _ + _ + _); apply: eq_bigr => i _; apply: eq_bigr => j _; rewrite ?mxE ?Hf ?Hf2.
Qed.

Section At.
Variable y : 'rV[C]_n.
Hypothesis Hy : at_point o y.
Hypothesis He : emb_point y.
Hypothesis p0 : ob_psi (o y) != 0.

Lemma d_J q i : is_wgrad (fun x => J x q i) y (o_jach (o y) q i) (fun _ => 0).
Proof.
have [/(_ q i)/wgrad_hol H _] := He.
by apply: wgrad_ext (wgrad_eq _ _ H) => a //; rewrite ?mxE // jacE.
Qed.
Lemma d_Jc q i : is_wgrad (fun x => (J x q i)^*) y (fun _ => 0) (fun a => (o_jach (o y) q i a)^*).
Proof. by apply: wgrad_eq (wgrad_conj (d_J q i)) => a; rewrite ?cj0. Qed.

Lemma d_gl : is_wmx gl y (glh y) (gla y).
Proof.
move=> q s.
have H := wgrad_sesq (d_J q) (fun i j => d_g_proj HM Hh Hk i j Hy p0 pi0) (d_Jc s).
apply: wgrad_ext (wgrad_eq _ _ H) => [x|a|a].
- by rewrite mxE.
- by rewrite mxE sesq0r addr0.
- rewrite sesq0l add0r !mxE cjD !sesq_conj addrC; congr (_ + _).
  by apply: sesq_eq => // i j; rewrite -(g_herm y HM Hh) // cjK.
Qed.

Lemma d_glh a : exists t, is_wmx (fun x => glh x a) y t (glha y a).
Proof.
have [_ Hj] := He.
have K q s : exists t : 'I_n -> C, is_wgrad (fun x => glh x a q s) y t (fun b => glha y a b q s).
  have Ht i : exists t : 'rV_n, is_grad (fun x => o_jach (o x) q i a) y t := Hj q i a.
  have [t Ht'] := fin_all_exists Ht.
  have Hg ij : exists t, is_wgrad (fun x => gh x a ij.1 ij.2) y t (fun b => gha y a b ij.1 ij.2).
    exact: (d_gh pi k HM Hh a ij.1 ij.2 Hy p0).
  have [tg Hg'] := fin_all_exists (fun ij : 'I_n * 'I_n => Hg ij).
  have H1 := wgrad_sesq (fun i => (wgrad_hol _ _ _).1 (Ht' i))
               (fun i j => d_g_proj HM Hh Hk i j Hy p0 pi0) (d_Jc s).
  have H2 := wgrad_sesq (d_J q) (fun i j => Hg' (i, j)) (d_Jc s).
  eexists; apply: wgrad_ext (wgrad_eq _ _ (wgrad_add H1 H2)) => [x|//|b]; first by rewrite mxE.
  rewrite !mxE !sesq0l !add0r /=.
  by rewrite -!addrA; congr (_ + _); rewrite addrCA.
have K' qs : exists t : 'I_n -> C, is_wgrad (fun x => glh x a qs.1 qs.2) y t (fun b => glha y a b qs.1 qs.2).
  exact: K.
have [t Ht] := fin_all_exists (fun qs : 'I_m * 'I_m => K' qs).
exists (fun b => \matrix_(q, s) t (q, s) b) => q s.
by apply: wgrad_eq (Ht (q, s)) => b //; rewrite mxE.
Qed.
End At.

Hypothesis Hc : exists2 r : C, 0 < r & forall y, norm1 (y - z) < r -> at_point o y.
Hypothesis Hemb : exists2 r : C, 0 < r & forall y, norm1 (y - z) < r -> emb_point y.
Hypothesis psi0 : ob_psi (o z) != 0.

Lemma near_all : exists2 r : C, 0 < r & forall y, norm1 (y - z) < r ->
  [/\ at_point o y, emb_point y & ob_psi (o y) != 0].
Proof.
have [r r0 Hr] := near_psi HM Hh Hc psi0; have [e e0 He] := Hemb.
have [f [f0 f1 f2]] := pos_min r0 e0; exists f => // y Hy.
have [? ?] := Hr y (lt_le_trans Hy f1); split=> //; exact: He (lt_le_trans Hy f2).
Qed.

Lemma all_z : [/\ at_point o z, emb_point z & ob_psi (o z) != 0].
Proof. by have [r r0 H] := near_all; apply: H; rewrite subrr norm10. Qed.

Lemma local_lemma : exists g gh ga gha, [/\ ob_g_loc pi (o z) = Ok g, ob_g_loc_h pi (o z) = Ok gh,
    ob_g_loc_a pi (o z) = Ok ga, ob_g_loc_ha pi (o z) = Ok gha &
    forall q s, (forall i j, g i j = \sum_p \sum_l J z i p * gp z p l * (J z j l)^*) /\
      is_wgrad (fun y => res_mx (ob_g_loc pi (o y)) q s) z (fun a => gh a q s) (fun a => ga a q s) /\
      is_mixed (fun y => res_mx (ob_g_loc pi (o y)) q s) z (fun a b => gha a b q s)].
Proof.
have [hz ez pz] := all_z.
have [f Ef Hf] := g_loc_hE z; have [f2 Ef2 Hf2] := g_loc_aE z; have [f3 Ef3 Hf3] := g_loc_haE z.
exists (gl z), f, f2, f3; split=> //; first exact: g_locE.
have E q s y : res_mx (ob_g_loc pi (o y)) q s = gl y q s by rewrite g_locE.
move=> q s; split; [by move=> i j; rewrite mxE | split].
  apply: wgrad_ext (wgrad_eq _ _ (d_gl hz ez pz q s)) => [y|a|a]; by rewrite ?E ?Hf ?Hf2.
have [r r0 Hr] := near_all.
exists (fun y a => glh y a q s), (fun y a => gla y a q s), r; split=> //; split=> [y Hy|a].
  have [h1 h2 h3] := Hr y Hy.
  by apply: wgrad_ext (d_gl h1 h2 h3 q s) => x; rewrite E.
have [t Ht] := d_glh hz ez pz a; exists (fun b => t b q s); apply: wgrad_eq (Ht q s) => // b.
by rewrite Hf3.
Qed.

Lemma ricci_lemma : \det (gl z) != 0 -> log_near log (\det (gl z)) ->
  exists2 R, ob_ricci_proj pi (o z) = Ok R &
    is_mixed (fun y => - log (\det (gl y))) z R.
Proof.
move=> nz [rl rl0 Hl]; have u : gl z \in unitmx by rewrite unitmxE unitfE.
have [hz ez pz] := all_z.
have [f Ef Hf] := g_loc_hE z; have [f2 Ef2 Hf2] := g_loc_aE z; have [f3 Ef3 Hf3] := g_loc_haE z.
rewrite /ob_ricci_proj Ef Ef2 Ef3 g_locE /=; eexists; first by [].
have [r1 r10 H1] := near_all.
have [r2 r20 H2] := wmx_unit (d_gl hz ez pz) u.
have /wgrad_diff Hd := wgrad_det (d_gl hz ez pz).
have [r3 r30 H3] := diff_close Hd rl0.
have [r4 [r40 h41 h42]] := pos_min r10 r20; have [r [r0 h4 h3]] := pos_min r40 r30.
exists (fun y a => - \tr (invmx (gl y) *m glh y a)), (fun y a => - \tr (invmx (gl y) *m gla y a)), r.
split=> //; split=> [y Hy|a].
  have [h1 h2 h5] := H1 y (lt_le_trans (lt_le_trans Hy h4) h41).
  apply: wgrad_opp; apply: wgrad_logdet; first exact: d_gl.
    exact: H2 (lt_le_trans (lt_le_trans Hy h4) h42).
  by apply: Hl; apply: H3; apply: (lt_le_trans Hy).
have [t Ht] := d_glh hz ez pz a.
have H := wgrad_opp (wgrad_tr (wmx_mul (wmx_inv (d_gl hz ez pz) u) Ht)).
eexists; apply: wgrad_eq H => [//|b].
rewrite mxE linearD opprD addrC mulNmx linearN opprK /=; congr (_ - _).
  rewrite -(mulmxA (_ *m _)) mxtrace_mulC mulmxA tr4 /g_loc_inv.
  by apply: eq_bigr => i _; do 3!(apply: eq_bigr => ? _); rewrite Hf Hf2.
rewrite tr2 /g_loc_inv; by apply: eq_bigr => i _; apply: eq_bigr => j _; rewrite Hf3.
Qed.
End Local.
