(** Carrying an H to multiples of its degree. *)
From Coq Require Import ZArith Lia.
From mathcomp Require Import all_ssreflect all_algebra.
From mathcomp Require Import zify ssrZ ring.
From SsrMultinomials Require Import mpoly.
From Verif Require Import Base ModelUtil ModelProjective ModelDiff ModelExpr ModelPoly ModelHom ModelVariety ModelBasis ModelGeom ModelAlg ModelPipe.
From Verif Require Import SpecBasis SpecSections SpecPatch SpecAlg SpecFubini SpecProduct Herm.
From Verif Require Import Deriv Bridge PolyGrad ProofBasis ProofBasis3 ProofAlg ProofFubini ProofFubini3 ProofProduct ProofProduct2 ProofProduct3 ProofProduct4.
Delimit Scope Z_scope with Z.

Set Implicit Arguments.
Unset Strict Implicit.
Unset Printing Implicit Defensive.

Import GRing.Theory Num.Theory Order.POrderTheory.
Local Open Scope ring_scope.

(** Quantities which depend on the metric and its derivatives only *)
Section Ext.
Variables (C : numClosedFieldType) (m : nat).
Notation n := m.+1.

Lemma g_loc_ext (g g' : 'I_n -> 'I_n -> C) J Jc : (forall i j, g i j = g' i j) -> g_loc (m := m) g J Jc = g_loc g' J Jc.
Proof. by move=> E; apply/matrixP => r s; rewrite !mxE; apply: eq_bigr => i _; apply: eq_bigr => j _; rewrite E. Qed.

Lemma g_loc_h_ext (g g' : 'I_n -> 'I_n -> C) (gh gh' : 'I_n -> 'I_n -> 'I_n -> C) J jh Jc a :
  (forall i j, g i j = g' i j) -> (forall a i j, gh a i j = gh' a i j) ->
  g_loc_h (m := m) g gh J jh Jc a = g_loc_h g' gh' J jh Jc a.
Proof.
move=> E E'; apply/matrixP => r s; rewrite !mxE.
by congr (_ + _); apply: eq_bigr => i _; apply: eq_bigr => j _; rewrite ?E ?E'.
Qed.

Lemma g_loc_ha_ext (g g' : 'I_n -> 'I_n -> C) (ga ga' gh gh' : 'I_n -> 'I_n -> 'I_n -> C)
    (gha gha' : 'I_n -> 'I_n -> 'I_n -> 'I_n -> C) J Jc jh a b :
  (forall i j, g i j = g' i j) -> (forall a i j, ga a i j = ga' a i j) -> (forall a i j, gh a i j = gh' a i j) ->
  (forall a b i j, gha a b i j = gha' a b i j) ->
  g_loc_ha (m := m) g ga gh gha J Jc jh a b = g_loc_ha g' ga' gh' gha' J Jc jh a b.
Proof.
move=> E Ea Eh Eha; apply/matrixP => r s; rewrite !mxE.
by congr (_ + _ + _ + _); apply: eq_bigr => i _; apply: eq_bigr => j _; rewrite ?E ?Ea ?Eh ?Eha.
Qed.

Lemma ricci_proj_ext (gh gh' ga ga' : 'I_n -> 'M[C]_m) (gha gha' : 'I_n -> 'I_n -> 'M[C]_m) inv :
  (forall a, gh a = gh' a) -> (forall a, ga a = ga' a) -> (forall a b, gha a b = gha' a b) ->
  ricci_proj gh ga gha inv = ricci_proj gh' ga' gha' inv.
Proof.
move=> Eh Ea Eha; apply/matrixP => a b; rewrite !mxE; congr (_ - _).
  by do 4!apply: eq_bigr => ? _; rewrite Eh Ea.
by do 2!apply: eq_bigr => ? _; rewrite Eha.
Qed.

Variables (N N' : nat) (pi : C) (o : objects C N m) (o' : objects C N' m).
Hypotheses (Eg : o_grad o = o_grad o') (Ed : o_dep o = o_dep o') (Ej : o_jach o = o_jach o').
Hypothesis E0 : forall i j, ob_g_proj pi o i j = ob_g_proj pi o' i j.

Let jE : ob_jac o = ob_jac o'.
Proof. by rewrite /ob_jac /ob_dependent Eg Ed. Qed.

Lemma ob_g_loc_ext : ob_g_loc pi o = ob_g_loc pi o'.
Proof. by rewrite /ob_g_loc jE; case: ob_jac => //= J; congr Ok; exact: g_loc_ext. Qed.

Lemma ob_dependent_ext : ob_dependent o = ob_dependent o'.
Proof. by rewrite /ob_dependent Eg Ed. Qed.

Lemma ob_eta_ext : ob_eta pi o = ob_eta pi o'.
Proof. by rewrite /ob_eta ob_g_loc_ext ob_dependent_ext Eg. Qed.

Variables (F F' : 'I_n -> 'I_n -> 'I_n -> C) (G G' : 'I_n -> 'I_n -> 'I_n -> 'I_n -> C).
Hypotheses (Fo : ob_g_proj_h pi o = Ok F) (Fo' : ob_g_proj_h pi o' = Ok F').
Hypotheses (Go : ob_g_proj_ha pi o = Ok G) (Go' : ob_g_proj_ha pi o' = Ok G').
Hypotheses (E1 : forall a i j, F a i j = F' a i j) (E2 : forall a b i j, G a b i j = G' a b i j).

Lemma ob_ricci_loc_ext : ob_ricci_loc pi o = ob_ricci_loc pi o'.
Proof.
rewrite /ob_ricci_loc /ob_ricci_proj /ob_g_loc_a /ob_g_loc_h /ob_g_loc_ha /ob_g_proj_a Fo Fo' Go Go' ob_g_loc_ext jE.
case: (ob_jac o') => //= J; rewrite Ej; case: ob_g_loc => //= g; congr (Ok (ricci_loc _ _ _)).
have h a : g_loc_h (ob_g_proj pi o) F J (o_jach o') (jac_c J) a = g_loc_h (ob_g_proj pi o') F' J (o_jach o') (jac_c J) a.
  exact: g_loc_h_ext.
apply: ricci_proj_ext => [a|a|a b]; first exact: h.
  by apply/matrixP => r s; rewrite mxE h [RHS]mxE.
apply: g_loc_ha_ext => // c i j; by rewrite /g_proj_a E1.
Qed.

Lemma ob_ricci_scalar_ext : ob_ricci_scalar pi o = ob_ricci_scalar pi o'.
Proof. by rewrite /ob_ricci_scalar ob_ricci_loc_ext ob_g_loc_ext. Qed.
End Ext.

Section Lift.
Variable C : numClosedFieldType.
Variables (m k : nat) (B : basis).
Hypotheses (hB : basis_full m.+1 k = Ok B) (k0 : (0 < k)%N).
Variables (h : 'M[C]_(size (power_matrix B))).
Hypotheses (hh : hermitian h) (hp : posdef h).

(** the same potential up to a factor, the same metric and derivatives of it *)
Definition same_geometry pi (j : nat) (B' : basis) (h' : 'M[C]_(size (power_matrix B'))) :=
  forall (p : 'I_m.+2) (z : 'rV[C]_m.+1), [/\ fp h' p z = fp h p z ^+ j,
    forall i l, gpv pi (j * k) h' p z i l = gpv pi k h p z i l,
    forall a i l, gphv pi (j * k) h' p z a i l = gphv pi k h p z a i l &
    forall a b i l, gphav pi (j * k) h' p z a b i l = gphav pi k h p z a b i l].

Lemma lift_exists j : (0 < j)%N -> exists B' (h' : 'M[C]_(size (power_matrix B'))),
  [/\ basis_full m.+1 (j * k) = Ok B', hermitian h', posdef h' & forall pi, pi != 0 -> same_geometry pi j h'].
Proof.
case: j => // j _; elim: j => [|j [B1 [h1 [hB1 hh1 hp1 S]]]].
  by exists B, h; split=> [||//|pi pi0 p z] //; rewrite ?mul1n //; split=> *; rewrite ?expr1 ?mul1n.
have [B2 [hB2 _ _ _ _]] := full_class m.+1 (j.+1 * k + k).
have [hh2 hp2] := product_positive_lemma hB1 hB hB2 hh1 hp1 hh hp.
have e : (j.+2 * k = j.+1 * k + k)%N by rewrite mulSnr.
have k10 : (0 < j.+1 * k)%N by rewrite muln_gt0.
have K : (j.+1 * k + k)%:R != 0 :> C by rewrite pnatr_eq0 -lt0n addn_gt0 k0 orbT.
exists B2, (h_product B2 h1 h); rewrite e; split=> // pi pi0 p z; have [F0 G0 G1 G2] := S pi pi0 p z.
split=> [|i l|a i l|a b i l].
- by rewrite (fp_mul hB1 hB hB2) F0 [RHS]exprSr.
- by rewrite e; apply: (mulfI K); rewrite (gpv_mul hB1 hB hB2) // G0 natrD mulrDl.
- by rewrite e; apply: (mulfI K); rewrite (gphv_mul hB1 hB hB2) // G1 natrD mulrDl.
- by rewrite e; apply: (mulfI K); rewrite (gphav_mul hB1 hB hB2) // G2 natrD mulrDl.
Qed.

Variable D : forall n : nat, ('rV[C]_n -> C) -> 'rV[C]_n -> 'rV[C]_n.
Hypothesis hD : diff_ok D.
Variables (lg ex : C -> C) (pi : C) (V : variety C).
Hypothesis hV : v_coordinates V = Ok m.+2.
Variables (j : nat) (B' : basis) (h' : 'M[C]_(size (power_matrix B'))).
Hypotheses (j0 : (0 < j)%N) (hB' : basis_full m.+1 (j * k) = Ok B') (S : same_geometry pi j h') (pi0 : pi != 0).
Variables (zs : seq C) (params : pyval C) (patch : option Z) (grad : option 'rV[C]_m.+1) (dep : option Z).
Hypothesis hpa : patch = None \/ exists p : 'I_m.+2, patch = Some (Z.of_nat p).

Lemma lift_objects : (exists e, alg_objects D lg ex m V (HMat h) zs params patch grad dep = Err e /\
    alg_objects D lg ex m V (HMat h') zs params patch grad dep = Err e) \/
  exists (p : 'I_m.+2) (z g : 'rV[C]_m.+1) d jh,
    alg_objects D lg ex m V (HMat h) zs params patch grad dep = Ok (obv D lg ex h p z g d jh, Z.of_nat p) /\
    alg_objects D lg ex m V (HMat h') zs params patch grad dep = Ok (obv D lg ex h' p z g d jh, Z.of_nat p).
Proof.
rewrite /alg_objects; case: (point_cases hV zs hpa) => [[e ->]|[z [p ->]]] /=; first by left; exists e.
rewrite (fsecs lg ex hB p z) (fsecs lg ex hB' p z) /=; case: alg_grad => [g|e] /=; last by left; exists e.
case: choose_dependent => [d|e] /=; last by left; exists e.
by right; exists p, z, g, (Some d), (alg_jac_h D V params (Z.of_nat p) d z).
Qed.

Lemma lift_metric : alg_metric D lg ex pi m V (HMat h') zs params patch grad dep = alg_metric D lg ex pi m V (HMat h) zs params patch grad dep.
Proof.
rewrite /alg_metric; case: lift_objects => [[e [-> ->]]|[p [z [g [d [jh [-> ->]]]]]]] //=.
have [_ G0 _ _] := S p z.
rewrite (@ob_g_loc_ext _ _ _ _ pi (obv D lg ex h' p z g d jh) (obv D lg ex h p z g d jh)) // => i l.
by rewrite (op hD lg ex pi hB') (op hD lg ex pi hB) G0.
Qed.

Lemma lift_eta : alg_eta D lg ex pi m V (HMat h') zs params patch grad dep = alg_eta D lg ex pi m V (HMat h) zs params patch grad dep.
Proof.
rewrite /alg_eta; case: lift_objects => [[e [-> ->]]|[p [z [g [d [jh [-> ->]]]]]]] //=.
have [_ G0 _ _] := S p z; apply: ob_eta_ext => // i l.
by rewrite (op hD lg ex pi hB') (op hD lg ex pi hB) G0.
Qed.

Lemma lift_ricci : alg_ricci D lg ex pi m V (HMat h') zs params patch grad dep = alg_ricci D lg ex pi m V (HMat h) zs params patch grad dep
  /\ alg_ricci_scalar D lg ex pi m V (HMat h') zs params patch grad dep = alg_ricci_scalar D lg ex pi m V (HMat h) zs params patch grad dep.
Proof.
rewrite /alg_ricci /alg_ricci_scalar; case: lift_objects => [[e [-> ->]]|[p [z [g [d [jh [-> ->]]]]]]] //=.
have [_ G0 G1 G2] := S p z.
have [F Fo EF] := oh hD lg ex pi hB h p z g d jh; have [F' Fo' EF'] := oh hD lg ex pi hB' h' p z g d jh.
have [G Go EG] := oha hD lg ex pi hB h p z g d jh; have [G' Go' EG'] := oha hD lg ex pi hB' h' p z g d jh.
set o := obv D lg ex h p z g d jh in Fo Go *; set o' := obv D lg ex h' p z g d jh in Fo' Go' *.
have P0 i l : ob_g_proj pi o' i l = ob_g_proj pi o i l by rewrite (op hD lg ex pi hB') (op hD lg ex pi hB) G0.
have P1 a i l : F' a i l = F a i l by rewrite EF EF' G1.
have P2 a b i l : G' a b i l = G a b i l by rewrite EG EG' G2.
split; last exact: (@ob_ricci_scalar_ext _ _ _ _ pi o' o _ _ _ P0 F' F G' G).
by rewrite (@ob_ricci_loc_ext _ _ _ _ pi o' o _ _ _ P0 F' F G' G).
Qed.

Lemma lift_kahler : (forall u v, 0 < u -> 0 < v -> lg (u * v) = lg u + lg v) ->
  alg_kahler lg ex pi m V (HMat h') zs patch = alg_kahler lg ex pi m V (HMat h) zs patch.
Proof.
move=> hl; case: (point_cases hV zs hpa) => [[e E]|[z [p E]]]; first by rewrite /alg_kahler E.
have [F0 _ _ _] := S p z.
rewrite (kah_code lg ex pi hB _ E) (kah_code lg ex pi hB' _ E) F0 (lg_pow hl) ?(fp_pos hB) // natrM.
have J : j%:R != 0 :> C by rewrite pnatr_eq0 -lt0n.
have K : k%:R != 0 :> C by rewrite pnatr_eq0 -lt0n.
congr Ok; move: (lg _) (j%:R : C) (k%:R : C) J K => l j' k' J K; by field; rewrite J K pi0.
Qed.
End Lift.

Lemma lift_lemma (C : numClosedFieldType) (pi : C) (m k j : nat) (B : basis) (h : 'M[C]_(size (power_matrix B))) :
  pi != 0 -> basis_full m.+1 k = Ok B -> (0 < k)%N -> (0 < j)%N -> hermitian h -> posdef h ->
  exists B' (h' : 'M[C]_(size (power_matrix B'))), [/\ basis_full m.+1 (j * k) = Ok B', hermitian h', posdef h' &
  forall (D : forall n : nat, ('rV[C]_n -> C) -> 'rV[C]_n -> 'rV[C]_n), diff_ok D ->
  forall (lg ex : C -> C) (V : variety C), v_coordinates V = Ok m.+2 ->
  forall (zs : seq C) (params : pyval C) (patch : option Z) (grad : option 'rV[C]_m.+1) (dep : option Z),
  (patch = None \/ exists p : 'I_m.+2, patch = Some (Z.of_nat p)) ->
  [/\ alg_metric D lg ex pi m V (HMat h') zs params patch grad dep = alg_metric D lg ex pi m V (HMat h) zs params patch grad dep,
      alg_eta D lg ex pi m V (HMat h') zs params patch grad dep = alg_eta D lg ex pi m V (HMat h) zs params patch grad dep,
      alg_ricci D lg ex pi m V (HMat h') zs params patch grad dep = alg_ricci D lg ex pi m V (HMat h) zs params patch grad dep,
      alg_ricci_scalar D lg ex pi m V (HMat h') zs params patch grad dep =
        alg_ricci_scalar D lg ex pi m V (HMat h) zs params patch grad dep &
      (forall u v, 0 < u -> 0 < v -> lg (u * v) = lg u + lg v) ->
      alg_kahler lg ex pi m V (HMat h') zs patch = alg_kahler lg ex pi m V (HMat h) zs patch]].
Proof.
move=> pi0 hB k0 j0 hh hp; have [B' [h' [hB' hh' hp' S]]] := lift_exists hB k0 hh hp j0.
exists B', h'; split=> // D hD lg ex V hV zs params patch grad dep hpa.
have [R1 R2] := lift_ricci hB hD lg ex hV hB' (S pi pi0) zs params grad dep hpa.
split=> //; [exact: (lift_metric hB hD lg ex hV hB' (S pi pi0))|exact: (lift_eta hB hD lg ex hV hB' (S pi pi0))|].
by move=> hl; apply: (lift_kahler hB k0 hp ex hV j0 hB' (S pi pi0)).
Qed.
