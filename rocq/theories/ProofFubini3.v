(** AlgebraicMetric with multinomial coefficients for H. *)
From Coq Require Import ZArith Lia.
From mathcomp Require Import all_ssreflect all_algebra.
From mathcomp Require Import zify ssrZ ring.
From SsrMultinomials Require Import mpoly.
From Verif Require Import Base ModelUtil ModelProjective ModelDiff ModelExpr ModelPoly ModelHom ModelVariety ModelBasis ModelGeom ModelAlg ModelPipe.
From Verif Require Import SpecBasis SpecSections SpecPatch SpecAlg SpecFubini.
From Verif Require Import Deriv Bridge PolyGrad Herm ProofBasis ProofBasis3 ProofDiff ProofGeom4 ProofSections ProofPolyExpr ProofVariety3 ProofAlg ProofAlg5 ProofAlg6 ProofFubini ProofFubini2.
Delimit Scope Z_scope with Z.

Set Implicit Arguments.
Unset Strict Implicit.
Unset Printing Implicit Defensive.

Import GRing.Theory Num.Theory Order.POrderTheory.
Local Open Scope ring_scope.

Section Code.
Variable C : numClosedFieldType.
Variable D : forall n : nat, ('rV[C]_n -> C) -> 'rV[C]_n -> 'rV[C]_n.
Hypothesis hD : diff_ok D.
Variables (lg ex : C -> C) (pi : C) (m k : nat) (V : variety C) (B : basis).
Hypotheses (hV : v_coordinates V = Ok m.+2) (hB : basis_full m.+1 k = Ok B) (k0 : (0 < k)%N).
Notation N := (size (power_matrix B)).
Variable h : hvalue C N.
Hypothesis hh : h = HVec (fubini_h C B) \/ h = HMat (diag_mx (fubini_h C B)).
Variables (p : 'I_m.+2) (zs : seq C) (params : pyval C).
Hypothesis sz : size zs = m.+1.
Notation z := (seq_row m.+1 zs).

Lemma full_ne : power_matrix B <> [::].
Proof. by have [B' [E _ ne _ _]] := full_class m.+1 k; move: hB; rewrite E => -[<-]. Qed.

Lemma secs : alg_sections lg ex B (Z.of_nat p) z = Ok [seq peval (section_polys C p s) z | s <- enum 'I_N].
Proof. apply: (sections_code lg ex (k := k)) => //; [by left|exact: full_ne]. Qed.

Lemma grad_size g patch : v_grad_defining D V zs params patch = Ok g -> size g = m.+1.
Proof.
rewrite /v_grad_defining; case: v_defining => //= _ [<-].
by rewrite /grad_fn size_row_seq.
Qed.

Definition obj g d dep : objects C N m :=
  Objects h k (fun s => peval (section_polys C p s) z) (fun s i => peval ((section_polys C p s)^`M(i)) z)
    (fun a i j => alg_s2 D lg ex (Z.of_nat p) a i j z) g (Some d) dep.

Lemma obj_code grad dep : alg_objects D lg ex m V h zs params (Some (Z.of_nat p)) grad dep =
  do g <- alg_grad D V params grad (Z.of_nat p) z; do d <- choose_dependent (row_seq g) dep;
  Ok (Objects h (bdegree B) (fun s => nth 0 [seq peval (section_polys C p s) z | s <- enum 'I_N] s)
       (fun a i => alg_s1 D lg ex (Z.of_nat p) a i z) (fun a i j => alg_s2 D lg ex (Z.of_nat p) a i j z)
       g (Some d) (alg_jac_h D V params (Z.of_nat p) d z), Z.of_nat p).
Proof. by rewrite /alg_objects /alg_point /v_dim_projective hV /= sz eqxx /= secs. Qed.

Lemma g_proj_code g d jh i j :
  ob_g_proj pi (Objects h (bdegree B) (fun s => nth 0 [seq peval (section_polys C p s) z | s <- enum 'I_N] s)
       (fun a i => alg_s1 D lg ex (Z.of_nat p) a i z) (fun a i j => alg_s2 D lg ex (Z.of_nat p) a i j z)
       g d jh) i j = pi^-1 * fs_metric_real z i j.
Proof.
have [_ dk] := full_mons hB; rewrite -(fub_g p hB z hh pi) // /ob_g_proj /ob_psi /ob_psi_a /ob_psi_h /ob_psi_ha /= dk.
have E0 (s : 'I_N) : nth 0 [seq peval (section_polys C p s) z | s <- enum 'I_N] s = peval (section_polys C p s) z.
  by rewrite (nth_map s) ?size_enum_ord // nth_ord_enum.
have E1 (s : 'I_N) a : alg_s1 D lg ex (Z.of_nat p) s a z = peval ((section_polys C p s)^`M(a)) z.
  by apply: (s1_code hD lg ex (k := k)); [left|exact: full_ne].
have P0 : psi h (fun s => nth 0 [seq peval (section_polys C p s) z | s <- enum 'I_N] s)
    (s_c (fun s : 'I_N => nth 0 [seq peval (section_polys C p s) z | s <- enum 'I_N] s)) =
    psi h (fun s => peval (section_polys C p s) z) (s_c (fun s : 'I_N => peval (section_polys C p s) z)).
  by rewrite /psi /s_c; case: (h) => M; [apply: eq_bigr => s _; apply: eq_bigr => t _|apply: eq_bigr => s _]; rewrite !E0.
have P1 a : psi_h h (fun s i => alg_s1 D lg ex (Z.of_nat p) s i z)
    (s_c (fun s : 'I_N => nth 0 [seq peval (section_polys C p s) z | s <- enum 'I_N] s)) a =
    psi_h h (fun s i => peval ((section_polys C p s)^`M(i)) z) (s_c (fun s : 'I_N => peval (section_polys C p s) z)) a.
  by rewrite /psi_h /s_c; case: (h) => M; [apply: eq_bigr => s _; apply: eq_bigr => t _|apply: eq_bigr => s _];
    rewrite !E0 !E1.
have P2 a b : psi_ha h (fun s i => alg_s1 D lg ex (Z.of_nat p) s i z) (s_1_c (fun s i => alg_s1 D lg ex (Z.of_nat p) s i z)) a b =
    psi_ha h (fun s i => peval ((section_polys C p s)^`M(i)) z) (s_1_c (fun s i => peval ((section_polys C p s)^`M(i)) z)) a b.
  by rewrite /psi_ha /s_1_c; case: (h) => M; [apply: eq_bigr => s _; apply: eq_bigr => t _|apply: eq_bigr => s _];
    rewrite !E1.
by rewrite /g_proj /psi_a P0 !P1 P2.
Qed.

Lemma mx_conj (rows : seq (seq C)) : mx_rows m m.+1 [seq [seq x^* | x <- row] | row <- rows] = map_mx conjC (mx_rows m m.+1 rows).
Proof.
apply/matrixP => i j; rewrite !mxE; case: (ltnP i (size rows)) => hi; last first.
  by rewrite ![nth [::] _ _]nth_default ?size_map //= !nth_nil rmorph0.
rewrite (nth_map [::]) //; case: (ltnP j (size (nth [::] rows i))) => hj; last first.
  by rewrite (nth_default 0 hj) nth_default ?size_map // rmorph0.
by rewrite (nth_map 0).
Qed.

(** metric *)
Lemma metric_code dep : alg_metric D lg ex pi m V h zs params (Some (Z.of_nat p)) None dep =
  rmap (fun F => (pi^-1 *: F.1, Z.of_nat p, if dep is Some d then d else odflt 0%Z F.2))
    (v_induced_fs D m V zs params (PatchInt C (Z.of_nat p)) None dep).
Proof.
rewrite /alg_metric obj_code /alg_grad /v_induced_fs /v_induced_metric seq_rowK //.
case E: v_grad_defining => [g|er] //=; rewrite seq_rowK ?(grad_size E) //.
case Ed: (choose_dependent g dep) => [d|er] //=.
rewrite /ob_g_loc /ob_jac /ob_dependent /= /jac /induced_metric seq_rowK ?(grad_size E) //.
case: jacobian_embed => [J|er] //=; congr Ok; congr (_, _, _); last first.
  by case: dep Ed => [d'|] //=; case.
apply/matrixP => r s; rewrite !mxE mulr_sumr; apply: eq_bigr => i _; rewrite mulr_sumr; apply: eq_bigr => j _.
rewrite g_proj_code mx_conj /jac_c -/(fs_metric_real z); move: (map_mx conjC _ s j) (mx_rows _ _ _ r i) => b a.
by rewrite [a * _]mulrCA -!mulrA; congr (_ * (_ * _)); exact: mulrC.
Qed.

(** kahler_potential *)
Lemma lg_pow : (forall u v, 0 < u -> 0 < v -> lg (u * v) = lg u + lg v) -> forall x j, 0 < x -> lg (x ^+ j) = j%:R * lg x.
Proof.
move=> H x j x0; have l1 : lg 1 = 0.
  by have := H 1 1 ltr01 ltr01; rewrite mulr1 => /eqP; rewrite -subr_eq0 opprD addNKr oppr_eq0 => /eqP.
elim: j => [|j IH]; first by rewrite expr0 mul0r.
by rewrite exprS H ?exprn_gt0 // IH -add1n natrD mulrDl mul1r.
Qed.

Lemma kahler_fub : (forall u v, 0 < u -> 0 < v -> lg (u * v) = lg u + lg v) ->
  alg_kahler lg ex pi m V h zs (Some (Z.of_nat p)) = Ok (fs_potential lg z (conj_row z) / pi).
Proof.
move=> hl; rewrite /alg_kahler /alg_point /v_dim_projective hV /= sz eqxx /= secs /=; congr Ok.
have [_ dk] := full_mons hB; rewrite dk /kahler.
have E0 (s : 'I_N) : nth 0 [seq peval (section_polys C p s) z | s <- enum 'I_N] s = peval (section_polys C p s) z.
  by rewrite (nth_map s) ?size_enum_ord // nth_ord_enum.
have -> : psi h (fun s => nth 0 [seq peval (section_polys C p s) z | s <- enum 'I_N] s)
    (s_c (fun s : 'I_N => nth 0 [seq peval (section_polys C p s) z | s <- enum 'I_N] s)) = norm2p1 z (conj_row z) ^+ k.
  rewrite -(fub_psi p hB z hh).
  by rewrite /psi /s_c; case: (h) => M; [apply: eq_bigr => s _; apply: eq_bigr => t _|apply: eq_bigr => s _]; rewrite !E0.
rewrite (lg_pow hl) ?Nz_pos // /fs_potential invfM [_ * lg _]mulrC mulrACA.
by rewrite divff ?mulr1 // pnatr_eq0 -lt0n.
Qed.

(** eta and the weights *)
Lemma eta_fub (ps g : seq C) (d : 'I_m.+1) dep : 0 < pi -> params = PArr ps ->
  v_grad_defining D V zs params (PatchInt C (Z.of_nat p)) = Ok g -> nth 0 g d != 0 ->
  (dep = None \/ dep = Some (Z.of_nat d)) ->
  exists E w, [/\ alg_eta D lg ex pi m V h zs params (Some (Z.of_nat p)) None dep = Ok E,
    v_weights D pi m V zs ps (Some (Z.of_nat p)) dep (Some 1) = Ok w, 0 < w & E * w = m`!%:R^-1].
Proof.
move=> pi0 Ep Eg nz hd; have gs := grad_size Eg; pose G := seq_row m.+1 g; have EG : row_seq G = g by rewrite seq_rowK.
have Gd : G 0 d != 0 by rewrite mxE.
have [W1 W2 W3] := weights_lemma z (Some 1) pi0 Gd.
have [d0 [Ec Gd0]] : exists d0 : 'I_m.+1, choose_dependent g dep = Ok (Z.of_nat d0) /\ G 0 d0 != 0.
  case: hd => ->; last by exists d.
  have [d0 [E0 mx]] := choose_max G; exists d0; rewrite -EG; split=> //.
  by apply: contraNneq Gd => G0; rewrite -normr_le0 -[X in _ <= X](normr0 C) -G0.
exists (\det (pi^-1 *: fs_metric_real z + G^T *m adjm G^T) - \det (pi^-1 *: fs_metric_real z)), (pi ^+ m / m`!%:R /
  (\det (fs_metric_real z + G^T *m adjm G^T) - \det (fs_metric_real z))); split.
- rewrite /alg_eta obj_code /alg_grad seq_rowK // Eg /= -/G EG Ec /=.
  set o := Objects _ _ _ _ _ _ _ _; rewrite (@eta_dep _ _ _ pi o d0) //=.
  have -> // : gpm pi o = pi^-1 *: fs_metric_real z by apply/matrixP => i j; rewrite [LHS]mxE g_proj_code [RHS]mxE.
- by rewrite /v_weights -Ep Eg /= -EG; case: hd => ->.
- exact: W2.
rewrite -!(vol_lemma _ Gd) -scalemxAr -scalemxAl detZ -[X in X * _ = _]mulrA.
have A0 : \det (Jm G d *m fs_metric_real z *m adjm (Jm G d)) * `|G 0 d| ^+ 2 != 0.
  rewrite vol_lemma //; apply: contraTneq W2 => ->; by rewrite invr0 mulr0 ltxx.
move: A0; set A := _ * _ ^+ 2 => A0; rewrite exprVn.
have P0 : pi ^+ m != 0 by rewrite expf_neq0 // lt0r_neq0.
have F0 : m`!%:R != 0 :> C by rewrite pnatr_eq0 -lt0n fact_gt0.
clearbody A; move: (m`!%:R : C) F0 (pi ^+ m) P0 => F F0 P P0.
by field; rewrite A0 P0 F0.
Qed.
End Code.

Lemma fubini_one (C : numClosedFieldType) (n : nat) B : basis_full n 1 = Ok B -> fubini_h C B = const_mx 1.
Proof.
move=> hB; have [EB Ek] := full_mons hB; apply/rowP => s; rewrite !mxE Ek /multinomial.
have : nth [::] (power_matrix B) s \in mons n.+1 1 by rewrite -EB mem_nth.
move: (nth _ _ _) => v /is_monomialP[sv dv].
rewrite big1_seq ?divr1 //= => a /(nthP 0%N)[j]; rewrite sv => jn <-.
have : (nth 0%N v j <= 1)%N by rewrite -dv (bigD1 (Ordinal jn)) //= leq_addr.
by case: (nth 0%N v j) => [|[]].
Qed.

Lemma degree_one : forall (C : numClosedFieldType)
    (D : forall n : nat, ('rV[C]_n -> C) -> 'rV[C]_n -> 'rV[C]_n), diff_ok D ->
  forall (lg ex : C -> C) (pi : C) (m : nat) (V : variety C) (B : basis),
  v_coordinates V = Ok m.+2 -> basis_full m.+1 1 = Ok B ->
  forall (p : 'I_m.+2) (zs : seq C) (params : pyval C) (dep : option Z), size zs = m.+1 ->
  alg_metric D lg ex pi m V (HMat 1%:M : hvalue C (size (power_matrix B))) zs params (Some (Z.of_nat p)) None dep =
  rmap (fun F => (pi^-1 *: F.1, Z.of_nat p, if dep is Some d then d else odflt 0%Z F.2))
    (v_induced_fs D m V zs params (PatchInt C (Z.of_nat p)) None dep).
Proof.
move=> C D hD lg ex pi m V B hV hB p zs params dep sz.
by apply: (metric_code hD lg ex pi (k := 1)) => //; right; rewrite (fubini_one C hB) diag_const_mx.
Qed.

Lemma fub_metric : forall (C : numClosedFieldType)
    (D : forall n : nat, ('rV[C]_n -> C) -> 'rV[C]_n -> 'rV[C]_n), diff_ok D ->
  forall (lg ex : C -> C) (pi : C) (m k : nat) (V : variety C) (B : basis) (h : hvalue C (size (power_matrix B))),
  v_coordinates V = Ok m.+2 -> basis_full m.+1 k = Ok B -> (0 < k)%N ->
  (h = HVec (fubini_h C B) \/ h = HMat (diag_mx (fubini_h C B))) ->
  forall (p : 'I_m.+2) (zs : seq C) (params : pyval C) (dep : option Z), size zs = m.+1 ->
  alg_metric D lg ex pi m V h zs params (Some (Z.of_nat p)) None dep =
  rmap (fun F => (pi^-1 *: F.1, Z.of_nat p, if dep is Some d then d else odflt 0%Z F.2))
    (v_induced_fs D m V zs params (PatchInt C (Z.of_nat p)) None dep).
Proof.
by move=> C D hD lg ex pi m k V B h hV hB k0 hh p zs params dep sz; exact: (metric_code hD lg ex pi hV hB).
Qed.

Lemma fub_kahler : forall (C : numClosedFieldType) (lg ex : C -> C),
  (forall u v, 0 < u -> 0 < v -> lg (u * v) = lg u + lg v) ->
  forall (pi : C) (m k : nat) (V : variety C) (B : basis) (h : hvalue C (size (power_matrix B))),
  v_coordinates V = Ok m.+2 -> basis_full m.+1 k = Ok B -> (0 < k)%N ->
  (h = HVec (fubini_h C B) \/ h = HMat (diag_mx (fubini_h C B))) ->
  forall (p : 'I_m.+2) (zs : seq C), size zs = m.+1 ->
  alg_kahler lg ex pi m V h zs (Some (Z.of_nat p)) =
  Ok (fs_potential lg (seq_row m.+1 zs) (conj_row (seq_row m.+1 zs)) / pi).
Proof.
by move=> C lg ex hl pi m k V B h hV hB k0 hh p zs sz; exact: (kahler_fub ex pi hV hB k0 hh p sz hl).
Qed.

Lemma fub_eta : forall (C : numClosedFieldType)
    (D : forall n : nat, ('rV[C]_n -> C) -> 'rV[C]_n -> 'rV[C]_n), diff_ok D ->
  forall (lg ex : C -> C) (pi : C) (m k : nat) (V : variety C) (B : basis) (h : hvalue C (size (power_matrix B))),
  v_coordinates V = Ok m.+2 -> basis_full m.+1 k = Ok B -> (0 < k)%N -> 0 < pi ->
  (h = HVec (fubini_h C B) \/ h = HMat (diag_mx (fubini_h C B))) ->
  forall (p : 'I_m.+2) (zs ps g : seq C) (d : 'I_m.+1) (dep : option Z), size zs = m.+1 ->
  v_grad_defining D V zs (PArr ps) (PatchInt C (Z.of_nat p)) = Ok g -> nth 0 g d != 0 ->
  (dep = None \/ dep = Some (Z.of_nat d)) ->
  exists E w, [/\ alg_eta D lg ex pi m V h zs (PArr ps) (Some (Z.of_nat p)) None dep = Ok E,
    v_weights D pi m V zs ps (Some (Z.of_nat p)) dep (Some 1) = Ok w, 0 < w & E * w = m`!%:R^-1].
Proof.
move=> C D hD lg ex pi m k V B h hV hB k0 pi0 hh p zs ps g d dep sz Eg nz hd.
exact: (eta_fub hD lg ex hV hB k0 hh sz pi0 _ Eg nz hd).
Qed.
