(** eta takes a largest and a smallest value on a smooth Calabi-Yau hypersurface. *)
From Coq Require Import ZArith Reals Lra Epsilon Classical.
From mathcomp Require Import all_ssreflect all_algebra.
From mathcomp Require Import complex.
From SsrMultinomials Require Import mpoly.
From Verif Require Import Base ModelUtil ModelProjective ModelBasis ModelDiff ModelGeom Deriv Bridge Wirtinger SpecGeom Herm Herm2 Herm3
  SpecMon SpecBasis SpecSections SpecPatch ProofBasis3 ProofFS ProofGeom3 ProofGeom4 PolyGrad Implicit Implicit2 ProofSections ProofPatch ProofRicci
  RealField RealLog ComplexR SpecComplex ProofComplex ProofRicci2 ProofRicci3 ProofAlg2 Limits Compact SpecEta ProofEta ProofEta2 ProofEta3.
Delimit Scope Z_scope with Z.

Set Implicit Arguments.
Unset Strict Implicit.
Unset Printing Implicit Defensive.

Import GRing.Theory Num.Theory Order.POrderTheory.
Local Open Scope ring_scope.
Delimit Scope R_scope with RR.

#[local] Hint Extern 0 (is_true (0 < _)) => solve [apply: ltr01 | apply: ltr0Sn] : core.

Lemma INR_above (r : R) : exists n, (r < INR n)%RR.
Proof.
have [h _] := archimed (Rabs r); have a := Rabs_pos r; have b := Rle_abs r.
exists (Z.to_nat (up (Rabs r))); rewrite INR_IZR_INZ Z2Nat.id; first lra.
by apply: le_IZR; lra.
Qed.

(** *** A largest value on a compact set *)
Section Max.
Variables (n : nat) (K : 'rV[CR]_n -> Prop) (F : 'rV[CR]_n -> CR).
Hypothesis bd : forall x i, K x -> `|x 0 i| <= 1.
Hypothesis Fr : forall x, K x -> F x = rc (re (F x)).
Hypothesis ct : forall S u l, infinite S -> (forall k, S k -> K (u k)) -> cvgmx S u l ->
  K l /\ cvg S (fun k => F (u k)) (F l).

Lemma seq_limit (r : nat -> R) : (forall k, exists2 x, K x & (r k <= re (F x))%RR) ->
  exists l S u, [/\ K l, infinite S, cvg S (fun k => F (u k)) (F l), forall k, K (u k) & forall k, (r k <= re (F (u k)))%RR].
Proof.
move=> H; have [x0 _ _] := H 0%N.
pose u k := epsilon (inhabits x0) (fun x => K x /\ (r k <= re (F x))%RR).
have Hu k : K (u k) /\ (r k <= re (F (u k)))%RR.
  have [x Kx le] := H k.
  exact: (epsilon_spec (inhabits x0) (fun x => K x /\ (r k <= re (F x))%RR) (ex_intro _ x (conj Kx le))).
have [|i j k _|S [iS _ [l cl]]] := @sub_mx 1 n xpredT u 1.
- by move=> N; exists N.
- by rewrite (ord1 i); apply: bd; case: (Hu k).
have [Kl cF] := ct iS (fun k _ => (Hu k).1) cl.
by exists l, S, u; split=> // k; case: (Hu k).
Qed.

Lemma cvg_re S (u : nat -> CR) l : cvg S u l -> forall e : R, (0 < e)%RR ->
  exists N : nat, forall k, (N <= k)%N -> S k -> (Rabs (re (u k) - re l) < e)%RR.
Proof.
move=> cu e e0; have [N HN] := cu (rc e) ((rc_lt 0 e).2 e0); exists N => k Nk Sk.
have := HN k Nk Sk; rewrite norm_modulus => /rc_lt lt; apply: Rle_lt_trans lt.
have -> : (re (u k) - re l)%RR = re (u k - l) by rewrite ComplexR.ReD ComplexR.ReN.
exact: re_le_modulus.
Qed.

Lemma attains : (exists x, K x) -> exists2 x, K x & forall y, K y -> F y <= F x.
Proof.
move=> [x0 K0]; pose E r := exists2 x, K x & r = re (F x).
have [b Hb] : exists b, forall x, K x -> (re (F x) <= b)%RR.
  apply: NNPP => nb.
  have H k : exists2 x, K x & (INR k <= re (F x))%RR.
    apply: NNPP => nx; apply: nb; exists (INR k) => x Kx.
    case: (Rle_or_lt (re (F x)) (INR k)) => // lt; case: nx; exists x => //; lra.
  have [l [S [u [Kl iS cF Ku le]]]] := seq_limit H.
  have [|N HN] := cvg_re cF (e := 1%RR); first lra.
  have [N1 HN1] := INR_above (re (F l) + 1).
  have [k le2 Sk] := iS (maxn N N1); rewrite geq_max in le2; have /andP[Nk N1k] := le2.
  have /Rabs_def2[h1 h2] := HN k Nk Sk; have h3 := le k.
  have h4 : (INR N1 <= INR k)%RR by apply: le_INR; apply/leP.
  lra.
have [s [ub lub]] : {s | is_lub E s}.
  apply: completeness; first by exists b => r [x Kx ->]; exact: Hb.
  by exists (re (F x0)), x0.
have H k : exists2 x, K x & (s - / INR k.+1 <= re (F x))%RR.
  apply: NNPP => nx.
  have k0 : (0 < / INR k.+1)%RR by apply: Rinv_0_lt_compat; apply: lt_0_INR; apply/ltP.
  suff : (s <= s - / INR k.+1)%RR by lra.
  apply: lub => r [x Kx ->]; case: (Rle_or_lt (re (F x)) (s - / INR k.+1)) => // lt.
  by case: nx; exists x => //; lra.
have [l [S [u [Kl iS cF Ku le]]]] := seq_limit H.
exists l => // y Ky; rewrite (Fr Ky) (Fr Kl); apply/rc_le.
have ys : (re (F y) <= s)%RR by apply: ub; exists y.
suff : (s <= re (F l))%RR by lra.
case: (Rle_or_lt s (re (F l))) => // lt; exfalso.
pose e := ((s - re (F l)) / 2)%RR; have e0 : (0 < e)%RR by rewrite /e; lra.
have [N HN] := cvg_re cF e0; have [c [c1 c0]] := archimed_cor1 e e0.
have [k le2 Sk] := iS (maxn N c); rewrite geq_max in le2; have /andP[Nk ck] := le2.
have /Rabs_def2[h1 h2] := HN k Nk Sk; have h3 := le k.
have h4 : (/ INR k.+1 <= / INR c)%RR.
  apply: Rinv_le_contravar; first exact: lt_0_INR.
  by apply: le_INR; apply/leP; apply: leq_trans ck _.
move: h1 h3 h4 c1; rewrite /e; lra.
Qed.
End Max.

(** *** A point on every hypersurface *)
Lemma on_line (C : numClosedFieldType) n (P : {mpoly C[n]}) (u v : 'rV[C]_n) :
  exists q : {poly C}, forall t, q.[t] = peval P (u + t *: v).
Proof.
elim/mpoly_ring_ind: P => [c|i|p q [f Hf] [g Hg]|p q [f Hf] [g Hg]].
- by exists c%:P => t; rewrite hornerC /peval mevalC.
- exists ((u 0 i)%:P + (v 0 i) *: 'X) => t.
  by rewrite !hornerE /peval mevalXU !mxE mulrC.
- by exists (f + g) => t; rewrite hornerD Hf Hg /peval mevalD.
by exists (f * g) => t; rewrite hornerM Hf Hg /peval mevalM.
Qed.

Lemma has_zero (C : numClosedFieldType) m e (P : {mpoly C[m.+2]}) : P \is e.+1.-homog -> exists2 x, x != 0 & peval P x = 0.
Proof.
move=> HP; pose a : 'rV[C]_m.+2 := delta_mx 0 0; pose b : 'rV[C]_m.+2 := delta_mx 0 1.
have [q Hq] := on_line P a b; have [r Hr] := on_line P b a.
have b0 : b != 0 by apply/eqP => /rowP/(_ 1)/eqP; rewrite !mxE !eqxx oner_eq0.
have [/closed_rootP[t /rootP rt]|/negPn/size_poly1P[c c0 Eq]] := boolP (size q != 1%N).
  exists (a + t *: b); last by rewrite -Hq.
  by apply/eqP => /rowP/(_ 0)/eqP; rewrite !mxE !eqxx /= mulr0 addr0 oner_eq0.
exists b => //; have -> : peval P b = r.[0] by rewrite Hr scale0r addr0.
have sc s : s != 0 -> r.[s] = s ^+ e.+1 * c.
  move=> s0; have -> : c = q.[s^-1] by rewrite Eq hornerC.
  rewrite Hq Hr /peval -hom_scale //; apply: meval_eq => i.
  by rewrite !mxE mulrDr mulrA divff // mul1r addrC.
have Er : r = c *: 'X^e.+1.
  apply/eqP; rewrite -subr_eq0; apply/eqP; set f := r - _.
  pose l := [seq (j.+1%:R : C) | j <- iota 0 (size f)].
  apply: (@roots_geq_poly_eq0 _ f l); last by rewrite size_map size_iota.
    apply/allP => _ /mapP[j _ ->]; rewrite rootE /f hornerD hornerN hornerZ hornerXn sc ?pnatr_eq0 //.
    by rewrite [c * _]mulrC subrr.
  by rewrite map_inj_uniq ?iota_uniq // => u v /eqP; rewrite eqr_nat eqSS => /eqP.
by rewrite Er hornerZ hornerXn expr0n mulr0.
Qed.

Lemma cvg_peval (C : numClosedFieldType) n (Q : {mpoly C[n]}) S (u : nat -> 'rV[C]_n) l :
  cvgmx S u l -> cvg S (fun k => peval Q (u k)) (peval Q l).
Proof.
move=> cu; elim/mpoly_ring_ind: Q => [c|i|p q IHp IHq|p q IHp IHq].
- by rewrite /peval mevalC; apply: cvg_ext (cvg_const _ _) => k _; rewrite mevalC.
- by rewrite /peval mevalXU; apply: cvg_ext (cu 0 i) => k _; rewrite mevalXU.
- by rewrite /peval mevalD; apply: cvg_ext (cvg_add IHp IHq) => k _; rewrite /peval mevalD.
by rewrite /peval mevalM; apply: cvg_ext (cvg_mul IHp IHq) => k _; rewrite /peval mevalM.
Qed.

Lemma cvg_tail (C : numClosedFieldType) S (u : nat -> C) l (N : nat) :
  cvg (fun k => S k && (N <= k)%N) u l -> cvg S u l.
Proof.
move=> cu e /cu[N1 H]; exists (maxn N N1) => k; rewrite geq_max => /andP[a b] Sk.
by apply: H => //; rewrite Sk.
Qed.

(** *** eta on the patches *)
Section CY.
Variables (m k : nat) (P : {mpoly CR[m.+2]}) (B : basis).
Hypothesis HB : basis_for k P B.
Hypothesis HP : P \is m.+2.-homog.
Hypothesis k0 : (0 < k)%N.
Variable M : 'M[CR]_(size (power_matrix B)).
Hypothesis HM : hermitian M.
Hypothesis pd : posdef M.
Hypothesis sm : forall (p : 'I_m.+2) z, peval (dehom p P) z = 0 -> pgrad (dehom p P) z <> 0.
Let o := on_patch k M P.
Let pi := rc PI.

Definition et (i : 'I_m.+2) (z : 'rV[CR]_m.+1) : CR := AA (gpm pi (o i 0 z)) (pgrad (dehom i P) z).

Lemma some_dep i z : peval (dehom i P) z = 0 -> exists d, peval ((dehom i P)^`M(d)) z != 0.
Proof.
move=> Pz; apply: NNPP => nd; apply: (sm Pz); apply/rowP => d; rewrite !mxE; apply/eqP.
by rewrite -[_ == 0]negbK; apply/negP => h; apply: nd; exists d.
Qed.

Lemma psi_pos i z : peval (dehom i P) z = 0 -> 0 < ob_psi (o i 0 z).
Proof. by move=> Pz; have [d gd] := some_dep Pz; have [] := for_positive HP HB k0 pi_pos HM pd Pz gd. Qed.

Lemma eta_et i d z : peval ((dehom i P)^`M(d)) z != 0 -> ob_eta pi (o i d z) = Ok (et i z).
Proof. by move=> gd; apply: (@eta_dep _ _ _ pi (o i d z) d) => //; rewrite mxE. Qed.

Lemma et_pos i z : peval (dehom i P) z = 0 -> 0 < et i z.
Proof.
move=> Pz; have [d gd] := some_dep Pz.
have [g [_ _]] := eta_value pi_pos HB HP k0 HM pd Pz gd.
by rewrite -/pi -/(o i d z) (eta_et gd) => -[->].
Qed.

Lemma et_chart i j (x : 'rV[CR]_m.+2) : peval P x = 0 -> x 0 i != 0 -> x 0 j != 0 -> et i (affr i x) = et j (affr j x).
Proof.
move=> Px xi xj.
have Qi : peval (dehom i P) (affr i x) = 0 by rewrite (dehom_aff HP xi) Px mulr0.
have Qj : peval (dehom j P) (affr j x) = 0 by rewrite (dehom_aff HP xj) Px mulr0.
have [d gd] := some_dep Qi; have [d' gd'] := some_dep Qj.
have nz : homr i (affr i x) 0 j != 0 by rewrite homr_aff // mulf_neq0 // invr_neq0.
have gw : peval ((dehom j P)^`M(d')) (chart i j (affr i x)) != 0 by rewrite chart_aff.
have [E [E0 [E1 E2 E3]]] := @eta_patch _ m k m.+2 B (for_class HP HB) M pi P i j d d' _ HM HP nz Qi gd gw (psi_pos Qi).
rewrite chart_aff // in E2; rewrite homr_aff // [RHS]mulrC in E3.
move: E1 E2; rewrite -/(o i d _) (eta_et gd) -/(o j d' _) (eta_et gd') => -[->] [->]; apply: mulIf E3.
by rewrite expf_neq0 // normr_eq0 mulf_neq0 // invr_neq0.
Qed.

Lemma et_cvg i (S : pred nat) (u : nat -> 'rV[CR]_m.+1) z : (forall n, S n -> peval (dehom i P) (u n) = 0) ->
  peval (dehom i P) z = 0 -> cvgmx S u z -> cvg S (fun n => et i (u n)) (et i z).
Proof.
move=> Pu Pz cu.
have cp Q := cvg_peval Q cu.
have cform (f g : 'I_(size (power_matrix B)) -> {mpoly CR[m.+1]}) :
  cvg S (fun n => \sum_s \sum_t peval (f s) (u n) * M s t * (peval (g t) (u n))^*)
    (\sum_s \sum_t peval (f s) z * M s t * (peval (g t) z)^*).
  apply: cvg_sum => s; apply: cvg_sum => t; apply: cvg_mul; last exact: cvg_conj.
  by apply: cvg_mul => //; exact: cvg_const.
have cg : cvgmx S (fun n => gpm pi (o i 0 (u n))) (gpm pi (o i 0 z)).
  move=> a b; rewrite mxE; apply: (@cvg_ext _ _ (fun n => ob_g_proj pi (o i 0 (u n)) a b)) => [n _|]; first by rewrite mxE.
  have cpsi : cvg S (fun n => ob_psi (o i 0 (u n))) (ob_psi (o i 0 z)) by exact: cform.
  have ci : cvg S (fun n => (ob_psi (o i 0 (u n)))^-1) (ob_psi (o i 0 z))^-1.
    by apply: cvg_inv => // [n Sn|]; apply: lt0r_neq0; apply: psi_pos => //; exact: Pu.
  rewrite /ob_g_proj /g_proj; apply: cvg_mul; last exact: cvg_const.
  apply: cvg_subr.
    by apply: cvg_mul => //; exact: cform.
  apply: cvg_mul.
    apply: cvg_mul; first exact: cform.
    by rewrite /ob_psi_a /psi_a; apply: cvg_conj; exact: cform.
  rewrite -exprVn expr2; apply: (cvg_ext _ (cvg_mul ci ci)) => n _.
  by rewrite -exprVn expr2.
have cG : cvgmx S (fun n => pgrad (dehom i P) (u n)) (pgrad (dehom i P) z).
  by move=> a b; rewrite mxE; apply: cvg_ext (cp _) => n _; rewrite mxE.
rewrite /et /AA; apply: cvg_subr; last exact: cvg_det.
apply: cvg_det => a b; rewrite mxE.
apply: (@cvg_ext _ _ (fun n => gpm pi (o i 0 (u n)) a b +
  ((pgrad (dehom i P) (u n))^T *m adjm (pgrad (dehom i P) (u n))^T) a b)) => [n _|]; first by rewrite [in RHS]mxE.
apply: cvg_add => //.
have cT : cvgmx S (fun n => (pgrad (dehom i P) (u n))^T) (pgrad (dehom i P) z)^T.
  by move=> r s; rewrite mxE; apply: cvg_ext (cG s r) => n _; rewrite [in RHS]mxE.
exact: (cvgmx_mul cT (cvgmx_adj cT)).
Qed.

(** The value at a point of projective space. *)
Definition etp (x : 'rV[CR]_m.+2) : CR := if [pick i | x 0 i != 0] is Some i then et i (affr i x) else 0.

Lemma etp_at (x : 'rV[CR]_m.+2) i : peval P x = 0 -> x 0 i != 0 -> etp x = et i (affr i x).
Proof.
move=> Px xi; rewrite /etp; case: pickP => [j xj|/(_ i)]; first exact: et_chart.
by rewrite xi.
Qed.

Definition unit_zero (x : 'rV[CR]_m.+2) : Prop := peval P x = 0 /\ norm1 x = 1.

Lemma nonzero_coord (x : 'rV[CR]_m.+2) : x != 0 -> exists i, x 0 i != 0.
Proof.
move=> x0; apply: NNPP => h; case/eqP: x0; apply/rowP => i; rewrite mxE; apply/eqP.
by rewrite -[_ == 0]negbK; apply/negP => xi; apply: h; exists i.
Qed.

Lemma unit_nz x : unit_zero x -> exists i, x 0 i != 0.
Proof.
move=> [_ n1]; apply: nonzero_coord; apply/eqP => E; move: n1; rewrite E norm10 => /esym/eqP.
by rewrite oner_eq0.
Qed.

Lemma etp_pos x : unit_zero x -> 0 < etp x.
Proof.
move=> hx; have [i xi] := unit_nz hx; rewrite (etp_at hx.1 xi); apply: et_pos.
by rewrite (dehom_aff HP xi) hx.1 mulr0.
Qed.

Lemma etp_cvg (S : pred nat) u l : infinite S -> (forall n, S n -> unit_zero (u n)) -> cvgmx S u l ->
  unit_zero l /\ cvg S (fun n => etp (u n)) (etp l).
Proof.
move=> iS Ku cu.
have ul : unit_zero l.
  split.
    apply: (cvg_unique iS (cvg_peval P cu)).
    by apply: cvg_ext (cvg_const _ _) => n /Ku[-> _].
  have cn : cvg S (fun n => norm1 (u n)) (norm1 l) by apply: cvg_sum => i; exact: cvg_norm.
  by apply: (cvg_unique iS cn); apply: cvg_ext (cvg_const _ _) => n /Ku[_ ->].
split=> //; have [i li] := unit_nz ul.
have [N HN] := cvg_away (cu 0 i) li.
apply: (@cvg_tail _ _ _ _ N); set T := fun n => _.
have TS n : T n -> S n by case/andP.
have ui n : T n -> u n 0 i != 0.
  case/andP=> Sn Nn; have := HN n Nn Sn; apply: contraTneq => ->; rewrite normr0.
  by apply/negP => lt; have := lt_trans (divr_gt0 (_ : 0 < `|l 0 i|) (ltr0n _ 2)) lt; rewrite ltxx normr_gt0 => /(_ li).
rewrite (etp_at ul.1 li).
apply: (@cvg_ext _ _ (fun n => et i (affr i (u n)))) => [n Tn|].
  by rewrite (etp_at (Ku n (TS n Tn)).1 (ui n Tn)).
apply: et_cvg => [n Tn||a b].
- by rewrite (dehom_aff HP (ui n Tn)) (Ku n (TS n Tn)).1 mulr0.
- by rewrite (dehom_aff HP li) ul.1 mulr0.
rewrite mxE; apply: (@cvg_ext _ _ (fun n => u n 0 (lift i b) * (u n 0 i)^-1)) => [n _|]; first by rewrite mxE.
apply: cvg_mul; first exact: cvg_sub (cu 0 _).
apply: cvg_inv => //; exact: cvg_sub (cu 0 i).
Qed.

Lemma unit_bound x i : unit_zero x -> `|x 0 i| <= 1.
Proof.
by move=> [_ <-]; rewrite /norm1 (bigD1 i) //= ler_addl; apply: sumr_ge0 => j _; exact: normr_ge0.
Qed.

Lemma unit_of (x : 'rV[CR]_m.+2) : x != 0 -> peval P x = 0 ->
  exists2 y, unit_zero y & exists2 c, c != 0 & y = c *: x.
Proof.
move=> x0 Px; have n0 : 0 < norm1 x.
  have [i xi] := nonzero_coord x0; rewrite /norm1 (bigD1 i) //= ltr_paddr ?normr_gt0 //.
  by apply: sumr_ge0 => j _; exact: normr_ge0.
exists ((norm1 x)^-1 *: x); last by exists (norm1 x)^-1 => //; rewrite invr_neq0 // lt0r_neq0.
split.
  have -> : peval P ((norm1 x)^-1 *: x) = (norm1 x)^-1 ^+ m.+2 * peval P x.
    by rewrite /peval -hom_scale //; apply: meval_eq => i; rewrite mxE.
  by rewrite Px mulr0.
rewrite {1}/norm1; under eq_bigr do rewrite mxE normrM; rewrite -mulr_sumr.
by rewrite ger0_norm ?invr_ge0 ?ltW // mulVf // lt0r_neq0.
Qed.

Lemma unit_exists : exists x, unit_zero x.
Proof. by have [x x0 Px] := has_zero HP; have [y uy _] := unit_of x0 Px; exists y. Qed.

Lemma pos_re (x : CR) : 0 < x -> x = rc (re x).
Proof. by move=> /pos_rc[r _ ->]. Qed.

Lemma etp_max : exists2 x, unit_zero x & forall y, unit_zero y -> etp y <= etp x.
Proof.
apply: attains unit_exists; first by move=> x i; exact: unit_bound.
  by move=> x /etp_pos/pos_re.
by move=> S u l iS Ku cu; exact: etp_cvg.
Qed.

Lemma etp_min : exists2 x, unit_zero x & forall y, unit_zero y -> etp x <= etp y.
Proof.
have [x ux H] : exists2 x, unit_zero x & forall y, unit_zero y -> - etp y <= - etp x.
  apply: (@attains _ unit_zero (fun x => - etp x)) unit_exists; first by move=> x i; exact: unit_bound.
    by move=> x /etp_pos/pos_rc[r _ ->]; rewrite -rcN.
  by move=> S u l iS Ku cu; have [ul c] := etp_cvg iS Ku cu; split=> //; exact: cvg_opp.
by exists x => // y /H; rewrite ler_opp2.
Qed.

(** Any other point. *)
Lemma etp_scale (x : 'rV[CR]_m.+2) : x != 0 -> peval P x = 0 -> exists2 y, unit_zero y & etp y = etp x.
Proof.
move=> x0 Px; have [y uy Ey] := unit_of x0 Px; have [i xi] := nonzero_coord x0.
have [c c0 yE] := Ey; exists y => //.
have yi : y 0 i != 0 by rewrite yE mxE mulf_neq0.
rewrite (etp_at uy.1 yi) (etp_at Px xi); congr (et i _); apply/rowP => a.
by rewrite !mxE yE !mxE -mulf_div divff // mul1r.
Qed.
End CY.
