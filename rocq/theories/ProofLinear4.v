(** Linear changes of the homogeneous coordinates: the statements, an instance. *)
From Coq Require Import ZArith Lia.
From mathcomp Require Import all_ssreflect all_algebra.
From mathcomp Require Import zify ssrZ ring.
From SsrMultinomials Require Import mpoly.
From Verif Require Import Base ModelUtil ModelProjective SpecMon ModelBasis ModelGeom ModelVariety ModelDiff ProofUtil ProofProjective
  Bridge Deriv Herm ProofDiff ProofFS SpecGeom SpecBasis SpecSections SpecPatch SpecPipe PolyGrad ProofGeom4 ProofBasis2 ProofBasis3 ProofSections ProofVariety3 ProofPatch ProofAlg2.
From Verif Require Import SpecLinear ProofLinear ProofLinear2 ProofLinear3.
Delimit Scope Z_scope with Z.

Set Implicit Arguments.
Unset Strict Implicit.
Unset Printing Implicit Defensive.

Import GRing.Theory Num.Theory Order.POrderTheory.
Local Open Scope ring_scope.

Section Wrap.
Variables (C : numClosedFieldType) (m k e : nat) (B : basis).
Hypothesis hC : basis_class C m.+1 k B.
Notation N := (size (power_matrix B)).
Variables (A : 'M[C]_m.+2) (R : 'M[C]_N).
Hypothesis AR : lin_sections A R.
Variables (M : 'M[C]_N) (pi : C) (P P' : {mpoly C[m.+2]}) (i j : 'I_m.+2) (d d' : 'I_m.+1) (z : 'rV[C]_m.+1).
Let o := on_patch k M P.
Let o' := on_patch k (R *m M *m adjm R) P'.
Let x := lin_hom A i z 0 j.

Lemma metric_lin : hermitian M -> x != 0 -> 0 < ob_psi (o' i d z) ->
  exists w T, [/\ lin_change A i j z w T, ob_psi (o' i d z) = `|x| ^+ (2 * k) * ob_psi (o j d' w),
    \matrix_(a, b) ob_g_proj pi (o' i d z) a b = T *m (\matrix_(a, b) ob_g_proj pi (o j d' w) a b) *m adjm T &
    forall log : C -> C, (forall a b, 0 < a -> 0 < b -> log (a * b) = log a + log b) -> (0 < k)%N ->
    ob_kahler log pi (o' i d z) = ob_kahler log pi (o j d' w) + log (`|x| ^+ 2) / pi].
Proof.
rewrite /x lin_homE => HM nz pp.
have x0 : 0 < `|ly A i z 0 j| ^+ 2 by rewrite exprn_gt0 // normr_gt0.
have E : ob_psi (o' i d z) = (`|ly A i z 0 j| ^+ 2) ^+ k * ob_psi (o j d' (lw A i j z)) := psi_lin hC M AR P P' nz d d'.
have p0 : 0 < ob_psi (o j d' (lw A i j z)) by move: pp; rewrite E pmulr_rgt0 // exprn_gt0.
exists (lw A i j z), (lT A i j z); split.
- exact: lin_changeP.
- by rewrite exprM.
- by rewrite /o'; apply: gpm_lin (lt0r_neq0 p0).
move=> log lg k0; rewrite /ob_kahler /kahler E lg ?exprn_gt0 ?normr_gt0 // (log_pow _ lg) //.
rewrite /= mulrDl addrC; congr (_ + _).
have kn : k%:R != 0 :> C by rewrite pnatr_eq0 -lt0n.
by rewrite invfM; move: (log _) (pi^-1) (k%:R) kn => L q c cn; field.
Qed.

Hypotheses (HM : hermitian M) (pi0 : 0 < pi) (uA : A \in unitmx) (HP : P \is e.-homog).
Hypothesis PP : forall u, peval P' u = peval P (u *m A).
Hypothesis nz : x != 0.
Variables (w : 'rV[C]_m.+1) (T : 'M[C]_m.+1).
Hypothesis cc : lin_change A i j z w T.
Hypothesis Pz : peval (dehom i P') z = 0.
Hypothesis gd : peval ((dehom i P')^`M(d)) z != 0.
Hypothesis gd' : peval ((dehom j P)^`M(d')) w != 0.
Hypothesis pp : 0 < ob_psi (o' i d z).

Lemma measures_lin vol : exists e1 e2 w1 w2,
  [/\ ob_eta pi (o' i d z) = Ok e1, ob_eta pi (o j d' w) = Ok e2,
     weights pi z (row_seq (pgrad (dehom i P') z)) (Some (Z.of_nat d)) vol = Ok w1 &
     weights pi w (row_seq (pgrad (dehom j P) w)) (Some (Z.of_nat d')) vol = Ok w2] /\
  [/\ e1 * `|x| ^+ (2 * m.+2) = `|\det A| ^+ 2 * `|x| ^+ (2 * e) * e2,
      e = m.+2 -> e1 = `|\det A| ^+ 2 * e2,
      unitary A -> w1 * `|x| ^+ (2 * e) = `|x| ^+ (2 * m.+2) * w2,
      unitary A -> w1 * e1 = w2 * e2 &
      unitary A -> e = m.+2 -> w1 = w2 /\ e1 = e2].
Proof.
move: nz cc gd'; rewrite /x lin_homE => nz' /(lin_changeE nz')[-> _] gdw.
have [e1 [e2 [E1 E2 E3]]] := eta_lin hC pi AR HM HP PP nz' Pz gd gdw pp.
have gE : pgrad (dehom i P') z 0 d != 0 by rewrite mxE.
have gE' : pgrad (dehom j P) (lw A i j z) 0 d' != 0 by rewrite mxE.
set y := ly A i z 0 j in nz' E3 *.
have f0 : `|y| ^+ (2 * m.+2) != 0 by rewrite expf_neq0 // normr_eq0.
have g0 : `|y| ^+ (2 * e) != 0 by rewrite expf_neq0 // normr_eq0.
exists e1, e2; do 2!eexists; split.
  split; [exact: E1|exact: E2|exact: weights_eq gE|exact: weights_eq gE'].
have W : unitary A -> forall w1 w2, weights pi z (row_seq (pgrad (dehom i P') z)) (Some (Z.of_nat d)) vol = Ok w1 ->
    weights pi (lw A i j z) (row_seq (pgrad (dehom j P) (lw A i j z))) (Some (Z.of_nat d')) vol = Ok w2 ->
    w1 * `|y| ^+ (2 * e) = `|y| ^+ (2 * m.+2) * w2.
  move=> UA w1 w2; have [w1' [w2' [-> -> _ E]]] := weights_lin pi0 HP PP nz' Pz gd gdw vol UA.
  by move=> [<-] [<-].
have {}W UA := W UA _ _ (weights_eq pi z vol gE) (weights_eq pi (lw A i j z) vol gE').
move: (_ / _) (_ / _) W => w2 w1 W.
have H1 : e = m.+2 -> e1 = `|\det A| ^+ 2 * e2.
  by move=> ee; apply: (mulIf f0); rewrite E3 ee mulrAC.
split=> //.
- move=> UA; rewrite det_unitary // mul1r in E3; have {}W := W UA.
  apply: (mulIf f0); apply: (mulIf g0).
  have -> : w1 * e1 * `|y| ^+ (2 * m.+2) * `|y| ^+ (2 * e) = (e1 * `|y| ^+ (2 * m.+2)) * (w1 * `|y| ^+ (2 * e)).
    by move: (`|y| ^+ _) (`|y| ^+ _) => u v; ring.
  by rewrite E3 W; move: (`|y| ^+ _) (`|y| ^+ _) => u v; ring.
move=> UA ee; split; last by rewrite H1 // det_unitary // mul1r.
by apply: (mulIf g0); rewrite W // ee mulrC.
Qed.

Lemma gloc_lin : exists g1 g2 J1 J2 S,
  [/\ ob_g_loc pi (o' i d z) = Ok g1, ob_g_loc pi (o j d' w) = Ok g2,
     ob_jac (o' i d z) = Ok J1 & ob_jac (o j d' w) = Ok J2] /\
  [/\ S \in unitmx, J1 *m T = S *m J2 & g1 = S *m g2 *m adjm S].
Proof.
move: nz cc gd'; rewrite /x lin_homE => nz' /(lin_changeE nz')[-> ->] gdw.
set y := ly A i z 0 j in nz'; set w0 := lw A i j z in gdw *; set T0 := lT A i j z.
have gE : pgrad (dehom i P') z 0 d != 0 by rewrite mxE.
have gE' : pgrad (dehom j P) w0 0 d' != 0 by rewrite mxE.
have uT : T0 \in unitmx.
  rewrite unitmxE unitfE; apply/negP => /eqP E; have /eqP := lT_det nz'.
  rewrite E normr0 expr0n /= eq_sym mulf_eq0 invr_eq0 !expf_eq0 !normr_eq0 -/y (negbTE nz') andbF orbF /= => /eqP dA.
  by move: uA; rewrite unitmxE unitfE dA eqxx.
set G := pgrad (dehom i P') z in gE *; set G' := pgrad (dehom j P) w0 in gE' *.
pose S : 'M[C]_m := \matrix_(r, q) (Jm G d *m T0) r (lift d' q).
have ES : Jm G d *m T0 = S *m Jm G' d'.
  have K : Jm G d *m T0 *m G'^T = 0.
    have := Jm_ker gE; rewrite {2}/G (pgrad_lin0 HP PP nz' Pz) linearZ /= trmx_mul trmxK -scalemxAr mulmxA => /eqP.
    by rewrite scaler_eq0 expf_eq0 (negbTE nz') andbF /= => /eqP.
  apply/row_matrixP => r; rewrite [in RHS]row_mul -(_ : (\row_q (row r (Jm G d *m T0)) 0 (lift d' q)) = row r S).
    rewrite [in LHS](Jm_span gE' (v := row r (Jm G d *m T0))) //.
    have := congr1 (fun X : 'M_(_, _) => X r 0) K; rewrite /= mxE [RHS]mxE => K0; apply: etrans K0.
    by apply: eq_bigr => c _; congr (_ * _); [rewrite [LHS]mxE | rewrite [RHS]mxE].
  by apply/rowP => q; rewrite !mxE.
have uS : S \in unitmx.
  rewrite -row_free_unit; apply: inj_row_free => v vS.
  apply: (@Jm_inj _ _ G d); apply: (@row_free_inj _ _ _ _ T0); first by rewrite row_free_unit uT.
  by rewrite -mulmxA ES mulmxA vS !mul0mx.
have p0 : ob_psi (o j d' w0) != 0.
  have E : ob_psi (o' i d z) = (`|y| ^+ 2) ^+ k * ob_psi (o j d' w0) := psi_lin hC M AR P P' nz' d d'.
  by move: (lt0r_neq0 pp); rewrite E mulf_eq0 negb_or => /andP[].
exists (Jm G d *m gpm pi (o' i d z) *m adjm (Jm G d)), (Jm G' d' *m gpm pi (o j d' w0) *m adjm (Jm G' d')).
exists (Jm G d), (Jm G' d'), S; split; split=> //.
- exact: (@g_loc_dep _ _ _ pi (o' i d z) d).
- exact: (@g_loc_dep _ _ _ pi (o j d' w0) d').
- by rewrite /ob_jac /= /jac jacobian_embed_rows /= mx_rows_row.
- by rewrite /ob_jac /= /jac jacobian_embed_rows /= mx_rows_row.
have -> : gpm pi (o' i d z) = T0 *m gpm pi (o j d' w0) *m adjm T0  by rewrite /o'; apply: gpm_lin p0.
rewrite !mulmxA ES -!mulmxA -adjm_mul ES adjm_mul !mulmxA //.
Qed.
End Wrap.

(** Instance: a rotation by an angle of sine 4/5 and the point (1 : 2/11 : 0), which it takes to (1 : 2 : 0). *)
Section Instance.
Variables (C : numClosedFieldType) (e : nat).
Hypothesis e0 : (0 < e)%N.
Definition rot : 'M[C]_3 := \matrix_(r, c)
  nth 0 (nth [::] [:: [:: 3%:R / 5%:R; 4%:R / 5%:R; 0]; [:: - (4%:R / 5%:R); 3%:R / 5%:R; 0]; [:: 0; 0; 1]] r) c.
Definition rot_P : {mpoly C[3]} := (4%:R / 5%:R *: 'X_0 + 3%:R / 5%:R *: 'X_1) ^+ e - (2%:R ^+ e) *: (3%:R / 5%:R *: 'X_0 - 4%:R / 5%:R *: 'X_1) ^+ e.
Definition rot_pt : 'rV[C]_2 := \row_i (if i == 0 then 2%:R / 11%:R else 0).

Let I3 (r : 'I_3) : [\/ r = 0, r = 1 | r = 2].
Proof. by case: r => -[|[|[|//]]] p; [constructor 1|constructor 2|constructor 3]; exact: val_inj. Qed.

Let n (p : nat) : (p.+1%:R : C) != 0. Proof. by rewrite pnatr_eq0. Qed.

Let sum3 (F : 'I_3 -> C) : \sum_r F r = F 0 + F 1 + F 2.
Proof. by rewrite !big_ord_recl big_ord0 addr0 addrA; congr (_ + F _ + F _); exact: val_inj. Qed.

Lemma rot_unitary : unitary rot.
Proof.
have cjn (p q : nat) : ((p%:R / q%:R : C))^* = p%:R / q%:R by rewrite cjM cjV !conjC_nat.
apply/matrixP => r c; rewrite mxE sum3 !adjmE.
by case: (I3 r) => ->; case: (I3 c) => ->; rewrite !mxE /= ?rmorphN /= ?cjn ?conjC0 ?conjC1 ?mulr0 ?mul0r ?addr0 ?add0r ?mulr1 //; field; rewrite ?pnatr_eq0.
Qed.

Lemma rot_instance : [/\ unitary rot, forall u, peval rot_P u = peval (two_P C e) (u *m rot),
  lin_hom rot 0 rot_pt 0 1 = 10%:R / 11%:R, exists T, lin_change rot 0 1 rot_pt (half_pt C) T &
  [/\ peval (dehom 0 rot_P) rot_pt = 0, exists d, peval ((dehom 0 rot_P)^`M(d)) rot_pt != 0 & peval ((dehom 1 (two_P C e))^`M(0)) (half_pt C) != 0]].
Proof.
have UA := rot_unitary.
have [HP _ [T0 cc] vz [gz gw]] := two_instance C e0.
have PP u : peval rot_P u = peval (two_P C e) (u *m rot).
  rewrite /peval /rot_P /two_P !mevalB !mevalZ !rmorphX /= mevalD mevalB !mevalZ !mevalXU !mxE !sum3 !mxE /= !mulr0 !addr0.
  by rewrite mulrN ![u 0 _ * _]mulrC.
have l00 : lift 0 0 = 1 :> 'I_3 by exact: val_inj.
have l01 : lift 0 1 = 2 :> 'I_3 by exact: val_inj.
have l10 : lift 1 0 = 0 :> 'I_3 by exact: val_inj.
have h0 : homr (0 : 'I_3) rot_pt 0 0 = 1 by rewrite homr_patch.
have h1 : homr (0 : 'I_3) rot_pt 0 1 = 2%:R / 11%:R by rewrite -l00 homr_lift mxE.
have h2 : homr (0 : 'I_3) rot_pt 0 2 = 0 by rewrite -l01 homr_lift mxE.
have y0 : ly rot 0 rot_pt 0 0 = 5%:R / 11%:R.
  by rewrite lyE mxE sum3 h0 h1 h2 !mxE /=; field; rewrite ?pnatr_eq0.
have y1 : ly rot 0 rot_pt 0 1 = 10%:R / 11%:R.
  by rewrite lyE mxE sum3 h0 h1 h2 !mxE /=; field; rewrite ?pnatr_eq0.
have y2 : ly rot 0 rot_pt 0 2 = 0.
  by rewrite lyE mxE sum3 h0 h1 h2 !mxE /= !mulr0 mul0r !addr0.
have nz : ly rot 0 rot_pt 0 1 != 0 by rewrite y1 mulf_neq0 ?invr_eq0.
have wE : lw rot 0 1 rot_pt = half_pt C.
  apply/rowP => a; rewrite !mxE y1; case: (unliftP 0 a) => [a' ->|->].
    have -> : lift 1 (lift 0 a') = 2 :> 'I_3 by rewrite !ord1; exact: val_inj.
    by rewrite y2 mul0r.
  by rewrite l10 y0 /=; field; rewrite ?pnatr_eq0.
split=> //; first by rewrite lin_homE.
  by exists (lT rot 0 1 rot_pt); rewrite -wE; exact: lin_changeP.
have v0 : peval (dehom 1 (two_P C e)) (half_pt C) = 0.
  have nz1 : hom_coord 0 1 (two_pt C) != 0.
    by rewrite /hom_coord nth_homr -l00 homr_lift mxE /= (n 1).
  have [E _] := grad_wrap HP (erefl : (0 : 'I_3) != 1) nz1 cc.
  by move: vz; rewrite E => /eqP; rewrite mulf_eq0 expf_eq0 (negbTE nz1) andbF => /eqP.
have z0 : peval (dehom 0 rot_P) rot_pt = 0 by rewrite (dehom_lin HP PP nz) wE v0 mulr0.
split=> //.
apply/existsP; apply: contraNT gw; rewrite negb_exists => /forallP H.
have Z : pgrad (dehom 0 rot_P) rot_pt = 0.
  by apply/rowP => b; rewrite !mxE; apply/eqP; have := H b; rewrite negbK.
have uT : (lT rot 0 1 rot_pt)^T \in unitmx.
  rewrite unitmx_tr unitmxE unitfE; apply/negP => /eqP E; have /eqP := lT_det nz.
  rewrite E normr0 expr0n /= det_unitary // eq_sym mul1r invr_eq0 expf_eq0 normr_eq0 (negbTE nz) andbF //.
have := pgrad_lin0 HP PP nz z0; rewrite Z wE => /esym/eqP; rewrite scaler_eq0 expf_eq0 (negbTE nz) andbF /= => /eqP E.
have : pgrad (dehom 1 (two_P C e)) (half_pt C) = 0 by rewrite -[LHS](mulmxK uT) E mul0mx.
by move=> /rowP/(_ 0); rewrite !mxE => ->.
Qed.
End Instance.
