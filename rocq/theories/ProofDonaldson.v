(** sigma_accuracy and donaldson_step. *)
From Coq Require Import ZArith.
From mathcomp Require Import all_ssreflect all_algebra.
From mathcomp Require Import ring.
From Verif Require Import Base ModelUtil ModelProjective ModelDiff ModelVariety ModelGeom ModelDonaldson
  Deriv Bridge Herm Herm2 SpecGeom ProofProjective ProofDiff ProofVariety3 ProofGeom4.
Delimit Scope Z_scope with Z.

Set Implicit Arguments.
Unset Strict Implicit.
Unset Printing Implicit Defensive.

Import GRing.Theory Num.Theory Order.POrderTheory.
Local Open Scope ring_scope.

#[local] Hint Extern 0 (is_true (0 < _)) => solve [apply: ltr01 | apply: ltr0Sn] : core.

Section Sigma.
Variable C : numClosedFieldType.
Implicit Types (etas ws : seq C).

Let pr (e : seq C) (w : seq C) := zip e w.

Variables (etas ws : seq C).
Hypothesis sz : size etas = size ws.
Hypothesis w0 : all (fun w => 0 <= w) ws.
Hypothesis wpos : has (fun w => w != 0) ws.

Let s := \sum_(w <- ws) w.
Let K := \sum_(ew <- zip etas ws) ew.1 * ew.2.

Lemma zip_ws (f : C -> C) : \sum_(w <- ws) f w = \sum_(ew <- zip etas ws) f ew.2.
Proof.
have {1}-> : ws = unzip2 (zip etas ws) by rewrite unzip2_zip // sz.
by rewrite big_map.
Qed.

Lemma zip_w0 ew : ew \in zip etas ws -> 0 <= ew.2.
Proof. by case: ew => e w /(map_f snd); rewrite -/(unzip2 _) unzip2_zip ?sz // => /(allP w0). Qed.

Lemma s_gt0 : 0 < s.
Proof.
rewrite lt_def; apply/andP; split; last by rewrite /s big_seq; apply: sumr_ge0 => w /(allP w0).
apply/eqP => /eqP; rewrite /s big_seq psumr_eq0 => [|w /(allP w0) //].
by move: wpos => /hasP[w wi nw] /allP/(_ w wi); rewrite wi (negbTE nw).
Qed.

Lemma size_gt0 : 0 < (size ws)%:R :> C.
Proof. by rewrite ltr0n; case: ws wpos. Qed.

Lemma mean_w : 'Re (mean ws) = s / (size ws)%:R.
Proof. by apply/Creal_ReP/ger0_real; rewrite divr_ge0 // ltW ?s_gt0 ?size_gt0. Qed.

Hypothesis K0 : mean [seq ew.1 * ew.2 | ew <- zip etas ws] != 0.

Lemma meanK : mean [seq ew.1 * ew.2 | ew <- zip etas ws] = K / (size ws)%:R.
Proof. by rewrite /mean size_map size_zip sz minnn big_map. Qed.

Lemma K_neq0 : K != 0.
Proof. by move: K0; rewrite meanK mulf_eq0 negb_or => /andP[]. Qed.

Lemma sigma_eq : sigma_of etas ws = (\sum_(ew <- zip etas ws) `|1 - ew.1 * s / K| * ew.2) / s.
Proof.
have s0 := s_gt0; have n0 := size_gt0; have k0 := K_neq0.
rewrite /sigma_of meanK mean_w /mean size_map size_zip sz minnn big_map.
have E ew : `|1 - ew.1 * (s / (size ws)%:R) / (K / (size ws)%:R)| * ew.2 = `|1 - ew.1 * s / K| * ew.2 :> C.
  congr (`|1 - _| * _); field; rewrite k0 gt_eqF //.
under eq_bigr do rewrite E.
by move: (\sum_(_ <- _) _) => X; field; rewrite !gt_eqF.
Qed.

Lemma sigma_ge0 : 0 <= sigma_of etas ws.
Proof.
rewrite sigma_eq; apply: divr_ge0; last exact/ltW/s_gt0.
rewrite big_seq; apply: sumr_ge0 => ew Hew.
by rewrite mulr_ge0 ?normr_ge0 // zip_w0.
Qed.

Lemma sigma_eq0 : sigma_of etas ws = 0 <->
  exists c, forall e w, (e, w) \in zip etas ws -> w != 0 -> e = c.
Proof.
have s0 := s_gt0; have k0 := K_neq0; have sn : s != 0 by rewrite gt_eqF.
rewrite sigma_eq; split=> [/eqP|[c Hc]].
  rewrite mulf_eq0 invr_eq0 (negbTE sn) orbF big_seq psumr_eq0; last first.
    by move=> ew Hew; rewrite mulr_ge0 ?normr_ge0 // zip_w0.
  move=> /allP H; exists (K / s) => e w Hew nw.
  have := H _ Hew; rewrite Hew /= mulf_eq0 (negbTE nw) orbF normr_eq0 subr_eq0 => /eqP E.
  by apply: (mulIf sn); rewrite divfK // -[RHS]mul1r E divfK.
have EK : K = c * s.
  rewrite /K /s zip_ws mulr_sumr; apply: eq_big_seq => -[e w] /= Hew.
  by have [->|nw] := eqVneq w 0; rewrite ?mulr0 // (Hc e w).
rewrite big_seq big1 ?mul0r // => -[e w] /= Hew.
have [->|nw] := eqVneq w 0; first by rewrite mulr0.
by rewrite (Hc e w Hew nw) -EK divff // subrr normr0 mul0r.
Qed.

Lemma sigma_lt2 : all (fun e => 0 < e) etas -> sigma_of etas ws < 2%:R.
Proof.
move=> ep; have s0 := s_gt0.
have zp ew : ew \in zip etas ws -> 0 < ew.1.
  by case: ew => e w /(map_f fst); rewrite -/(unzip1 _) unzip1_zip ?sz // => /(allP ep).
have k0 : 0 < K.
  rewrite lt_def K_neq0 /K big_seq /=; apply: sumr_ge0 => ew Hew.
  by rewrite mulr_ge0 ?zip_w0 // ltW // zp.
rewrite sigma_eq ltr_pdivr_mulr // -subr_gt0.
have -> : 2%:R * s - \sum_(ew <- zip etas ws) `|1 - ew.1 * s / K| * ew.2 =
  \sum_(ew <- zip etas ws) (1 + ew.1 * s / K - `|1 - ew.1 * s / K|) * ew.2.
  rewrite [RHS](eq_bigr (fun ew => ew.2 + s / K * (ew.1 * ew.2) - `|1 - ew.1 * s / K| * ew.2)); last first.
    move=> [e w] _ /=; rewrite mulrBl mulrDl mul1r; congr (_ + _ - _).
    by rewrite [e * s]mulrC -!mulrA [e * (K^-1 * _)]mulrCA.
  rewrite sumrB big_split /= -mulr_sumr -/K -(zip_ws id) -/s; congr (_ - _).
  by rewrite divfK ?gt_eqF //; ring.
have pos ew : ew \in zip etas ws -> 0 < 1 + ew.1 * s / K - `|1 - ew.1 * s / K|.
  move=> /zp e0; have x0 : 0 < ew.1 * s / K by rewrite divr_gt0 // mulr_gt0.
  move: (ew.1 * s / K) x0 => x x0; have xr : 1 - x \is Num.real by rewrite realB ?real1 ?gtr0_real.
  rewrite subr_gt0 real_ltr_norml //; apply/andP; split.
    by rewrite opprD ltr_add2r -subr_gt0 opprK addr_gt0.
  by rewrite ltr_add2l -subr_gt0 opprK addr_gt0.
rewrite lt_def; apply/andP; split; last first.
  by rewrite big_seq; apply: sumr_ge0 => ew Hew; rewrite mulr_ge0 ?zip_w0 // ltW // pos.
apply/eqP => /eqP; rewrite big_seq psumr_eq0; last first.
  by move=> ew Hew; rewrite mulr_ge0 ?zip_w0 // ltW // pos.
move: wpos => /hasP[w wi nw].
have [e Hew] : exists e, (e, w) \in zip etas ws.
  have : w \in unzip2 (zip etas ws) by rewrite unzip2_zip ?sz.
  by move=> /mapP[[e w'] H ->]; exists e.
move=> /allP/(_ _ Hew); rewrite Hew /= mulf_eq0 (negbTE nw) orbF.
by have /= /gt_eqF -> := pos _ Hew.
Qed.

Lemma sigma_scale c : c != 0 -> sigma_of [seq c * e | e <- etas] ws = sigma_of etas ws.
Proof.
move=> c0; rewrite /sigma_of.
have Z (f : C -> C -> C) : [seq f ew.1 ew.2 | ew <- zip [seq c * e | e <- etas] ws] =
  [seq f (c * ew.1) ew.2 | ew <- zip etas ws].
  by elim: etas ws => [|e es IH] [|w ws'] //=; rewrite IH.
have := Z (fun e w => e * w) => /= ->.
have -> : mean [seq c * ew.1 * ew.2 | ew <- zip etas ws] = c * mean [seq ew.1 * ew.2 | ew <- zip etas ws].
  rewrite /mean !size_map mulrA; congr (_ / _); rewrite !big_map mulr_sumr.
  by apply: eq_bigr => ew _; rewrite mulrA.
set V := mean [seq _ * _ | ew <- zip etas ws].
have := Z (fun e w => `|1 - e * 'Re (mean ws) / (c * V)| * w) => /= ->.
congr (mean _ / _); apply: eq_map => ew; congr (`|1 - _| * _); move: K0; rewrite -/V => V0.
by field; rewrite c0 V0.
Qed.
End Sigma.

Section Accuracy.
Variables (C : numClosedFieldType) (N m : nat) (pi : C).
Notation n := m.+1.
Implicit Types p : 'rV[C]_n * objects C N m.

Hypothesis pi0 : 0 < pi.

(** per point: the dependent coordinate, the weight, eta *)
Lemma point_ok p : o_grad p.2 != 0 -> exists d : 'I_n, exists w : C,
  [/\ rmap Z.of_nat (argmax [seq `|x| | x <- row_seq (o_grad p.2)]) = Ok (Z.of_nat d),
      o_grad p.2 0 d != 0,
      weights pi p.1 (row_seq (o_grad p.2)) (Some (Z.of_nat d)) (Some 1) = Ok w & 
      [/\ 0 < w, weights pi p.1 (row_seq (o_grad p.2)) None (Some 1) = Ok w &
       ob_eta pi (with_dep None p.2) = ob_eta pi (with_dep (Some (Z.of_nat d)) p.2)]].
Proof.
move=> g0.
have [d [E dm _ Eeta _]] := @dep_default C N m pi (with_dep None p.2) erefl.
have nz : o_grad p.2 0 d != 0.
  apply: contra_neq g0 => gd; apply/rowP => i; rewrite mxE; apply/eqP; rewrite -normr_le0.
  by have := dm i; rewrite /= gd normr0.
have [w1 wp w2] := weights_lemma p.1 (Some 1) pi0 nz.
by exists d; eexists; split; [exact: E|exact: nz|exact: w1|split; [exact: wp|exact: w2|exact: Eeta]].
Qed.

Lemma accuracy_lemma (pts : seq ('rV[C]_n * objects C N m)) :
  List.Forall (fun p => o_grad p.2 != 0 /\ posdef (\matrix_(i, j) ob_g_proj pi p.2 i j)) pts ->
  exists ws etas,
  [/\ [seq weights pi p.1 (row_seq (o_grad p.2)) None (Some 1) | p <- pts] = map (@Ok C) ws,
      [seq ob_eta pi (with_dep None p.2) | p <- pts] = map (@Ok C) etas,
      all (fun w => 0 < w) ws, all (fun e => 0 < e) etas & sigma_accuracy pi pts = Ok (sigma_of etas ws)].
Proof.
rewrite /sigma_accuracy => H.
suff [ds [ws [es [E1 E2 E3 [s1 s2] [p1 p2]]]]] : exists ds ws es,
  [/\ rseq [seq rmap Z.of_nat (argmax [seq `|x| | x <- row_seq (o_grad p.2)]) | p <- pts] = Ok ds,
      rseq [seq weights pi pd.1.1 (row_seq (o_grad pd.1.2)) (Some pd.2) (Some 1) | pd <- zip pts ds] = Ok ws,
      rseq [seq ob_eta pi (with_dep (Some pd.2) pd.1.2) | pd <- zip pts ds] = Ok es,
      [seq weights pi p.1 (row_seq (o_grad p.2)) None (Some 1) | p <- pts] = map (@Ok C) ws /\
      [seq ob_eta pi (with_dep None p.2) | p <- pts] = map (@Ok C) es &
      all (fun w => 0 < w) ws /\ all (fun e => 0 < e) es].
  by exists ws, es; rewrite E1 /= E2 /= E3.
elim: pts H => [|p pts IH] H; first by exists [::], [::], [::].
have [[g0 pd] Ht] : (o_grad p.2 != 0 /\ posdef (\matrix_(i, j) ob_g_proj pi p.2 i j)) /\
   List.Forall (fun p => o_grad p.2 != 0 /\ posdef (\matrix_(i, j) ob_g_proj pi p.2 i j)) pts.
  by inversion H.
have [ds [ws [es [E1 E2 E3 [s1 s2] [p1 p2]]]]] := IH Ht.
have [d [w [Ed nz Ew [wp Ew' Ee']]]] := point_ok g0.
have [g [_ _ [e Ee ep]]] := @g_loc_pos C N m pi (with_dep (Some (Z.of_nat d)) p.2) d erefl nz pd.
exists (Z.of_nat d :: ds), (w :: ws), (e :: es); split.
- by rewrite /= Ed /= E1.
- by rewrite /= Ew /= E2.
- by rewrite /= Ee /= E3.
- by rewrite /= s1 s2 Ew' Ee' Ee.
by rewrite /= wp ep p1 p2.
Qed.

Lemma mean_pos (s : seq C) : s != [::] -> all (fun x => 0 < x) s -> 0 < mean s.
Proof.
case: s => [//|x s] _ /= /andP[x0 Hs]; rewrite /mean divr_gt0 ?ltr0n // big_cons.
by apply: ltr_paddr => //; rewrite big_seq; apply: sumr_ge0 => y /(allP Hs)/ltW.
Qed.

Lemma accuracy_full (pts : seq ('rV[C]_n * objects C N m)) : pts <> [::] ->
  List.Forall (fun p => o_grad p.2 != 0 /\ posdef (\matrix_(i, j) ob_g_proj pi p.2 i j)) pts ->
  exists ws es : seq C, let s := \sum_(w <- ws) w in let K := \sum_(ew <- zip es ws) ew.1 * ew.2 in
  let sigma := (\sum_(ew <- zip es ws) `|1 - ew.1 * s / K| * ew.2) / s in
  [/\ [seq weights pi p.1 (row_seq (o_grad p.2)) None (Some 1) | p <- pts] = map (@Ok C) ws,
      [seq ob_eta pi (with_dep None p.2) | p <- pts] = map (@Ok C) es,
      sigma_accuracy pi pts = Ok sigma, 0 <= sigma < 2%:R & sigma = 0 <-> exists c, forall e, e \in es -> e = c].
Proof.
move=> np /accuracy_lemma[ws [es [Ew Ee wp ep E]]]; exists ws, es.
have sw : size ws = size pts by have := congr1 size Ew; rewrite !size_map.
have se : size es = size pts by have := congr1 size Ee; rewrite !size_map.
have wn : ws != [::] by rewrite -size_eq0 sw; case: pts np {sw se Ew Ee E}.
have w0 : all (fun w => 0 <= w) ws by apply: sub_all wp => w /ltW.
have wh : has (fun w => w != 0) ws.
  by case: ws wn wp {sw w0 E Ew} => // w ws _ /= /andP[w0 _]; rewrite gt_eqF.
have zw : size es = size ws by rewrite se sw.
have K0 : mean [seq ew.1 * ew.2 | ew <- zip es ws] != 0.
  rewrite gt_eqF // mean_pos //.
    by rewrite -size_eq0 size_map size_zip zw minnn size_eq0.
  elim: es ws ep wp {se sw wn w0 wh zw Ew Ee E} => [|e es IH] [|w ws] //= /andP[e0 He] /andP[w0 Hw].
  by rewrite mulr_gt0 // IH.
move=> s K sigma; have Es : sigma_of es ws = sigma by exact: sigma_eq.
split=> //; rewrite -Es //.
  by rewrite sigma_ge0 // sigma_lt2.
have H0 := sigma_eq0 zw w0 wh K0; split=> [/H0[c Hc]|[c Hc]]; [|apply/H0]; exists c.
  move=> e; rewrite -(unzip1_zip (_ : size es <= size ws)%N) ?zw // => /mapP[[e' w] ein ->] /=.
  apply: (Hc _ _ ein); rewrite gt_eqF //; apply: (allP wp).
  by have /(map_f snd) := ein; rewrite -/(unzip2 _) unzip2_zip ?zw.
move=> e w ein _; apply: Hc.
by have /(map_f fst) := ein; rewrite -/(unzip1 _) unzip1_zip ?zw.
Qed.

Lemma accuracy_scale (pts : seq ('rV[C]_n * objects C N m)) c : c != 0 -> c^* = c ->
  List.Forall (fun p => ob_psi p.2 != 0) pts ->
  sigma_accuracy pi [seq (p.1, with_h (scale_h c (o_h p.2)) p.2) | p <- pts] = sigma_accuracy pi pts.
Proof.
move=> c0 cr Hp; rewrite /sigma_accuracy -map_comp.
case: (rseq [seq _ | p <- pts]) => //= ds.
have Z1 : [seq weights pi pd.1.1 (row_seq (o_grad pd.1.2)) (Some pd.2) (Some 1)
    | pd <- zip [seq (p.1, with_h (scale_h c (o_h p.2)) p.2) | p <- pts] ds] =
  [seq weights pi pd.1.1 (row_seq (o_grad pd.1.2)) (Some pd.2) (Some 1) | pd <- zip pts ds].
  by elim: pts ds {Hp} => [|p pts IH] [|d ds] //=; rewrite IH.
rewrite Z1; case: (rseq _) => //= ws.
suff -> : [seq ob_eta pi (with_dep (Some pd.2) pd.1.2)
    | pd <- zip [seq (p.1, with_h (scale_h c (o_h p.2)) p.2) | p <- pts] ds] =
  [seq ob_eta pi (with_dep (Some pd.2) pd.1.2) | pd <- zip pts ds] by [].
elim: pts ds Hp {Z1} => [|p pts IH] [|d ds] //= Hp.
have [p0 Ht] : ob_psi p.2 != 0 /\ List.Forall (fun p => ob_psi p.2 != 0) pts by inversion Hp.
by rewrite IH //; congr cons; exact: (@eta_scale C N m pi c c0 (with_dep (Some d) p.2) p0 cr).
Qed.
End Accuracy.
