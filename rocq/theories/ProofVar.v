(** The sigma accuracy is bounded by the variance loss. *)
From mathcomp Require Import all_ssreflect all_algebra.
From mathcomp Require Import zify ssrZ ring.
From mathcomp Require Import complex.
From Verif Require Import Base ModelML ModelDonaldson ProofML.

Set Implicit Arguments.
Unset Strict Implicit.
Unset Printing Implicit Defensive.

Import GRing.Theory Num.Theory Order.POrderTheory.
Local Open Scope ring_scope.

Section Real.
Variable R : realFieldType.
Implicit Types s : seq (R * R).

Lemma cauchy_w s : (forall p, p \in s -> 0 <= p.2) -> 0 < \sum_(p <- s) p.2 ->
  (\sum_(p <- s) p.1 * p.2) ^+ 2 <= (\sum_(p <- s) p.1 ^+ 2 * p.2) * \sum_(p <- s) p.2.
Proof.
move=> s0 W0; set A := \sum_(p <- s) p.1 * p.2; set W := \sum_(p <- s) p.2; set Q := \sum_(p <- s) p.1 ^+ 2 * p.2.
have Wn : W != 0 by rewrite gt_eqF.
have : 0 <= \sum_(p <- s) (p.1 - A / W) ^+ 2 * p.2.
  by rewrite big_seq sumr_ge0 // => p /s0 p0; rewrite mulr_ge0 // sqr_ge0.
have -> : \sum_(p <- s) (p.1 - A / W) ^+ 2 * p.2 = Q - 2%:R * (A / W) * A + (A / W) ^+ 2 * W.
  rewrite /Q {3}/A {4}/W !mulr_sumr -sumrB -big_split; apply: eq_bigr => p _ /=.
  by move: (A / W) p.1 p.2 => a b c; ring.
have -> : Q - 2%:R * (A / W) * A + (A / W) ^+ 2 * W = Q - A ^+ 2 / W by field.
by rewrite subr_ge0 ler_pdivr_mulr.
Qed.

Variables (etas ws : seq R).
Hypotheses (sz : size etas = size ws) (w0 : all (fun x => 0 <= x) ws).
Hypothesis W0 : 0 < ModelMC.mean ws.

Definition sigma_real := ModelMC.mean
  [seq `|1 - p.1 * ModelMC.mean ws / ModelMC.mean [seq p.1 * p.2 | p <- zip etas ws]| * p.2 | p <- zip etas ws] / ModelMC.mean ws.

Let n0 : (0 < size ws)%N.
Proof. by case: (ws) W0 => //; rewrite /ModelMC.mean big_nil mul0r ltxx. Qed.

Lemma sigma_sq : sigma_real ^+ 2 <= variance_part etas ws / ModelMC.mean ws.
Proof.
have nn : 0 < (size ws)%:R :> R by rewrite ltr0n.
have ne : (size ws)%:R != 0 :> R by rewrite gt_eqF.
set K := ModelMC.mean [seq p.1 * p.2 | p <- zip etas ws].
pose t := [seq (`|1 - p.1 * ModelMC.mean ws / K|, p.2) | p <- zip etas ws].
have St : size (zip etas ws) = size ws by rewrite size_zip sz minnn.
have Wt : \sum_(p <- t) p.2 = \sum_(x <- ws) x.
  by rewrite big_map /= -[in RHS](unzip2_zip (s := etas) (t := ws)) ?sz // big_map.
have Wm : \sum_(x <- ws) x = ModelMC.mean ws * (size ws)%:R by rewrite /ModelMC.mean divfK.
have Wp : 0 < \sum_(p <- t) p.2 by rewrite Wt Wm mulr_gt0.
have t0 p : p \in t -> 0 <= p.2.
  move=> /mapP[q qi ->] /=; apply: (allP w0); rewrite -(unzip2_zip (s := etas) (t := ws)) ?sz //; exact: map_f.
have := cauchy_w t0 Wp; rewrite Wt Wm.
have -> : sigma_real = (\sum_(p <- t) p.1 * p.2) / (size ws)%:R / ModelMC.mean ws.
  by rewrite /sigma_real {1}/ModelMC.mean size_map St !big_map.
have -> : variance_part etas ws = (\sum_(p <- t) p.1 ^+ 2 * p.2) / (size ws)%:R.
  rewrite /variance_part /ModelMC.mean size_map St !big_map -/(ModelMC.mean ws); congr (_ / _); apply: eq_bigr => p _ /=.
  rewrite real_normK ?num_real //; congr (_ * _); rewrite /variance_eta_mean.
  have -> : ModelMC.mean [seq p.2 * p.1 | p <- zip etas ws] = K.
    by rewrite /K; congr ModelMC.mean; apply: eq_map => q; rewrite mulrC.
  rewrite -sqrrN opprB; congr (_ ^+ 2); rewrite invfM invrK; congr (1 - _); by rewrite [K^-1 * _]mulrC mulrA.
move: (\sum_(p <- t) p.1 * p.2) (\sum_(p <- t) p.1 ^+ 2 * p.2) => A Q; have := W0; move: (ModelMC.mean ws) => m m0 H.
have mn : m != 0 by rewrite gt_eqF.
rewrite -subr_ge0; have -> : Q / (size ws)%:R / m - (A / (size ws)%:R / m) ^+ 2 = (Q * (m * (size ws)%:R) - A ^+ 2) / ((size ws)%:R * m) ^+ 2.
  move: ((size ws)%:R : R) ne => n ne; by field; rewrite mn ne.
by rewrite divr_ge0 ?subr_ge0 // sqr_ge0.
Qed.
End Real.

Section Cplx.
Variable R : rcfType.
Local Open Scope complex_scope.
Notation cx := (@real_complex R).

Lemma mean_cx (s : seq R) : ModelDonaldson.mean [seq cx x | x <- s] = (ModelMC.mean s)%:C.
Proof.
rewrite /ModelDonaldson.mean /ModelMC.mean size_map big_map rmorphM fmorphV /= rmorph_nat; congr (_ / _).
by rewrite [RHS]rmorph_sum.
Qed.

Lemma sigma_cx (etas ws : seq R) : sigma_of [seq cx x | x <- etas] [seq cx x | x <- ws] = (sigma_real etas ws)%:C.
Proof.
have zE : zip [seq cx x | x <- etas] [seq cx x | x <- ws] = [seq (cx p.1, cx p.2) | p <- zip etas ws].
  by elim: etas ws => [|e l IH] [|w l'] //=; rewrite IH.
rewrite /sigma_of /sigma_real zE -!map_comp /=.
set K := ModelMC.mean [seq p.1 * p.2 | p <- zip etas ws].
have -> : ModelDonaldson.mean [seq ((fun ew => ew.1 * ew.2) \o (fun p => (cx p.1, cx p.2))) i | i <- zip etas ws] = K%:C.
  rewrite /K -mean_cx -map_comp; congr ModelDonaldson.mean; apply: eq_map => p /=; by rewrite rmorphM.
have re (x : R) : 'Re (x%:C) = x%:C.
  by apply/Creal_ReP; rewrite realE (_ : 0 = 0%:C) // !lecR; exact: num_real.
rewrite mean_cx re [RHS]rmorphM fmorphV; congr (_ / _); rewrite -[RHS]mean_cx -map_comp; congr ModelDonaldson.mean.
apply: eq_map => p /=.
rewrite [RHS]rmorphM; congr (_ * _).
have -> : 1 - cx p.1 * (ModelMC.mean ws)%:C / K%:C = cx (1 - p.1 * ModelMC.mean ws / K).
  move: (ModelMC.mean ws) (K) => w k; by rewrite [RHS]rmorphB rmorph1 !rmorphM fmorphV.
by rewrite normc_def /= expr0n /= addr0 sqrtr_sqr.
Qed.

Lemma sigma_variance_lemma (etas ws : seq R) : size etas = size ws -> all (fun x => 0 <= x) ws ->
  0 < ModelMC.mean ws -> ModelMC.mean [seq p.1 * p.2 | p <- zip etas ws] != 0 ->
  exists sigma : R, [/\ sigma_of [seq x%:C | x <- etas] [seq x%:C | x <- ws] = sigma%:C, 0 <= sigma,
    sigma ^+ 2 <= variance_part etas ws / ModelMC.mean ws &
    forall log : R -> R, log 1 = 0 -> (forall x, 1 < x -> 0 < log x) ->
      sigma ^+ 2 <= variance_eta_loss log etas ws / ModelMC.mean ws].
Proof.
move=> sz w0 W0 _; exists (sigma_real etas ws).
have S := sigma_sq sz w0 W0; split=> //; first exact: sigma_cx.
  apply: divr_ge0; last exact: ltW.
  rewrite {1}/ModelMC.mean divr_ge0 ?ler0n // big_map big_seq sumr_ge0 // => p pi.
  rewrite mulr_ge0 //; apply: (allP w0); rewrite -(unzip2_zip (s := etas) (t := ws)) ?sz //; exact: map_f.
move=> log l1 lp; apply: (le_trans S); rewrite ler_pdivl_mulr // divfK ?gt_eqF // /variance_eta_loss ler_addl.
rewrite /ModelMC.mean divr_ge0 ?ler0n // big_map sumr_ge0 // => e _.
case: (boolP (e < 0)) => e0; last by rewrite expr0n /= add0r l1.
by rewrite ltW // lp // ltr_addr exprn_even_gt0 //= lt_eqF.
Qed.
End Cplx.

Lemma sigma_variance_ex (R : rcfType) :
  sigma_of [seq real_complex R x | x <- [:: 1; 3%:R]] [seq real_complex R x | x <- [:: 1; 1]] = real_complex R (2%:R^-1) /\
  variance_part [:: 1; 3%:R : R] [:: 1; 1] / ModelMC.mean [:: 1; 1 : R] = (2%:R^-1) ^+ 2.
Proof.
have n2 : 2%:R != 0 :> R by rewrite pnatr_eq0.
have m1 : ModelMC.mean [:: 1; 1 : R] = 1 by rewrite /ModelMC.mean !big_cons big_nil /= addr0 -[1 + 1]/(2%:R) divff.
have m2 : ModelMC.mean [:: 1 * 1; 3%:R * 1 : R] = 2%:R.
  by rewrite /ModelMC.mean !big_cons big_nil /= addr0 !mulr1 -[X in X + _]/(1%:R) -natrD (natrM _ 2 2) mulfK.
split.
  rewrite sigma_cx /sigma_real /= m1 m2; congr (real_complex R _); rewrite divr1 /ModelMC.mean !big_cons big_nil /= !mulr1 addr0.
  have -> : 1 - 1 / 2%:R = 2%:R^-1 :> R by field.
  have -> : 1 - 3%:R / 2%:R = - 2%:R^-1 :> R by field.
  by rewrite normrN ger0_norm ?invr_ge0 ?ler0n //; field.
rewrite m1 divr1 /variance_part /variance_eta_mean /= m1 !mul1r.
have -> : ModelMC.mean [:: 1; 3%:R : R] = 2%:R by rewrite -m2 !mulr1.
by rewrite /ModelMC.mean !big_cons big_nil /= !divr1; field.
Qed.
