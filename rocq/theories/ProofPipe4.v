(** Other homogeneous coordinates of the same points. *)
From Coq Require Import ZArith Lia.
From mathcomp Require Import all_ssreflect all_algebra.
From SsrMultinomials Require Import mpoly.
From Verif Require Import Base ModelUtil ModelProjective ModelDiff ModelExpr ModelPoly ModelHom ModelVariety ModelBasis ModelGeom ModelMC ModelDonaldson ModelAlg ModelPipe.
From Verif Require Import SpecPoly SpecHom SpecAlg SpecPipe Deriv Bridge ProofAlg ProofPipe2.
Delimit Scope Z_scope with Z.

Set Implicit Arguments.
Unset Strict Implicit.
Unset Printing Implicit Defensive.

Import GRing.Theory Num.Theory.
Local Open Scope ring_scope.

Section Same.
Variable C : numClosedFieldType.
Variable D : forall n : nat, ('rV[C]_n -> C) -> 'rV[C]_n -> 'rV[C]_n.
Variables (lg ex : C -> C) (pi : C) (key : Type) (split : key -> key * key) (splitn : key -> nat -> seq key).
Variables (m : nat) (V : variety C) (draw draw' : key -> seq C -> nat -> res (seq (seq C))).
Hypothesis H : same_draws draw draw'.

Lemma same_auto (zs zs' : seq (seq C)) : same_points zs zs' ->
  [seq hom_to_affine_auto z | z <- zs'] = [seq hom_to_affine_auto z | z <- zs] /\ size zs' = size zs.
Proof.
move=> [c [c0 ->]]; rewrite size_map size_iota; split=> //.
rewrite -[in RHS](mkseq_nth [::] zs) /mkseq -!map_comp; apply: eq_map => j /=.
exact: auto_scale.
Qed.

Lemma same_affine k ps count b :
  sample_intersect D pi m V draw' k ps count true b = sample_intersect D pi m V draw k ps count true b.
Proof.
rewrite /sample_intersect; have := H k ps count.
case: draw => [zs|x]; case: draw' => [zs'|x'] //=; last by move=> ->.
by move=> /same_auto[-> _].
Qed.

Lemma same_weights k ps count :
  match sample_intersect D pi m V draw k ps count false true, sample_intersect D pi m V draw' k ps count false true with
  | Ok (OutHomW zs ws), Ok (OutHomW zs' ws') => same_points zs zs' /\ ws = ws'
  | Err x, Err x' => x = x'
  | _, _ => False
  end.
Proof.
rewrite /sample_intersect; have := H k ps count.
case: draw => [zs|x]; case: draw' => [zs'|x'] //= S.
have [-> _] := same_auto S; case: rseq => [ap|//] /=; case: rseq => //=.
Qed.

Lemma zip_snd (T : Type) (zs : seq T) (ws : seq C) (f : C -> C) :
  [seq f p.2 | p <- zip zs ws] = [seq f w | w <- take (size zs) ws].
Proof. by elim: zs ws => [|z zs IH] [|w ws] //=; rewrite IH. Qed.

Lemma same_vol_sample k ps count :
  match vol_sample D pi m V draw ps k count, vol_sample D pi m V draw' ps k count with
  | Ok zw, Ok zw' => forall f : C -> C, [seq f p.2 | p <- zw] = [seq f p.2 | p <- zw']
  | Err x, Err x' => x = x'
  | _, _ => False
  end.
Proof.
rewrite /vol_sample; have := same_weights k ps count.
case: sample_intersect => [[]|] //=; case: sample_intersect => [[]|] //= zs ws zs' ws' [/same_auto[_ sz] <-] f.
by rewrite !zip_snd sz.
Qed.

Lemma rseq_same (T X Y : Type) (f : T -> res X) (g : T -> res Y) s :
  (forall x, match f x, g x with Ok _, Ok _ => True | Err a, Err b => a = b | _, _ => False end) ->
  match rseq (map f s), rseq (map g s) with Ok _, Ok _ => True | Err a, Err b => a = b | _, _ => False end.
Proof.
move=> A; elim: s => [//|x s IH] /=; have := A x; case: (f x) => [y|a]; case: (g x) => [y'|b] //=.
by move: IH; case: rseq => [ys|a]; case: rseq => [ys'|b].
Qed.

Lemma same_scan (S S' : key -> nat -> seq (seq C * C)) bs :
  (forall k f, [seq f p.2 | p <- S k bs] = [seq f p.2 | p <- S' k bs] :> seq C) ->
  forall b k, mc_scan split b bs (fun=> 1) S k = mc_scan split b bs (fun=> 1) S' k.
Proof.
move=> A; elim=> [//|b IH] k /=; rewrite /mc_step /= IH; congr cons; congr (ModelMC.mean _, _).
  by exact: (A k id).
congr (ModelMC.mean _ / _); rewrite -!map_comp.
exact: (A k (fun w => (1 * w) ^+ 2)).
Qed.

Lemma same_vol k ps batches bs var :
  compute_vol D pi split m V draw' k ps batches bs var = compute_vol D pi split m V draw k ps batches bs var.
Proof.
rewrite /compute_vol.
have A := @rseq_same _ _ _ (fun k' => vol_sample D pi m V draw' ps k' bs) (fun k' => vol_sample D pi m V draw ps k' bs)
  (scan_keys split batches k).
have {A} := A _; case: rseq => [y|x]; case: rseq => [y'|x'] /=.
- move=> _; congr Ok; rewrite /mc_integrate_batched.
  rewrite (@same_scan (fun k' count => res_or [::] (vol_sample D pi m V draw' ps k' count))
    (fun k' count => res_or [::] (vol_sample D pi m V draw ps k' count))) // => k' f.
  by have := same_vol_sample k' ps bs; case: vol_sample => [zw|?]; case: vol_sample => [zw'|?] //= ->.
- by case/(_ _); move=> k'; have := same_vol_sample k' ps bs; case: vol_sample => [zw|?]; case: vol_sample.
- by case/(_ _); move=> k'; have := same_vol_sample k' ps bs; case: vol_sample => [zw|?]; case: vol_sample.
by move=> -> // k'; have := same_vol_sample k' ps bs; case: vol_sample => [zw|?]; case: vol_sample.
Qed.

Lemma same_sigma (B : basis) k ps (h : hvalue C (size (power_matrix B))) count :
  alg_sigma_accuracy D lg ex pi m V draw' k ps h count = alg_sigma_accuracy D lg ex pi m V draw k ps h count.
Proof. by rewrite /alg_sigma_accuracy same_affine. Qed.

Lemma same_step (B : basis) dt k (h : 'M[C]_(size (power_matrix B))) ps vol batches bs :
  alg_donaldson_step D lg ex pi splitn m V draw' dt k h ps vol batches bs =
  alg_donaldson_step D lg ex pi splitn m V draw dt k h ps vol batches bs.
Proof.
rewrite /alg_donaldson_step; congr rbind; congr rseq; apply: eq_map => k'.
by rewrite /step_points same_affine.
Qed.
End Same.
