(** The loss used for training bounds the accuracy which is reported. *)
From mathcomp Require Import all_ssreflect all_algebra.
From mathcomp Require Import complex.
From Verif Require Import Base ModelMC ModelML ModelDonaldson ProofVar.

Set Implicit Arguments.
Unset Strict Implicit.
Unset Printing Implicit Defensive.

Import GRing.Theory Num.Theory.
Local Open Scope ring_scope.
Local Open Scope complex_scope.

(** C156: for the same values of eta and weights, the square of sigma_accuracy is at most
    variance_eta_loss divided by the mean weight (vol_cy). *)
Theorem sigma_below_variance : forall (R : rcfType) (etas ws : seq R),
  size etas = size ws -> all (fun x => 0 <= x) ws ->
  0 < ModelMC.mean ws -> ModelMC.mean [seq p.1 * p.2 | p <- zip etas ws] != 0 ->
  exists sigma : R, [/\ sigma_of [seq x%:C | x <- etas] [seq x%:C | x <- ws] = sigma%:C, 0 <= sigma,
    sigma ^+ 2 <= variance_part etas ws / ModelMC.mean ws &
    forall log : R -> R, log 1 = 0 -> (forall x, 1 < x -> 0 < log x) ->
      sigma ^+ 2 <= variance_eta_loss log etas ws / ModelMC.mean ws].
Proof. exact sigma_variance_lemma. Qed.
Print Assumptions sigma_below_variance.

(** eta 1 and 3 with equal weights: sigma is 1/2, the loss 1/4 = sigma^2 *)
Example sigma_variance_equal (R : rcfType) :
  sigma_of [seq x%:C | x <- [:: 1; 3%:R : R]] [seq x%:C | x <- [:: 1; 1 : R]] = (2%:R^-1 : R)%:C /\
  variance_part [:: 1; 3%:R : R] [:: 1; 1] / ModelMC.mean [:: 1; 1 : R] = (2%:R^-1) ^+ 2.
Proof. exact: sigma_variance_ex. Qed.
