(** Model of cyjax/variety.py: sample_intersect_weights and sample_intersect as
    methods, compute_vol; of cyjax/donaldson.py: AlgebraicMetric.sigma_accuracy and
    donaldson_step as methods.

    Points are drawn by a function of the random key, the parameters and the number
    of points.  The functions at the end are this function for a general polynomial
    and for the predefined varieties. *)
From Coq Require Import ZArith Ascii String.
From mathcomp Require Import all_ssreflect all_algebra.
From Verif Require Import Base ModelUtil ModelProjective ModelDiff ModelExpr ModelPoly ModelHom ModelStr ModelVariety ModelBasis
  ModelGeom ModelMC ModelDonaldson ModelAlg Deriv Bridge.
Delimit Scope Z_scope with Z.

Set Implicit Arguments.
Unset Strict Implicit.
Unset Printing Implicit Defensive.

Import GRing.Theory Num.Theory.
Local Open Scope ring_scope.

(** variety.py:261-273  what sample_intersect returns, by the flags affine and weights *)
Inductive sampled (C : Type) : Type :=
| OutHom of seq (seq C)
| OutAff of seq (seq C * nat)
| OutHomW of seq (seq C) & seq C
| OutAffW of seq (seq C * nat) & seq C.

Section Pipe.
Variable C : numClosedFieldType.
(** jax.grad with holomorphic=True; jnp.log, jnp.exp and jnp.pi *)
Variable D : forall n : nat, ('rV[C]_n -> C) -> 'rV[C]_n -> 'rV[C]_n.
Variables (lg ex : C -> C) (pi : C).
(** jax.random: split(key) and split(key, count) *)
Variable key : Type.
Variables (split : key -> key * key) (splitn : key -> nat -> seq key).
Variable m : nat.
Variable V : variety C.

(** variety.py:196-231  sample_intersect_weights at one point; vol is 1 by default *)
Definition v_weights (zs ps : seq C) (patch dependent : option Z) (vol : option C) : res C :=
  do g <- v_grad_defining D V zs (PArr ps) (if patch is Some p then PatchInt C p else PatchNone C);
  weights pi (seq_row m.+1 zs) g dependent vol.

Variable draw : key -> seq C -> nat -> res (seq (seq C)).

(** variety.py:261-273  sample_intersect after homogeneous coordinates have been found *)
Definition sample_intersect (k : key) (ps : seq C) (count : nat) (affine want_weights : bool) : res (sampled C) :=
  do zs <- draw k ps count;
  if affine then
    do ap <- rseq [seq hom_to_affine_auto z | z <- zs];
    if want_weights then
      do ws <- rseq [seq v_weights a.1 ps (Some (Z.of_nat a.2)) None (Some 1) | a <- ap];
      Ok (OutAffW ap ws)
    else Ok (OutAff ap)
  else if want_weights then
    do ap <- rseq [seq hom_to_affine_auto z | z <- zs];
    do ws <- rseq [seq v_weights a.1 ps (Some (Z.of_nat a.2)) None (Some 1) | a <- ap];
    Ok (OutHomW zs ws)
  else Ok (OutHom zs).

(** variety.py:279-280  the sampler of compute_vol *)
Definition vol_sample (ps : seq C) (k : key) (count : nat) : res (seq (seq C * C)) :=
  do o <- sample_intersect k ps count false true;
  if o is OutHomW zs ws then Ok (zip zs ws) else Err ValueError.

(** util.py:227-240  the keys with which mc_integrate_batched draws *)
Fixpoint scan_keys (batches : nat) (k : key) : seq key :=
  if batches is b.+1 then k :: scan_keys b (split k).2 else [::].

(** variety.py:275-282  compute_vol.  An exception of the sampler is one of compute_vol. *)
Definition compute_vol (k : key) (ps : seq C) (batches batch_size : nat) (var : bool) : res (C * option C) :=
  do _ <- rseq [seq vol_sample ps k' batch_size | k' <- scan_keys batches k];
  Ok (mc_integrate_batched split k batches batch_size (fun _ => 1)
        (fun k' count => res_or [::] (vol_sample ps k' count)) var).

Variable B : basis.
Notation N := (size (power_matrix B)).

(** donaldson.py:819-848  AlgebraicMetric.sigma_accuracy *)
Definition alg_sigma_accuracy (k : key) (ps : seq C) (h : hvalue C N) (count : nat) : res C :=
  do o <- sample_intersect k ps count true false;
  do ap <- (if o is OutAff ap then Ok ap else Err ValueError);
  do gs <- rseq [seq v_grad_defining D V a.1 (PArr ps) (PatchInt C (Z.of_nat a.2)) | a <- ap];
  do deps <- rseq [seq rmap Z.of_nat (argmax [seq `|x| | x <- g]) | g <- gs];
  do ws <- rseq [seq v_weights ad.1.1 ps (Some (Z.of_nat ad.1.2)) (Some ad.2) (Some 1) | ad <- zip ap deps];
  do etas <- rseq [seq alg_eta D lg ex pi m V h agd.1.1.1 (PArr ps) (Some (Z.of_nat agd.1.1.2))
                         (Some (seq_row m.+1 agd.1.2)) (Some agd.2) | agd <- zip (zip ap gs) deps];
  Ok (sigma_of etas ws).

(** donaldson.py:869-876  the points of one batch of donaldson_step: the sections at
    the affine points and the weights.  Non-finite weights: see [sample]. *)
Definition step_points (ps : seq C) (batch_size : nat) (k : key) : res (seq (sample C N)) :=
  do o <- sample_intersect k ps batch_size true true;
  do aw <- (if o is OutAffW ap ws then Ok (zip ap ws) else Err ValueError);
  rseq [seq rmap (fun s => (seq_row N s, Some a.2)) (basis_call lg ex B a.1.1 (Some (Z.of_nat a.1.2)) true) | a <- aw].

(** donaldson.py:850-887  AlgebraicMetric.donaldson_step *)
Definition alg_donaldson_step (complex_dtype : bool) (k : key) (h : 'M[C]_N) (ps : seq C) (vol_cy : C)
    (batches batch_size : nat) : res 'M[C]_N :=
  do pts <- rseq [seq step_points ps batch_size k' | k' <- splitn k batches];
  donaldson_step complex_dtype h vol_cy pts.
End Pipe.
Arguments v_weights [C] D pi m V zs ps patch dependent vol.
Arguments sample_intersect [C] D pi [key] m V draw k ps count affine want_weights.
Arguments compute_vol [C] D pi [key] split m V draw k ps batches batch_size var.
Arguments alg_sigma_accuracy [C] D lg ex pi [key] m V draw [B] k ps h count.
Arguments step_points [C] D lg ex pi [key] m V draw B ps batch_size k.
Arguments alg_donaldson_step [C] D lg ex pi [key] splitn m V draw [B] complex_dtype k h ps vol_cy batches batch_size.

(** The homogeneous coordinates drawn by sample_intersect. *)
Section Draw.
Variable C : numClosedFieldType.
Variable norm : expr C -> expr C.
Variable order : seq (sym * expr C) -> seq (sym * expr C).
Variable visit : expr C -> seq sym.
Variable terms : poly C -> sym -> seq (nat * expr C).
Variable roots : seq C -> seq C.
Variable key : Type.
(** complex_sphere(key, (2, k, n)) as k pairs of points *)
Variable lines : key -> nat -> nat -> seq (seq C * seq C).

Definition poly_draw (P : poly C) (k : key) (ps : seq C) (count : nat) : res (seq (seq C)) :=
  sample_hom norm order visit terms roots P ps count (lines k).

(** polynomial.py:1217-1222, 1242-1247  FermatPoly and DworkPoly called with an array
    of expressions (numpy object arrays): the sum of powers, and for DworkPoly the
    factor times par[0] times the product.  sympy writes a complex number with I. *)
Definition num_expr (c : C) : expr C :=
  if c \is Num.real then ENum c else EAdd [:: ENum ('Re c); EMul [:: ENum ('Im c); EI]].
Definition fermat_sym (degree : nat) (z : seq (expr C)) : res (expr C) :=
  do _ <- rassert (size z == degree)%N;
  Ok (EAdd [seq EPow x degree | x <- z]).
Definition dwork_sym (degree : nat) (factor : dwork_factor C) (z params : seq (expr C)) : res (expr C) :=
  do _ <- rassert (size z == degree)%N;
  do psi <- item params 0;
  Ok (EAdd [:: EAdd [seq EPow x degree | x <- z]; EMul [:: num_expr (dwork_factor_value factor); psi; EMul z]]).

(** variety.py:248-259  sample_intersect for the predefined varieties *)
Definition fermat_draw (dim_variety : nat) (k : key) (ps : seq C) (count : nat) : res (seq (seq C)) :=
  do e <- fermat_sym dim_variety.+2 (line_exprs C dim_variety.+2);
  do L <- line_poly_of norm visit dim_variety.+2 e [::];
  sample_line norm visit terms roots dim_variety.+2 L ps count (lines k).
Definition dwork_draw (dim_variety : nat) (factor : dwork_factor C) (k : key) (ps : seq C) (count : nat)
    : res (seq (seq C)) :=
  do e <- dwork_sym dim_variety.+2 factor (line_exprs C dim_variety.+2) [:: ESym (lit "psi")];
  do L <- line_poly_of norm visit dim_variety.+2 e [:: lit "psi"];
  sample_line norm visit terms roots dim_variety.+2 L ps count (lines k).
End Draw.
