(** Notions used to compare two bases on a hypersurface. *)
From Coq Require Import ZArith.
From mathcomp Require Import all_ssreflect all_algebra.
From Verif Require Import Base ModelExpr ModelPoly ModelHom ModelVariety ModelBasis ModelGeom ModelAlg Herm Bridge SpecAlg.

Set Implicit Arguments.
Unset Strict Implicit.
Unset Printing Implicit Defensive.

Import GRing.Theory Num.Theory.
Local Open Scope ring_scope.

(** The arguments describe the smooth point x of the hypersurface: by the affine coordinates on
    a patch and a dependent coordinate where the gradient is not zero, or by the homogeneous
    coordinates alone. *)
Definition point_args (C : numClosedFieldType) (D : forall n : nat, ('rV[C]_n -> C) -> 'rV[C]_n -> 'rV[C]_n)
    (V : variety C) (ps : seq C) m (x : 'rV[C]_m.+2) (zs : seq C) (patch dep : option Z) : Prop :=
  exists (i : 'I_m.+2) (d : 'I_m.+1) (a g : seq C), smooth_at D V ps x i d a g /\
    ((zs = a /\ patch = Some (Z.of_nat i) /\ dep = Some (Z.of_nat d)) \/ (zs = row_seq x /\ patch = None /\ dep = None)).

(** h and h', for two bases, give the same potential, metric and eta at the smooth points. *)
Definition same_metrics (C : numClosedFieldType) (D : forall n : nat, ('rV[C]_n -> C) -> 'rV[C]_n -> 'rV[C]_n)
    (pi : C) m (V : variety C) (ps : seq C) (B B' : basis)
    (h : 'M[C]_(size (power_matrix B))) (h' : 'M[C]_(size (power_matrix B'))) : Prop :=
  forall (lg ex : C -> C) (x : 'rV[C]_m.+2) zs patch dep, point_args D V ps x zs patch dep ->
  [/\ alg_kahler lg ex pi m V (HMat h) zs patch = alg_kahler lg ex pi m V (HMat h') zs patch,
      alg_metric D lg ex pi m V (HMat h) zs (PArr ps) patch None dep =
        alg_metric D lg ex pi m V (HMat h') zs (PArr ps) patch None dep &
      alg_eta D lg ex pi m V (HMat h) zs (PArr ps) patch None dep =
        alg_eta D lg ex pi m V (HMat h') zs (PArr ps) patch None dep].

(** The same for the Ricci tensor and the Ricci scalar. *)
Definition same_ricci (C : numClosedFieldType) (D : forall n : nat, ('rV[C]_n -> C) -> 'rV[C]_n -> 'rV[C]_n)
    (pi : C) m (V : variety C) (ps : seq C) (B B' : basis)
    (h : 'M[C]_(size (power_matrix B))) (h' : 'M[C]_(size (power_matrix B'))) : Prop :=
  forall (lg ex : C -> C) (x : 'rV[C]_m.+2) zs patch dep, point_args D V ps x zs patch dep ->
  alg_ricci D lg ex pi m V (HMat h) zs (PArr ps) patch None dep =
    alg_ricci D lg ex pi m V (HMat h') zs (PArr ps) patch None dep /\
  alg_ricci_scalar D lg ex pi m V (HMat h) zs (PArr ps) patch None dep =
    alg_ricci_scalar D lg ex pi m V (HMat h') zs (PArr ps) patch None dep.
