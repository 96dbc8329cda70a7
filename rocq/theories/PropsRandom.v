(** Claims about random.py.  The arguments ur, ui, u, r, a stand for the draws of
    jax.random.uniform and v for those of jax.random.normal. *)
From Coq Require Import ZArith Reals Lra.
From mathcomp Require Import all_ssreflect all_algebra.
From mathcomp Require Import complex.
From Verif Require Import Base ModelUtil ModelProjective RealField ComplexR ModelRandom SpecRandom Herm
  ProofRandom ProofRandom2 ProofRandom3.
Delimit Scope Z_scope with Z.

Set Implicit Arguments.
Unset Strict Implicit.
Unset Printing Implicit Defensive.

Import GRing.Theory Num.Theory.
Local Open Scope ring_scope.
Delimit Scope R_scope with RR.

(** C63 *)
Theorem uniform_components_range : forall ur ui : R, (0 <= ur < 1)%RR -> (0 <= ui < 1)%RR ->
  let z := uniform_components ur ui in (-1 <= re z < 1)%RR /\ (-1 <= im z < 1)%RR.
Proof. exact components_range. Qed.
Print Assumptions uniform_components_range.

Theorem uniform_components_onto : forall x y : R, (-1 <= x < 1)%RR -> (-1 <= y < 1)%RR ->
  exists ur ui, [/\ (0 <= ur < 1)%RR, (0 <= ui < 1)%RR & uniform_components ur ui = Complex x y].
Proof. exact components_onto. Qed.
Print Assumptions uniform_components_onto.

(** The documentation promises parts between 0 and 1. *)
Theorem uniform_components_refuted : exists ur ui : R, [/\ (0 <= ur < 1)%RR, (0 <= ui < 1)%RR &
  (re (uniform_components ur ui) < 0)%RR /\ (im (uniform_components ur ui) < 0)%RR].
Proof. exact components_doc_refuted. Qed.
Print Assumptions uniform_components_refuted.

Theorem uniform_angle_polar : forall m M a u : R, (0 <= m <= M)%RR -> (0 <= u < 1)%RR ->
  let z := uniform_angle m M a u in
  (m <= modulus z <= M)%RR /\ z = rc (modulus z) * cexp (Complex R0 (2 * PI * a)%RR).
Proof. exact angle_claim. Qed.
Print Assumptions uniform_angle_polar.

(** Uniformity: the modulus is at most rho exactly when the draw is at most the area
    of the ring between m and rho relative to the area of the whole ring. *)
Theorem uniform_angle_area : forall m M a u : R, (0 <= m)%RR -> (0 <= u < 1)%RR ->
  forall rho, (m < M)%RR -> (m <= rho <= M)%RR ->
  (modulus (uniform_angle m M a u) <= rho)%RR <->
  (u <= (PI * (rho * rho) - PI * (m * m)) / (PI * (M * M) - PI * (m * m)))%RR.
Proof. exact angle_cdf. Qed.
Print Assumptions uniform_angle_area.

Theorem uniform_angle_unit_circle :
  (forall a, modulus (uniform_angle_unit a) = R1) /\
  (forall z : CR, modulus z = R1 -> exists a, (0 <= a < 1)%RR /\ uniform_angle_unit a = z) /\
  (forall a b, (0 <= a < 1)%RR -> (0 <= b < 1)%RR -> uniform_angle_unit a = uniform_angle_unit b -> a = b).
Proof. exact angle_unit_claim. Qed.
Print Assumptions uniform_angle_unit_circle.

Example uniform_angle_ex : uniform_angle 1 3 0 (3 / 8) = Complex 2%RR R0.
Proof. exact angle_ex. Qed.

(** C64 *)
Theorem real_sphere_norm : forall v : seq R, has (fun x => x != 0) v ->
  size (real_sphere v) = size v /\ \sum_(x <- real_sphere v) x ^+ 2 = 1.
Proof. exact real_sphere_unit. Qed.
Print Assumptions real_sphere_norm.

Theorem complex_sphere_norm : forall n (v : seq R), size v = (n + n)%N -> has (fun x => x != 0) v ->
  size (complex_sphere n v) = n /\ \sum_(z <- complex_sphere n v) `|z| ^+ 2 = 1.
Proof. exact complex_sphere_unit. Qed.
Print Assumptions complex_sphere_norm.

Theorem uniform_projective_patch : forall dim (v : seq R),
  size v = (dim.+1 + dim.+1)%N -> has (fun x => x != 0) v ->
  exists z p, [/\ uniform_projective dim v = Ok (z, p), (p <= dim)%N, size z = dim,
    forall x, x \in z -> `|x| <= 1 &
    nth 0 (joined dim.+1 v) p != 0 /\
    affine_to_hom z (Z.of_nat p) = [seq x / nth 0 (joined dim.+1 v) p | x <- joined dim.+1 v]].
Proof. exact projective_draw. Qed.
Print Assumptions uniform_projective_patch.

Example real_sphere_ex : real_sphere [:: 3; 4]%RR = [:: 3 / 5; 4 / 5]%RR.
Proof. exact sphere_ex. Qed.

(** C81 *)
Theorem complex_sphere_unitary : forall n (v v' : seq R) (U : 'M[CR]_n),
  size v = (n + n)%N -> size v' = (n + n)%N -> has (fun x => x != 0) v -> has (fun x => x != 0) v' ->
  U *m adjm U = 1%:M ->
  \row_(k < n) nth 0 (joined n v') k = \row_(k < n) nth 0 (joined n v) k *m U ->
  \row_(k < n) nth 0 (complex_sphere n v') k = \row_(k < n) nth 0 (complex_sphere n v) k *m U.
Proof. exact sphere_equivariant. Qed.
Print Assumptions complex_sphere_unitary.

(** C65 *)
Theorem overlap_in_both_patches : forall dim i j P (r a : seq R),
  size r = dim -> size a = dim -> (i <= dim)%N -> (j <= dim)%N -> i <> j ->
  (1 <= P)%RR -> (forall x, x \in r -> (0 <= x < 1)%RR) ->
  let z := projective_overlap dim (Z.of_nat i) (Z.of_nat j) P r a in
  exists w, [/\ size z = dim, change_chart z (Z.of_nat i) (Z.of_nat j) = Ok w, size w = dim,
    (forall k, (k < dim)%N -> (modulus (nth 0%R z k) <= P)%RR /\ (modulus (nth 0%R w k) <= P)%RR) &
    (/ P <= modulus (nth 0%R (affine_to_hom z (Z.of_nat i)) j))%RR].
Proof. exact overlap_box. Qed.
Print Assumptions overlap_in_both_patches.

Example overlap_ex : projective_overlap 2 0 1 2 [:: 1 / 2; 1 / 4]%RR [:: 0; 0]%RR = [:: 1; 1].
Proof. exact ov_ex. Qed.

(** C66: patches 0 and 1. *)
Theorem overlap_symmetric_01 : forall dim P i j (r a : seq R), (0 < P)%RR ->
  (i = 0%N /\ j = 1%N) \/ (i = 1%N /\ j = 0%N) -> size r = dim.+1 -> size a = dim.+1 ->
  change_chart (projective_overlap dim.+1 (Z.of_nat i) (Z.of_nat j) P r a) (Z.of_nat i) (Z.of_nat j) =
  Ok (projective_overlap dim.+1 (Z.of_nat j) (Z.of_nat i) P (flip_r r) (flip_a a)).
Proof. exact flip_claim. Qed.
Print Assumptions overlap_symmetric_01.

Theorem overlap_flip_involution : forall r a : seq R,
  (forall x, x \in r -> (0 <= x < 1)%RR) -> (forall x, x \in a -> (0 <= x < 1)%RR) ->
  (0 < head R1 r)%RR ->
  [/\ forall x, x \in flip_r r -> (0 <= x < 1)%RR, forall x, x \in flip_a a -> (0 <= x < 1)%RR,
      size (flip_r r) = size r, size (flip_a a) = size a & flip_r (flip_r r) = r /\ flip_a (flip_a a) = a].
Proof. exact flip_draw. Qed.
Print Assumptions overlap_flip_involution.

(** Two patches other than 0, or patch 0 seen from a patch above 1: almost no image is
    a point of the reversed sampling. *)
Theorem overlap_symmetric_refuted : forall dim i j P (r a : seq R),
  size r = dim -> size a = dim -> (forall x, x \in r -> (0 <= x < 1)%RR) ->
  (i <= dim)%N -> (j <= dim)%N -> i <> j -> (1 < P)%RR ->
  ((0 < i)%N /\ (0 < j)%N /\ nth R0 r 0 <> (1 / 2)%RR) \/
  ((1 < i)%N /\ j = 0%N /\ nth R0 r 1 <> (1 - nth R0 r 0)%RR) ->
  forall r' a', size r' = dim -> size a' = dim -> (forall x, x \in r' -> (0 <= x < 1)%RR) ->
  change_chart (projective_overlap dim (Z.of_nat i) (Z.of_nat j) P r a) (Z.of_nat i) (Z.of_nat j) <>
  Ok (projective_overlap dim (Z.of_nat j) (Z.of_nat i) P r' a').
Proof. exact symmetric_refuted. Qed.
Print Assumptions overlap_symmetric_refuted.

(** C82 *)
Theorem overlap_covers : forall dim i j P (z : seq CR),
  (i <= dim)%N -> (j <= dim)%N -> i <> j -> (1 < P)%RR ->
  j = 0%N \/ (i = 0%N /\ j = 1%N) -> size z = dim ->
  (/ P <= modulus (nth 0%R z 0) < P)%RR ->
  (forall k, (0 < k < dim)%N -> (modulus (nth 0%R z k) < P)%RR /\
     (modulus (nth 0%R z k) < P * modulus (nth 0%R z 0))%RR) ->
  exists r a, [/\ size r = dim, size a = dim,
    forall x, x \in r -> (0 <= x < 1)%RR, forall x, x \in a -> (0 <= x < 1)%RR &
    projective_overlap dim (Z.of_nat i) (Z.of_nat j) P r a = z].
Proof. exact cover_claim. Qed.
Print Assumptions overlap_covers.

(** For the other pairs of patches the modulus of coordinate 0 is determined by the
    modulus of the other patch's coordinate. *)
Theorem overlap_covers_refuted : forall dim i j P (r a r' a' : seq R),
  size r = dim -> size a = dim -> size r' = dim -> size a' = dim ->
  (i <= dim)%N -> (0 < j <= dim)%N -> i <> j -> (1 < P)%RR -> ~ (i = 0%N /\ j = 1%N) ->
  let z := projective_overlap dim (Z.of_nat i) (Z.of_nat j) P r a in
  let z' := projective_overlap dim (Z.of_nat i) (Z.of_nat j) P r' a' in
  modulus (nth 0 (affine_to_hom z (Z.of_nat i)) j) = modulus (nth 0 (affine_to_hom z' (Z.of_nat i)) j) ->
  modulus (nth 0 z 0) = modulus (nth 0 z' 0).
Proof. exact degenerate_claim. Qed.
Print Assumptions overlap_covers_refuted.
