(** Properties of the bases of monomials (cyjax/donaldson.py). *)
From Coq Require Import ZArith.
From mathcomp Require Import all_ssreflect all_algebra all_field.
From mathcomp Require Import ssrZ.
From SsrMultinomials Require Import mpoly.
From Verif Require Import Base ModelUtil ModelProjective SpecMon ModelBasis SpecBasis.
From Verif Require Import ProofBasis ProofBasis2 ProofBasis3.
Delimit Scope Z_scope with Z.

Set Implicit Arguments.
Unset Strict Implicit.
Unset Printing Implicit Defensive.

Import GRing.Theory Num.Theory.
Local Open Scope ring_scope.

(** *** C44: the basis is complete *)
Theorem monomial_basis_complete : forall n d : nat, exists B,
  [/\ monomial_basis n (Z.of_nat d) = Ok B, uniq B, forall v, v \in B <-> is_monomial n.+1 d v &
      monomial_basis_size (Z.of_nat n) (Z.of_nat d) false = Ok (Z.of_nat (size B))].
Proof. exact basis_lemma. Qed.
Print Assumptions monomial_basis_complete.

Theorem monomial_basis_indices_match : forall n d : nat, exists I B,
  [/\ monomial_basis_indices n (Z.of_nat d) = Ok I, monomial_basis n (Z.of_nat d) = Ok B,
      size I = size B, all (fun c => (size c == d) && sorted leq c) I &
      forall (C : numClosedFieldType) (zs : seq C) k, size zs = n.+1 -> (k < size B)%N ->
      \prod_(i <- nth [::] I k) nth 0 zs i = monomial_at zs (nth [::] B k)].
Proof. exact indices_lemma. Qed.
Print Assumptions monomial_basis_indices_match.

Theorem monomial_basis_negative : forall (n : nat) (d : Z), (d < 0)%Z ->
  monomial_basis n d = Err ValueError.
Proof. exact basis_neg. Qed.
Print Assumptions monomial_basis_negative.

Example monomial_basis_ex : monomial_basis 2 2 =
  Ok [:: [:: 2; 0; 0]; [:: 1; 1; 0]; [:: 1; 0; 1]; [:: 0; 2; 0]; [:: 0; 1; 1]; [:: 0; 0; 2]]%N.
Proof. by vm_compute. Qed.
Example monomial_basis_degree0_ex : monomial_basis 2 0 = Ok [:: [:: 0; 0; 0]]%N.
Proof. by vm_compute. Qed.
Example monomial_basis_indices_ex : monomial_basis_indices 1 3 =
  Ok [:: [:: 0; 0; 0]; [:: 0; 0; 1]; [:: 0; 1; 1]; [:: 1; 1; 1]]%N.
Proof. by vm_compute. Qed.
Example monomial_basis_size_ex : monomial_basis_size 3 2 false = Ok 10%Z.
Proof. by vm_compute. Qed.

(** *** C45: values of the sections *)
Theorem sections_value : forall (C : numClosedFieldType) (lg ex : C -> C) (n : nat) (B : basis),
  power_matrix B <> [::] ->
  (forall v, v \in power_matrix B -> is_monomial n.+1 (bdegree B) v) ->
  forall zs precompute, size zs = n.+1 ->
  (~~ precompute -> exp_log_ok lg ex /\ forall z, z \in zs -> z != 0) ->
  basis_call lg ex B zs None precompute = Ok [seq monomial_at zs v | v <- power_matrix B].
Proof. exact sections_hom. Qed.
Print Assumptions sections_value.

Theorem sections_value_affine : forall (C : numClosedFieldType) (lg ex : C -> C) (n : nat) (B : basis),
  power_matrix B <> [::] ->
  (forall v, v \in power_matrix B -> is_monomial n.+1 (bdegree B) v) ->
  forall zs (p : nat) precompute, size zs = n -> (p <= n)%N ->
  (~~ precompute -> exp_log_ok lg ex /\ forall z, z \in zs -> z != 0) ->
  basis_call lg ex B zs (Some (Z.of_nat p)) precompute =
  Ok [seq monomial_at (affine_to_hom zs (Z.of_nat p)) v | v <- power_matrix B].
Proof. exact sections_affine. Qed.
Print Assumptions sections_value_affine.

Theorem basis_full_complete : forall n d : nat, exists B, [/\ basis_full n d = Ok B, bdegree B = d,
  power_matrix B <> [::], basis_size B = 'C(n + d, d) &
  forall v, v \in power_matrix B <-> is_monomial n.+1 d v].
Proof. exact full_class. Qed.
Print Assumptions basis_full_complete.

Example sections_ex : exists B, basis_full 1 2 = Ok B /\
  basis_call id id B [:: 2%:R; 3%:R : algC] None true = Ok [:: 4%:R; 6%:R; 9%:R].
Proof.
eexists; split; first by [].
rewrite (@sections_hom _ _ _ 1) //=; last by move=> v; rewrite !inE => /or3P[] /eqP ->; split=> //; rewrite !big_ord_recl big_ord0.
by congr Ok; rewrite /monomial_at /= !big_ord_recl !big_ord0 /= !mulr1 !mul1r -!natrX -?natrM.
Qed.

Example sections_affine_ex : exists B, basis_full 1 2 = Ok B /\
  basis_call id id B [:: 3%:R : algC] (Some 1%Z) true = Ok [:: 9%:R; 3%:R; 1].
Proof.
eexists; split; first by [].
rewrite (@sections_affine _ _ _ 1 _ _ _ _ 1) //=; last by move=> v; rewrite !inE => /or3P[] /eqP ->; split=> //; rewrite !big_ord_recl big_ord0.
by congr Ok; rewrite /monomial_at /= !big_ord_recl !big_ord0 /= !expr1n !expr0 !expr1 !mulr1 ?mul1r -!natrX.
Qed.

(** *** C73: sections are homogeneous; change of patch *)
Theorem sections_homogeneous : forall (C : numClosedFieldType) (lg ex : C -> C) (n : nat) (B : basis),
  power_matrix B <> [::] ->
  (forall v, v \in power_matrix B -> is_monomial n.+1 (bdegree B) v) ->
  forall zs c, size zs = n.+1 ->
  basis_call lg ex B [seq c * z | z <- zs] None true =
  rmap (map (fun s => c ^+ bdegree B * s)) (basis_call lg ex B zs None true).
Proof. exact sections_scale. Qed.
Print Assumptions sections_homogeneous.

Theorem sections_patch_factor : forall (C : numClosedFieldType) (lg ex : C -> C) (n : nat) (B : basis),
  power_matrix B <> [::] ->
  (forall v, v \in power_matrix B -> is_monomial n.+1 (bdegree B) v) ->
  forall hom (p : nat), size hom = n.+1 -> (p <= n)%N -> nth 0 hom p != 0 ->
  (do z <- hom_to_affine hom (Z.of_nat p); basis_call lg ex B z (Some (Z.of_nat p)) true) =
  rmap (map (fun s => s / nth 0 hom p ^+ bdegree B)) (basis_call lg ex B hom None true).
Proof. exact sections_patch. Qed.
Print Assumptions sections_patch_factor.

Example sections_scale_ex : exists B, basis_full 1 2 = Ok B /\
  basis_call id id B [seq 5%:R * z | z <- [:: 2%:R; 3%:R : algC]] None true =
  Ok [:: 5%:R ^+ 2 * 4%:R; 5%:R ^+ 2 * 6%:R; 5%:R ^+ 2 * 9%:R].
Proof.
have [B [E h]] := sections_ex; exists B; split=> //; case: E h => <- h.
rewrite (@sections_scale _ _ _ 1) ?h //=.
by move=> v; rewrite !inE => /or3P[] /eqP ->; split=> //; rewrite !big_ord_recl big_ord0.
Qed.

(** *** C46: reduction never fails *)
Theorem reduced_basis_list : forall (n d m : nat) row rows,
  (forall r, r \in row :: rows -> is_monomial n.+1 m r) ->
  exists B full, [/\ reduced_monomial_basis (Z.of_nat d) (row :: rows) = Ok B,
    monomial_basis n (Z.of_nat d) = Ok full, subseq B full &
    forall v, v \in B <-> v \in full /\ ~ divisible_by row v].
Proof. exact reduced_lemma. Qed.
Print Assumptions reduced_basis_list.

Theorem reduced_basis_size : forall (n d : nat) row rows,
  (forall r, r \in row :: rows -> is_monomial n.+1 n.+1 r) ->
  exists2 B, reduced_monomial_basis (Z.of_nat d) (row :: rows) = Ok B &
    monomial_basis_size (Z.of_nat n) (Z.of_nat d) true = Ok (Z.of_nat (size B)).
Proof. exact reduced_size_lemma. Qed.
Print Assumptions reduced_basis_size.

Theorem reduced_basis_inhomogeneous : forall d (rows : powers) a b,
  a \in rows -> b \in rows -> sumn a <> sumn b ->
  reduced_monomial_basis d rows = Err AssertionError.
Proof. exact reduced_assert. Qed.
Print Assumptions reduced_basis_inhomogeneous.

Example reduced_basis_ex : reduced_monomial_basis 2 [:: [:: 2; 0; 0]; [:: 0; 2; 0]; [:: 0; 0; 2]]%N =
  Ok [:: [:: 1; 1; 0]; [:: 1; 0; 1]; [:: 0; 2; 0]; [:: 0; 1; 1]; [:: 0; 0; 2]]%N.
Proof. by vm_compute. Qed.
(** A polynomial of another degree: the size is not the predicted one. *)
Example reduced_size_other_degree_ex :
  exists2 B, reduced_monomial_basis 2 [:: [:: 2; 0; 0]; [:: 0; 2; 0]; [:: 0; 0; 2]]%N = Ok B &
    monomial_basis_size 2 2 true <> Ok (Z.of_nat (size B)).
Proof. by eexists; [exact: reduced_basis_ex | vm_compute]. Qed.

(** *** C47: basis modulo the polynomial *)
Theorem reduced_class_basis : forall (C : numClosedFieldType) n (P : {mpoly C[n.+1]}) m d,
  P != 0 -> P \is m.-homog -> (forall i, variable_occurs P i) ->
  exists B, [/\ basis_reduced P d = Ok B, bdegree B = d, uniq (power_matrix B),
    forall v, v \in power_matrix B -> is_monomial n.+1 d v & basis_modulo d P (power_matrix B)].
Proof. exact reduced_class_lemma. Qed.
Print Assumptions reduced_class_basis.

Theorem reduced_sections_span : forall (C : numClosedFieldType) n (P : {mpoly C[n.+1]}) m d,
  P != 0 -> P \is m.-homog -> (forall i, variable_occurs P i) ->
  exists B, basis_reduced P d = Ok B /\
  forall f : {mpoly C[n.+1]}, f \is d.-homog -> exists c : seq C,
  size c = basis_size B /\
  forall (lg ex : C -> C) zs, size zs = n.+1 -> P.@[fun i => nth 0 zs i] = 0 -> power_matrix B != [::] ->
  exists2 s, basis_call lg ex B zs None true = Ok s &
    f.@[fun i => nth 0 zs i] = \sum_(k < size s) nth 0 c k * nth 0 s k.
Proof. exact span_lemma. Qed.
Print Assumptions reduced_sections_span.

Theorem reduced_order_refuted : forall C : numClosedFieldType, exists B,
  [/\ reduced_monomial_basis 3 [:: [:: 1; 1]; [:: 2; 0]; [:: 0; 2]]%N = Ok B,
      perm_eq [:: [:: 1; 1]; [:: 2; 0]; [:: 0; 2]]%N
        [seq (m : seq nat) | m : 'X_{1..2} <- msupp (mixed_poly C)] &
      ~ basis_modulo 3 (mixed_poly C) B].
Proof. exact order_lemma. Qed.
Print Assumptions reduced_order_refuted.

Theorem reduced_missing_variable_refuted : forall (C : numClosedFieldType) n (P : {mpoly C[n]}) m,
  P != 0 -> P \is m.+1.-homog -> forall d i, ~ variable_occurs P i ->
  exists B, basis_reduced P d = Ok B /\ forall lg ex : C -> C, forall zs,
  (size zs = n -> basis_call lg ex B zs None true = Err ValueError) /\
  (size zs = n.-1 -> forall p : nat, exists e, basis_call lg ex B zs (Some (Z.of_nat p)) true = Err e).
Proof. exact missing_err. Qed.
Print Assumptions reduced_missing_variable_refuted.

(** x y + x^2 + y^2: the rows of the class come in lexicographic order, and
    the hypotheses of the theorems hold. *)
Example reduced_class_ex : forall C : numClosedFieldType,
  [/\ mixed_poly C != 0, mixed_poly C \is 2.-homog, forall i, variable_occurs (mixed_poly C) i &
      basis_reduced (mixed_poly C) 3 = Ok (MkBasis 3 [:: [:: 1; 2]; [:: 0; 3]]%N)].
Proof. exact mixed_class. Qed.
