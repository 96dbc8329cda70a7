(** Limits of the steps on samples with a unitary symmetry. *)
From Coq Require Import ZArith Lia.
From mathcomp Require Import all_ssreflect all_algebra all_fingroup.
From mathcomp Require Import zify ssrZ ring.
From SsrMultinomials Require Import mpoly.
From Verif Require Import Base ModelUtil ModelVariety ModelBasis ModelDonaldson ModelAlg ModelPipe.
From Verif Require Import SpecPoly SpecHom SpecVariety SpecGeom SpecBasis SpecSections SpecPatch SpecAlg SpecDonaldson SpecPipe SpecStep SpecSymmetry Herm.
From Verif Require Import Deriv Bridge PolyGrad ProofAlg ProofAlg6 ProofDonaldson2 ProofStep ProofStep2 ComplexR ProofStep7 ProofStep8.
From Verif Require Import SpecLinear SpecRotate ProofLinear9.
Delimit Scope Z_scope with Z.

Set Implicit Arguments.
Unset Strict Implicit.
Unset Printing Implicit Defensive.

Import GRing.Theory Num.Theory Order.POrderTheory.
Local Open Scope ring_scope.

Lemma rot_limit : forall (D : forall n : nat, ('rV[CR]_n -> CR) -> 'rV[CR]_n -> 'rV[CR]_n), diff_ok D ->
  forall (lg ex : CR -> CR) (pi : CR) m (V : variety CR) ps (Q : {mpoly CR[m.+2]}),
  hypersurface V ps m m.+2 -> defined_by V ps Q -> 0 < pi -> smooth D V ps m ->
  forall A : 'M[CR]_m.+2, unitary A -> (forall x, peval Q (x *m A) = peval Q x) ->
  forall (key : Type) (draw : key -> seq CR -> nat -> res (seq (seq CR))) k B, basis_full m.+1 k = Ok B -> (0 < k)%N ->
  forall (splitn : key -> nat -> seq key) kk batches bs zss W,
  rseq [seq draw k' ps bs | k' <- splitn kk batches] = Ok zss ->
  (forall zs, zs \in zss -> size zs = bs /\ points_on V ps m zs) ->
  (forall z, z \in flatten zss -> has_weight pi m.+2 Q z (W z)) ->
  (forall v : 'rV[CR]_(size (power_matrix B)), v != 0 ->
     exists2 z, z \in flatten zss & \sum_a v 0 a * hom_sections B z 0 a != 0) ->
  zss != [::] -> (0 < bs)%N -> rotated_to_itself A (flatten zss) ->
  let pts := [seq [seq (hom_sections B z, Some (W z)) | z <- zs] | zs <- zss] in let vol := avg W (flatten zss) in
  stable (flatten pts) ->
  forall hs : nat -> 'M[CR]_(size (power_matrix B)), hermitian (hs 0%N) -> posdef (hs 0%N) ->
  (forall j, alg_donaldson_step D lg ex pi splitn m V draw true kk (hs j) ps vol batches bs = Ok (hs j.+1)) ->
  exists L, [/\ hermitian L, posdef L, converges_to hs L & norm_invariant A L].
Proof.
move=> D hD lg ex pi m V ps Q hV hQ pi0 hS A UA QA key draw k B hB k0 splitn kk batches bs zss W Hd Hz HW sp ne bs0 Hm pts vol st hs hh ph E.
have hF : basis_for k Q B by left.
have [gs St] := sampled_step hD lg ex hV hQ pi0 hS hF k0 Hd Hz HW sp ne bs0.
have [L [hL pL cL EL]] := sampled_limit hD hV hQ pi0 hS hF k0 Hd Hz HW sp ne bs0 (or_introl st) hh ph E.
have [_ ind] := (stable_iff_balanced gs).1 st.
exists L; split=> //.
exact: (rot_balanced hD hV hQ pi0 hS UA QA hB k0 Hd Hz HW sp ne bs0 Hm hL pL EL ind).
Qed.

(** The statements with all hypotheses. *)
Lemma rot_step_all : forall (C : numClosedFieldType) (D : forall n : nat, ('rV[C]_n -> C) -> 'rV[C]_n -> 'rV[C]_n), diff_ok D ->
  forall (lg ex : C -> C) (pi : C) m (V : variety C) ps (Q : {mpoly C[m.+2]}),
  hypersurface V ps m m.+2 -> defined_by V ps Q -> 0 < pi -> smooth D V ps m ->
  forall A : 'M[C]_m.+2, unitary A -> (forall x, peval Q (x *m A) = peval Q x) ->
  forall (key : Type) (draw : key -> seq C -> nat -> res (seq (seq C))) k B, basis_full m.+1 k = Ok B -> (0 < k)%N ->
  forall (splitn : key -> nat -> seq key) kk batches bs zss W,
  rseq [seq draw k' ps bs | k' <- splitn kk batches] = Ok zss ->
  (forall zs, zs \in zss -> size zs = bs /\ points_on V ps m zs) ->
  (forall z, z \in flatten zss -> has_weight pi m.+2 Q z (W z)) ->
  (forall v : 'rV[C]_(size (power_matrix B)), v != 0 ->
     exists2 z, z \in flatten zss & \sum_a v 0 a * hom_sections B z 0 a != 0) ->
  zss != [::] -> (0 < bs)%N -> rotated_to_itself A (flatten zss) ->
  forall h H' : 'M[C]_(size (power_matrix B)), hermitian h -> posdef h -> norm_invariant A h ->
  alg_donaldson_step D lg ex pi splitn m V draw true kk h ps (avg W (flatten zss)) batches bs = Ok H' -> norm_invariant A H'.
Proof.
move=> C D hD lg ex pi m V ps Q hV hQ pi0 hS A UA QA key draw k B hB k0 splitn kk batches bs zss W Hd Hz HW sp ne bs0 Hm h H'.
exact: (rot_step hD hV hQ pi0 hS UA QA hB k0 Hd Hz HW sp ne bs0 Hm).
Qed.

Lemma rot_balanced_all : forall (C : numClosedFieldType) (D : forall n : nat, ('rV[C]_n -> C) -> 'rV[C]_n -> 'rV[C]_n), diff_ok D ->
  forall (lg ex : C -> C) (pi : C) m (V : variety C) ps (Q : {mpoly C[m.+2]}),
  hypersurface V ps m m.+2 -> defined_by V ps Q -> 0 < pi -> smooth D V ps m ->
  forall A : 'M[C]_m.+2, unitary A -> (forall x, peval Q (x *m A) = peval Q x) ->
  forall (key : Type) (draw : key -> seq C -> nat -> res (seq (seq C))) k B, basis_full m.+1 k = Ok B -> (0 < k)%N ->
  forall (splitn : key -> nat -> seq key) kk batches bs zss W,
  rseq [seq draw k' ps bs | k' <- splitn kk batches] = Ok zss ->
  (forall zs, zs \in zss -> size zs = bs /\ points_on V ps m zs) ->
  (forall z, z \in flatten zss -> has_weight pi m.+2 Q z (W z)) ->
  (forall v : 'rV[C]_(size (power_matrix B)), v != 0 ->
     exists2 z, z \in flatten zss & \sum_a v 0 a * hom_sections B z 0 a != 0) ->
  zss != [::] -> (0 < bs)%N -> rotated_to_itself A (flatten zss) ->
  let pts := [seq [seq (hom_sections B z, Some (W z)) | z <- zs] | zs <- zss] in let vol := avg W (flatten zss) in
  forall g : 'M[C]_(size (power_matrix B)), hermitian g -> posdef g ->
  alg_donaldson_step D lg ex pi splitn m V draw true kk g ps vol batches bs = Ok g ->
  indecomposable (flatten pts) -> norm_invariant A g.
Proof.
move=> C D hD lg ex pi m V ps Q hV hQ pi0 hS A UA QA key draw k B hB k0 splitn kk batches bs zss W Hd Hz HW sp ne bs0 Hm pts vol g.
exact: (rot_balanced hD hV hQ pi0 hS UA QA hB k0 Hd Hz HW sp ne bs0 Hm).
Qed.

(** A rotation of x0^2 + x1^2 *)
Section Ex.
Variable C : numClosedFieldType.
Definition rot2 : 'M[C]_2 :=
  \matrix_(a, b) (if a == b then 3%:R / 5%:R else if a == 0 then 4%:R / 5%:R else - (4%:R / 5%:R)).

Let n5 : (5%:R : C) != 0. Proof. by rewrite pnatr_eq0. Qed.
Let I2 (a : 'I_2) : a = 0 \/ a = 1.
Proof. by case: a => -[|[|//]] p; [left|right]; exact: val_inj. Qed.
Let sum2 (F : 'I_2 -> C) : \sum_a F a = F 0 + F 1.
Proof. by rewrite !big_ord_recl big_ord0 addr0; congr (_ + F _); exact: val_inj. Qed.

Lemma rot2E (x : 'rV[C]_2) : (x *m rot2) 0 0 = (3%:R * x 0 0 - 4%:R * x 0 1) / 5%:R /\ (x *m rot2) 0 1 = (4%:R * x 0 0 + 3%:R * x 0 1) / 5%:R.
Proof. by rewrite ![(x *m rot2) _ _]mxE !sum2 !mxE /=; split; move: (x 0 0) (x 0 1) => a b; field. Qed.

Lemma rot2_unitary : unitary rot2.
Proof.
have cr (a b : nat) : (a%:R / b%:R : C)^* = a%:R / b%:R by rewrite rmorphM fmorphV /= !conjC_nat.
apply/matrixP => a b; rewrite mxE sum2 !adjmE.
by case: (I2 a) => ->; case: (I2 b) => ->; rewrite !mxE /= ?rmorphN /= ?cr; field.
Qed.

Lemma rot2_quadric x : peval (dwork_Q 0 (0 : C)) (x *m rot2) = peval (dwork_Q 0 0) x.
Proof.
rewrite !dwork_Q_eval !mul0r !addr0 !sum2; have [-> ->] := rot2E x.
by move: (x 0 0) (x 0 1) => a b; field.
Qed.

Lemma rot2_points : rotated_to_itself rot2 (pair_points C).
Proof.
pose u (s : C) := (3%:R + 4%:R * s) / 5%:R.
have uv (s : C) : s * s = -1 -> u s * ((3%:R * 1 - 4%:R * s) / 5%:R) = 1.
  move=> e; have -> : u s * ((3%:R * 1 - 4%:R * s) / 5%:R) = (9%:R - 16%:R * (s * s)) / (5%:R * 5%:R).
    by rewrite /u; move: (s) => t; field.
  by rewrite e; field.
have E (s : C) : s * s = -1 -> row_seq (u s *: (seq_row 2 [:: 1; s] *m rot2)) = [:: 1; s].
  move=> e; have [] := rot2E (seq_row 2 [:: 1; s]).
  have -> : seq_row 2 [:: 1; s] 0 0 = 1 by rewrite mxE.
  have -> : seq_row 2 [:: 1; s] 0 1 = s by rewrite mxE.
  move=> e0 e1; apply/esym/row_seq_eq => // j; rewrite [RHS]mxE; case: (ord2E j) => ->; first by rewrite e0 uv.
  rewrite e1; have -> : u s * ((4%:R * 1 + 3%:R * s) / 5%:R) = (12%:R + 25%:R * s + 12%:R * (s * s)) / (5%:R * 5%:R).
    by rewrite /u; move: (s) => t; field.
  by rewrite e /=; move: (s) => t; field.
have ii : ('i : C) * 'i = -1 by rewrite -expr2 sqrCi.
have jj : (- 'i : C) * - 'i = -1 by rewrite mulrNN.
have u0 (s : C) : s * s = -1 -> u s != 0.
  by move=> /uv e; apply/eqP => z; move: e; rewrite z mul0r => /eqP; rewrite eq_sym oner_eq0.
exists (fun i => if i == 0%N then u 'i else u (- 'i)) => [i|]; first by case: ifP => _; exact: u0.
by rewrite /= !E.
Qed.

(** The norm of the sections with the identity matrix is |x|^2, which the rotation keeps; that with diag(1, 2) it moves. *)
Lemma rot2_norm : norm_invariant rot2 (1%:M : 'M[C]_(size (power_matrix pair_basis))) /\
  ~ norm_invariant rot2 (diag_mx (\row_j (if j == 0 then 1 else 2%:R)) : 'M[C]_(size (power_matrix pair_basis))).
Proof.
have hs (x : 'rV[C]_2) : hom_sections pair_basis (row_seq x) = x.
  have rE : row_seq x = [:: x 0 0; x 0 1] by apply/esym/row_seq_eq => // j; case: (ord2E j) => ->.
  apply/rowP => j; rewrite mxE rE !big_ord_recl !big_ord0.
  by case: (ord2E j) => -> /=; rewrite !expr0 !expr1 !mulr1 ?mul1r.
split=> [x|].
  rewrite !hs !hformE !mulmx1 adjm_mul mulmxA -[x *m rot2 *m _]mulmxA; have := rot2_unitary; rewrite /unitary => ->.
  by rewrite mulmx1.
move=> /(_ (\row_j (j == 0)%:R)); rewrite !hs /hform !sum2.
have [-> ->] := rot2E (\row_j (j == 0)%:R).
rewrite !mxE /= !(mulr0, mulr1, mul0r, addr0, add0r, subr0, mulr1n, mul1r, mulr0n) ?rmorph1 ?mulr1.
have cr (a b : nat) : (a%:R / b%:R : C)^* = a%:R / b%:R by rewrite rmorphM fmorphV /= !conjC_nat.
rewrite !cr => /(congr1 (fun t => t * 25%:R)) e.
have {}e : (41%:R : C) = 25%:R.
  by rewrite -[RHS]mul1r -e; field.
by move/eqP: e; rewrite eqr_nat.
Qed.
End Ex.
