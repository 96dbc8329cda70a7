(** Steps and their limits on samples with a unitary symmetry, for the full and the reduced basis. *)
From Coq Require Import ZArith Lia.
From mathcomp Require Import all_ssreflect all_algebra all_fingroup.
From mathcomp Require Import zify ssrZ ring.
From SsrMultinomials Require Import mpoly.
From Verif Require Import Base ModelUtil ModelVariety ModelBasis ModelDonaldson ModelAlg ModelPipe.
From Verif Require Import SpecPoly SpecHom SpecVariety SpecGeom SpecBasis SpecSections SpecPatch SpecAlg SpecDonaldson SpecPipe SpecStep SpecSymmetry Herm.
From Verif Require Import Deriv ProofBasis3 ProofPatch Implicit2 Bridge PolyGrad ProofAlg ProofAlg6 ProofDonaldson2 ProofStep ProofStep2 ComplexR ProofStep7 ProofStep8.
From Verif Require Import SpecLinear SpecRotate ProofSymmetry ProofLinear9 SpecRank ProofRank ProofRank2 ProofReduce3 SpecRotate2 ProofLinear11.
Delimit Scope Z_scope with Z.

Set Implicit Arguments.
Unset Strict Implicit.
Unset Printing Implicit Defensive.

Import GRing.Theory Num.Theory Order.POrderTheory.
Local Open Scope ring_scope.

Lemma ker_step_all : forall (C : numClosedFieldType) (D : forall n : nat, ('rV[C]_n -> C) -> 'rV[C]_n -> 'rV[C]_n), diff_ok D ->
  forall (lg ex : C -> C) (pi : C) m (V : variety C) ps (Q : {mpoly C[m.+2]}),
  hypersurface V ps m m.+2 -> defined_by V ps Q -> 0 < pi -> smooth D V ps m ->
  forall A : 'M[C]_m.+2, unitary A -> (forall x, peval Q (x *m A) = peval Q x) ->
  forall (key : Type) (draw : key -> seq C -> nat -> res (seq (seq C))) k B, basis_for k Q B -> (0 < k)%N ->
  forall (splitn : key -> nat -> seq key) kk batches bs zss W,
  rseq [seq draw k' ps bs | k' <- splitn kk batches] = Ok zss ->
  (forall zs, zs \in zss -> size zs = bs /\ points_on V ps m zs) ->
  (forall z, z \in flatten zss -> has_weight pi m.+2 Q z (W z)) ->
  (forall v : 'rV[C]_(size (power_matrix B)), v != 0 ->
     exists2 z, z \in flatten zss & \sum_a v 0 a * hom_sections B z 0 a != 0) ->
  zss != [::] -> (0 < bs)%N -> rotated_to_itself A (flatten zss) ->
  forall h H' : 'M[C]_(size (power_matrix B)), hermitian h -> posdef h -> kernel_invariant V ps A h ->
  alg_donaldson_step D lg ex pi splitn m V draw true kk h ps (avg W (flatten zss)) batches bs = Ok H' -> kernel_invariant V ps A H'.
Proof.
move=> C D hD lg ex pi m V ps Q hV hQ pi0 hS A UA QA key draw k B hB k0 splitn kk batches bs zss W Hd Hz HW sp ne bs0 Hm h H' hh ph.
have HQ : Q \is m.+2.-homog := V_homog hV hQ.
have [R AR] := lin_on HQ hB A.
have onz : points_on V ps m (flatten zss) by move=> z /flattenP[zs zi]; exact: (Hz zs zi).2.
pose pts := [seq [seq (hom_sections B z, Some (W z)) | z <- zs] | zs <- zss].
have fl : flatten pts = [seq (hom_sections B z, Some (W z)) | z <- flatten zss] by rewrite /pts map_flatten.
have sy : symmetric_under R (flatten pts) by rewrite fl; exact: (on_symmetric hQ HQ hB UA QA AR onz Hm HW).
have dR := on_det hQ HQ hB UA AR onz sp Hm.
have uR := on_unit hQ HQ hB UA AR onz sp Hm.
have [gs St] := sampled_step hD lg ex hV hQ pi0 hS hB k0 Hd Hz HW sp ne bs0.
move=> /(kernel_inv hQ AR onz sp) ih E; apply/(kernel_inv hQ AR onz sp).
by apply: (good_symmetric gs uR sy hh ph ih); rewrite -St.
Qed.

Lemma ker_balanced_all : forall (C : numClosedFieldType) (D : forall n : nat, ('rV[C]_n -> C) -> 'rV[C]_n -> 'rV[C]_n), diff_ok D ->
  forall (lg ex : C -> C) (pi : C) m (V : variety C) ps (Q : {mpoly C[m.+2]}),
  hypersurface V ps m m.+2 -> defined_by V ps Q -> 0 < pi -> smooth D V ps m ->
  forall A : 'M[C]_m.+2, unitary A -> (forall x, peval Q (x *m A) = peval Q x) ->
  forall (key : Type) (draw : key -> seq C -> nat -> res (seq (seq C))) k B, basis_for k Q B -> (0 < k)%N ->
  forall (splitn : key -> nat -> seq key) kk batches bs zss W,
  rseq [seq draw k' ps bs | k' <- splitn kk batches] = Ok zss ->
  (forall zs, zs \in zss -> size zs = bs /\ points_on V ps m zs) ->
  (forall z, z \in flatten zss -> has_weight pi m.+2 Q z (W z)) ->
  (forall v : 'rV[C]_(size (power_matrix B)), v != 0 ->
     exists2 z, z \in flatten zss & \sum_a v 0 a * hom_sections B z 0 a != 0) ->
  zss != [::] -> (0 < bs)%N -> rotated_to_itself A (flatten zss) ->
  let pts := [seq [seq (hom_sections B z, Some (W z)) | z <- zs] | zs <- zss] in let vol := avg W (flatten zss) in
  forall g : 'M[C]_(size (power_matrix B)), hermitian g -> posdef g ->
  alg_donaldson_step D lg ex pi splitn m V draw true kk g ps vol batches bs = Ok g ->
  indecomposable (flatten pts) -> kernel_invariant V ps A g.
Proof.
move=> C D hD lg ex pi m V ps Q hV hQ pi0 hS A UA QA key draw k B hB k0 splitn kk batches bs zss W Hd Hz HW sp ne bs0 Hm pts vol g hg pg E ind.
have HQ : Q \is m.+2.-homog := V_homog hV hQ.
have [R AR] := lin_on HQ hB A.
have onz : points_on V ps m (flatten zss) by move=> z /flattenP[zs zi]; exact: (Hz zs zi).2.
have fl : flatten pts = [seq (hom_sections B z, Some (W z)) | z <- flatten zss] by rewrite /pts map_flatten.
have sy : symmetric_under R (flatten pts) by rewrite fl; exact: (on_symmetric hQ HQ hB UA QA AR onz Hm HW).
have dR := on_det hQ HQ hB UA AR onz sp Hm.
have uR := on_unit hQ HQ hB UA AR onz sp Hm.
have [gs St] := sampled_step hD lg ex hV hQ pi0 hS hB k0 Hd Hz HW sp ne bs0.
apply/(kernel_inv hQ AR onz sp); apply: (balanced_symmetric gs uR sy ind _ dR).
by split=> //; rewrite -St.
Qed.

Lemma ker_limit : forall (D : forall n : nat, ('rV[CR]_n -> CR) -> 'rV[CR]_n -> 'rV[CR]_n), diff_ok D ->
  forall (lg ex : CR -> CR) (pi : CR) m (V : variety CR) ps (Q : {mpoly CR[m.+2]}),
  hypersurface V ps m m.+2 -> defined_by V ps Q -> 0 < pi -> smooth D V ps m ->
  forall A : 'M[CR]_m.+2, unitary A -> (forall x, peval Q (x *m A) = peval Q x) ->
  forall (key : Type) (draw : key -> seq CR -> nat -> res (seq (seq CR))) k B, basis_for k Q B -> (0 < k)%N ->
  forall (splitn : key -> nat -> seq key) kk batches bs zss W,
  rseq [seq draw k' ps bs | k' <- splitn kk batches] = Ok zss ->
  (forall zs, zs \in zss -> size zs = bs /\ points_on V ps m zs) ->
  (forall z, z \in flatten zss -> has_weight pi m.+2 Q z (W z)) ->
  (forall v : 'rV[CR]_(size (power_matrix B)), v != 0 ->
     exists2 z, z \in flatten zss & \sum_a v 0 a * hom_sections B z 0 a != 0) ->
  zss != [::] -> (0 < bs)%N -> rotated_to_itself A (flatten zss) ->
  let pts := [seq [seq (hom_sections B z, Some (W z)) | z <- zs] | zs <- zss] in let vol := avg W (flatten zss) in
  stable (flatten pts) ->
  forall hs : nat -> 'M[CR]_(size (power_matrix B)), hermitian (hs 0%N) -> posdef (hs 0%N) ->
  (forall j, alg_donaldson_step D lg ex pi splitn m V draw true kk (hs j) ps vol batches bs = Ok (hs j.+1)) ->
  exists L, [/\ hermitian L, posdef L, converges_to hs L & kernel_invariant V ps A L].
Proof.
move=> D hD lg ex pi m V ps Q hV hQ pi0 hS A UA QA key draw k B hB k0 splitn kk batches bs zss W Hd Hz HW sp ne bs0 Hm pts vol st hs hh ph E.
have [gs St] := sampled_step hD lg ex hV hQ pi0 hS hB k0 Hd Hz HW sp ne bs0.
have [L [hL pL cL EL]] := sampled_limit hD hV hQ pi0 hS hB k0 Hd Hz HW sp ne bs0 (or_introl st) hh ph E.
have [_ ind] := (stable_iff_balanced gs).1 st.
exists L; split=> //.
exact: (ker_balanced_all hD hV hQ pi0 hS UA QA hB k0 Hd Hz HW sp ne bs0 Hm hL pL EL ind).
Qed.

Lemma ker_norms : forall (C : numClosedFieldType) m (V : variety C) ps (A : 'M[C]_m.+2) B (h : 'M[C]_(size (power_matrix B))),
  kernel_invariant V ps A h -> forall x : 'rV[C]_m.+2, point_on V ps x ->
  hform h (hom_sections B (row_seq (x *m A))) = hform h (hom_sections B (row_seq x)).
Proof.
move=> C m V ps A B h H x Hx; have := H x x Hx Hx; rewrite /kernel /hform; exact.
Qed.

(** The two points of x0^2 + x1^2 = 0 *)
Lemma pair_reduced : forall (C : numClosedFieldType) k, exists B,
  [/\ basis_reduced (dwork_Q 0 (0 : C)) k = Ok B, basis_for k (dwork_Q 0 (0 : C)) B &
      forall v : 'rV[C]_(size (power_matrix B)), v != 0 ->
      exists2 z, z \in pair_points C & \sum_a v 0 a * hom_sections B z 0 a != 0].
Proof.
move=> C k; set Q := dwork_Q 0 (0 : C).
have HQ : Q \is 2.-homog by exact: dwork_Q_homog.
have Q0 : Q != 0 by exact: dwork_neq0.
have occ i : variable_occurs Q i by exact: dwork_occurs.
have [B [hB _ _ _ _]] := reduced_class_lemma k Q0 HQ occ.
exists B; split=> //; first by right.
have sum2 (F : 'I_2 -> C) : \sum_a F a = F 0 + F 1.
  by rewrite !big_ord_recl big_ord0 addr0; congr (_ + F _); exact: val_inj.
have QE x : peval Q x = x 0 0 ^+ 2 + x 0 1 ^+ 2 by rewrite dwork_Q_eval mul0r addr0 sum2.
have dd := @fermat_defined C 0 [::].
have ii : ('i : C) ^+ 2 = -1 by exact: sqrCi.
have un : uniq [:: 'i; - 'i : C].
  rewrite /= inE andbT; apply/eqP => E; have : ('i : C) + 'i = 0 by rewrite {1}E addNr.
  by rewrite -mulr2n => /eqP; rewrite mulrn_eq0 /= (negbTE (neq0Ci C)).
have ind : independent_on (fermat_variety C 0) [::] 0 B.
  apply: (rank_line_all dd HQ occ _ _ (y := const_mx 1) un _ _ hB) => //; first by rewrite dwork_coef oner_neq0.
  move=> t; rewrite -pt_meaning dd QE => ti; congr Ok.
  have -> : (1 : 'I_2) = lift (ord0 : 'I_2) (0 : 'I_1) by exact: val_inj.
  rewrite pt_d pt_lift mxE expr1n.
  by move: ti; rewrite !inE => /orP[]/eqP->; rewrite ?sqrrN ii addNr.
move=> v v0; case: (boolP (has (fun z => \sum_a v 0 a * hom_sections B z 0 a != 0) (pair_points C))) => [/hasP[z zi nz]|/hasPn H].
  by exists z.
case/negP: v0; apply/eqP; apply: ind => x /(point_onE dd)[_]; rewrite QE => q0.
have hC : basis_class C 1 k B by right; exists Q, 2%N.
have key (s : C) : [:: 1; s] \in pair_points C -> x 0 1 = s * x 0 0 -> \sum_a v 0 a * hom_sections B (row_seq x) 0 a = 0.
  move=> sm xs; have -> : x = x 0 0 *: seq_row 2 [:: 1; s].
    apply/rowP => -[[|[|//]] p]; rewrite !mxE /= ?mulr1; [by congr (x 0 _); exact: val_inj|].
    by rewrite mulrC -xs; congr (x 0 _); exact: val_inj.
  rewrite (sc_scale hC); have -> : row_seq (seq_row 2 [:: 1; s]) = [:: 1; s].
    apply: (@eq_from_nth _ 0) => [|i]; rewrite size_row_seq // => lt.
    by rewrite -[i in LHS]/(val (Ordinal lt)) nth_row_seq mxE.
  rewrite (_ : \sum_a _ = x 0 0 ^+ k * \sum_a v 0 a * hom_sections B [:: 1; s] 0 a).
    by move/H: sm; rewrite negbK => /eqP->; rewrite mulr0.
  by rewrite mulr_sumr; apply: eq_bigr => a _; rewrite mxE mulrCA.
have : (x 0 1 - 'i * x 0 0) * (x 0 1 + 'i * x 0 0) = 0.
  by rewrite -subr_sqr exprMn ii mulN1r opprK addrC.
move/eqP; rewrite mulf_eq0 subr_eq0 addr_eq0 => /orP[]/eqP e; [apply: (key 'i)|apply: (key (- 'i))]; rewrite ?mulNr //.
  by rewrite inE eqxx.
by rewrite !inE eqxx orbT.
Qed.
