(** Conjugation: limits of the steps, real points and examples. *)
From Coq Require Import ZArith Lia.
From mathcomp Require Import all_ssreflect all_algebra all_fingroup.
From mathcomp Require Import zify ssrZ.
From SsrMultinomials Require Import mpoly.
From Verif Require Import Base ModelUtil ModelExpr ModelPoly ModelHom ModelVariety ModelBasis ModelGeom ModelDonaldson ModelAlg ModelPipe.
From Verif Require Import SpecPoly SpecHom SpecVariety SpecGeom SpecBasis SpecSections SpecPatch SpecAlg SpecDonaldson SpecPipe SpecStep SpecSymmetry SpecConj Herm.
From Verif Require Import Deriv Bridge PolyGrad ProofRicci2 ProofAlg ProofAlg4 ProofAlg5 ProofAlg6 ProofDonaldson2 ProofStep ProofStep2 ComplexR ProofStep7 ProofStep8.
From Verif Require Import ProofConj ProofConj2 ProofConj3.
Delimit Scope Z_scope with Z.

Set Implicit Arguments.
Unset Strict Implicit.
Unset Printing Implicit Defensive.

Import GRing.Theory Num.Theory Order.POrderTheory.
Local Open Scope ring_scope.

Lemma stable_real_limit N (vol : CR) (bs : seq (seq (sample CR N))) : good_sample vol bs ->
  forall hs : nat -> 'M[CR]_N, conj_symmetric (flatten bs) -> stable (flatten bs) ->
  hermitian (hs 0%N) -> posdef (hs 0%N) -> iterates vol bs hs ->
  exists L, [/\ balanced vol bs L, converges_to hs L & real_entries L].
Proof.
move=> gs hs cs st hh ph it; have [L bL cL] := stable_limit gs st hh ph it; exists L; split=> //.
have [_ ind] := (stable_iff_balanced gs).1 st; exact: (balanced_real gs cs ind bL).
Qed.

Lemma sampled_real_limit : forall (D : forall n : nat, ('rV[CR]_n -> CR) -> 'rV[CR]_n -> 'rV[CR]_n),
  diff_ok D -> forall (lg ex : CR -> CR) (pi : CR) m e (V : variety CR) ps (Q : {mpoly CR[m.+2]}),
  real_hypersurface V ps m e -> defined_by V ps Q -> 0 < pi -> all (fun c => c \is Num.real) ps -> smooth D V ps m ->
  forall (key : Type) (draw : key -> seq CR -> nat -> res (seq (seq CR))) k B,
  basis_for k Q B -> (0 < k)%N ->
  forall (splitn : key -> nat -> seq key) kk batches bs zss W,
  rseq [seq draw k' ps bs | k' <- splitn kk batches] = Ok zss ->
  (forall zs, zs \in zss -> size zs = bs /\ points_on V ps m zs) ->
  (forall z, z \in flatten zss -> has_weight pi e Q z (W z)) ->
  (forall v : 'rV[CR]_(size (power_matrix B)), v != 0 ->
     exists2 z, z \in flatten zss & \sum_a v 0 a * hom_sections B z 0 a != 0) ->
  zss != [::] -> (0 < bs)%N -> conj_to_itself (flatten zss) ->
  let pts := [seq [seq (hom_sections B z, Some (W z)) | z <- zs] | zs <- zss] in let vol := avg W (flatten zss) in
  stable (flatten pts) ->
  forall hs : nat -> 'M[CR]_(size (power_matrix B)), hermitian (hs 0%N) -> posdef (hs 0%N) ->
  (forall j, alg_donaldson_step D lg ex pi splitn m V draw true kk (hs j) ps vol batches bs = Ok (hs j.+1)) ->
  exists L, [/\ hermitian L, posdef L, converges_to hs L & real_entries L].
Proof.
move=> D hD lg ex pi m e V ps Q hR hQ pi0 rps hS key draw k B hB k0 splitn kk batches bs zss W Hd Hz HW sp ne bs0 Hm pts vol st hs hh ph E.
have hV := real_hyp hR.
have [gs St] := sampled_step hD lg ex hV hQ pi0 hS hB k0 Hd Hz HW sp ne bs0.
have [L [hL pL cL EL]] := sampled_limit hD hV hQ pi0 hS hB k0 Hd Hz HW sp ne bs0 (or_introl st) hh ph E.
have [_ ind] := (stable_iff_balanced gs).1 st.
exists L; split=> //.
exact: (sampled_balanced_real hD hR hQ pi0 rps hS hB k0 Hd Hz HW sp ne bs0 Hm hL pL EL ind).
Qed.

(** Real points: the metric and the Ricci tensor have real entries. *)
Lemma real_point : forall (C : numClosedFieldType)
    (D : forall n : nat, ('rV[C]_n -> C) -> 'rV[C]_n -> 'rV[C]_n), diff_ok D ->
  forall (lg ex : C -> C) (pi : C) (m e : nat) (V : variety C) (ps : seq C)
    (Q : {mpoly C[m.+2]}), real_hypersurface V ps m e -> defined_by V ps Q ->
  forall (k : nat) (B : basis), basis_for k Q B -> (0 < k)%N -> 0 < pi -> all (fun c => c \is Num.real) ps ->
  forall M : 'M[C]_(size (power_matrix B)), real_entries M ->
  forall (x : 'rV[C]_m.+2) (i : 'I_m.+2) (d : 'I_m.+1) (a g : seq C), real_entries x -> smooth_at D V ps x i d a g ->
  exists i0 d0 G R,
  [/\ alg_metric D lg ex pi m V (HMat M) (row_seq x) (PArr ps) None None None = Ok (G, i0, d0),
      alg_ricci D lg ex pi m V (HMat M) (row_seq x) (PArr ps) None None None = Ok (R, i0, d0),
      real_entries G & real_entries R].
Proof.
move=> C D hD lg ex pi m e V ps Q hR hQ k B hB k0 pi0 rps M /real_mxP rM x i d a g /real_mxP rx sm.
have [i0 [d0 [G [R [r [E [[G1 R1 _ _] [G2 R2 _ _]]]]]]]] := conj_point hD lg ex hR hQ hB k0 pi0 M sm.
have Ep : cseq ps = ps.
  by rewrite /cseq -[RHS]map_id; apply/eq_in_map => c cp; apply/CrealP; exact: (allP rps).
have Ex : conj_rv x = x by rewrite -[RHS]rx; apply/rowP => j; rewrite !mxE.
rewrite rM Ex Ep in G2 R2; exists i0, d0, G, R; split=> //; apply/real_mxP.
  by move: G2; rewrite G1 => -[].
by move: R2; rewrite R1 => -[].
Qed.

Section Examples.
Variable C : numClosedFieldType.

Lemma pair_conj : conj_to_itself (pair_points C).
Proof.
exists (fun=> 1) => [_|]; first exact: oner_neq0.
rewrite /pair_points /= !mul1r rmorph1 rmorphN /= !conjCi opprK.
set a := [:: 1; - 'i]; set b := [:: 1; 'i].
by rewrite -[[:: a; b]]/([:: a] ++ [:: b]) perm_catC.
Qed.

(** The point (1 : z : 0 : 0) of the Fermat quartic surface, z ^ 2 = i. *)
Definition quartic_x : 'rV[C]_4 := \row_i nth 0 [:: 1; sqrtC 'i] i.

Lemma quartic_conj (D : forall n : nat, ('rV[C]_n -> C) -> 'rV[C]_n -> 'rV[C]_n) : diff_ok D ->
  [/\ real_hypersurface (fermat_variety C 2) [::] 2 4, @defined_by C (fermat_variety C 2) [::] 2 (dwork_Q 2 0),
      exists d a g, smooth_at D (fermat_variety C 2) [::] quartic_x 0 d a g &
      forall c, conj_rv quartic_x <> c *: quartic_x].
Proof.
move=> hD; have hQ := fermat_defined (C := C) (m := 2) [::].
have x0 : quartic_x 0 0 = 1 by rewrite mxE.
have x1 : quartic_x 0 1 = sqrtC 'i by rewrite mxE.
have Qx : peval (dwork_Q 2 0) quartic_x = 0.
  rewrite dwork_Q_eval mul0r addr0 !big_ord_recl big_ord0 !mxE /=.
  by rewrite expr1n ?nth_nil !expr0n /= !addr0 -[4%N]/(2 * 2)%N exprM sqrtCK sqrCi subrr.
split=> //; first exact: Or33.
  apply: (smooth_every hD (fermat_hyp (C := C) 2 [::]) hQ _ _ Qx) => //; first exact: fermat_smooth.
    by apply: contra_neq (oner_neq0 C) => E; rewrite -x0 E mxE.
  by rewrite x0 oner_eq0.
move=> c /rowP E; have := E 0; have := E 1; rewrite !mxE /= rmorph1 mulr1 => H c1; move: H; rewrite -c1 mul1r.
move=> /CrealP r; have := @nonRealCi C; rewrite -(sqrtCK 'i) rpredX //.
Qed.
End Examples.

(** C149 and C150 with their arguments in order *)
Lemma conj_point_wrap : forall (C : numClosedFieldType)
    (D : forall n : nat, ('rV[C]_n -> C) -> 'rV[C]_n -> 'rV[C]_n), diff_ok D ->
  forall (lg ex : C -> C) (pi : C) (m e : nat) (V : variety C) (ps : seq C)
    (Q : {mpoly C[m.+2]}), real_hypersurface V ps m e -> defined_by V ps Q ->
  forall (k : nat) (B : basis), basis_for k Q B -> (0 < k)%N -> 0 < pi ->
  forall (M : 'M[C]_(size (power_matrix B)))
    (x : 'rV[C]_m.+2) (i : 'I_m.+2) (d : 'I_m.+1) (a g : seq C), smooth_at D V ps x i d a g ->
  let metric h zs qs := alg_metric D lg ex pi m V h zs (PArr qs) None None None in
  let ricci h zs qs := alg_ricci D lg ex pi m V h zs (PArr qs) None None None in
  let scalar h zs qs := alg_ricci_scalar D lg ex pi m V h zs (PArr qs) None None None in
  let eta h zs qs := alg_eta D lg ex pi m V h zs (PArr qs) None None None in
  let h := HMat M in let h' := HMat (map_mx conjC M) in
  let zs := row_seq x in let zs' := [seq c^* | c <- zs] in let ps' := [seq c^* | c <- ps] in
  exists i0 d0 G R r E,
  [/\ metric h zs ps = Ok (G, i0, d0), ricci h zs ps = Ok (R, i0, d0), scalar h zs ps = Ok r & eta h zs ps = Ok E] /\
  [/\ metric h' zs' ps' = Ok (map_mx conjC G, i0, d0), ricci h' zs' ps' = Ok (map_mx conjC R, i0, d0),
      scalar h' zs' ps' = Ok r^* & eta h' zs' ps' = Ok E^*].
Proof.
move=> C D hD lg ex pi m e V ps Q hR hQ k B hB k0 pi0 M x i d a g sm metric ricci scalar eta h h' zs zs' ps'.
rewrite /zs' -[[seq c^* | c <- zs]]/(cseq zs) -row_cseq.
exact: (conj_point hD lg ex hR hQ hB k0 pi0 M sm).
Qed.

Lemma eta_kahler_conj : forall (C : numClosedFieldType)
    (D : forall n : nat, ('rV[C]_n -> C) -> 'rV[C]_n -> 'rV[C]_n), diff_ok D ->
  forall (lg ex : C -> C) (pi : C) (m e : nat) (V : variety C) (ps : seq C)
    (Q : {mpoly C[m.+2]}), real_hypersurface V ps m e -> defined_by V ps Q ->
  forall (k : nat) (B : basis), basis_for k Q B -> (0 < k)%N -> 0 < pi ->
  forall M : 'M[C]_(size (power_matrix B)), hermitian M -> posdef M ->
  forall (x : 'rV[C]_m.+2) (i : 'I_m.+2) (d : 'I_m.+1) (a g : seq C), smooth_at D V ps x i d a g ->
  let eta h zs qs := alg_eta D lg ex pi m V h zs (PArr qs) None None None in
  let kahler h zs := alg_kahler lg ex pi m V h zs None in
  let h := HMat M in let h' := HMat (map_mx conjC M) in
  let zs := row_seq x in let zs' := [seq c^* | c <- zs] in let ps' := [seq c^* | c <- ps] in
  exists E K, [/\ eta h zs ps = Ok E, eta h' zs' ps' = Ok E, kahler h zs = Ok K & kahler h' zs' = Ok K].
Proof.
move=> C D hD lg ex pi m e V ps Q hR hQ k B hB k0 pi0 M HM pd x i d a g sm eta kahler h h' zs zs' ps'.
rewrite /zs' -[[seq c^* | c <- zs]]/(cseq zs) -row_cseq.
have [E [E1 E2]] := eta_conj hD lg ex hR hQ hB k0 pi0 HM sm.
have [K [K1 K2]] := kahler_conj hD lg ex hR hQ hB k0 pi0 HM pd sm.
by exists E, K.
Qed.

Lemma sampled_real_wrap : forall (C : numClosedFieldType) (D : forall n : nat, ('rV[C]_n -> C) -> 'rV[C]_n -> 'rV[C]_n),
  diff_ok D -> forall (lg ex : C -> C) (pi : C) m e (V : variety C) ps (Q : {mpoly C[m.+2]}),
  real_hypersurface V ps m e -> defined_by V ps Q -> 0 < pi -> all (fun c => c \is Num.real) ps -> smooth D V ps m ->
  forall (key : Type) (draw : key -> seq C -> nat -> res (seq (seq C))) k B,
  basis_for k Q B -> (0 < k)%N ->
  forall (splitn : key -> nat -> seq key) kk batches bs zss W,
  rseq [seq draw k' ps bs | k' <- splitn kk batches] = Ok zss ->
  (forall zs, zs \in zss -> size zs = bs /\ points_on V ps m zs) ->
  (forall z, z \in flatten zss -> has_weight pi e Q z (W z)) ->
  (forall v : 'rV[C]_(size (power_matrix B)), v != 0 ->
     exists2 z, z \in flatten zss & \sum_a v 0 a * hom_sections B z 0 a != 0) ->
  zss != [::] -> (0 < bs)%N -> conj_to_itself (flatten zss) ->
  forall h H' : 'M[C]_(size (power_matrix B)), real_entries h ->
  alg_donaldson_step D lg ex pi splitn m V draw true kk h ps (avg W (flatten zss)) batches bs = Ok H' -> real_entries H'.
Proof.
move=> C D hD lg ex pi m e V ps Q hR hQ pi0 rps hS key draw k B hB k0 splitn kk batches bs zss W Hd Hz HW sp ne bs0 Hm h H' rh E.
exact: (sampled_real hD hR hQ pi0 rps hS hB k0 Hd Hz HW sp ne bs0 Hm rh E).
Qed.

Lemma three_conj (C : numClosedFieldType) : conj_symmetric (flatten (three C)).
Proof.
exists (fun=> 1) => [_|]; first exact: oner_neq0.
have E (a b : C) : 1 *: map_mx conjC (pt2 a b) = pt2 a^* b^*.
  by rewrite scale1r; apply/rowP => j; rewrite !mxE; case: ifP.
by rewrite /= !E !rmorph1 !rmorph0.
Qed.
