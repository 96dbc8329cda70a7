(** Donaldson steps on samples closed under complex conjugation: H stays real. *)
From Coq Require Import ZArith Lia.
From mathcomp Require Import all_ssreflect all_algebra all_fingroup.
From mathcomp Require Import zify ssrZ.
From SsrMultinomials Require Import mpoly.
From Verif Require Import Base ModelUtil ModelExpr ModelPoly ModelHom ModelVariety ModelBasis ModelDonaldson ModelAlg ModelPipe.
From Verif Require Import SpecGeom SpecBasis SpecSections SpecPatch SpecAlg SpecDonaldson SpecPipe SpecStep SpecSymmetry SpecConj Herm.
From Verif Require Import Deriv Bridge PolyGrad ProofSections ProofPatch ProofPatch ProofRicci2 ProofAlg ProofAlg5 ProofDonaldson2 ProofDonaldson4 ProofDonaldson5 ProofStep ProofStep2 ProofPipe2.
From Verif Require Import ProofSymmetry ProofSymmetry2 ProofSymmetry3 ProofConj ProofConj2.
Delimit Scope Z_scope with Z.

Set Implicit Arguments.
Unset Strict Implicit.
Unset Printing Implicit Defensive.

Import GRing.Theory Num.Theory Order.POrderTheory.
Local Open Scope ring_scope.

Lemma real_mxP (C : numClosedFieldType) m n (h : 'M[C]_(m, n)) : real_entries h <-> map_mx conjC h = h.
Proof.
split=> [H|H a b]; first by apply/matrixP => a b; rewrite mxE; apply/CrealP; exact: H.
by apply/CrealP; rewrite -[in RHS]H mxE.
Qed.

Section Good.
Variables (C : numClosedFieldType) (N : nat).
Notation sample := (sample C N).
Variables (vol : C) (bs : seq (seq sample)).
Notation mcj := (map_mx (conjC : C -> C)).

Lemma step_conj_moved h : equal_batches bs -> conj_symmetric (flatten bs) ->
  donaldson_step true h vol (conj_sample bs) = donaldson_step true h vol bs.
Proof.
move=> eb [c c0 /= pe]; rewrite /donaldson_step /=; congr (Ok (invmx _)^T).
have [b H] := (equalP bs).1 eb.
rewrite (T_operatorE _ _ H) (T_operatorE _ _ (equal_map (fun p : sample => (mcj p.1, omap conjC p.2)) H)).
rewrite flat_map size_map big_map; congr (_ *: _).
rewrite -[RHS](perm_big _ pe) big_map (big_nth (0, None)) /index_iota subn0; apply: eq_bigr => i _.
by rewrite -[LHS]/(term h (mcj (nth (0, None) (flatten bs) i).1, omap conjC (nth (0, None) (flatten bs) i).2)) -(term_scale _ _ (c0 i)).
Qed.

Hypothesis gs : good_sample vol bs.
Hypothesis cs : conj_symmetric (flatten bs).

Let volC : vol^* = vol. Proof. by have [_ v0 _ _ _] := gs; apply/CrealP; exact: gtr0_real. Qed.

Lemma step_real h H' : donaldson_step true h vol bs = Ok H' -> donaldson_step true (mcj h) vol bs = Ok (mcj H').
Proof.
have [eb _ _ _ _] := gs => /step_conj; rewrite volC step_conj_moved //.
Qed.

Lemma good_real h H' : real_entries h -> donaldson_step true h vol bs = Ok H' -> real_entries H'.
Proof.
by move=> /real_mxP rh E; apply/real_mxP; have := step_real E; rewrite rh E => -[].
Qed.

Lemma iterates_real hs : iterates vol bs hs -> real_entries (hs 0%N) -> forall k, real_entries (hs k).
Proof. by move=> it r0; elim=> [//|k IH]; exact: good_real IH (it k). Qed.

Lemma balanced_real g : indecomposable (flatten bs) -> balanced vol bs g -> real_entries g.
Proof.
move=> ind bg; have [hg pg E] := bg.
have hc : mcj g = g^T by apply/matrixP => a b; rewrite !mxE hg conjCK.
have bc : balanced vol bs (mcj g).
  split; last exact: step_real.
    by move=> a b; rewrite !mxE hg.
  move=> v v0; rewrite hc hform_tr; apply: pg; apply: contra_neq v0 => vE.
  by apply/rowP => a; have /rowP/(_ a) := vE; rewrite !mxE => /(congr1 conjC); rewrite conjCK conjC0.
have [a a0 Ea] := good_unique gs ind bg bc.
have := congr1 determinant Ea; rewrite hc det_tr detZ -{1}[\det g]mul1r.
have g0 : \det g != 0 by rewrite -unitfE -unitmxE; exact: posdef_unit.
move=> /(mulIf g0)/esym aN; apply/real_mxP.
case: (posnP N) => [N0|N0].
  by apply/matrixP => i; have := ltn_ord i; rewrite {2}N0.
have a1 : a = 1 by apply/eqP; rewrite -(pexpr_eq1 N0 (ltW a0)) aN.
by rewrite Ea a1 scale1r.
Qed.
End Good.

Section Points.
Variable C : numClosedFieldType.
Variable D : forall n : nat, ('rV[C]_n -> C) -> 'rV[C]_n -> 'rV[C]_n.
Hypothesis hD : diff_ok D.
Variables (lg ex : C -> C).
Variables (pi : C) (m e : nat) (V : variety C) (ps : seq C) (Q : {mpoly C[m.+2]}).
Hypotheses (hR : real_hypersurface V ps m e) (hQ : defined_by V ps Q) (pi0 : 0 < pi).
Hypothesis rps : all (fun c => c \is Num.real) ps.
Hypothesis hS : smooth D V ps m.
Variable key : Type.
Variable draw : key -> seq C -> nat -> res (seq (seq C)).
Variables (k : nat) (B : basis).
Hypotheses (hB : basis_for k Q B) (k0 : (0 < k)%N).
Notation N := (size (power_matrix B)).
Let hV := real_hyp hR.
Let HQ : Q \is e.-homog := V_homog hV hQ.
Let hC : basis_class C m.+1 k B := for_class HQ hB.

Lemma real_Q : conj_poly Q Q.
Proof.
have [Q' hQ' cQ] := conj_Q hR hQ; have E : cseq ps = ps.
  by rewrite /cseq -[RHS]map_id; apply/eq_in_map => c cp; apply/CrealP; exact: (allP rps).
by move=> z; rewrite -cQ; move: (hQ' (conj_rv z)); rewrite E hQ => -[].
Qed.

Lemma conj_len2 (x : 'rV[C]_m.+2) : len2 (conj_rv x) = len2 x.
Proof. by apply: eq_bigr => i _; rewrite mxE norm_conjC. Qed.
Lemma conj_grad2 (x : 'rV[C]_m.+2) : grad2 Q (conj_rv x) = grad2 Q x.
Proof. by apply: eq_bigr => i _; rewrite (conj_deriv i real_Q) norm_conjC. Qed.

Lemma conj_weight c (x : 'rV[C]_m.+2) w : c != 0 -> has_weight pi e Q (row_seq x) w -> has_weight pi e Q (row_seq (c *: conj_rv x)) w.
Proof.
move=> c0 hw; have cx : c *: conj_rv x = c *: move (fun=> 1) 1%g (conj_rv x).
  by congr (_ *: _); apply/rowP => j; rewrite [RHS]mxE perm1 mul1r.
rewrite cx; apply: (@moved_weight C m e Q HQ (fun=> 1) 1%g _ 1) => //.
- by move=> j; rewrite normr1.
- by rewrite normr1.
- by move=> y; rewrite mul1r; congr (peval _ _); apply/rowP => j; rewrite mxE perm1 mul1r.
have [x' [i [xx le xi ->]]] := hw; have xE : x = x' by apply/rowP => j; rewrite -!nth_row_seq xx.
subst x'; have n j : `|(conj_rv x) 0 j| = `|x 0 j| by rewrite mxE norm_conjC.
exists (conj_rv x), i; split=> //.
- by move=> j; rewrite !n.
- by rewrite -normr_eq0 n normr_eq0.
by rewrite /patch_weight n conj_len2 conj_grad2.
Qed.

Lemma conj_sections c (x : 'rV[C]_m.+2) : hom_sections B (row_seq (c *: conj_rv x)) = c ^+ k *: map_mx conjC (hom_sections B (row_seq x)).
Proof.
apply/rowP => a; rewrite hsE [RHS]mxE [X in _ = _ * X]mxE hsE.
rewrite -(@conj_mono C) /peval -(hom_scale _ _ (class_homog hC a)).
by apply: meval_eq => j; rewrite !mxE.
Qed.

Lemma sample_conj (zs : seq (seq C)) W : (forall z, z \in zs -> has_weight pi e Q z (W z)) -> conj_to_itself zs ->
  (forall z, z \in zs -> W z \is Num.real) -> conj_symmetric [seq (hom_sections B z, Some (W z)) | z <- zs].
Proof.
move=> HW [c c0 pe] Wr; exists (fun i => c i ^+ k) => [i|/=]; first by rewrite expf_neq0.
rewrite size_map; set f := fun z => (hom_sections B z, Some (W z)).
have -> : [seq (c i ^+ k *: map_mx conjC (nth (0, None) (map f zs) i).1, omap conjC (nth (0, None) (map f zs) i).2) | i <- iota 0 (size zs)] =
   map f [seq [seq c i * x^* | x <- nth [::] zs i] | i <- iota 0 (size zs)].
  rewrite -map_comp; apply/eq_in_map => i; rewrite mem_iota => /= iz.
  have zi : nth [::] zs i \in zs by exact: mem_nth.
  rewrite (nth_map [::]) // /f /=; have [x [j [zE _ _ _]]] := HW _ zi.
  have yE : [seq c i * x^* | x <- nth [::] zs i] = row_seq (c i *: conj_rv x).
    by rewrite zE /row_seq -map_comp; apply: eq_map => b; rewrite /= !mxE.
  have wi : row_seq (c i *: conj_rv x) \in zs.
    by rewrite -yE -(perm_mem pe); apply/mapP; exists i => //; rewrite mem_iota.
  rewrite yE conj_sections -zE; congr (_, Some _); rewrite (CrealP (Wr _ zi)).
  have hw := HW _ zi; rewrite {1}zE in hw.
  exact: (weight_unique (conj_weight (c0 i) hw) (HW _ wi)).
exact: perm_map.
Qed.

Section Step.
Variables (splitn : key -> nat -> seq key) (kk : key) (batches bs : nat) (zss : seq (seq (seq C))) (W : seq C -> C).
Hypothesis Hd : rseq [seq draw k' ps bs | k' <- splitn kk batches] = Ok zss.
Hypothesis Hz : forall zs, zs \in zss -> size zs = bs /\ points_on V ps m zs.
Hypothesis HW : forall z, z \in flatten zss -> has_weight pi e Q z (W z).
Hypothesis sp : forall v : 'rV[C]_N, v != 0 -> exists2 z, z \in flatten zss & \sum_a v 0 a * hom_sections B z 0 a != 0.
Hypotheses (ne : zss != [::]) (bs0 : (0 < bs)%N).
Hypothesis Hm : conj_to_itself (flatten zss).
Let pts := [seq [seq (hom_sections B z, Some (W z)) | z <- zs] | zs <- zss].
Let vol := avg W (flatten zss).
Let step (h : 'M[C]_N) := alg_donaldson_step D lg ex pi splitn m V draw true kk h ps vol batches bs.

Let Wr z : z \in flatten zss -> W z \is Num.real.
Proof.
move=> /HW[x [i [_ _ _ ->]]]; rewrite /patch_weight; have p1 : pi \is Num.real by exact: gtr0_real.
have sr (f : 'I_m.+2 -> C) : \sum_j `|f j| ^+ 2 \is Num.real.
  by apply: rpred_sum => j _; rewrite rpredX // normr_real.
rewrite /len2 /grad2.
by repeat first [exact: p1|exact: normr_real|exact: sr|exact: rpred_nat|rewrite rpredV|rewrite rpredX|rewrite rpredM|done].
Qed.

Lemma sampled_conj : conj_symmetric (flatten pts).
Proof. by rewrite /pts -map_flatten; exact: sample_conj. Qed.

Lemma sampled_real h H' : real_entries h -> step h = Ok H' -> real_entries H'.
Proof.
move=> rh E; have [g St] := sampled_step hD lg ex hV hQ pi0 hS hB k0 Hd Hz HW sp ne bs0.
by apply: (good_real g sampled_conj rh); rewrite -St.
Qed.

Lemma sampled_balanced_real g : hermitian g -> posdef g -> step g = Ok g -> indecomposable (flatten pts) -> real_entries g.
Proof.
move=> hg pg E ind; have [gs St] := sampled_step hD lg ex hV hQ pi0 hS hB k0 Hd Hz HW sp ne bs0.
by apply: (balanced_real gs sampled_conj ind); split=> //; rewrite -St.
Qed.
End Step.
End Points.
