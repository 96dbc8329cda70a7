(** Donaldson steps on points of a hypersurface with a symmetry of the coordinates. *)
From Coq Require Import ZArith Lia.
From mathcomp Require Import all_ssreflect all_algebra all_fingroup.
From mathcomp Require Import zify ssrZ ring.
From SsrMultinomials Require Import mpoly.
From Verif Require Import Base ModelUtil ModelVariety ModelBasis ModelDonaldson ModelAlg ModelPipe.
From Verif Require Import SpecPoly SpecHom SpecVariety SpecGeom SpecBasis SpecSections SpecPatch SpecAlg SpecDonaldson SpecPipe SpecStep SpecSymmetry Herm.
From Verif Require Import Deriv Bridge PolyGrad ProofBasis ProofPatch ProofRicci2 ProofAlg ProofAlg2 ProofAlg6 ProofPipe ProofPipe2 ProofPipe3 ProofStep ProofStep2 ProofDonaldson2 ProofSymmetry ProofSymmetry2.
Delimit Scope Z_scope with Z.

Set Implicit Arguments.
Unset Strict Implicit.
Unset Printing Implicit Defensive.

Import GRing.Theory Num.Theory Order.POrderTheory.
Local Open Scope ring_scope.

Section Points.
Variable C : numClosedFieldType.
Variable D : forall n : nat, ('rV[C]_n -> C) -> 'rV[C]_n -> 'rV[C]_n.
Hypothesis hD : diff_ok D.
Variables (lg ex : C -> C).
Variables (pi : C) (m e : nat) (V : variety C) (ps : seq C) (Q : {mpoly C[m.+2]}).
Hypotheses (hV : hypersurface V ps m e) (hQ : defined_by V ps Q) (pi0 : 0 < pi).
Hypothesis hS : smooth D V ps m.
Variable key : Type.
Variable draw : key -> seq C -> nat -> res (seq (seq C)).
Variables (k : nat) (B : basis).
Hypotheses (hB : basis_for k Q B) (k0 : (0 < k)%N).
Notation N := (size (power_matrix B)).
Let HQ : Q \is e.-homog := V_homog hV hQ.
Let hC : basis_class C m.+1 k B := for_class HQ hB.

Variables (l : 'I_m.+2 -> C) (s : {perm 'I_m.+2}) (sg : {perm 'I_N}).
Hypothesis l1 : forall j, `|l j| = 1.
Hypothesis Ql : exists2 c, `|c| = 1 & forall x, peval Q (move l s x) = c * peval Q x.
Hypothesis Hsg : permutes_basis s sg.

Lemma sample_symmetric (zs : seq (seq C)) W : (forall z, z \in zs -> has_weight pi e Q z (W z)) -> moved_to_itself l s zs ->
  symmetric_under (act l sg) [seq (hom_sections B z, Some (W z)) | z <- zs].
Proof.
move=> HW [c c0 pe]; have [q q1 hq] := Ql; exists (fun i => c i ^+ k) => [i|/=]; first by rewrite expf_neq0.
rewrite size_map; set f := fun z => (hom_sections B z, Some (W z)).
have -> : [seq (c i ^+ k *: ((nth (0, None) (map f zs) i).1 *m act l sg), (nth (0, None) (map f zs) i).2) | i <- iota 0 (size zs)] =
   map f [seq row_seq (c i *: move l s (seq_row m.+2 (nth [::] zs i))) | i <- iota 0 (size zs)].
  rewrite -map_comp; apply/eq_in_map => i; rewrite mem_iota => /= iz.
  have zi : nth [::] zs i \in zs by exact: mem_nth.
  rewrite (nth_map [::]) // /f /=; have [x [j [zE _ _ _]]] := HW _ zi.
  have xE : nth [::] zs i = row_seq (seq_row m.+2 (nth [::] zs i)) by rewrite zE row_seqK.
  rewrite (moved_sections l hC Hsg) -xE; congr (_, Some _).
  have wi : row_seq (c i *: move l s (seq_row m.+2 (nth [::] zs i))) \in zs.
    by rewrite -(perm_mem pe); apply/mapP; exists i => //; rewrite mem_iota.
  have hw := HW _ zi; rewrite {1}xE in hw.
  exact: (weight_unique (moved_weight HQ l1 q1 hq (c0 i) hw) (HW _ wi)).
exact: perm_map.
Qed.

Section Step.
Variables (splitn : key -> nat -> seq key) (kk : key) (batches bs : nat) (zss : seq (seq (seq C))) (W : seq C -> C).
Hypothesis Hd : rseq [seq draw k' ps bs | k' <- splitn kk batches] = Ok zss.
Hypothesis Hz : forall zs, zs \in zss -> size zs = bs /\ points_on V ps m zs.
Hypothesis HW : forall z, z \in flatten zss -> has_weight pi e Q z (W z).
Hypothesis sp : forall v : 'rV[C]_N, v != 0 -> exists2 z, z \in flatten zss & \sum_a v 0 a * hom_sections B z 0 a != 0.
Hypotheses (ne : zss != [::]) (bs0 : (0 < bs)%N).
Hypothesis Hm : moved_to_itself l s (flatten zss).
Let pts := [seq [seq (hom_sections B z, Some (W z)) | z <- zs] | zs <- zss].
Let vol := avg W (flatten zss).
Let step (h : 'M[C]_N) := alg_donaldson_step D lg ex pi splitn m V draw true kk h ps vol batches bs.

Let fl : flatten pts = [seq (hom_sections B z, Some (W z)) | z <- flatten zss].
Proof. by rewrite /pts map_flatten. Qed.
Let sy : symmetric_under (act l sg) (flatten pts).
Proof. by rewrite fl; exact: sample_symmetric. Qed.

Lemma sampled_symmetric h H' : hermitian h -> posdef h -> h_symmetric l sg h -> step h = Ok H' -> h_symmetric l sg H'.
Proof.
move=> hh ph /(act_invariant l sg) ih E.
have [g St] := sampled_step hD lg ex hV hQ pi0 hS hB k0 Hd Hz HW sp ne bs0.
apply/(act_invariant l sg); apply: (good_symmetric g (act_unit l1 sg) sy hh ph ih).
by rewrite -St.
Qed.

Lemma sampled_balanced_symmetric g : hermitian g -> posdef g -> step g = Ok g -> indecomposable (flatten pts) ->
  h_symmetric l sg g.
Proof.
move=> hg pg E ind; have [gs St] := sampled_step hD lg ex hV hQ pi0 hS hB k0 Hd Hz HW sp ne bs0.
apply/(act_invariant l sg); apply: (balanced_symmetric gs (act_unit l1 sg) sy ind _ (act_det l1 sg)).
by split=> //; rewrite -St.
Qed.
End Step.
End Points.

(** Symmetries of the Fermat and Dwork equations *)
Lemma dwork_symmetry (C : numClosedFieldType) m (c : C) (l : 'I_m.+2 -> C) (s : {perm 'I_m.+2}) :
  (forall j, l j ^+ m.+2 = 1) -> (c = 0 \/ \prod_j l j = 1) ->
  forall x, peval (dwork_Q m c) (move l s x) = peval (dwork_Q m c) x.
Proof.
move=> l1 cp x; rewrite !dwork_Q_eval; congr (_ + _).
  rewrite [RHS](reindex_inj (@perm_inj _ s)) /=; apply: eq_bigr => j _.
  by rewrite mxE exprMn l1 mul1r.
case: cp => [->|pl]; first by rewrite !mul0r.
congr (_ * _); rewrite [RHS](reindex_inj (@perm_inj _ s)) /=; under eq_bigr do rewrite mxE.
by rewrite big_split /= pl mul1r.
Qed.

Lemma root_norm (C : numClosedFieldType) n (x : C) : x ^+ n.+1 = 1 -> `|x| = 1.
Proof.
move=> /(congr1 Num.norm); rewrite normrX normr1 => /eqP.
by rewrite pexpr_eq1 // => /eqP.
Qed.

(** Permutations of the coordinates permute the monomials of the full basis. *)
Lemma full_permuted n k B (s : {perm 'I_n.+1}) : basis_full n k = Ok B -> exists sg : {perm 'I_(size (power_matrix B))}, permutes_basis s sg.
Proof.
rewrite /basis_full basisE /= => -[<-] /=; set M := mons n.+1 k.
pose r (v : seq nat) := mkseq (fun j => if insub j is Some i then nth 0%N v ((s^-1)%g i) else 0%N) n.+1.
have rE v (j : 'I_n.+1) : nth 0%N (r v) (s j) = nth 0%N v j.
  by rewrite nth_mkseq // insubT //= => jn; rewrite (_ : Sub _ _ = s j) ?permK //; apply/val_inj.
have rM v : v \in M -> r v \in M.
  rewrite !mem_mons size_mkseq eqxx andTb => /andP[/eqP sv /eqP <-]; apply/eqP.
  rewrite !sumnE (big_nth 0%N). rewrite [RHS](big_nth 0%N) (_ : size (r v) = n.+1) ?size_mkseq // sv !big_mkord.
  rewrite (reindex_inj (@perm_inj _ s)) /=; apply: eq_bigr => j _; exact: rE.
have idx (a : 'I_(size M)) : (index (r (nth [::] M a)) M < size M)%N by rewrite index_mem; apply: rM; exact: mem_nth.
pose sg a := Ordinal (idx a).
have sgE a : nth [::] M (sg a) = r (nth [::] M a) by rewrite /sg /= nth_index // rM // mem_nth.
have inj : injective sg.
  move=> a b /(congr1 (fun x : 'I_(size M) => nth [::] M x)); rewrite !sgE => E.
  have [sa _] : size (nth [::] M a) == n.+1 /\ true by have := mem_nth [::] (ltn_ord a); rewrite mem_mons => /andP[].
  have [sb _] : size (nth [::] M b) == n.+1 /\ true by have := mem_nth [::] (ltn_ord b); rewrite mem_mons => /andP[].
  apply/val_inj/eqP; rewrite -(nth_uniq [::] (ltn_ord a) (ltn_ord b)) ?uniq_mons //; apply/eqP.
  apply: (@eq_from_nth _ 0%N) => [|j]; first by rewrite (eqP sa) (eqP sb).
  rewrite (eqP sa) => jn; by rewrite -[j]/(val (Ordinal jn)) -(rE (nth [::] M a)) -(rE (nth [::] M b)) E.
by exists (perm inj) => a j; rewrite permE sgE rE.
Qed.

Lemma unpermuted n B : permutes_basis (1%g : {perm 'I_n}) (1%g : {perm 'I_(size (power_matrix B))}).
Proof. by move=> a j; rewrite !perm1. Qed.
