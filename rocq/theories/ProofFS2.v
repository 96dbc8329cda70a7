(** Forms of the chart and Fubini-Study lemmas used in PropsProjective.v. *)
From Coq Require Import ZArith Lia.
From mathcomp Require Import all_ssreflect all_algebra.
From mathcomp Require Import zify ring.
From Verif Require Import Base ModelUtil ModelProjective ModelDiff ProofUtil
  ProofProjective Bridge Deriv Herm ProofFS.
Delimit Scope Z_scope with Z.

Set Implicit Arguments.
Unset Strict Implicit.
Unset Printing Implicit Defensive.

Import GRing.Theory Num.Theory Order.POrderTheory.
Local Open Scope ring_scope.

Section Charts.
Variable F : fieldType.
Implicit Types z h : seq F.

Lemma overlap_hom z (i j : nat) : (i <= size z)%N ->
  nth 0 (affine_to_hom z (Z.of_nat i)) j != 0 -> overlap z i j.
Proof. by move=> iz; rewrite affine_to_homE. Qed.

Lemma index_addr z (p k : nat) : (p <= size z)%N -> (k < size z)%N ->
  nth 0 (affine_to_hom z (Z.of_nat p))
    (Z.to_nat (index_affine_to_hom (Z.of_nat p) (Z.of_nat k))) = nth 0 z k.
Proof.
move=> pz kz; rewrite affine_to_homE // nth_ins // /index_affine_to_hom.
case: Z.leb_spec => H.
  rewrite (_ : Z.to_nat _ = k.+1); last by lia.
  have -> : (k.+1 < p)%N = false by lia.
  by have -> : (k.+1 == p) = false by lia.
rewrite Nat2Z.id; by have -> : (k < p)%N by lia.
Qed.

Lemma back_lemma z (i j : nat) :
  (i <= size z)%N -> (j <= size z)%N -> i <> j ->
  nth 0 (affine_to_hom z (Z.of_nat i)) j != 0 ->
  exists w, change_chart z (Z.of_nat i) (Z.of_nat j) = Ok w /\
    hom_to_affine (affine_to_hom z (Z.of_nat i)) (Z.of_nat j) = Ok w /\
    size w = size z /\ change_chart w (Z.of_nat j) (Z.of_nat i) = Ok z.
Proof.
move=> iz jz ij /(overlap_hom iz) ov.
have [w [E [sw _]]] := change_chart_ok iz jz ij.
have := change_chart_back iz jz ij ov; rewrite E /= => B.
by exists w; rewrite -change_chartE // E.
Qed.

Lemma comp_lemma z (i j k : nat) :
  (i <= size z)%N -> (j <= size z)%N -> (k <= size z)%N -> i <> j -> j <> k -> i <> k ->
  nth 0 (affine_to_hom z (Z.of_nat i)) j != 0 ->
  exists w, change_chart z (Z.of_nat i) (Z.of_nat j) = Ok w /\
  change_chart w (Z.of_nat j) (Z.of_nat k) = change_chart z (Z.of_nat i) (Z.of_nat k).
Proof.
move=> iz jz kz ij jk ik /(overlap_hom iz) ov.
have [w [E _]] := change_chart_ok iz jz ij.
by have := change_chart_comp iz jz kz ij jk ik ov; rewrite E /= => B; exists w.
Qed.

Lemma same_lemma z (p k : nat) (q := (p %% size z)%N) :
  (0 < size z)%N -> (p <= size z)%N -> (k < size z)%N ->
  exists w, change_chart z (Z.of_nat p) (Z.of_nat p) = Ok w /\ size w = size z /\
    nth 0 w k = (if k == q then 1 else nth 0 z k) / nth 0 z q.
Proof.
move=> sz pz kz; eexists; split; first exact: change_chart_same.
rewrite size_map size_iota; split=> //.
rewrite (nth_map 0%N) ?size_iota // nth_iota // add0n -/q.
by case: (k == q); rewrite ?mul1r.
Qed.

Lemma same_fix_lemma z (p : nat) (q := (p %% size z)%N) :
  2%:R != 0 :> F -> (0 < size z)%N -> (p <= size z)%N -> nth 0 z q != 0 ->
  change_chart z (Z.of_nat p) (Z.of_nat p) = Ok z <->
  nth 0 z q = 1 \/
  (nth 0 z q = -1 /\ forall k, (k < size z)%N -> k <> q -> nth 0 z k = 0).
Proof.
move=> two sz pz nz; rewrite change_chart_same_fix //.
have E (x : F) : x = x * -1 <-> x = 0.
  split=> [|->]; last by rewrite mul0r.
  move/eqP; rewrite mulrN1 -subr_eq0 opprK -mulr2n -mulr_natl mulf_eq0 (negbTE two) /=.
  by move/eqP.
split=> -[?|[? H]]; [by left|right; split=> //|by left|right; split=> //] => k kz kq;
  by apply/E; apply: H.
Qed.

(** Negative patch: the remaining coordinates come out rotated. *)
Lemma hom_to_affine_neg_lemma h (p : Z) (q := Z.to_nat (p + Z.of_nat (size h))) :
  (- Z.of_nat (size h) <= p < 0)%Z ->
  exists w, hom_to_affine h (Z.of_nat q) = Ok w /\ hom_to_affine h p = Ok (rot 1 w).
Proof.
move=> H; have qn : (q < size h)%N by rewrite /q; lia.
rewrite hom_to_affineE //; eexists; split; first by [].
by rewrite /hom_to_affine (pop_neg 0) // -/q /= map_rot.
Qed.
End Charts.

Section FS2.
Variable C : numClosedFieldType.

Lemma fs_hessian_lemma n (log : C -> C) (z zc : 'rV[C]_n) (r : C) :
  norm2p1 z zc != 0 -> 0 < r ->
  (forall x, `|x - norm2p1 z zc| < r -> is_deriv log x x^-1) ->
  mixed_hessian (fs_potential log) z zc (fs_metric z zc).
Proof.
move=> nz r0 H.
have K0 : 0 < norm1 z + 1 by exact: (ltr_spaddr ltr01 (norm1_ge0 _)).
exists (fun w : 'rV[C]_n => \row_i (w 0 i / norm2p1 z w)), (r / (norm1 z + 1)).
split; first by rewrite divr_gt0.
split=> [w Hw|i]; last first.
  by apply: is_grad_ext (fs_hess i nz) => y; rewrite mxE.
apply: fs_grad; apply: H.
have -> : norm2p1 z w - norm2p1 z zc = dotv z (w - zc).
  rewrite /norm2p1 /dotv opprD addrACA subrr add0r -sumrB.
  by apply: eq_bigr => i _; rewrite !mxE mulrBr.
apply: (le_lt_trans (dotv_bound _ _)).
move: Hw; rewrite ltr_pdivl_mulr // => Hw; apply: le_lt_trans Hw.
by rewrite mulrC ler_wpmul2l ?norm1_ge0 // ler_addl ler01.
Qed.

Lemma fs_pullback_lemma n (i j : 'I_n.+1) (z : 'rV[C]_n) : i != j ->
  nth 0 (affine_to_hom (row_seq z) (Z.of_nat i)) j != 0 ->
  exists w T,
    [/\ change_chart (row_seq z) (Z.of_nat i) (Z.of_nat j) = Ok (row_seq w),
        is_jac (fun y => res_row n (change_chart (row_seq y) (Z.of_nat i) (Z.of_nat j))) z T &
        fs_metric_real z = T *m fs_metric_real w *m adjm T].
Proof.
move=> ij; rewrite homr_seq nth_row_seq => nz.
exists (chart i j z), (chart_jac i j z); split.
- by rewrite chart_seq.
- move=> k; apply: is_grad_ext (chart_is_jac nz k) => y.
  by rewrite chart_seq //= row_seqK.
exact: fs_patch.
Qed.
End FS2.
