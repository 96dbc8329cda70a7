(** sample_intersect, compute_vol and sigma_accuracy on a smooth hypersurface. *)
From Coq Require Import ZArith Lia.
From mathcomp Require Import all_ssreflect all_algebra.
From mathcomp Require Import zify ssrZ ring.
From SsrMultinomials Require Import mpoly.
From Verif Require Import Base ModelUtil ModelProjective ModelDiff ModelExpr ModelPoly ModelHom ModelVariety ModelBasis ModelGeom ModelMC ModelDonaldson ModelAlg ModelPipe.
From Verif Require Import SpecPoly SpecHom SpecVariety SpecGeom SpecBasis SpecSections SpecPatch SpecAlg SpecDonaldson SpecPipe Herm Herm2.
From Verif Require Import Deriv Bridge PolyGrad ProofUtil ProofUtil2 ProofProjective ProofDiff ProofSections ProofVariety3 ProofPatch ProofGeom4 ProofRicci2.
From Verif Require Import ProofDonaldson ProofDonaldson2 ProofAlg ProofAlg2 ProofAlg6 ProofPipe.
Delimit Scope Z_scope with Z.

Set Implicit Arguments.
Unset Strict Implicit.
Unset Printing Implicit Defensive.

Import GRing.Theory Num.Theory Order.POrderTheory.
Local Open Scope ring_scope.

Lemma rseq_map_in (T : eqType) (U : Type) (f : T -> res U) (g : T -> U) s :
  (forall x, x \in s -> f x = Ok (g x)) -> rseq (map f s) = Ok (map g s).
Proof.
elim: s => [//|x s IH] H /=; rewrite H ?mem_head //= IH // => y ys.
by apply: H; rewrite inE ys orbT.
Qed.

Lemma zip_maps (T U W : Type) (f : T -> U) (g : T -> W) (s : seq T) :
  zip (map f s) (map g s) = [seq (f x, g x) | x <- s].
Proof. by elim: s => //= x s ->. Qed.

Section Points.
Variable C : numClosedFieldType.
Variable D : forall n : nat, ('rV[C]_n -> C) -> 'rV[C]_n -> 'rV[C]_n.
Hypothesis hD : diff_ok D.
Variables (pi : C) (m e : nat) (V : variety C) (ps : seq C) (Q : {mpoly C[m.+2]}).
Hypotheses (hV : hypersurface V ps m e) (hQ : defined_by V ps Q) (pi0 : 0 < pi).
Hypothesis hS : smooth D V ps m.

Let HQ : Q \is e.-homog := V_homog hV hQ.
Let ge0R (x : C) n : 0 <= `|x| ^+ n. Proof. by rewrite exprn_ge0. Qed.

Definition pt (z : seq C) : seq C * nat := res_or ([::], 0%N) (hom_to_affine_auto z).
Definition pw (z : seq C) : C :=
  res_or 0 (v_weights D pi m V (pt z).1 ps (Some (Z.of_nat (pt z).2)) None (Some 1)).

Lemma nonzero_coord (x : 'rV[C]_m.+2) : x != 0 -> exists i, x 0 i != 0.
Proof.
move=> x0; apply/existsP; apply: contra_neqT x0 => /existsPn H.
by apply/rowP => k; rewrite mxE; apply/eqP; have := H k; rewrite negbK.
Qed.

Definition on (z : seq C) : Prop := exists x : 'rV[C]_m.+2,
  [/\ z = row_seq x, x != 0 & v_defining V z (PArr ps) (PatchNone C) = Ok 0].

(** what is known about one point *)
Lemma point_data z : on z -> exists (x : 'rV[C]_m.+2) (i : 'I_m.+2) (d : 'I_m.+1),
  let a := affr i x in let g := pgrad (dehom i Q) a in
  [/\ z = row_seq x, [/\ peval Q x = 0, x 0 i != 0 & forall j, `|x 0 j| <= `|x 0 i|],
      hom_to_affine_auto z = Ok (row_seq a, val i),
      [/\ g 0 d != 0, rmap Z.of_nat (argmax [seq `|y| | y <- row_seq g]) = Ok (Z.of_nat d) &
          v_grad_defining D V (row_seq a) (PArr ps) (PatchInt C (Z.of_nat i)) = Ok (row_seq g)] &
      let w := patch_weight e Q (pi ^+ m / m`!%:R) x i in
      [/\ 0 < w, v_weights D pi m V (row_seq a) ps (Some (Z.of_nat i)) None (Some 1) = Ok w &
          v_weights D pi m V (row_seq a) ps (Some (Z.of_nat i)) (Some (Z.of_nat d)) (Some 1) = Ok w]].
Proof.
move=> [x [-> x0 hx]]; have [j xj] := nonzero_coord x0.
have [i [xi le E]] := auto_aff xj.
have Qx : peval Q x = 0 by move: hx; rewrite hQ => -[].
have gx := smooth_grad hD hV hQ hS x0 hx.
have [d0 gd0] := grad_nz HQ Qx xi gx.
set a := affr i x in gd0 E *; set g := pgrad _ a in gd0 *.
have hg : v_grad_defining D V (row_seq a) (PArr ps) (PatchInt C (Z.of_nat i)) = Ok (row_seq g) by exact: (grad_code hD hV hQ).
have G0 : has (fun y => y != 0) (row_seq g).
  by apply/hasP; exists (g 0 d0) => //; rewrite -nth_row_seq mem_nth // size_row_seq.
have [w [q [Eq [qn q0 qle _ _]]]] := auto_lemma G0; rewrite size_row_seq in qn.
have Eq2 : rmap Z.of_nat (argmax [seq `|y| | y <- row_seq g]) = Ok (Z.of_nat q).
  by move: Eq; rewrite /hom_to_affine_auto; case: argmax => //= p'; case: hom_to_affine => //= z' [_ ->].
have gq : nth 0 (row_seq g) (Ordinal qn) != 0 by [].
have [w0 W1 W2] := weight_form hD hV hQ pi0 (Some 1) hx gx xi (hom_to_affine_seq i x).
exists x, i, (Ordinal qn); split=> //; split=> //; first by rewrite -nth_row_seq.
exact: (W2 (Ordinal qn) _ hg gq).
Qed.

Lemma point_ok2 z : on z ->
  [/\ hom_to_affine_auto z = Ok (pt z),
      v_weights D pi m V (pt z).1 ps (Some (Z.of_nat (pt z).2)) None (Some 1) = Ok (pw z),
      has_weight pi e Q z (pw z) & 0 < pw z].
Proof.
move=> /point_data[x [i [d [zE [Qx xi le] E _ [w0 W1 _]]]]].
have ptE : pt z = (row_seq (affr i x), val i) by rewrite /pt E.
have pwE : pw z = patch_weight e Q (pi ^+ m / m`!%:R) x i by rewrite /pw ptE W1.
rewrite pwE ptE; split=> //; by exists x, i.
Qed.

Lemma weight_unique z w w' : has_weight pi e Q z w -> has_weight pi e Q z w' -> w = w'.
Proof.
move=> [x [i [-> le xi ->]]] [x' [i' [xx le' xi' ->]]].
have xE : x = x' by apply/rowP => j; rewrite -!nth_row_seq xx.
subst x'; suff E : `|x 0 i| = `|x 0 i'| by rewrite /patch_weight E.
by apply/le_anti; rewrite le le'.
Qed.

Section Draw.
Variable key : Type.
Variable draw : key -> seq C -> nat -> res (seq (seq C)).

Lemma sample_forms k count zs : draw k ps count = Ok zs -> points_on V ps m zs ->
  [/\ sample_intersect D pi m V draw k ps count false false = Ok (OutHom zs),
      sample_intersect D pi m V draw k ps count true false = Ok (OutAff [seq pt z | z <- zs]),
      sample_intersect D pi m V draw k ps count false true = Ok (OutHomW zs [seq pw z | z <- zs]) &
      sample_intersect D pi m V draw k ps count true true = Ok (OutAffW [seq pt z | z <- zs] [seq pw z | z <- zs])].
Proof.
move=> E H.
have P1 : rseq [seq hom_to_affine_auto z | z <- zs] = Ok [seq pt z | z <- zs].
  by apply: rseq_map_in => z /H/point_ok2[].
have P2 : rseq [seq v_weights D pi m V a.1 ps (Some (Z.of_nat a.2)) None (Some 1) | a <- [seq pt z | z <- zs]] =
    Ok [seq pw z | z <- zs].
  by rewrite -map_comp; apply: rseq_map_in => z /H/point_ok2[].
by rewrite /sample_intersect E /= P1 /= P2.
Qed.

Lemma scan_keysE (split : key -> key * key) batches k : scan_keys split batches k =
  [seq iter i (fun k => (split k).2) k | i <- iota 0 batches].
Proof.
elim: batches k => [//|b IH k]; rewrite -[iota 0 b.+1]/(0%N :: iota 1 b) /= IH (iotaDl 1 0) -map_comp.
by congr cons; apply: eq_map => i; rewrite /comp add1n [in RHS]iterSr.
Qed.

Lemma avg_mean (f : seq C -> C) zs : ModelDonaldson.mean [seq f z | z <- zs] = avg f zs.
Proof. by rewrite /ModelDonaldson.mean big_map size_map. Qed.

Lemma avg_pos (f : seq C -> C) zs : zs != [::] -> (forall z, z \in zs -> 0 < f z) -> 0 < avg f zs.
Proof.
move=> z0 H; rewrite -avg_mean; apply: mean_pos; first by case: zs z0 {H}.
by apply/allP => y /mapP[z zi ->]; exact: H.
Qed.

Lemma flat_mem (T : eqType) (s : seq T) ss x : s \in ss -> x \in s -> x \in flatten ss.
Proof. by move=> si xi; apply/flattenP; exists s. Qed.

(** mean of squares minus square of the mean *)
Lemma variance (f : seq C -> C) zs : zs != [::] ->
  avg (fun z => f z ^+ 2) zs - avg f zs ^+ 2 = avg (fun z => (f z - avg f zs) ^+ 2) zs.
Proof.
move=> z0; have n0 : (size zs)%:R != 0 :> C by rewrite pnatr_eq0 size_eq0.
set v := avg f zs; have Ev : \sum_(z <- zs) f z = v * (size zs)%:R by rewrite divfK.
rewrite /avg.
have -> : \sum_(z <- zs) (f z - v) ^+ 2 = \sum_(z <- zs) f z ^+ 2 - v ^+ 2 * (size zs)%:R.
  have -> : \sum_(z <- zs) (f z - v) ^+ 2 = \sum_(z <- zs) (f z ^+ 2 + (v ^+ 2 - 2%:R * v * f z)).
    by apply: eq_bigr => z _; ring.
  rewrite big_split /= sumrB -(mulr_sumr zs xpredT f (2%:R * v)) Ev; congr (_ + _).
  rewrite big_const_seq count_predT iter_addr_0 -[v ^+ 2 *+ _]mulr_natr.
  by clearbody v; move: (_%:R) => N; ring.
by rewrite mulrBl mulfK.
Qed.

Lemma variance_ge0 (f : seq C -> C) zs : zs != [::] -> (forall z, z \in zs -> 0 < f z) ->
  let s := avg (fun z => f z ^+ 2) zs - avg f zs ^+ 2 in
  0 <= s /\ (s = 0 <-> exists c, forall z, z \in zs -> f z = c).
Proof.
move=> z0 H s; have v0 := avg_pos z0 H; set v := avg f zs in v0 s *.
have n0 : (0 : C) < (size zs)%:R by rewrite ltr0n lt0n size_eq0.
have R z : z \in zs -> 0 <= (f z - v) ^+ 2.
  move=> /H fz; rewrite -real_normK ?exprn_ge0 //; apply: rpredB; exact: gtr0_real.
have sE : s = avg (fun z => (f z - v) ^+ 2) zs by exact: variance.
rewrite sE /avg; split; first by rewrite divr_ge0 ?(ltW n0) // big_seq; apply: sumr_ge0.
split=> [/eqP|[c Hc]].
  rewrite mulf_eq0 invr_eq0 (gt_eqF n0) orbF big_seq psumr_eq0 => [/allP A|z /R//]; exists v => z zi.
  by have := A z zi; rewrite zi /= expf_eq0 /= subr_eq0 => /eqP.
have vc : v = c.
  rewrite /v /avg big_seq (eq_bigr (fun=> c)) => [|z /Hc//]; rewrite -big_seq big_const_seq count_predT iter_addr_0.
  by rewrite -[c *+ _]mulr_natr mulfK // gt_eqF.
by rewrite big_seq big1 ?mul0r // => z /Hc ->; rewrite vc subrr expr0n.
Qed.

Lemma zip_fst_snd (f : seq C -> C) (zs : seq (seq C)) (g : seq C * C -> C) :
  [seq g p | p <- zip zs [seq f z | z <- zs]] = [seq g (z, f z) | z <- zs].
Proof. by elim: zs => //= z zs ->. Qed.

Lemma sum_flat (f : seq C -> C) zss : \sum_(z <- flatten zss) f z = \sum_(zs <- zss) \sum_(z <- zs) f z.
Proof. by rewrite big_flatten. Qed.

Lemma vol_lemma2 (split : key -> key * key) k batches bs var zss : (0 < batches)%N -> (0 < bs)%N ->
  size zss = batches ->
  (forall j, (j < batches)%N -> draw (iter j (fun k => (split k).2) k) ps bs = Ok (nth [::] zss j)) ->
  (forall zs, zs \in zss -> size zs = bs /\ points_on V ps m zs) ->
  let v := avg pw (flatten zss) in
  let s := (avg (fun z => pw z ^+ 2) (flatten zss) - v ^+ 2) / (batches * bs)%:R in
  compute_vol D pi split m V draw k ps batches bs var = Ok (v, if var then Some s else None).
Proof.
move=> b0 bs0 sz Hd Hz v s.
have mem j : (j < batches)%N -> nth [::] zss j \in zss by move=> jb; rewrite mem_nth // sz.
have VS j : (j < batches)%N -> vol_sample D pi m V draw ps (iter j (fun k => (split k).2) k) bs =
    Ok (zip (nth [::] zss j) [seq pw z | z <- nth [::] zss j]).
  move=> jb; have [_ hp] := Hz _ (mem j jb); rewrite /vol_sample.
  by have [_ _ -> _] := sample_forms (Hd j jb) hp.
rewrite /compute_vol scan_keysE -map_comp.
rewrite (@rseq_map_in _ _ _ (fun j => zip (nth [::] zss j) [seq pw z | z <- nth [::] zss j])); last first.
  by move=> j; rewrite mem_iota => /andP[_ jb]; exact: VS.
rewrite /= /mc_integrate_batched mc_scanE.
have E1 : [seq (mc_step split bs (fun=> 1) (fun k' count => res_or [::] (vol_sample D pi m V draw ps k' count))
     (iter i (fun k => (split k).2) k)).2.1 | i <- iota 0 batches] = [seq avg pw zs | zs <- zss].
  rewrite -[in RHS](mkseq_nth [::] zss) /mkseq sz -map_comp; apply/eq_in_map => j; rewrite mem_iota => /andP[_ jb].
  by rewrite /= VS //= zip_fst_snd -avg_mean.
have E2 : [seq (mc_step split bs (fun=> 1) (fun k' count => res_or [::] (vol_sample D pi m V draw ps k' count))
     (iter i (fun k => (split k).2) k)).2.2 | i <- iota 0 batches] = [seq avg (fun z => pw z ^+ 2) zs / bs%:R | zs <- zss].
  rewrite -[in RHS](mkseq_nth [::] zss) /mkseq sz -map_comp; apply/eq_in_map => j; rewrite mem_iota => /andP[_ jb].
  rewrite /= VS //= zip_fst_snd -map_comp -avg_mean; congr (ModelDonaldson.mean _ / _).
  by apply: eq_map => z /=; rewrite mul1r.
have A (f : seq C -> C) : ModelMC.mean [seq avg f zs | zs <- zss] = avg f (flatten zss).
  rewrite /ModelMC.mean big_map size_map /avg big_flatten /=.
  have -> : size (flatten zss) = (size zss * bs)%N.
    have : all (fun zs => size zs == bs) zss by apply/allP => zs /Hz[-> _].
    by elim: (zss) => //= zs l IH /andP[/eqP sl /IH]; rewrite size_cat mulSn sl => ->.
  rewrite natrM invfM mulrA mulrAC; congr (_ / _); rewrite mulr_suml big_seq [RHS]big_seq.
  by apply: eq_bigr => zs /Hz[-> _].
have vE : ModelMC.mean [seq p.1 | p <- [seq (mc_step split bs (fun=> 1) (fun k' count =>
    res_or [::] (vol_sample D pi m V draw ps k' count)) (iter i (fun k => (split k).2) k)).2 | i <- iota 0 batches]] = v.
  by rewrite -map_comp [X in ModelMC.mean X]E1 A.
rewrite vE; congr (Ok (_, _)).
case: var => //; congr Some.
have -> : [seq p.2 | p <- [seq (mc_step split bs (fun=> 1) (fun k' count =>
    res_or [::] (vol_sample D pi m V draw ps k' count)) (iter i (fun k => (split k).2) k)).2 | i <- iota 0 batches]] =
    [seq avg (fun z => pw z ^+ 2) zs / bs%:R | zs <- zss] by rewrite -map_comp [LHS]E2.
have -> : [seq avg (fun z => pw z ^+ 2) zs / bs%:R | zs <- zss] = [seq avg (fun z => pw z ^+ 2 / bs%:R) zs | zs <- zss].
  by apply: eq_map => zs; rewrite /avg -mulr_suml mulrAC.
rewrite A /s mulrBl; congr (_ - _); rewrite /avg -mulr_suml natrM invfM.
by move: (\sum_(z <- _) _) (_^-1) (_^-1) (_^-1) => a b c d; ring.
Qed.
End Draw.
End Points.
