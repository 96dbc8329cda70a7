(** Sampled points in affine coordinates, weights, completion of points. *)
From Coq Require Import ZArith Lia Ascii String Permutation.
From mathcomp Require Import all_ssreflect all_algebra.
From mathcomp Require Import zify ssrZ ring.
From Verif Require Import Base ModelStr ProofStr ModelExpr ModelPoly SpecPoly SpecUniv SpecHom
  ProofPoly ProofPoly2 ProofPoly3 ProofPoly4 ProofPoly5 ProofPoly7 ProofUniv
  ModelUtil ProofUtil ProofUtil2 ModelProjective ProofProjective ModelDiff ModelHom ProofHom ProofHom2
  ModelVariety SpecVariety ProofVariety ProofVariety2
  Bridge Herm Herm2 ProofFS ProofDiff ProofDiff2.
Delimit Scope Z_scope with Z.

Set Implicit Arguments.
Unset Strict Implicit.
Unset Printing Implicit Defensive.

Import GRing.Theory Num.Theory Order.POrderTheory.
Local Open Scope ring_scope.

Section Affine.
Variable C : numClosedFieldType.
Variable norm : expr C -> expr C.

(** Parameters given by keyword or by position. *)
Lemma call_kw (Q : poly C) nm a v : variable_names Q = [:: nm] ->
  call_num Q [:: PArr a] [:: (lit "params", v)] = call_num Q [:: PArr a; v] [::].
Proof. by move=> E; rewrite /call_num E. Qed.

Definition one_name (H : hompoly C) (nm : sym) : Prop :=
  variable_names (hp H) = [:: nm] /\
  forall k A, nth None (affine_cache H) k = Some A -> variable_names A = [:: nm].

Lemma one_name_poly H nm p A H' : one_name H nm -> affine_poly norm H p = Ok (A, H') ->
  variable_names A = [:: nm] /\ one_name H' nm.
Proof.
case=> En ok; rewrite /affine_poly; case: py_pos => //= k.
case E: nth => [B|] [<- <-]; first by split=> //; exact: ok E.
split=> //=; split=> //= j B; rewrite nth_set_nth /=; case: eqP => [_ [<-]|_ /ok] //.
Qed.

Lemma trace_kw H nm a v ps : one_name H nm ->
  trace_branches norm H [:: PArr a] [:: (lit "params", v)] ps =
  trace_branches norm H [:: PArr a; v] [::] ps.
Proof.
elim: ps H => [//|p ps IH] H ok /=; rewrite /hom_call.
case E: affine_poly => [[A H']|//] /=; have [EA ok'] := one_name_poly ok E.
by rewrite (call_kw a v EA); case: call_num => //= x; rewrite IH.
Qed.

Lemma init_one P H nm : hom_init P = Ok H -> variable_names P = [:: nm] -> one_name H nm.
Proof.
move=> hi En; have [E _] := init_ok norm hi; split=> [|k A]; first by rewrite E.
by rewrite (init_fresh k hi).
Qed.

Lemma defining_call P H nm a v p : hom_init P = Ok H -> variable_names P = [:: nm] ->
  defining norm H a v (PatchInt C p) = transform_eval norm H [:: PArr a; v] [::] (Some [:: p]).
Proof. by move=> hi En; rewrite /defining /transform_eval (trace_kw _ _ _ (init_one hi En)). Qed.

Lemma scale_div (z : seq C) x : [seq y / x | y <- z] = scale x^-1 z.
Proof. by apply: eq_map => y; rewrite mulrC. Qed.

Lemma affine_zero (P : poly C) H n d ps z :
  norm_ok norm -> hom_ok P -> hom_init P = Ok H -> variable_indices P = dim_indices [:: n] -> (1 < n)%N ->
  homogeneous P d -> size ps = size (parameters P) ->
  size z = n -> has (fun x => x != 0) z -> call_num P [:: PArr z; PArr ps] [::] = Ok 0 ->
  exists a p, [/\ hom_to_affine_auto z = Ok (a, p), (p < n)%N, size a = n.-1,
    (forall x, x \in a -> `|x| <= 1) &
    defining norm H a (PArr ps) (PatchInt C (Z.of_nat p)) = Ok 0].
Proof.
move=> nk hP hi Ei n1 hd sps sz nz v0.
have [a [p [E [pn p0 _ _ [Ea le _]]]]] := auto_lemma nz.
have sa : size a = n.-1.
  have := congr1 size Ea; rewrite size_map sz /affine_to_hom size_insert_1d /= addn1 => <-.
  by [].
have pn' : (p < n)%N by rewrite -sz.
exists a, p; split=> //.
have [nm En] : exists nm, variable_names P = [:: nm].
  have [[[_ _ s _] _ _] _ _ _] := hP; move: s; rewrite Ei; case: (variable_names P) => [//|nm [|]] // _.
  by exists nm.
rewrite (defining_call _ _ _ hi En).
have [||||//|v [E1 E2]] := @transform_valid C norm nk P H [:: n] [:: a] ps [:: Z.of_nat p] hP hi Ei.
- by rewrite /= n1.
- by [].
- by case.
- by [].
- by rewrite /valid_patch /= andbT; apply/andP; split; lia.
move: E1 E2 => /= -> E2; congr Ok; move: E2; rewrite Ea scale_div.
have [wP _ _ uP] := hP; have sl : size [seq Z.of_nat i | i <- iota 0 n] = n by rewrite size_map size_iota.
move: v0; rewrite !(call_F wP uP En Ei) ?size_map ?size_iota //= => -[F0].
by rewrite (F_scale wP En Ei _ _ hd) ?sl // F0 mulr0 => -[].
Qed.
End Affine.

Section SampleAffine.
Variable C : numClosedFieldType.
Variable norm : expr C -> expr C.
Variable order : seq (sym * expr C) -> seq (sym * expr C).
Variable visit : expr C -> seq sym.
Variable terms : poly C -> sym -> seq (nat * expr C).
Variable roots : seq C -> seq C.

(** Nonzero points from independent lines. *)
Definition on_line (n : nat) (lns : seq (seq C * seq C)) (z : seq C) : Prop :=
  exists pq r, pq \in lns /\ z = [seq xy.1 + r * xy.2 | xy <- zip pq.1 pq.2].

Lemma rseq_in (T U : eqType) (f : T -> res U) s vs : rseq (map f s) = Ok vs ->
  forall v, v \in vs -> exists2 x, x \in s & f x = Ok v.
Proof.
elim: s vs => [|x s IH] vs /=; first by case=> <-.
case E: (f x) => [y|//] /=; case E2: rseq => [ys|//] /= [<-] v; rewrite inE => /orP[/eqP->|vi].
  by exists x; rewrite ?mem_head.
by have [x' xi Ex] := IH _ E2 _ vi; exists x'; rewrite // inE xi orbT.
Qed.

Lemma sample_lines (P : poly C) n ps count lines zs : dim_complex P = Ok n ->
  sample_hom norm order visit terms roots P ps count lines = Ok zs ->
  forall z, z \in zs -> on_line n (lines (sample_count count n) n) z.
Proof.
move=> Ed; rewrite /sample_hom /sample_line Ed /=; case: line_poly => //= L; case: univariate_coefficients => //= cs.
case E: rseq => [pts|//] /= [<-] z /mem_take /flattenP[s sp zs'].
have [pq pqi] := rseq_in E sp; rewrite /solve_intersect; case: rseq => //= vs [Es].
move: zs'; rewrite -Es => /mapP[r _ ->]; by exists pq, r.
Qed.

Lemma line_nonzero n (p q : seq C) r : size p = n -> size q = n -> (0 < n)%N ->
  (forall x, p <> scale x q) -> has (fun x => x != 0) [seq xy.1 + r * xy.2 | xy <- zip p q].
Proof.
move=> sp sq n0 ind; apply: contraPT (ind (- r)) => /hasPn H E; apply: E.
apply: (@eq_from_nth _ 0); first by rewrite size_map sp sq.
move=> i; rewrite sp => ni; rewrite (nth_map 0) ?sq //.
have := H (nth 0 p i + r * nth 0 q i); rewrite negbK.
have -> : nth 0 p i + r * nth 0 q i \in [seq xy.1 + r * xy.2 | xy <- zip p q].
  apply/mapP; exists (nth (0, 0) (zip p q) i); last by rewrite nth_zip ?sp ?sq.
  by rewrite mem_nth // size_zip sp sq minnn.
by move/(_ isT); rewrite addr_eq0 mulNr => /eqP.
Qed.

Lemma rseq_all (T U : eqType) (f : T -> res U) (R : T -> U -> Prop) s :
  (forall x, x \in s -> exists2 y, f x = Ok y & R x y) ->
  exists ys, [/\ rseq (map f s) = Ok ys, size ys = size s &
    forall y, y \in ys -> exists2 x, x \in s & R x y].
Proof.
elim: s => [|x s IH] H /=; first by exists [::].
have [y Ey Ry] := H x (mem_head _ _).
have [|ys [E sz Hy]] := IH; first by move=> z zs; apply: H; rewrite inE zs orbT.
exists (y :: ys); rewrite Ey /= E /=; split=> //=; first by rewrite sz.
move=> w; rewrite inE => /orP[/eqP->|/Hy[z zs Rz]]; first by exists x; rewrite ?mem_head.
by exists z; rewrite // inE zs orbT.
Qed.

Lemma affine_main (P : poly C) H n d ps count lines :
  norm_ok norm -> order_ok order -> visit_ok visit -> roots_ok roots ->
  hom_ok P -> hom_init P = Ok H -> variable_indices P = dim_indices [:: n] -> (1 < n)%N ->
  wf_params [:: lit "t"; lit "p"; lit "q"] (parameters P) -> homogeneous P d ->
  (forall L, line_poly norm order visit P = Ok L ->
     terms_ok L (lit "t") (terms L (lit "t")) /\ terms_nonzero (terms L (lit "t"))) ->
  size ps = size (parameters P) ->
  size (lines (sample_count count n) n) = sample_count count n ->
  all (fun pq => (size pq.1 == n) && (size pq.2 == n)) (lines (sample_count count n) n) ->
  (forall pq, pq \in lines (sample_count count n) n ->
     (exists2 v, call_num P [:: PArr pq.2; PArr ps] [::] = Ok v & v != 0) /\
     forall x, pq.1 <> scale x pq.2) ->
  exists ap, [/\ sample_affine norm order visit terms roots P ps count lines = Ok ap,
    size ap = minn count (d * sample_count count n) &
    forall a p, (a, p) \in ap -> [/\ (p < n)%N, size a = n.-1, (forall x, x \in a -> `|x| <= 1) &
      defining norm H a (PArr ps) (PatchInt C (Z.of_nat p)) = Ok 0]].
Proof.
move=> nk oo ov or_ hP hi Ei n1 wp hd ht sps sln al Hq.
have n0 : (0 < n)%N by apply: ltn_trans n1.
have sP : single P n.
  have [wP _ _ uP] := hP; split=> //; have [[_ _ s _] _ _] := wP.
  move: s; rewrite Ei; case: (variable_names P) => [//|nm [|]] // _.
  by exists nm, [seq Z.of_nat i | i <- iota 0 n]; rewrite size_map size_iota.
have Ed : dim_complex P = Ok n by rewrite /dim_complex Ei /= size_map size_iota.
have Hq1 pq : pq \in lines (sample_count count n) n ->
    exists2 v, call_num P [:: PArr pq.2; PArr ps] [::] = Ok v & v != 0.
  by move=> /Hq[].
have [zs [Ez sz Hz]] := sample_main nk oo ov or_ sP n0 wp hd ht sps sln al Hq1.
have := @rseq_all _ _ (@hom_to_affine_auto C) (fun z ap => [/\ (ap.2 < n)%N, size ap.1 = n.-1,
   (forall x, x \in ap.1 -> `|x| <= 1) &
   defining norm H ap.1 (PArr ps) (PatchInt C (Z.of_nat ap.2)) = Ok 0]) zs.
case=> [z zi|ap [E s1 H1]].
  have [szz vz] := Hz _ zi; have [pq [r [pqi Ez']]] := sample_lines Ed Ez zi.
  have /andP[/eqP s1 /eqP s2] := allP al _ pqi.
  have nz : has (fun x => x != 0) z by rewrite Ez'; apply: (line_nonzero _ s1 s2 n0); case: (Hq _ pqi).
  have [a [p [E p1 p2 p3 p4]]] := affine_zero nk hP hi Ei n1 hd sps szz nz vz.
  by exists (a, p).
exists ap; split=> //; first by rewrite /sample_affine Ez.
  by rewrite s1 sz.
by move=> a p /H1[z _].
Qed.
End SampleAffine.

Section Count.
(** Calabi-Yau degree, and lower degree. *)
Lemma count_enough count n d : (0 < n)%N -> (n <= d)%N ->
  minn count (d * sample_count count n) = count.
Proof.
move=> n0 nd; apply/minn_idPl; rewrite /sample_count.
have le : (count <= n * ((count + n).-1 %/ n))%N by have := divn_eq (count + n).-1 n; have := ltn_pmod (count + n).-1 n0; nia.
by apply: leq_trans le _; rewrite leq_mul2r nd orbT.
Qed.

Lemma count_short n d : (0 < n)%N -> (d < n)%N -> minn n (d * sample_count n n) = d.
Proof.
move=> n0 dn; have -> : sample_count n n = 1%N; last by rewrite muln1; apply/minn_idPr/ltnW.
rewrite /sample_count; have -> : (n + n).-1 = (n.-1 + n)%N by lia.
by rewrite divnDr ?dvdnn // divnn n0 divn_small //; lia.
Qed.
End Count.

Section Weights.
Variable C : numClosedFieldType.
Variable pi : C.
Hypothesis pi0 : 0 < pi.
Variables (m : nat) (zs : 'rV[C]_m.+1) (G : 'rV[C]_m.+1).

Let g := fs_metric_real zs.
Let A := \det (g + G^T *m adjm G^T) - \det g.

Lemma jac_weight (d : 'I_m.+1) : (do p <- pop (row_seq G) (Z.of_nat d);
  let '(x, y) := p in insert_col1 (eye_rows C m) [seq - z / x | z <- y] (Z.of_nat d)) =
  Ok [seq row_seq (row r (Jm G d)) | r <- enum 'I_m].
Proof. by rewrite -jacobian_embed_rows /jacobian_embed size_row_seq. Qed.

Lemma parts_eq (d : 'I_m.+1) vol : weight_parts pi zs (row_seq G) (Some (Z.of_nat d)) vol =
  let det := 'Re (\det (Jm G d *m g *m adjm (Jm G d))) in
  let dvol := (`|G 0 d| ^+ 2)^-1 in
  Ok (if vol is Some v then (dvol * v, det * (m`!%:R / pi ^+ m), G 0 d) else (dvol, det, G 0 d)).
Proof.
have := jac_weight d; rewrite /weight_parts /= (pop_del 0) ?size_row_seq //= nth_row_seq => -> /=.
by rewrite mx_rows_row -adjm_tr.
Qed.

Lemma det_pos (d : 'I_m.+1) : 0 < \det (Jm G d *m g *m adjm (Jm G d)).
Proof. by apply/posdef_det/posdef_congr; [move=> v /Jm_inj|exact: fs_posdef]. Qed.

Lemma det_Re (d : 'I_m.+1) : 'Re (\det (Jm G d *m g *m adjm (Jm G d))) = \det (Jm G d *m g *m adjm (Jm G d)).
Proof. by apply/Creal_ReP; rewrite realE ltW // det_pos. Qed.

Lemma A_gt0 d : G 0 d != 0 -> 0 < A.
Proof. by move=> nz; rewrite /A -(vol_lemma _ nz) pmulr_lgt0 ?exprn_gt0 ?normr_gt0 // det_pos. Qed.

Definition wfactor (vol : option C) : C := if vol is Some _ then pi ^+ m / m`!%:R else 1.

Lemma fact_gt0C : 0 < (m`!%:R : C).
Proof. by rewrite ltr0n fact_gt0. Qed.

Lemma wfactor_gt0 vol : 0 < wfactor vol.
Proof. by case: vol => [v|] /=; rewrite ?divr_gt0 ?exprn_gt0 ?fact_gt0C ?ltr01. Qed.

Lemma weights_eq (d : 'I_m.+1) vol : G 0 d != 0 ->
  weights pi zs (row_seq G) (Some (Z.of_nat d)) vol = Ok (wfactor vol / A).
Proof.
move=> nz; have N0 := A_gt0 nz; rewrite /weights parts_eq /A -(vol_lemma g nz) /= det_Re.
case: vol => [v|] /=; congr Ok; last by rewrite mul1r.
move: (\det _) => D; rewrite !invfM !invrK.
by move: (D^-1) (_^-1) (_^-1) (pi ^+ m) => x y z w; ring.
Qed.

Lemma separate_eq (d : 'I_m.+1) vol : G 0 d != 0 ->
  exists dv da, [/\ weights_separate pi zs (row_seq G) (Some (Z.of_nat d)) vol = Ok (dv, da),
    dv = odflt 1 vol / `|G 0 d| ^+ 2, 0 < da &
    dv / da = odflt 1 vol * (wfactor vol / A)].
Proof.
move=> nz; rewrite /weights_separate parts_eq /=; case: vol => [v|] /=; do 2 eexists; split.
- by [].
- by rewrite mulrC.
- by rewrite det_Re mulr_gt0 ?det_pos // divr_gt0 ?exprn_gt0 ?fact_gt0C.
- rewrite det_Re /A -(vol_lemma g nz); move: (\det _) => D; rewrite !invfM !invrK.
  rewrite -!mulrA [RHS]mulrC -!mulrA.
  by move: (D^-1) (m`!%:R^-1) (`|G 0 d|^-1) (pi ^+ m) => x y z w; ring.
- by [].
- by rewrite div1r.
- by rewrite det_Re det_pos.
- by rewrite det_Re /A -(vol_lemma g nz) !mul1r [RHS]invfM mulrC.
Qed.

Lemma weight_auto vol : G != 0 -> exists2 d : 'I_m.+1, G 0 d != 0 &
  weight_parts pi zs (row_seq G) None vol = weight_parts pi zs (row_seq G) (Some (Z.of_nat d)) vol.
Proof.
move=> nz; have [|y|k [E [kn mx _]]] := @argmaxP C [seq `|x| | x <- row_seq G].
- by rewrite -size_eq0 size_map size_row_seq.
- by case/mapP=> x _ ->; rewrite normr_real.
rewrite size_map size_row_seq in kn mx; exists (Ordinal kn); last by rewrite /weight_parts E.
apply: contra_neq nz => k0; apply/rowP => j; apply/eqP; rewrite mxE -normr_le0.
have := mx j (ltn_ord j); rewrite !(nth_map (0 : C)) ?size_row_seq //.
by rewrite (nth_row_seq G j) (nth_row_seq G (Ordinal kn)) k0 normr0.
Qed.
End Weights.

Section Weights2.
Variable C : numClosedFieldType.

Lemma weights_lemma (pi : C) m (zs G : 'rV[C]_m.+1) (d : 'I_m.+1) vol :
  0 < pi -> G 0 d != 0 ->
  let g := fs_metric_real zs in
  let A := \det (g + G^T *m adjm G^T) - \det g in
  let c := if vol is Some _ then pi ^+ m / m`!%:R else 1 in
  [/\ weights pi zs (row_seq G) (Some (Z.of_nat d)) vol = Ok (c / A), 0 < c / A &
      weights pi zs (row_seq G) None vol = Ok (c / A)].
Proof.
move=> p0 nz g A c; split.
- exact: weights_eq.
- exact: divr_gt0 (wfactor_gt0 p0 m vol) (A_gt0 zs nz).
have [|d' nz' E] := @weight_auto C pi m zs G vol.
  by apply: contra_neq nz => ->; rewrite mxE.
by rewrite /weights E -[LHS]/(weights pi zs (row_seq G) (Some (Z.of_nat d')) vol) weights_eq.
Qed.

Lemma separate_lemma (pi : C) m (zs G : 'rV[C]_m.+1) (d : 'I_m.+1) vol :
  0 < pi -> G 0 d != 0 ->
  exists dv da w,
  [/\ weights_separate pi zs (row_seq G) (Some (Z.of_nat d)) vol = Ok (dv, da),
      weights pi zs (row_seq G) (Some (Z.of_nat d)) vol = Ok w,
      dv = odflt 1 vol / `|G 0 d| ^+ 2, 0 < da & dv / da = odflt 1 vol * w].
Proof.
move=> p0 nz; have [dv [da [E1 E2 E3 E4]]] := separate_eq p0 zs vol nz.
exists dv, da; eexists; split=> //; first exact: weights_eq.
exact: E4.
Qed.

Lemma vol_lemma_refuted (pi : C) m (zs G : 'rV[C]_m.+1) (d : 'I_m.+1) v :
  0 < pi -> G 0 d != 0 -> v != 1 ->
  exists dv da w,
  [/\ weights_separate pi zs (row_seq G) (Some (Z.of_nat d)) (Some v) = Ok (dv, da),
      weights pi zs (row_seq G) (Some (Z.of_nat d)) (Some v) = Ok w & w <> dv / da].
Proof.
move=> p0 nz v1; have [dv [da [w [E1 E2 E3 E4 E5]]]] := separate_lemma zs (Some v) p0 nz.
exists dv, da, w; split=> //; rewrite E5 /= => E.
have [E6 w0 _] := weights_lemma zs (Some v) p0 nz; move: E6; rewrite E2 => -[E6].
rewrite -E6 in w0; case/eqP: v1; apply: (mulIf (lt0r_neq0 w0)); by rewrite mul1r -E.
Qed.

Lemma weights_example : let G := \row_(i < 2) (i.+1%:R : C) in
  G 0 1 != 0 /\ weights 1 (0 : 'rV[C]_2) (row_seq G) (Some 1%Z) None = Ok 5%:R^-1.
Proof.
move=> G; have nz : G 0 1 != 0 by rewrite mxE pnatr_eq0.
split=> //; rewrite -[1%Z]/(Z.of_nat (1 : 'I_2)) weights_eq ?ltr01 //; congr Ok.
rewrite mul1r; congr (_^-1).
have -> : fs_metric_real (0 : 'rV[C]_2) = 1%:M.
  have N1 : norm2p1 (0 : 'rV[C]_2) (conj_row 0) = 1.
    by rewrite /norm2p1 big1 ?addr0 // => i _; rewrite mxE mul0r.
  by apply/matrixP => i j; rewrite !mxE N1 expr1n divr1 mulr1 mulr0 subr0.
rewrite det1 (expand_det_row _ 0) !big_ord_recl big_ord0 /cofactor !det_mx11 !mxE /=.
rewrite !big_ord1 !mxE /= !conjC_nat /bump /= ?addn0 ?add0n expr0 expr1; ring.
Qed.
End Weights2.

Section Solve.
Variable C : numClosedFieldType.
Variable norm : expr C -> expr C.
Variable visit : expr C -> seq sym.
Variable terms : poly C -> sym -> seq (nat * expr C).
Variable roots : seq C -> seq C.

Lemma roll_insert (z : seq C) (k : nat) r : (k <= size z)%N ->
  roll (rcons (roll z (- Z.of_nat k)) r) (Z.of_nat k + 1) = take k z ++ r :: drop k z.
Proof.
move=> kz; rewrite -[RHS](@insert_1d_pos C z [:: r] k) // /insert_1d.
have -> : (Z.of_nat k <? 0)%Z = false by lia.
by rewrite -cats1.
Qed.

(** The subscripts left over. *)
Lemma range_without n (p : nat) : (p < n)%N ->
  [seq i <- [seq Z.of_nat i | i <- iota 0 n] | i != Z.of_nat p] =
  [seq Z.of_nat i | i <- iota 0 p ++ iota p.+1 (n - p.+1)].
Proof.
move=> pn; have -> : iota 0 n = iota 0 p ++ p :: iota p.+1 (n - p.+1).
  by rewrite -[p :: _]/(iota p (n - p.+1).+1) -iotaD; congr iota; lia.
rewrite map_cat filter_cat /= eqxx /= map_cat; congr (_ ++ _); apply/all_filterP/allP => z /mapP[i].
  by rewrite mem_iota => ip ->; apply/eqP; lia.
by rewrite mem_iota => ip ->; apply/eqP; lia.
Qed.

Lemma nth_without n (p k : nat) : (p < n)%N -> (k < n.-1)%N ->
  nth 0%N (iota 0 p ++ iota p.+1 (n - p.+1)) k = Z.to_nat (index_affine_to_hom (Z.of_nat p) (Z.of_nat k)).
Proof.
move=> pn kn; rewrite nth_cat size_iota /index_affine_to_hom; case: ltnP => kp.
  by rewrite nth_iota //; case: ifP; lia.
by rewrite nth_iota; [case: ifP|]; lia.
Qed.

Lemma filter_other (T : eqType) (s : seq T) x0 k : uniq s -> (k < size s)%N ->
  [seq x <- s | x != nth x0 s k] = take k s ++ drop k.+1 s.
Proof.
move=> us ks; have : s = take k s ++ nth x0 s k :: drop k.+1 s by rewrite -drop_nth // cat_take_drop.
move: (nth x0 s k) (take k s) (drop k.+1 s) => x a b Es; move: us; rewrite Es cat_uniq /= negb_or.
case/and3P=> _ /andP[n1 _] /andP[n2 _]; rewrite filter_cat /= eqxx.
by congr (_ ++ _); apply/all_filterP/allP => y yi; apply: contraTneq yi => ->.
Qed.

Lemma solve_core (P : poly C) H n p dep zs ps :
  norm_ok norm -> visit_ok visit ->
  hom_ok P -> hom_init P = Ok H -> variable_indices P = dim_indices [:: n] -> (2 < n)%N ->
  (p < n)%N -> (dep < n.-1)%N -> size zs = n.-2 -> size ps = size (parameters P) ->
  let s := merge_subscript (head [::] (variable_names P)) (index_affine_to_hom (Z.of_nat p) (Z.of_nat dep)) in
  let A := affine_build norm P [:: Z.of_nat p] in
  let D := (\max_(t <- terms A s) t.1)%N in
  let pt x := take dep zs ++ x :: drop dep zs in
  terms_ok A s (terms A s) ->
  exists ws, [/\ size ws = D.+1,
    (forall x, defining norm H (pt x) (PArr ps) (PatchInt C (Z.of_nat p)) = Ok (horner_desc ws x)) &
    solve_defining norm visit terms roots H zs ps (Z.of_nat dep) (Some (Z.of_nat p)) = Ok [seq pt r | r <- roots ws]].
Proof.
move=> nk ov hP hi Ei n2 pn dn sz sps s A D pt ok_t.
have rng : (0 <= index_affine_to_hom (Z.of_nat p) (Z.of_nat dep) < Z.of_nat n)%Z.
  by clear -pn dn; rewrite /index_affine_to_hom; case: ifP; lia.
have rngn : (Z.to_nat (index_affine_to_hom (Z.of_nat p) (Z.of_nat dep)) < n)%N by clear -rng; lia.
have rng0 : (0 <= index_affine_to_hom (Z.of_nat p) (Z.of_nat dep))%Z by case: rng.
have dz : (dep <= size zs)%N by clear -sz dn; rewrite sz; lia.
have [wP _ _ uP] := hP.
have [nm En] : exists nm, variable_names P = [:: nm].
  have [[_ _ e _] _ _] := wP; move: e; rewrite Ei; case: (variable_names P) => [//|nm [|]] // _.
  by exists nm.
pose l := [seq Z.of_nat i | i <- iota 0 n].
have Ei' : variable_indices P = [:: Some l] by rewrite Ei.
have vp : valid_patch [:: n] [:: Z.of_nat p] by rewrite /valid_patch /= andbT; apply/andP; split; lia.
pose is0 := iota 0 p ++ iota p.+1 (n - p.+1).
pose l' := [seq Z.of_nat i | i <- is0].
have sis : size is0 = n.-1 by rewrite size_cat !size_iota; lia.
have An : variable_names A = [:: nm] by rewrite /A /= En.
have Ai : variable_indices A = [:: Some l'].
  by rewrite /A /= Ei' /= range_without.
have pin : patch_in P [:: Z.of_nat p].
  by rewrite /patch_in /index_lists Ei' /= andbT; apply/mapP; exists p; rewrite // mem_iota.
have [j jn jp] : exists2 j, (j < n)%N & j <> p.
  by exists (p == 0%N : nat); case: (p =P 0%N) => /=; lia.
have re : remains P [:: Z.of_nat p].
  rewrite /remains /index_lists Ei' /= orbF; apply/hasP; exists (Z.of_nat j).
    by apply/mapP; exists j; rewrite // mem_iota add0n jn.
  by apply/eqP; lia.
have [wA _] := affine_value nk hP pin re.
have uA : uniq (all_symbols A).
  move: uP; rewrite /all_symbols /var_symbols An Ai En Ei' /= !cats0; apply: subseq_uniq.
  by apply: cat_subseq => //; apply: map_subseq; rewrite /l' -range_without // filter_subseq.
have cA : check_signature [::] (variable_names A) = Ok tt.
  move: hi; rewrite An /hom_init En /check_signature; case: ifP => //= /and3P[/andP[-> _] h _] _.
  by move: h; rewrite !inE !negb_or => /andP[->].
pose vs := [seq merge_subscript nm i | i <- l'].
have svs : size vs = n.-1 by rewrite !size_map sis.
have Es : s = nth [::] vs dep.
  rewrite /s En /= /vs (nth_map 0%Z) ?size_map ?sis // (nth_map 0%N) ?sis // nth_without //.
  congr merge_subscript; rewrite Z2Nat.id // /index_affine_to_hom; case: ifP; lia.
have svs_in : s \in vs by rewrite Es mem_nth // svs.
have sp : s \notin parameters A.
  by apply: contraL svs_in; exact: (@par_notin_vs _ _ _ _ uA An Ai).
have uvs : uniq vs by have [] := uniq_vs uA An Ai.
have Evs' : [seq x <- vs | x != s] = take dep vs ++ drop dep.+1 vs.
  by rewrite Es filter_other // svs.
have Eo : other_vars A s = [:: (nm, Some [seq i <- l' | merge_subscript nm i != s])].
  rewrite /other_vars An Ai /= /drop_var /=; case: ifP => // /allP al.
  have /(congr1 size) : [seq x <- vs | x != s] = [::].
    by apply/eqP; rewrite -[_ == _]negbK -has_filter; apply/hasPn => x /al /= ->.
  by rewrite Evs' size_cat size_drop size_take svs /=; case: ifP; lia.
have ov' : (other_vars A s != [::]) || all (fun t => nilp (esyms t.2)) (terms A s) by rewrite Eo.
have [cs [Ec sc mt ev]] := univ_main nk wA uA cA ov sp ok_t ov'.
have spt x : size (pt x) = size l'.
  by rewrite size_cat /= size_drop size_take size_map sis sz; case: ifP; lia.
pose rho x := asg A nm l' (pt x) ps.
have Ers x : map (rho x) vs = pt x by exact: (asg_vs uA An Ai).
have rs x : rho x s = x.
  have := congr1 (fun t => nth 0 t dep) (Ers x); rewrite (nth_map [::]) ?svs // -Es => ->.
  rewrite /pt nth_cat size_take sz; have -> : (if dep < n.-2 then dep else n.-2)%N = dep by case: ifP; lia.
  by rewrite ltnn subnn.
have st : size (take dep zs) = dep.
  by rewrite size_takel // sz; lia.
have rz x : map (rho x) [seq merge_subscript nm i | i <- l' & merge_subscript nm i != s] = zs.
  have -> : [seq merge_subscript nm i | i <- l' & merge_subscript nm i != s] = [seq x <- vs | x != s].
    by rewrite /vs [RHS]filter_map; congr map; apply: eq_filter.
  rewrite Evs' map_cat map_take map_drop (Ers x) /pt take_cat st ltnn subnn take0 cats0.
  by rewrite drop_cat st ltnNge leqnSn /= subSnn /= drop0 cat_take_drop.
have same x k : (k < size cs)%N -> coeff_eval (nth (UNum 0) cs k) (rho x) =
    match nth (UNum 0) cs k with
    | UNum y => Ok y
    | UPoly Q => call_num Q [:: PArr zs; PArr ps] [::]
    end.
  move=> _; case EQ: nth => [//|Q]; have [wQ nQ iQ pQ] := mt _ _ EQ.
  rewrite /= /var_inputs nQ iQ Eo /= /var_input /= cats0 /par_input pQ.
  have -> : [seq rho x i | i <- parameters A] = ps by exact: (asg_par uA An Ai).
  by have := rz x; rewrite -map_comp => Ez; congr (call_num _ [:: PArr _; _] _).
pose cc (c : coefficient C) := match c with UNum y => Ok y | UPoly Q => call_num Q [:: PArr zs; PArr ps] [::] end.
have same' x : [seq coeff_eval c (rho x) | c <- cs] = [seq cc c | c <- cs].
  by apply: (@eq_from_nth _ (Ok 0)); rewrite !size_map // => i ni; rewrite !(nth_map (UNum 0)) // same.
have [ws [Ew sw _]] := ev (rho 0); rewrite same' in Ew.
have vx x : value A (rho x) = horner_desc ws x.
  have [ws' [Ew' sw' ->]] := ev (rho x); move: Ew'; rewrite same' Ew => -[Eww].
  by rewrite /horner_desc sw Eww; apply: eq_bigr => k _; rewrite rs.
have df x : defining norm H (pt x) (PArr ps) (PatchInt C (Z.of_nat p)) = Ok (horner_desc ws x).
  rewrite (defining_call norm _ _ _ hi En) -vx.
  have cx : call_num A [:: PArr (pt x); PArr ps] [::] = Ok (value A (rho x)).
    by rewrite (call_F wA uA An Ai).
  have [||||//|v [E1 E2]] := @transform_valid C norm nk P H [:: n] [:: pt x] ps [:: Z.of_nat p] hP hi Ei.
  - by rewrite /=; lia.
  - by [].
  - by case=> //= _; rewrite spt size_map sis.
  - by [].
  have [||||//|v' [E3 E4]] := @affine_consecutive C norm nk P [:: n] [:: Z.of_nat p] [:: pt x] ps hP Ei.
  - by [].
  - by rewrite /=; lia.
  - by [].
  - by case=> //= _; rewrite spt size_map sis.
  move: E1 E2 E3 E4 => /= -> -> E3 [->]; rewrite -E3; exact: cx.
exists ws; split=> //; first by rewrite sw sc.
have [E0 cok] := init_ok norm hi.
have [|H' EH _] := @affine_poly_valid C norm H [:: Z.of_nat p] cok; first by rewrite E0 (one_var_dims Ei') size_map size_iota.
rewrite /solve_defining EH /= E0 En Ei' /= -/A size_map size_map size_iota.
rewrite py_pos_in // /= (nth_map 0%Z) ?size_map ?size_iota // (nth_map 0%N) ?size_iota //.
rewrite nth_iota // add0n Z2Nat.id //.
have -> : merge_subscript nm (index_affine_to_hom (Z.of_nat p) (Z.of_nat dep)) = s by rewrite /s En.
by rewrite Ec /= -/cc Ew /=; congr Ok; apply: eq_map => r; exact: roll_insert.
Qed.

Lemma solve_main (P : poly C) H n p dep zs ps :
  norm_ok norm -> visit_ok visit -> roots_ok roots ->
  hom_ok P -> hom_init P = Ok H -> variable_indices P = dim_indices [:: n] -> (2 < n)%N ->
  (p < n)%N -> (dep < n.-1)%N -> size zs = n.-2 -> size ps = size (parameters P) ->
  let s := merge_subscript (head [::] (variable_names P)) (index_affine_to_hom (Z.of_nat p) (Z.of_nat dep)) in
  let A := affine_build norm P [:: Z.of_nat p] in
  let D := (\max_(t <- terms A s) t.1)%N in
  let pt x := take dep zs ++ x :: drop dep zs in
  terms_ok A s (terms A s) ->
  exists q : {poly C},
    [/\ forall x, defining norm H (pt x) (PArr ps) (PatchInt C (Z.of_nat p)) = Ok q.[x],
        (size q <= D.+1)%N &
        size q = D.+1 ->
        exists pts, [/\ solve_defining norm visit terms roots H zs ps (Z.of_nat dep) (Some (Z.of_nat p)) = Ok pts,
          size pts = D &
          forall z, z \in pts -> exists2 r, z = pt r & q.[r] = 0]].
Proof.
move=> nk ov or_ hP hi Ei n2 pn dn sz sps s A D pt ok_t.
have [ws [sw df Es]] := solve_core nk ov hP hi Ei n2 pn dn sz sps ok_t; rewrite -/A -/s -/D in sw.
exists (desc_poly ws); split=> [x||sq]; first by rewrite desc_polyE df.
  by rewrite -sw size_desc.
have h0 : head 0 ws != 0.
  rewrite -nth0 -(subnn D.+1) -{1}sw -desc_coef ?sw //.
  by have := lead_coefE (desc_poly ws); rewrite sq /= => <-; rewrite lead_coef_eq0 -size_poly_eq0 sq.
have [||sr ar] := or_ ws; rewrite ?sw //.
exists [seq pt r | r <- roots ws]; split=> //; first by rewrite size_map sr sw.
by move=> z /mapP[r rr ->]; exists r => //; rewrite desc_polyE; apply/eqP/(allP ar).
Qed.
End Solve.

Section Best.
Variable C : numClosedFieldType.
Variable norm : expr C -> expr C.

Lemma best_dependent_err grad (H : hompoly C) zs params patch :
  is_ok (best_dependent norm grad H zs params patch) = false.
Proof. by rewrite /best_dependent; case: grad_defining. Qed.

(** Already the gradient is requested with the wrong arguments. *)
Lemma best_swapped grad (H : hompoly C) zs (ps : seq C) p :
  best_dependent norm grad H zs (PArr ps) (PatchInt C p) = Err TypeError.
Proof. by []. Qed.

Lemma solve_none (visit : expr C -> seq sym) (terms : poly C -> sym -> seq (nat * expr C)) (roots : seq C -> seq C)
    H zs ps dep : solve_defining norm visit terms roots H zs ps dep None = Err TypeError.
Proof. by []. Qed.
End Best.

Section Roots.
Variable C : numClosedFieldType.

Lemma closed_roots_lemma : roots_ok (fun cs : seq C => sval (closed_field_poly_normal (desc_poly cs))).
Proof.
move=> cs c0 h0; case: closed_field_poly_normal => r /= E.
have sp : size (desc_poly cs) = size cs.
  apply/eqP; rewrite eqn_leq size_desc /=; case: leqP => // lt.
  have := desc_coef (k := (size cs).-1) (cs := cs); rewrite prednK // leqnn subnn nth0 => /(_ isT) E0.
  by move: h0; rewrite -E0 nth_default ?eqxx // -ltnS prednK.
have l0 : lead_coef (desc_poly cs) != 0 by rewrite lead_coef_eq0 -size_poly_eq0 sp -lt0n.
split.
  by have := congr1 (fun p : {poly C} => (size p).-1) E; rewrite sp size_scale // size_prod_XsubC /= => ->.
apply/allP => x xr; rewrite -desc_polyE E hornerZ horner_prod (big_rem x) //= hornerXsubC subrr.
by rewrite mul0r mulr0.
Qed.
End Roots.
