(** When the matrix inverted by a Donaldson step is invertible. *)
From Coq Require Import ZArith Lia Classical_Prop.
From mathcomp Require Import all_ssreflect all_algebra.
From mathcomp Require Import zify ssrZ ring.
From SsrMultinomials Require Import mpoly.
From Verif Require Import Base ModelUtil ModelProjective SpecMon ModelExpr ModelPoly ModelHom ModelBasis ModelGeom ModelDonaldson ModelVariety ModelDiff ModelAlg ModelPipe
  Bridge Deriv Herm SpecGeom SpecBasis SpecSections SpecPatch SpecAlg SpecPipe SpecDonaldson SpecRank PolyGrad ProofSections
  ProofBasis ProofBasis3 ProofDonaldson ProofDonaldson2 ProofPatch ProofAlg ProofAlg6 ProofReduce ProofReduce2.
Delimit Scope Z_scope with Z.

Set Implicit Arguments.
Unset Strict Implicit.
Unset Printing Implicit Defensive.

Import GRing.Theory Num.Theory Order.POrderTheory.
Local Open Scope ring_scope.

Section Sample.
Variables (C : numClosedFieldType) (N : nat).
Notation sample := (sample C N).

Lemma T_kernel (h : 'M[C]_N) vol (pts : seq sample) (v : 'rV[C]_N) :
  (forall p, p \in pts -> weight p * (\sum_a v 0 a * p.1 0 a) = 0) -> v *m T_of h vol pts = 0.
Proof.
move=> H; apply/rowP => b; rewrite !mxE.
transitivity (N%:R / vol * ((\sum_(p <- pts) (weight p * \sum_a v 0 a * p.1 0 a) * ((p.1 0 b)^* / hform h p.1)) / (size pts)%:R)).
  under [in RHS]eq_bigr => p _ do rewrite mulr_sumr mulr_suml.
  rewrite exchange_big /= mulr_suml mulr_sumr; apply: eq_bigr => a _; rewrite mxE mulrCA; congr (_ * _).
  rewrite mulrA; congr (_ * _); rewrite mulr_sumr; apply: eq_bigr => p _; rewrite !mulrA; congr (_ * _ * _).
  by rewrite [v 0 a * _]mulrC.
by rewrite big_seq big1 ?mul0r ?mulr0 // => p /H ->; rewrite mul0r.
Qed.

Lemma T_unit (h : 'M[C]_N) vol (pts : seq sample) : hermitian h -> posdef h -> 0 < vol ->
  (forall p, p \in pts -> 0 <= weight p /\ p.1 != 0) -> T_of h vol pts \in unitmx <-> spanning pts.
Proof.
move=> hh ph v0 wp; split=> [Tu v vn|sp].
  have [/hasP[p pin /andP[w0 s0]]|/hasPn no] := boolP (has (fun p : sample => (0 < weight p) && (\sum_a v 0 a * p.1 0 a != 0)) pts).
    by exists p.
  case/negP: vn; apply/eqP.
  suff E : v *m T_of h vol pts = 0 by rewrite -[v](mulmxK Tu) E mul0mx.
  apply: T_kernel => p pin; have := no p pin; rewrite negb_and negbK => /orP[|/eqP ->]; last by rewrite mulr0.
  have [w0 _] := wp p pin; rewrite lt_def w0 andbT negbK => /eqP ->; by rewrite mul0r.
have eb : equal_batches [:: pts] by exists (size pts) => b; rewrite inE => /eqP ->.
have fl : flatten [:: pts] = pts by rewrite /= cats0.
have [B H] := (equalP [:: pts]).1 eb.
rewrite -[in T_of _ _ _]fl -T_ofE //; apply: posdef_unit; apply: (T_posdef H); rewrite ?fl // => p /wp[] // _ s0.
by rewrite den_hform // ph.
Qed.

Lemma span_size (pts : seq sample) : spanning pts -> (N <= size pts)%N.
Proof.
move=> sp; rewrite leqNgt; apply/negP => lt.
pose A : 'M[C]_(N, size pts) := \matrix_(a, j) (tnth (in_tuple pts) j).1 0 a.
have : \rank (kermx A) != 0%N by rewrite mxrank_ker -lt0n subn_gt0 (leq_ltn_trans (rank_leq_col A)).
rewrite mxrank_eq0 => /rowV0Pn[v /sub_kermxP vA vn].
have [p pin [_ /negP[]]] := sp v vn; apply/eqP.
have /seq_tnthP[j ->] := pin; transitivity ((v *m A) 0 j); last by rewrite vA mxE.
by rewrite mxE; apply: eq_bigr => a _; rewrite mxE.
Qed.
End Sample.

Section Hyper.
Variable C : numClosedFieldType.
Variables (m : nat) (V : variety C) (ps : seq C) (Q : {mpoly C[m.+2]}).
Hypothesis hQ : defined_by V ps Q.

Lemma point_onE (x : 'rV[C]_m.+2) : point_on V ps x <-> x != 0 /\ peval Q x = 0.
Proof. by rewrite /point_on hQ; split=> -[x0]; [case|move=> ->]. Qed.

Lemma T_mean_of B (h : 'M[C]_(size (power_matrix B))) vol W zs :
  T_of h vol [seq (hom_sections B z, Some (W z)) | z <- zs] = T_mean h vol W zs.
Proof. by apply/matrixP => a b; rewrite !mxE size_map big_map. Qed.

Lemma sec_mono B (v : 'rV[C]_(size (power_matrix B))) (x : 'rV[C]_m.+2) :
  \sum_a v 0 a * hom_sections B (row_seq x) 0 a =
  peval (\sum_a v 0 a *: mono C m.+1 (nth [::] (power_matrix B) a)) x.
Proof.
rewrite /peval raddf_sum /=; apply: eq_bigr => a _; rewrite mevalZ; congr (_ * _).
by rewrite mxE size_row_seq /mono mevalX; apply: eq_bigr => j _; rewrite nth_row_seq mnmE.
Qed.

Lemma form_coords B f : uniq (power_matrix B) -> (forall v, v \in power_matrix B -> size v = m.+2) ->
  supported (power_matrix B) f ->
  exists v : 'rV[C]_(size (power_matrix B)), f = \sum_a v 0 a *: mono C m.+1 (nth [::] (power_matrix B) a).
Proof.
move=> uB sB sf; exists (\row_a f@_(mn m.+2 (nth [::] (power_matrix B) a))).
have szB : all (fun v => size v == m.+2) (power_matrix B) by apply/allP => v /sB ->.
rewrite {1}(supported_sum uB szB sf) (big_nth [::]) big_mkord; apply: eq_bigr => a _.
by rewrite mxE.
Qed.

Lemma coords_zero B (v : 'rV[C]_(size (power_matrix B))) : uniq (power_matrix B) ->
  (forall v, v \in power_matrix B -> size v = m.+2) ->
  \sum_a v 0 a *: mono C m.+1 (nth [::] (power_matrix B) a) = 0 -> v = 0.
Proof.
move=> uB sB E; apply/rowP => b; rewrite [RHS]mxE.
have := congr1 (fun p : {mpoly C[m.+2]} => p@_(mn m.+2 (nth [::] (power_matrix B) b))) E.
rewrite mcoeff0 raddf_sum (bigD1 b) //= big1 => [|a ab]; last first.
  rewrite mcoeffZ /mono mcoeffX -/(mn m.+2 _); case: eqP => [|_]; last by rewrite mulr0.
  move=> /(congr1 (fun u : 'X_{1..m.+2} => (u : seq nat))); rewrite !mnK ?sB ?mem_nth //.
  by move/eqP; rewrite nth_uniq // => /eqP/val_inj ba; move: ab; rewrite ba eqxx.
by rewrite addr0 mcoeffZ /mono mcoeffX -/(mn m.+2 _) eqxx mulr1.
Qed.

Lemma homog_supported k F (f : {mpoly C[m.+2]}) : basis_full m.+1 k = Ok F -> f \is k.-homog ->
  supported (power_matrix F) f.
Proof.
move=> hF /dhomogP hf u /hf E; have {}E : mdeg u = k := E; apply/(full_mem hF); split; first by rewrite size_tuple.
by rewrite -[RHS]E mdegE; apply: eq_bigr => j _; rewrite /fun_of_multinom (tnth_nth 0%N).
Qed.

Lemma full_uniq k F : basis_full m.+1 k = Ok F -> uniq (power_matrix F).
Proof. by rewrite /basis_full basisE => -[<-]; exact: uniq_mons. Qed.

Lemma full_vector k e F : Q != 0 -> Q \is e.-homog -> (e <= k)%N -> basis_full m.+1 k = Ok F ->
  exists2 v : 'rV[C]_(size (power_matrix F)), v != 0 &
  forall x : 'rV[C]_m.+2, point_on V ps x -> \sum_a v 0 a * hom_sections F (row_seq x) 0 a = 0.
Proof.
move=> Q0 HQ ek hF; pose f : {mpoly C[m.+2]} := 'X_ord0 ^+ (k - e) * Q.
have hf : f \is k.-homog.
  suff : f \is (k - e + e).-homog by rewrite subnK.
  by apply: dhomogM => //; rewrite mpolyXn dhomogX /= mdegMn mdeg1 mul1n.
have [|v E] := form_coords (full_uniq hF) _ (homog_supported hF hf).
  by move=> v /(full_mem hF)[].
exists v => [|x /point_onE[_ Qx]]; last by rewrite sec_mono -E /f /peval rmorphM /= -/(peval Q x) Qx mulr0.
apply/eqP => v0; have : f != 0 by rewrite mulf_neq0 // mpolyXn -msupp_eq0 msuppX.
by rewrite E v0 big1 ?eqxx // => a _; rewrite mxE scale0r.
Qed.

Lemma reduced_iff k e B : Q != 0 -> Q \is e.-homog -> (forall i, variable_occurs Q i) -> basis_reduced Q k = Ok B ->
  independent_on V ps m B <-> forall f : {mpoly C[m.+2]}, f \is k.-homog -> vanishes_on V ps f -> exists q, f = q * Q.
Proof.
move=> Q0 HQ occ hB; have [F [hF _ _ _ _]] := full_class m.+1 k.
have [uB sB bm] := red_facts Q0 HQ occ hB.
have szB v : v \in power_matrix B -> size v = m.+2 by move=> /sB[].
split=> [ind f hf vf|H v vx].
  have [r [sr [q E]] _] := bm f hf; have [v rE] := form_coords uB szB sr.
  have v0 : v = 0; last first.
    by exists q; rewrite E rE v0 big1 ?addr0 // => a _; rewrite mxE scale0r.
  apply: ind => x px; rewrite sec_mono -rE; have := vf x px; rewrite E /peval mevalD mevalM.
  by have [_] := (point_onE x).1 px; rewrite /peval => ->; rewrite mulr0 add0r.
set r := \sum_a v 0 a *: mono C m.+1 (nth [::] (power_matrix B) a).
have hr : r \is k.-homog.
  by rewrite rpred_sum // => a _; rewrite rpredZ //; apply: (@class_homog C m.+1 k B); right; exists Q, e.
have sr : supported (power_matrix B) r.
  move=> u; rewrite mcoeff_msupp; apply: contraNT => nu; rewrite raddf_sum big1 // => a _.
  rewrite /= mcoeffZ /mono mcoeffX -/(mn m.+2 _); case: eqP => [uE|_]; last by rewrite mulr0.
  by case/negP: nu; rewrite -uE mnK ?szB ?mem_nth.
have [|q E] := H r hr; first by move=> x px; rewrite -sec_mono vx.
have [r0 _ un] := bm r hr.
have r1 : r = r0 by apply: un => //; exists 0; rewrite mul0r add0r.
have r2 : 0 = r0 by apply: un; [move=> u; rewrite msupp0|exists q; rewrite addr0].
by apply: (coords_zero uB szB); rewrite -/r r1 -r2.
Qed.

(** On a sample *)
Lemma mean_singular B (h : 'M[C]_(size (power_matrix B))) vol W zs (v : 'rV[C]_(size (power_matrix B))) : v != 0 ->
  (forall x : 'rV[C]_m.+2, point_on V ps x -> \sum_a v 0 a * hom_sections B (row_seq x) 0 a = 0) ->
  points_on V ps m zs -> T_mean h vol W zs \notin unitmx.
Proof.
move=> vn H on; apply/negP => Tu; case/negP: vn; apply/eqP.
suff E : v *m T_mean h vol W zs = 0 by rewrite -[v](mulmxK Tu) E mul0mx.
rewrite -T_mean_of; apply: T_kernel => p /mapP[z zi ->] /=.
by have [x [zE x0 hx]] := on z zi; rewrite zE H ?mulr0 //; split=> //; rewrite -zE.
Qed.

Lemma mean_unit B (h : 'M[C]_(size (power_matrix B))) vol W zs : hermitian h -> posdef h -> 0 < vol ->
  (forall z, z \in zs -> 0 < W z /\ hom_sections B z != 0) ->
  T_mean h vol W zs \in unitmx <-> (forall v : 'rV[C]_(size (power_matrix B)),
    (forall z, z \in zs -> \sum_a v 0 a * hom_sections B z 0 a = 0) -> v = 0).
Proof.
move=> hh ph v0 Wp; rewrite -T_mean_of T_unit //; last by move=> p /mapP[z /Wp[w0 s0] ->]; split; rewrite // ltW.
split=> [sp v H|H v vn].
  apply/eqP/negPn/negP => /sp[p /mapP[z zi ->]] /= [_]; by rewrite H ?eqxx.
have [/hasP[z zi sz]|/hasPn no] := boolP (has (fun z => \sum_a v 0 a * hom_sections B z 0 a != 0) zs).
  by exists (hom_sections B z, Some (W z)); [apply/mapP; exists z|have [] := Wp z zi].
by case/eqP: vn; apply: H => z /no; rewrite negbK => /eqP.
Qed.

Lemma rank_grow B n : independent_on V ps m B -> (n <= size (power_matrix B))%N ->
  exists2 zs, size zs = n & points_on V ps m zs /\
  exists A : 'M[C]_(n, size (power_matrix B)), row_free A /\ forall i, row i A = hom_sections B (nth [::] zs i).
Proof.
move=> ind; elim: n => [|n IH] ln; first by exists [::] => //; split=> //; exists 0; split=> [|[]//]; rewrite /row_free mxrank0.
have [zs sz [on [A [fA rA]]]] := IH (ltnW ln).
have : \rank (kermx A^T) != 0%N by rewrite mxrank_ker mxrank_tr (eqP fA) -lt0n subn_gt0.
rewrite mxrank_eq0 => /rowV0Pn[v /sub_kermxP vA vn].
have [x [px sx]] : exists x : 'rV[C]_m.+2, point_on V ps x /\ \sum_a v 0 a * hom_sections B (row_seq x) 0 a <> 0.
  apply: NNPP => no; case/eqP: vn; apply: ind => x px; apply: NNPP => sx; apply: no; by exists x.
exists (rcons zs (row_seq x)); first by rewrite size_rcons sz.
split.
  move=> z; rewrite mem_rcons inE => /orP[/eqP ->|/on //]; by have [x0 hx] := px; exists x.
pose s := hom_sections B (row_seq x).
have sv : (s *m v^T) 0 0 = \sum_a v 0 a * s 0 a by rewrite mxE; apply: eq_bigr => a _; rewrite [v^T _ _]mxE mulrC.
exists (\matrix_(i < n.+1) hom_sections B (nth [::] (rcons zs (row_seq x)) i)); split=> [|i]; last by rewrite rowK.
apply: inj_row_free => w; rewrite mulmx_sum_row big_ord_recr /= rowK nth_rcons sz ltnn eqxx -/s => E.
have {}E : \sum_(i < n) w 0 (widen_ord (leqnSn n) i) *: row i A + w 0 ord_max *: s = 0.
  rewrite -[RHS]E; congr (_ + _); apply: eq_bigr => i _; congr (_ *: _).
  by rewrite rowK rA /= nth_rcons sz ltn_ord.
have Av i : row i A *m v^T = 0.
  by rewrite -row_mul -[A in A *m _]trmxK -trmx_mul vA trmx0 row0.
have wl : w 0 ord_max = 0.
  have /matrixP/(_ 0 0) := congr1 (fun u => u *m v^T) E; rewrite mulmxDl mulmx_suml big1 => [|i _]; last first.
    by rewrite -scalemxAl Av scaler0.
  by rewrite add0r mul0mx -scalemxAl mxE sv mxE => /eqP; rewrite mulf_eq0 => /orP[/eqP //|/eqP].
have w0 : \row_i w 0 (widen_ord (leqnSn n) i) = 0 :> 'rV[C]_n.
  apply: (row_free_inj fA); rewrite mul0mx mulmx_sum_row -[RHS]E wl scale0r addr0.
  by apply: eq_bigr => i _; rewrite mxE.
apply/rowP => i; rewrite mxE; case: (unliftP ord_max i) => [k ->|-> //].
have /rowP/(_ k) := w0; rewrite !mxE => <-; congr (w 0 _); apply: val_inj; exact: lift_max.
Qed.

Lemma good_sample B : independent_on V ps m B ->
  exists zs, [/\ size zs = size (power_matrix B), points_on V ps m zs &
  forall (h : 'M[C]_(size (power_matrix B))) vol W, hermitian h -> posdef h -> 0 < vol ->
  (forall z, z \in zs -> 0 < W z) -> T_mean h vol W zs \in unitmx].
Proof.
move=> ind; have [zs sz [on [A [fA rA]]]] := rank_grow ind (leqnn _).
exists zs; split=> // h vol W hh ph v0 Wp; apply/mean_unit => // [z zi|v H].
  split; first exact: Wp.
  have /(nthP [::])[i li <-] := zi; rewrite sz in li; rewrite -(rA (Ordinal li)).
  apply/eqP => r0; have : delta_mx 0 (Ordinal li) = 0 :> 'rV[C]_(size (power_matrix B)).
    by apply: (row_free_inj fA); rewrite mul0mx -rowE.
  by move/rowP/(_ (Ordinal li))/eqP; rewrite !mxE !eqxx oner_eq0.
have : A *m v^T = 0.
  apply/colP => i; rewrite [RHS]mxE -[RHS](H (nth [::] zs i)) ?mem_nth ?sz // -(rA i) mxE.
  by apply: eq_bigr => a _; rewrite !mxE mulrC.
move=> E; have fu : A \in unitmx by rewrite -row_free_unit.
by apply: (can_inj (@trmxK _ _ _)); rewrite -[v^T](mulKmx fu) E mulmx0 trmx0.
Qed.
End Hyper.
