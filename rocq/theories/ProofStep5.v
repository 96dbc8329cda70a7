(** Weight in subspaces: what a balanced metric says about it, and the bound of
    the energy by the ratio of eigenvalues. *)
From Coq Require Import ZArith Lia.
From mathcomp Require Import all_ssreflect all_algebra zify ssrZ ring.
From mathcomp Require Import perm.
From Verif Require Import Base Herm Herm2 Herm3 Herm4 ModelDonaldson SpecDonaldson SpecStep ProofDonaldson2
  PolyGrad ProofDonaldson3 ProofDonaldson4 ProofDonaldson5 Limits ProofStep3.
Delimit Scope Z_scope with Z.

Set Implicit Arguments.
Unset Strict Implicit.
Unset Printing Implicit Defensive.

Import GRing.Theory Num.Theory Order.POrderTheory.
Local Open Scope ring_scope.

(** ** The orthogonal projection onto a subspace *)
Section Proj.
Variables (C : numClosedFieldType) (n : nat) (h V : 'M[C]_n).
Hypotheses (hh : hermitian h) (ph : posdef h).

Lemma orth_proj : exists P : 'M[C]_n, [/\ P *m P = P,
  forall v : 'rV[C]_n, (v <= V)%MS -> v *m P = v, (\rank P = \rank V)%N,
  \tr (invmx h *m (P *m h *m adjm P)) = (\rank V)%:R &
  forall v, hform h v = hform h (v *m P) + hform h (v *m (1%:M - P))].
Proof.
have [B [fB eB]] : exists B : 'M[C]_(\rank V, n), row_free B /\ (B :=: V)%MS.
  by exists (row_base V); split; [exact: row_base_free|exact: eq_row_base].
pose G := B *m h *m adjm B.
have uG : G \in unitmx.
  apply: posdef_unit; apply: posdef_congr ph => v vB.
  apply/eqP; rewrite -[v == 0](mulmx_free_eq0 v fB); exact/eqP.
have hG : adjm G = G by apply/hermitianP/hermitian_congr.
have aH : adjm h = h by apply/hermitianP.
pose P := h *m adjm B *m invmx G *m B.
have BP : B *m P = B by rewrite /P !mulmxA -/G mulmxV // mul1mx.
have PP : P *m P = P by rewrite {1}/P -mulmxA BP.
have aG : adjm (invmx G) = invmx G.
  have : adjm (invmx G) *m G = 1%:M by rewrite -{2}hG -adjm_mul mulmxV // adjm1.
  by move=> E; rewrite -[LHS]mulmx1 -(mulmxV uG) mulmxA E mul1mx.
have aP : adjm P = adjm B *m invmx G *m B *m h.
  by rewrite /P !adjm_mul aG adjmK aH !mulmxA.
have Ph : P *m h = h *m adjm P by rewrite aP /P !mulmxA.
have PhP : P *m h *m adjm P = P *m h by rewrite -mulmxA -Ph mulmxA PP.
exists P; split=> //.
- move=> v; rewrite -eB => /submxP[w ->]; by rewrite -mulmxA BP.
- apply/eqP; rewrite eqn_leq; apply/andP; split.
    by rewrite -[X in (_ <= X)%N](eqP fB) /P mxrankM_maxr.
  by rewrite -[X in (X <= _)%N](eqP fB) -BP mxrankM_maxr.
- rewrite PhP /P !mulmxA mulVmx ?posdef_unit // mul1mx -!mulmxA mxtrace_mulC -!mulmxA.
  by rewrite [B *m _]mulmxA -/G mulVmx // mxtrace1.
- move=> v; rewrite -!hform_congr -[RHS]/(_ + _).
  have -> : (1%:M - P) *m h *m adjm (1%:M - P) = h - P *m h.
    have -> : adjm (1%:M - P) = 1%:M - adjm P.
      by apply/matrixP => i j; rewrite !mxE cjB rmorph_nat eq_sym.
    rewrite mulmxBl mul1mx mulmxBr mulmx1 mulmxBl PhP -Ph subrr subr0 //.
  by rewrite PhP hformB addrC subrK.
Qed.
End Proj.

Section Stable.
Variables (C : numClosedFieldType) (N : nat) (vol : C) (bs : seq (seq (sample C N))).
Hypothesis good : good_sample vol bs.

Lemma good_N : (0 < N)%N.
Proof.
case: good => eb v0 sp wp vE; rewrite lt0n; apply/eqP => N0.
have e : flatten bs = [::].
  case E : (flatten bs) => [//|p s]; have pin : p \in flatten bs by rewrite E mem_head.
  have [_ /negP[]] := wp p pin; by apply/eqP/rowP => i; have := ltn_ord i; rewrite [X in (_ < X)%N]N0.
by move: v0; rewrite vE e big_nil mul0r ltxx.
Qed.

Lemma balanced_weight g (V : 'M[C]_N) : balanced vol bs g ->
  (N%:R * (\sum_(p <- flatten bs | (p.1 <= V)%MS) weight p) <= (\rank V)%:R * (\sum_(p <- flatten bs) weight p))%R /\
  (indecomposable (flatten bs) -> (0 < \rank V < N)%N ->
   N%:R * (\sum_(p <- flatten bs | (p.1 <= V)%MS) weight p) < (\rank V)%:R * (\sum_(p <- flatten bs) weight p)).
Proof.
case: (good) => eb v0 sp wp vE [hg pg Eg].
have [P [PP Pv rP tP pyth]] := orth_proj V hg pg.
have W0 := W_gt0 v0 vE; have := step_test eb (P *m g *m adjm P) hg pg Eg; rewrite tP cE //.
set W := \sum_(p <- flatten bs) weight p in W0 *.
set s := \sum_(p <- flatten bs) _ => e.
have Ns : N%:R * s = (\rank V)%:R * W by rewrite -e mulrAC divfK // lt0r_neq0.
rewrite -Ns.
have N0 : 0 < N%:R :> C by rewrite ltr0n good_N.
have gp p : p \in flatten bs -> 0 < hform g p.1 by move=> /wp[_ /pg].
have nn v : 0 <= hform g v.
  by have [->|/pg/ltW//] := eqVneq v 0; rewrite hformE mul0mx mul0mx mxE.
pose q (p : sample C N) := weight p * (hform (P *m g *m adjm P) p.1 / hform g p.1).
have q0 p : p \in flatten bs -> 0 <= q p.
  move=> pin; have [w0 _] := wp p pin; rewrite mulr_ge0 // divr_ge0 ?(ltW (gp p pin)) //.
  by rewrite hform_congr.
have qV p : p \in flatten bs -> (p.1 <= V)%MS -> q p = weight p.
  by move=> pin /Pv e1; rewrite /q hform_congr e1 divff ?mulr1 // lt0r_neq0 // gp.
have sE : s = \sum_(p <- flatten bs | (p.1 <= V)%MS) weight p + \sum_(p <- flatten bs | ~~ (p.1 <= V)%MS) q p.
  rewrite /s (bigID (fun p : sample C N => (p.1 <= V)%MS)) /=; congr (_ + _).
  by rewrite big_seq_cond [RHS]big_seq_cond; apply: eq_bigr => p /andP[pin pV]; exact: qV.
have r0 : 0 <= \sum_(p <- flatten bs | ~~ (p.1 <= V)%MS) q p.
  by rewrite big_seq_cond sumr_ge0 // => p /andP[/q0].
split; first by rewrite ler_pmul2l // sE ler_addl.
move=> ind /andP[rV0 rVN]; rewrite ltr_pmul2l // sE ltr_addl lt0r r0 andbT.
rewrite big_seq_cond psumr_eq0 => [|p /andP[/q0]] //.
apply/negP => /allP z.
have P0 : P != 0 by apply: contraTneq rV0 => P0; rewrite -rP P0 mxrank0.
have P1 : P != 1%:M by apply: contraTneq rVN => P1; rewrite -rP P1 mxrank1 ltnn.
have [p pin [w [k1 k2]]] := ind P PP P0 P1.
have nV : ~~ (p.1 <= V)%MS by apply: contra k2 => /Pv ->.
have := z p pin; rewrite pin nV /=; rewrite /q !mulf_eq0 invr_eq0 !(gt_eqF w) !(gt_eqF (gp p pin)) orbF /= hform_congr.
by rewrite (gt_eqF (pg _ k1)).
Qed.

Lemma stable_indecomposable : stable (flatten bs) -> indecomposable (flatten bs).
Proof.
case: (good) => eb v0 sp wp vE st P PP P0 P1; have W0 := W_gt0 v0 vE.
pose bad (p : sample C N) := [&& 0 < weight p, p.1 *m P != 0 & p.1 *m P != p.1].
have [/hasP[p pin /and3P[w k1 k2]]|/hasPn nb] := boolP (has bad (flatten bs)); first by exists p.
exfalso; pose Q := 1%:M - P.
have QP : Q *m P = 0 by rewrite mulmxBl mul1mx PP subrr.
have rQ : (\rank Q <= N - \rank P)%N by rewrite -mxrank_ker mxrankS //; apply/sub_kermxP.
have P0' : (0 < \rank P)%N by rewrite lt0n mxrank_eq0.
have Q0' : (0 < \rank Q)%N by rewrite lt0n mxrank_eq0 subr_eq0 eq_sym.
have rPN := rank_leq_row P.
have rPQ : (\rank P + \rank Q <= N)%N by move: rQ rPN; clear; lia.
have iP : (0 < \rank P < N)%N.
  by move: rPQ P0' Q0'; clear; lia.
have iQ : (0 < \rank Q < N)%N.
  by move: rPQ P0' Q0'; clear; lia.
have lt := ltr_add (st P iP) (st Q iQ).
rewrite -mulrDr -mulrDl -natrD in lt.
set W := \sum_(p <- flatten bs) weight p in W0 lt *.
have le : W <= \sum_(p <- flatten bs | (p.1 <= P)%MS) weight p + \sum_(p <- flatten bs | (p.1 <= Q)%MS) weight p.
  rewrite /W (bigID (fun p : sample C N => (p.1 <= P)%MS)) /= ler_add2l.
  rewrite [X in X <= _](bigID (fun p : sample C N => (p.1 <= Q)%MS)) /=.
  have -> : \sum_(p <- flatten bs | ~~ (p.1 <= P)%MS && ~~ (p.1 <= Q)%MS) weight p = 0.
    rewrite big_seq_cond big1 // => p /and3P[pin nP nQ]; apply/eqP/negPn/negP => w.
    have [w0 _] := wp p pin; have wpos : 0 < weight p by rewrite lt0r w.
    have := nb p pin; rewrite /bad wpos /= negb_and !negbK => /orP[/eqP e|/eqP e].
      by case/negP: nQ; apply/submxP; exists p.1; rewrite mulmxBr mulmx1 e subr0.
    by case/negP: nP; apply/submxP; exists p.1.
  rewrite addr0 big_mkcond [X in _ <= X]big_mkcond /= big_seq [X in _ <= X]big_seq; apply: ler_sum => p pin.
  by have [w0 _] := wp p pin; case: (_ <= Q)%MS; rewrite ?andbF ?andbT //; case: (~~ _).
have := lt_le_trans lt (ler_wpmul2r (ltW W0) (_ : (\rank P + \rank Q)%:R <= N%:R)).
rewrite ler_nat => /(_ rPQ); rewrite ltr_pmul2l ?ltr0n ?good_N // => /(le_lt_trans le).
by rewrite ltxx.
Qed.
End Stable.

(** ** Sorted eigenvalues *)
Section Sorted.
Variables (C : numClosedFieldType) (n : nat).

Lemma sorting (f : 'I_n -> C) : (forall i, f i \is Num.real) ->
  exists s : 'S_n, forall i j : 'I_n, (i <= j)%N -> f (s i) <= f (s j).
Proof.
move=> R; pose t := [tuple f i | i < n].
have al : all (fun x => x \is Num.real) t by apply/allP => x /mapP[i _ ->].
have so : sorted <=%R (sort <=%R t).
  by apply: (sort_sorted_in _ al) => x y xr yr; exact: real_leVge.
have /tuple_permP[s E] : perm_eq (sort <=%R t) t by rewrite perm_sort.
exists s => i j ij.
have sE k : f (s k) = nth 0 (sort <=%R t) k.
  by rewrite E -(tnth_nth 0 _ k) tnth_mktuple /t tnth_mktuple.
rewrite !sE; apply: (sorted_leq_nth le_trans lexx) => //; by rewrite inE size_sort size_tuple.
Qed.

Lemma diag_entry m (J : 'M[C]_(m, n)) d i k : (J *m diag_mx d *m adjm J) i k = \sum_j J i j * d 0 j * (J k j)^*.
Proof. by rewrite mxE; apply: eq_bigr => j _; rewrite mul_mx_diag !mxE. Qed.

Lemma sorted_diag (h : 'M[C]_n) : hermitian h -> posdef h -> exists J d,
  [/\ J *m adjm J = 1%:M, h = J *m diag_mx d *m adjm J, forall i, 0 < d 0 i &
      forall i j : 'I_n, (i <= j)%N -> d 0 i <= d 0 j].
Proof.
move=> hh ph; have h1 : hermitian (1%:M : 'M[C]_n) by move=> i j; rewrite !mxE eq_sym rmorph_nat.
have p1 : posdef (1%:M : 'M[C]_n).
  move=> v v0; have := ip_gt0 v0; rewrite /ip hform1; under eq_bigr do rewrite -normCK.
  by [].
have [J [d [uJ E1 E2 dr]]] := simdiag2 h1 p1 hh.
have d0 : forall i, 0 < d 0 i by apply: (diag_pos uJ); rewrite -E2.
have [s S] := sorting dr.
exists (col_perm s J), (col_perm s d); split=> [|||i j ij]; rewrite ?mxE.
- rewrite E1; apply/matrixP => i k; rewrite diag_entry mxE [in RHS](reindex_inj (@perm_inj _ s)) /=.
  by apply: eq_bigr => j _; rewrite !mxE mulr1.
- rewrite E2; apply/matrixP => i k; rewrite !diag_entry [in LHS](reindex_inj (@perm_inj _ s)) /=.
  by apply: eq_bigr => j _; rewrite !mxE.
- by move=> i; rewrite mxE.
- exact: S.
Qed.
End Sorted.

(** ** Summation by parts *)
Section Abel.
Variables (C : numClosedFieldType) (n : nat) (l : nat -> C).

Lemma abel_one t : (t <= n)%N -> l t = l n - \sum_(j < n) (if (t <= j)%N then l j.+1 - l j else 0).
Proof.
elim: n => [|k IH]; first by rewrite leqn0 => /eqP ->; rewrite big_ord0 subr0.
rewrite leq_eqVlt => /orP[/eqP ->|].
  by rewrite big1 ?subr0 // => j _; rewrite leqNgt ltn_ord.
rewrite ltnS => tk; rewrite big_ord_recr /= tk {1}IH //.
by move: (\sum_(j < k) _) => x; ring.
Qed.

Lemma abel_all : \sum_(i < n.+1) l i = n.+1%:R * l n - \sum_(j < n) j.+1%:R * (l j.+1 - l j).
Proof.
elim: n => [|k IH]; first by rewrite big_ord_recl !big_ord0 addr0 subr0 mul1r.
rewrite big_ord_recr /= IH [in RHS]big_ord_recr /=.
by move: (\sum_(j < k) _) => x; ring.
Qed.
End Abel.

(** ** A flag of subspaces and the energy *)
Section Flag.
Variables (C : numClosedFieldType) (n : nat) (vol : C) (bs : seq (seq (sample C n.+1))).
Hypotheses (good : good_sample vol bs) (st : stable (flatten bs)).
Variable lg : C -> C.
Hypothesis lgo : log_like lg.
Variable J : 'M[C]_n.+1.
Hypothesis uJ : J \in unitmx.
Let W : C := \sum_(p <- flatten bs) weight p.

Definition top (p : sample C n.+1) : 'I_n.+1 :=
  odflt ord0 [pick i | ((p.1 *m J) 0 i != 0) && [forall j : 'I_n.+1, (i < j)%N ==> ((p.1 *m J) 0 j == 0)]].

Lemma topP p : p \in flatten bs -> (p.1 *m J) 0 (top p) != 0 /\ forall i : 'I_n.+1, (top p < i)%N -> (p.1 *m J) 0 i = 0.
Proof.
case: good => eb v0 sp wp vE /wp[_ p0]; rewrite /top; case: pickP => [i /andP[a /forallP b]|no].
  by split=> // j ij; apply/eqP; have := b j; rewrite ij.
have /rV0Pn[i0 P0] : p.1 *m J != 0.
  by apply: contra_neq p0 => e; rewrite -(mulmxK uJ p.1) e mul0mx.
case: (@arg_maxnP _ i0 (fun i => (p.1 *m J) 0 i != 0) (fun i => i : nat) P0) => i a b.
have := no i; rewrite a /= => /negP[]; apply/forallP => j; apply/implyP => ij.
by apply/negPn/negP => /b; rewrite /= leqNgt ij.
Qed.

Definition flag (j : nat) : 'M[C]_n.+1 := pid_mx j.+1 *m invmx J.

Lemma flag_rank j : (j < n.+1)%N -> \rank (flag j) = j.+1.
Proof.
move=> jn; rewrite /flag mxrankMfree ?row_free_unit ?unitmx_inv //.
by rewrite rank_pid_mx.
Qed.

Lemma flag_in j (v : 'rV[C]_n.+1) : (forall i : 'I_n.+1, (j < i)%N -> (v *m J) 0 i = 0) -> (v <= flag j)%MS.
Proof.
move=> z; apply/submxP; exists (v *m J); rewrite /flag mulmxA.
suff -> : v *m J *m pid_mx j.+1 = v *m J by rewrite mulmxK.
move: (v *m J) z => u z; apply/rowP => k; rewrite mxE (bigD1 k) //= big1 => [|i ik].
  rewrite mxE eqxx addr0 /=; case: ltnP => [_|jk]; first by rewrite mulr1.
  by rewrite mulr0 z.
by rewrite mxE (negPf (_ : (i : nat) != k)) // mulr0.
Qed.

Lemma flag_eps : exists2 e : C, 0 < e & forall j, (j < n)%N ->
  e <= j.+1%:R - n.+1%:R / W * (\sum_(p <- flatten bs | (top p <= j)%N) weight p).
Proof.
case: (good) => eb v0 sp wp vE; have W0 : 0 < W := W_gt0 v0 vE.
pose x j : C := j.+1%:R - n.+1%:R / W * (\sum_(p <- flatten bs | (top p <= j)%N) weight p).
have x0 j : (j < n)%N -> 0 < x j.
  move=> jn; rewrite subr_gt0 mulrAC ltr_pdivr_mulr //.
  have jn1 : (j < n.+1)%N by rewrite ltnS ltnW.
  have iv : (0 < \rank (flag j) < n.+1)%N by rewrite flag_rank.
  have lt := st iv; rewrite flag_rank // in lt; apply: le_lt_trans lt.
  rewrite ler_pmul2l ?ltr0n // big_seq_cond [X in _ <= X]big_seq_cond.
  rewrite big_mkcond [X in _ <= X]big_mkcond /=; apply: ler_sum => p _.
  have [pin|//] := boolP (p \in _); have [w0 _] := wp p pin; rewrite /=.
  have [tp|] := leqP (top p) j; last by case: ifP.
  rewrite flag_in // => i ji; have [_ z] := topP pin; apply: z; exact: leq_ltn_trans tp ji.
have s0 : 0 <= \sum_(j < n) (x j)^-1 by apply: sumr_ge0 => j _; rewrite invr_ge0 ltW // x0.
exists (1 + \sum_(j < n) (x j)^-1)^-1; first by rewrite invr_gt0 ltr_paddr ?ltr01.
move=> j jn; rewrite -/(x j) -[x j]invrK lef_pinv ?posrE ?invr_gt0 ?x0 ?ltr_paddr ?ltr01 //.
rewrite (bigD1 (Ordinal jn)) //= addrCA ler_addl addr_ge0 ?ler01 //; apply: sumr_ge0 => i _.
by rewrite invr_ge0 ltW // x0.
Qed.

Lemma flag_sum e (l : nat -> C) : (forall j, (j < n)%N -> l j <= l j.+1) ->
  (forall j, (j < n)%N -> e <= j.+1%:R - n.+1%:R / W * (\sum_(p <- flatten bs | (top p <= j)%N) weight p)) ->
  e * (l n - l 0%N) <= n.+1%:R / W * (\sum_(p <- flatten bs) weight p * l (top p)) - \sum_(i < n.+1) l i.
Proof.
move=> lm eb'; case: (good) => eb v0 sp wp vE; have W0 : 0 < W := W_gt0 v0 vE.
have -> : \sum_(p <- flatten bs) weight p * l (top p) =
    W * l n - \sum_(j < n) (l j.+1 - l j) * (\sum_(p <- flatten bs | (top p <= j)%N) weight p).
  have ab p : weight p * l (top p) = weight p * l n - \sum_(j < n) weight p * (if (top p <= j)%N then l j.+1 - l j else 0).
    have tn : (top p <= n)%N by rewrite -ltnS ltn_ord.
    by rewrite (abel_one l tn) mulrBr mulr_sumr.
  rewrite (eq_bigr _ (fun p _ => ab p)) sumrB -mulr_suml -/W; congr (_ - _); rewrite exchange_big /=; apply: eq_bigr => j _.
  rewrite mulr_sumr [RHS]big_mkcond /=; apply: eq_bigr => p _; case: ifP => _; last by rewrite mulr0.
  by rewrite mulrC.
rewrite abel_all [_ / W * _]mulrBr [_ / W * (W * _)]mulrA divfK ?lt0r_neq0 // [X in _ <= _ - X]/= opprB [X in _ <= X]addrC [X in _ <= X]addrA subrK.
rewrite [_ / W * _]mulr_sumr -sumrB.
have -> : l n - l 0%N = \sum_(j < n) (l j.+1 - l j).
  by rewrite -(big_mkord xpredT (fun j => l j.+1 - l j)) telescope_sumr.
rewrite mulr_sumr; apply: ler_sum => j _; have jn := ltn_ord j.
have dl : 0 <= l j.+1 - l j by rewrite subr_ge0 lm.
have := ler_wpmul2l dl (eb' j jn); rewrite mulrBr mulrCA [_ * e]mulrC [_ * j.+1%:R]mulrC.
by [].
Qed.

Lemma flag_energy e (h Jk : 'M[C]_n.+1) d m :
  (forall j, (j < n)%N -> e <= j.+1%:R - n.+1%:R / W * (\sum_(p <- flatten bs | (top p <= j)%N) weight p)) ->
  Jk *m adjm Jk = 1%:M -> h = Jk *m diag_mx d *m adjm Jk -> (forall i, 0 < d 0 i) ->
  (forall i j : 'I_n.+1, (i <= j)%N -> d 0 i <= d 0 j) -> 0 < m ->
  (forall p, p \in flatten bs -> m <= `|(p.1 *m Jk) 0 (top p)| ^+ 2) ->
  e * (lg (d 0 ord_max) - lg (d 0 ord0)) + n.+1%:R * lg m <= energy lg (flatten bs) h.
Proof.
move=> eb' uk hE d0 ds m0 mp; case: (good) => eb v0 sp wp vE; have W0 : 0 < W := W_gt0 v0 vE.
case: (lgo) => l1 l2.
have dt : lg (\det h) = \sum_i lg (d 0 i).
  rewrite -(lg_prod lgo) //; congr lg.
  have u1 : \det Jk * \det (adjm Jk) = 1 by rewrite -det_mulmx uk det1.
  by rewrite hE !det_mulmx det_diag mulrAC u1 mul1r.
pose l j := lg (d 0 (inord j)).
have lm j : (j < n)%N -> l j <= l j.+1.
  move=> jn; apply: (lg_mono l1 l2) => //; apply: ds; rewrite !inordK ?ltnS // ltnW //.
have lE (i : 'I_n.+1) : l i = lg (d 0 i) by rewrite /l inord_val.
have := flag_sum lm eb'; rewrite [l n](lE ord_max) [l 0%N](lE ord0) => le.
rewrite /energy -/W dt -(eq_bigr _ (fun i _ => lE i)).
have ge : \sum_(p <- flatten bs) weight p * l (top p) + W * lg m <=
    \sum_(p <- flatten bs) weight p * lg (hform h p.1).
  rewrite /W mulr_suml -big_split /= big_seq [X in _ <= X]big_seq; apply: ler_sum => p pin.
  have [w0 _] := wp p pin; rewrite -mulrDr; apply: ler_wpmul2l => //.
  rewrite lE -(lgM lgo) //; apply: (lg_mono l1 l2); first exact: mulr_gt0.
  rewrite hE hform_Jd (bigD1 (top p)) //=; apply: le_trans (_ : d 0 (top p) * `|(p.1 *m Jk) 0 (top p)| ^+ 2 <= _).
    by rewrite ler_pmul2l // mp.
  by rewrite ler_addl sumr_ge0 // => i _; rewrite mulr_ge0 ?exprn_ge0 // ltW.
have c0 : 0 <= n.+1%:R / W by rewrite divr_ge0 ?ler0n // ltW.
have := ler_wpmul2l c0 ge; rewrite mulrDr mulrA divfK ?lt0r_neq0 // => ge'.
move: le ge'; move: (\sum_(i < n.+1) _) (_ / W * _) (_ / W * _) (e * _) (_ * lg m) => s a b x y le ge'.
apply: le_trans (_ : b - s + y <= _); first by rewrite ler_add2r.
by rewrite addrAC ler_add2r.
Qed.
End Flag.
