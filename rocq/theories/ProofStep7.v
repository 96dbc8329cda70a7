(** Repeated Donaldson steps: stability and balanced metrics, points in general
    position, a sample on which the steps diverge. *)
From Coq Require Import ZArith Lia.
From mathcomp Require Import all_ssreflect all_algebra.
From mathcomp Require Import zify ssrZ ring.
From Verif Require Import Base Herm Herm2 Herm3 Herm4 ModelDonaldson SpecDonaldson SpecStep ProofDonaldson2
  PolyGrad ProofDonaldson3 ProofDonaldson4 ProofDonaldson5 ProofStep Limits ProofStep3.
From Verif Require Import ComplexR Compact ProofStep4 ProofStep5 ProofStep6.
Delimit Scope Z_scope with Z.

Set Implicit Arguments.
Unset Strict Implicit.
Unset Printing Implicit Defensive.

Import GRing.Theory Num.Theory Order.POrderTheory.
Local Open Scope ring_scope.

Lemma converges_cvg (C : numClosedFieldType) N (hs : nat -> 'M[C]_N) L : converges_to hs L <-> cvgmx xpredT hs L.
Proof.
by split=> H i j e e0; have [K HK] := H i j e e0; exists K => k Kk; [move=> _|]; apply: HK.
Qed.

Section Generic.
Variables (C : numClosedFieldType) (N : nat) (vol : C) (bs : seq (seq (sample C N))).
Hypothesis good : good_sample vol bs.

Lemma limit_balanced hs L : hermitian (hs 0%N) -> posdef (hs 0%N) -> iterates vol bs hs ->
  converges_to hs L -> posdef L -> balanced vol bs L.
Proof.
move=> hh ph it /converges_cvg cL pL.
have inf : infinite xpredT by move=> K; exists K.
exact: (cluster_balanced good hh ph it inf cL pL).
Qed.

Lemma accumulation_is_limit hs L : hermitian (hs 0%N) -> posdef (hs 0%N) -> iterates vol bs hs -> posdef L ->
  (exists k : nat -> nat, (forall j, (j <= k j)%N) /\ converges_to (fun j => hs (k j)) L) -> converges_to hs L.
Proof.
move=> hh ph it pL [k [kj cL]]; apply/converges_cvg.
pose S : pred nat := fun i => i \in map k (iota 0 i.+1).
have Sk j : S (k j) by apply: map_f; rewrite mem_iota ltnS kj.
have inf : infinite S by move=> K; exists (k K).
apply: (cluster_converges good hh ph it inf _ pL) => i j e e0.
have [K HK] := cL i j e e0; exists (\max_(l < K) (k l).+1) => a le /mapP[l _ E]; rewrite E; apply: HK.
rewrite leqNgt; apply/negP => lK; have := leq_bigmax (F := fun l : 'I_K => (k l).+1) (Ordinal lK).
by move=> /leq_trans/(_ le); rewrite E ltnn.
Qed.

Lemma balanced_is_stable g : balanced vol bs g -> indecomposable (flatten bs) -> stable (flatten bs).
Proof. by move=> bg ind V iV; have [_] := balanced_weight good V bg; apply. Qed.

Lemma balanced_is_semistable g (V : 'M[C]_N) : balanced vol bs g ->
  N%:R * (\sum_(p <- flatten bs | (p.1 <= V)%MS) weight p) <= (\rank V)%:R * (\sum_(p <- flatten bs) weight p).
Proof. by move=> bg; have [] := balanced_weight good V bg. Qed.
End Generic.

Section Exist.
Variables (N : nat) (vol : CR) (bs : seq (seq (sample CR N))).
Hypothesis good : good_sample vol bs.

Lemma stable_limit hs : stable (flatten bs) -> hermitian (hs 0%N) -> posdef (hs 0%N) -> iterates vol bs hs ->
  exists2 L, balanced vol bs L & converges_to hs L.
Proof.
have := good_N good; case: N bs hs good => [//|n] bs' hs g _ st hh ph it.
by have [L bL /converges_cvg cL] := stable_converges g st hh ph it; exists L.
Qed.

Lemma one_pd : hermitian (1%:M : 'M[CR]_N) /\ posdef (1%:M : 'M[CR]_N).
Proof.
split; first by move=> i j; rewrite !mxE eq_sym rmorph_nat.
by move=> v v0; have := ip_gt0 v0; rewrite /ip hform1; under eq_bigr do rewrite -normCK.
Qed.

Lemma stable_iff_balanced : stable (flatten bs) <-> (exists g, balanced vol bs g) /\ indecomposable (flatten bs).
Proof.
split=> [st|[[g bg] ind]]; last exact: balanced_is_stable bg ind.
split; last exact: stable_indecomposable good st.
have [hs [h0 it]] := good_iterates vol bs (1%:M : 'M[CR]_N); have [h1 p1] := one_pd.
by have [||L bL _] := stable_limit st _ _ it; rewrite ?h0 //; exists L.
Qed.

Lemma balanced_limit g hs : balanced vol bs g -> hermitian (hs 0%N) -> posdef (hs 0%N) -> iterates vol bs hs ->
  exists L, [/\ balanced vol bs L, converges_to hs L & indecomposable (flatten bs) -> exists2 a, 0 < a & L = a *: g].
Proof.
move=> bg hh ph it; have [L bL /converges_cvg cL] := balanced_converges good hh ph it bg.
by exists L; split=> // ind; exact: (good_unique good ind bg bL).
Qed.
End Exist.

(** ** Points in general position *)
Section General.
Variables (C : numClosedFieldType) (N : nat) (pts : seq (sample C N)).
Hypotheses (gp : general_position pts) (NP : (N <= size pts)%N).

Lemma general_count (V : 'M[C]_N) : (\rank V < N)%N -> (count (fun p => (p.1 <= V)%MS) pts <= \rank V)%N.
Proof.
move=> rN; rewrite leqNgt; apply/negP => gt.
pose P := size pts; pose A := [set i : 'I_P | ((nth (0, None) pts i).1 <= V)%MS].
have cA : count (fun p => (p.1 <= V)%MS) pts = #|A|.
  rewrite -sum1_count -sum1_card (big_nth (0, None)) big_mkord.
  by apply: eq_bigl => i; rewrite inE.
pose s := enum A ++ enum (~: A).
have ss : size s = P by rewrite size_cat -!cardE cardsC card_ord.
have us : uniq s.
  rewrite cat_uniq !enum_uniq /= andbT; apply/hasPn => i; rewrite mem_enum in_setC => iA.
  by apply: contra iA => iA; rewrite -mem_enum.
have P0 : (0 < P)%N by apply: leq_trans NP; apply: leq_ltn_trans rN.
pose i0 : 'I_P := Ordinal P0.
pose f (i : 'I_N) := nth i0 s i.
have fi : injective f.
  move=> i j /eqP; rewrite nth_uniq ?ss // => [/eqP/val_inj //||]; exact: leq_trans (ltn_ord _) NP.
have uM := gp fi; set M := (\matrix_(i, a) _) in uM.
pose r := \rank V; pose M' : 'M[C]_(r.+1, N) := \matrix_(i, a) M (widen_ord rN i) a.
have ME : M' = pid_mx r.+1 *m M.
  apply/matrixP => i a; rewrite [RHS]mxE (bigD1 (widen_ord rN i)) //= big1 => [|j ji].
    by rewrite [pid_mx _ _ _]mxE /= eqxx ltn_ord mul1r addr0 [LHS]mxE.
  by rewrite [pid_mx _ _ _]mxE /= (_ : (i == j :> nat) = false) ?mul0r //; apply/negbTE; apply: contra ji => /eqP e; apply/eqP/val_inj.
have rM : \rank M' = r.+1.
  by rewrite ME mxrankMfree ?row_free_unit // rank_pid_mx.
have sV : (M' <= V)%MS.
  apply/row_subP => i; have -> : row i M' = (nth (0, None) pts (f (widen_ord rN i))).1.
    by apply/rowP => a; rewrite !mxE.
  have il : (i < size (enum A))%N.
    by rewrite -cardE -cA; apply: leq_trans gt; rewrite ltn_ord.
  have : f (widen_ord rN i) \in A.
    by rewrite /f /= nth_cat il -mem_enum mem_nth.
  by rewrite inE.
by have := mxrankS sV; rewrite rM -/r ltnn.
Qed.

Hypothesis w0 : forall p, p \in pts -> 0 <= weight p.
Let W : C := \sum_(p <- pts) weight p.
Hypothesis W0 : 0 < W.

Lemma general_stable : (forall p, p \in pts -> N%:R * weight p < W) -> stable pts.
Proof.
move=> small V /andP[r0 rN]; rewrite -/W.
have cnt := general_count rN; rewrite -subr_gt0.
set c := count _ _ in cnt.
have -> : (\rank V)%:R * W - N%:R * (\sum_(p <- pts | (p.1 <= V)%MS) weight p) =
    (\rank V - c)%:R * W + \sum_(p <- pts | (p.1 <= V)%MS) (W - N%:R * weight p).
  rewrite sumrB -mulr_sumr big_const_seq iter_addr_0 -/c natrB // mulrBl -[W *+ c]mulr_natl.
  by rewrite addrA subrK.
have t0 : 0 <= \sum_(p <- pts | (p.1 <= V)%MS) (W - N%:R * weight p).
  by rewrite big_seq_cond sumr_ge0 // => p /andP[/small lt _]; rewrite subr_ge0 ltW.
have [e|lt] := leqP (\rank V) c; last first.
  by apply: ltr_spaddl t0; rewrite mulr_gt0 // ltr0n subn_gt0.
rewrite ltr_paddl //; first by rewrite mulr_ge0 ?ler0n // ltW.
have /hasP[p pin pV] : has (fun p => (p.1 <= V)%MS) pts by rewrite has_count; apply: leq_trans e.
rewrite lt0r t0 andbT big_seq_cond psumr_eq0 => [|q /andP[/small lt _]]; last by rewrite subr_ge0 ltW.
by apply/allPn; exists p => //; rewrite pin pV /= subr_eq0 eq_sym lt_eqF // small.
Qed.

Lemma stable_small : (1 < N)%N -> (forall p, p \in pts -> p.1 != 0) -> stable pts ->
  forall p, p \in pts -> N%:R * weight p < W.
Proof.
move=> N1 nz st p pin; have p0 := nz p pin.
have rk : \rank <<p.1>>%MS = 1%N by rewrite genmxE rank_rV p0.
have := st <<p.1>>%MS; rewrite rk => /(_ N1); rewrite mul1r; apply: le_lt_trans.
apply: ler_wpmul2l; first exact: ler0n.
rewrite (big_rem p pin) /= genmxE submx_refl ler_addl big_seq_cond sumr_ge0 // => q /andP[/mem_rem qin _].
exact: w0.
Qed.
End General.

Lemma general_iff (C : numClosedFieldType) N (pts : seq (sample C N)) : general_position pts -> (N <= size pts)%N -> (1 < N)%N ->
  (forall p, p \in pts -> 0 <= weight p /\ p.1 != 0) -> 0 < \sum_(p <- pts) weight p ->
  (stable pts <-> forall p, p \in pts -> N%:R * weight p < \sum_(q <- pts) weight q).
Proof.
move=> gp NP N1 wp W0; have w0 p : p \in pts -> 0 <= weight p by move=> /wp[].
split=> [st p pin|]; last exact: general_stable.
by apply: (stable_small w0 N1 _ st pin) => q /wp[].
Qed.

Lemma general_limit N (vol : CR) (bs : seq (seq (sample CR N))) hs : good_sample vol bs ->
  general_position (flatten bs) -> (N <= size (flatten bs))%N ->
  (forall p, p \in flatten bs -> N%:R * weight p < \sum_(q <- flatten bs) weight q) ->
  hermitian (hs 0%N) -> posdef (hs 0%N) -> iterates vol bs hs ->
  exists L, [/\ balanced vol bs L, converges_to hs L & forall g, balanced vol bs g -> exists2 a, 0 < a & g = a *: L].
Proof.
move=> good gp NP sm hh ph it; case: (good) => eb v0 sp wp vE.
have st : stable (flatten bs) by apply: general_stable => //; exact: W_gt0 v0 vE.
have [L bL cL] := stable_limit good st hh ph it; exists L; split=> // g bg.
exact: (good_unique good (stable_indecomposable good st) bL bg).
Qed.

(** ** Examples *)
Section Ex.
Variable C : numClosedFieldType.
Let n2 : (2%:R : C) != 0. Proof. exact: nat_neq0. Qed.
Let n3 : (3%:R : C) != 0. Proof. exact: nat_neq0. Qed.

Lemma three_general : general_position (flatten (three C)).
Proof.
move=> f fi; have ne : f 0 <> f 1 by move=> /fi.
rewrite unitmxE unitfE.
have -> : \matrix_(i, a) (nth (0, None) (flatten (three C)) (f i)).1 0 a =
    mx2 ((nth (0, None) (flatten (three C)) (f 0)).1 0 0) ((nth (0, None) (flatten (three C)) (f 0)).1 0 1)
        ((nth (0, None) (flatten (three C)) (f 1)).1 0 0) ((nth (0, None) (flatten (three C)) (f 1)).1 0 1).
  by apply: mx2_eq; rewrite !mxE.
rewrite det_mx2; case: (f 0) (f 1) ne => [[|[|[|//]]] i0] [[|[|[|//]]] i1] ne /=; rewrite !mxE /= ?mulr0 ?mul0r ?mulr1 ?subr0 ?sub0r ?oppr_eq0 ?oner_eq0 //.
all: by case: ne; apply/val_inj.
Qed.

Lemma three_W : \sum_(q <- flatten (three C)) weight q = 3%:R.
Proof. by rewrite /= !big_cons big_nil /weight /=; ring. Qed.

Lemma three_weights : (forall p, p \in flatten (three C) -> 0 <= weight p) /\
  (forall p, p \in flatten (three C) -> 2%:R * weight p < \sum_(q <- flatten (three C)) weight q).
Proof.
split=> p; rewrite /= !inE => /or3P[] /eqP ->; rewrite /weight /= ?ler01 //.
all: by rewrite -[X in _ < X]/(\sum_(q <- flatten (three C)) weight q) three_W mulr1 ltr_nat.
Qed.

Lemma three_stable : stable (flatten (three C)).
Proof.
have [w s] := three_weights; apply: general_stable => //; first exact: three_general.
by rewrite three_W ltr0n.
Qed.

(** Two points of which one has more than half of the weight *)
Definition skew : seq (seq (sample C 2)) := [:: [:: (pt2 1 0, Some 3%:R); (pt2 0 1, Some 1)]].

Lemma skew_good : good_sample 2%:R skew.
Proof.
split.
- by exists 2%N => b; rewrite inE => /eqP ->.
- by rewrite ltr0n.
- move=> v v0; have [k vk] : exists k, v 0 k != 0 by apply/rV0Pn.
  case: (ord2E k) vk => -> vk; [exists (pt2 1 0, Some 3%:R)|exists (pt2 0 1, Some 1)].
  + by rewrite /= !inE eqxx.
  + by rewrite /weight /= ltr0n; split=> //; rewrite sum2 !mxE /= mulr1 mulr0 addr0.
  + by rewrite /= !inE eqxx orbT.
  + by rewrite /weight /= ltr01; split=> //; rewrite sum2 !mxE /= mulr1 mulr0 add0r.
- have nz a b : (a != 0) || (b != 0) -> pt2 a b != 0.
    apply: contraTneq => /rowP e; have := e 0; have := e 1; rewrite !mxE /= => -> ->.
    by rewrite eqxx.
  have o0 := oner_neq0 C.
  move=> p; rewrite /= !inE => /orP[] /eqP ->; rewrite /weight /= ?ler01 ?ler0n; split=> //.
  + by apply: nz; rewrite o0.
  + by apply: nz; rewrite o0 orbT.
- by rewrite /= !big_cons big_nil /weight /=; field.
Qed.

Lemma skew_step (a b : C) : 0 < a -> 0 < b ->
  donaldson_step true (mx2 a 0 0 b) 2%:R skew = Ok (mx2 (2%:R / 3%:R * a) 0 0 (2%:R * b)).
Proof.
move=> a0 b0; have an := lt0r_neq0 a0; have bn := lt0r_neq0 b0.
have hh : hermitian (mx2 a 0 0 b) by apply: herm_mx2; rewrite ?conjC0 //; apply/conj_Creal/gtr0_real.
rewrite /donaldson_step /= T_ofE //; last by case: skew_good.
suff E : T_of (mx2 a 0 0 b) 2%:R (flatten skew) = mx2 (3%:R / (2%:R * a)) 0 0 (2%:R * b)^-1.
  rewrite E (@inv_mx2 _ _ (mx2 (2%:R / 3%:R * a) 0 0 (2%:R * b))) ?tr_mx2 //.
  by rewrite mx2M one_mx2; congr mx2; field; rewrite ?an ?bn ?n2 ?n3.
by apply: mx2_eq; rewrite !mxE /= !big_cons big_nil /weight /= !hform_mx2 !mxE /= ?conjC1 ?conjC0; field; rewrite ?an ?bn.
Qed.

Definition skew_hs (k : nat) : 'M[C]_2 := mx2 ((2%:R / 3%:R) ^+ k) 0 0 (2%:R ^+ k).

Lemma skew_diverges : [/\ good_sample 2%:R skew, skew_hs 0 = 1%:M, iterates 2%:R skew skew_hs,
  ~ (exists L, converges_to skew_hs L) & ~ exists g, balanced 2%:R skew g].
Proof.
split; first exact: skew_good.
- by rewrite /skew_hs !expr0 one_mx2.
- move=> k; rewrite /skew_hs skew_step ?exprn_gt0 ?divr_gt0 ?ltr0n //.
  by rewrite -!exprS.
- move=> [L /(_ 1 1 (2%:R^-1))[|K H]]; first by rewrite invr_gt0 ltr0n.
  have h1 := H K (leqnn K); have h2 := H K.+1 (leqnSn K); rewrite !mxE /= in h1 h2.
  have := ltr_add h2 h1; have -> : 2%:R^-1 + 2%:R^-1 = 1 :> C by field.
  move=> lt.
  have := ler_norm_sub (2%:R ^+ K.+1 - L 1 1) (2%:R ^+ K - L 1 1); rewrite opprB addrA subrK => le.
  have := le_lt_trans le lt; rewrite exprS mulr_natl mulr2n addrK normrX normr_nat.
  by have /(exprn_ege1 K)/le_gtF -> : 1 <= 2%:R :> C by rewrite ler1n.
- move=> [g bg]; have := balanced_is_semistable skew_good <<pt2 1 0>>%MS bg.
  have rk : \rank <<pt2 1 0 : 'rV[C]_2>>%MS = 1%N.
    rewrite genmxE rank_rV; have -> // : pt2 1 0 != 0 :> 'rV[C]_2.
    by apply/eqP => /rowP/(_ 0); rewrite !mxE /= => /eqP; rewrite oner_eq0.
  have n01 : (pt2 0 1 <= <<pt2 1 0 : 'rV[C]_2>>)%MS = false.
    apply/negP; rewrite genmxE => /submxP[d /rowP/(_ 1)]; rewrite !mxE big_ord_recl big_ord0 !mxE /= mulr0 addr0 => /eqP.
    by rewrite oner_eq0.
  have n10 : (pt2 1 0 <= <<pt2 1 0 : 'rV[C]_2>>)%MS by rewrite genmxE.
  rewrite rk mul1r /= !big_cons !big_nil /= n10 n01 /weight /= !addr0 -natrM -(natrD _ 3 1) ler_nat.
  by [].
Qed.
End Ex.
