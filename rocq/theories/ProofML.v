(** Lemmas about ModelML.v: Cholesky parametrisation. *)
From Coq Require Import ZArith Lia.
From mathcomp Require Import all_ssreflect all_algebra.
From mathcomp Require Import zify ring.
From Verif Require Import Base ModelUtil ModelMC ModelML Herm.
Delimit Scope Z_scope with Z.

Set Implicit Arguments.
Unset Strict Implicit.
Unset Printing Implicit Defensive.

Import GRing.Theory Num.Theory Order.POrderTheory.
Local Open Scope ring_scope.

Lemma triu_mem n i j : ((i, j) \in triu_indices n) = (i < j < n)%N.
Proof.
apply/idP/idP.
  by case/allpairsPdep => a [b [ha hb [-> ->]]]; move: ha hb; rewrite !mem_iota; lia.
move=> H; apply/allpairsPdep; exists i, j; rewrite !mem_iota; split=> //; lia.
Qed.

Lemma triu_uniq n : uniq (triu_indices n).
Proof.
apply: allpairs_uniq_dep => [|i _|]; rewrite ?iota_uniq //.
by move=> [a b] [c d] _ _ /= [-> ->].
Qed.

Lemma triu_split n i : (i < n)%N -> exists pre post,
  [/\ triu_indices n = pre ++ [seq (i, j) | j <- iota i.+1 (n - i.+1)] ++ post,
      size pre = (\sum_(a < i) (n - a.+1))%N &
      forall p, p \in pre -> (p.1 < i)%N].
Proof.
move=> H; pose f a := [seq (a, j) | j <- iota a.+1 (n - a.+1)].
exists (flatten [seq f a | a <- iota 0 i]), (flatten [seq f a | a <- iota i.+1 (n - i.+1)]).
split.
- have -> : triu_indices n = flatten [seq f a | a <- iota 0 n] by [].
  have {1}-> : n = (i + (1 + (n - i.+1)))%N by lia.
  by rewrite iotaD map_cat flatten_cat add0n add1n.
- rewrite size_flatten sumnE /shape !big_map.
  rewrite -[X in iota 0 X]subn0 -/(index_iota 0 i) big_mkord.
  by apply: eq_bigr => a _; rewrite /= size_map size_iota.
- by move=> p /flatten_mapP [a]; rewrite mem_iota => ha /mapP [b _ ->] /=; lia.
Qed.

(** Position of (i, j) in row-major order. *)
Lemma triu_index n i j : (i < j < n)%N ->
  index (i, j) (triu_indices n) = (\sum_(a < i) (n - a.+1) + (j - i.+1))%N.
Proof.
case/andP => ij jn; have [pre [post [-> sz Hp]]] := triu_split (ltn_trans ij jn).
rewrite index_cat; case: ifP => [/Hp /=|_]; first by rewrite ltnn.
rewrite sz index_cat map_f; last by rewrite mem_iota; lia.
congr (_ + _)%N.
rewrite index_map; last by move=> ? ? [].
have sj : (j - i.+1 < n - i.+1)%N by lia.
rewrite -{1}(_ : nth 0%N (iota i.+1 (n - i.+1)) (j - i.+1) = j); last by rewrite nth_iota //; lia.
by rewrite index_uniq ?iota_uniq ?size_iota.
Qed.

Lemma triu_size n : size (triu_indices n) = 'C(n, 2).
Proof.
rewrite size_allpairs_dep -triangular_sum sumnE big_map.
rewrite -{1}[n]subn0 -/(index_iota 0 n) !big_mkord [RHS](reindex_inj rev_ord_inj) /=; apply: eq_bigr => i _.
by rewrite size_iota; have := ltn_ord i; lia.
Qed.

Section Chol.
Variable C : numClosedFieldType.

Lemma mx_scatterE n (M : 'M[C]_n) upd (a b : 'I_n) : uniq (unzip1 upd) ->
  mx_scatter M upd a b =
  if (nat_of_ord a, nat_of_ord b) \in unzip1 upd
  then nth 0 (unzip2 upd) (index (nat_of_ord a, nat_of_ord b) (unzip1 upd)) else M a b.
Proof.
rewrite /mx_scatter; elim: upd M => //= [[p v] upd] IH M /andP[pn un] /=.
rewrite IH // in_cons; case: eqVneq => [E|E] /=.
  rewrite E (negbTE pn) /= mxE /=; case: p E {pn} => p1 p2 [-> ->].
  by rewrite !eqxx.
case: ifP => // _; rewrite mxE /=.
by case: p E {pn} => p1 p2; rewrite xpair_eqE => /negbTE ->.
Qed.

Definition cholU n (diag upper : seq C) : 'M[C]_n :=
  \matrix_(i, j) if (i < j)%N then nth 0 upper (\sum_(a < i) (n - a.+1) + (j - i.+1))%N
                 else if i == j then nth 0 diag i else 0.

Lemma cholesky_decodeE diag upper : size upper = 'C(size diag, 2) ->
  cholesky_decode diag upper =
  Ok (SqMx (cholU (size diag) diag upper *m adjm (cholU (size diag) diag upper))).
Proof.
move=> su; rewrite /cholesky_decode /broadcast1 triu_size su eqxx /=.
congr (Ok (SqMx _)); set A := mx_scatter _ _.
suff -> : A = cholU (size diag) diag upper by rewrite adjm_tr.
apply/matrixP => i j; rewrite mx_scatterE; last first.
  by rewrite unzip1_zip ?triu_uniq // su triu_size.
rewrite unzip1_zip ?unzip2_zip ?su ?triu_size // triu_mem ltn_ord andbT [RHS]mxE.
case: ifP => ij; last by rewrite mxE.
by rewrite triu_index // ij ltn_ord.
Qed.

Lemma cholU_trig n diag upper : is_trig_mx (cholU n diag upper)^T.
Proof.
apply/is_trig_mxP => i j ij; rewrite !mxE ltnNge (ltnW ij) /=.
by rewrite -val_eqE /= gtn_eqF.
Qed.

Lemma det_cholU n diag upper : \det (cholU n diag upper) = \prod_(i < n) nth 0 diag i.
Proof.
rewrite -det_tr det_trig ?cholU_trig //; apply: eq_bigr => i _.
by rewrite !mxE ltnn eqxx.
Qed.

Lemma herm_UU n (U : 'M[C]_n) : hermitian (U *m adjm U).
Proof. by apply/hermitianP; rewrite adjm_mul adjmK. Qed.

Lemma hform_UU n (U : 'M[C]_n) v : hform (U *m adjm U) v = ip (v *m U) (v *m U).
Proof.
rewrite hformE mulmxA -mulmxA -adjm_mul mxE.
by apply: eq_bigr => i _; rewrite adjmE.
Qed.

Lemma psd_UU n (U : 'M[C]_n) : possemidef (U *m adjm U).
Proof. by move=> v; rewrite hform_UU ip_ge0. Qed.

Lemma pd_UU n (U : 'M[C]_n) : posdef (U *m adjm U) <-> \det U != 0.
Proof.
split=> [/posdef_unit|].
  by rewrite unitmxE unitfE det_mulmx mulf_eq0 negb_or => /andP[].
move=> dU v v0; rewrite hform_UU ip_gt0 //.
apply: contra_neq v0 => E.
have uU : U \in unitmx by rewrite unitmxE unitfE.
by rewrite -(mulmxK uU v) E mul0mx.
Qed.

Lemma decode_lemma (diag upper : seq C) (n := size diag) : size upper = 'C(n, 2) ->
  exists U : 'M[C]_n,
  [/\ cholesky_decode diag upper = Ok (SqMx (U *m adjm U)),
      (forall i, U i i = nth 0 diag i) /\ (forall i j : 'I_n, (j < i)%N -> U i j = 0),
      (forall i j : 'I_n, (i < j)%N ->
         U i j = nth 0 upper (\sum_(a < i) (n - a.+1) + (j - i.+1))%N),
      hermitian (U *m adjm U) /\ possemidef (U *m adjm U) &
      posdef (U *m adjm U) <-> all (fun d => d != 0) diag].
Proof.
move=> su; exists (cholU n diag upper); split.
- exact: cholesky_decodeE.
- split=> [i|i j ij]; rewrite mxE ?ltnn ?eqxx // ltnNge (ltnW ij) /=.
  by rewrite -val_eqE /= gtn_eqF.
- by move=> i j ij; rewrite mxE ij.
- by split; [exact: herm_UU|exact: psd_UU].
rewrite pd_UU det_cholU; split=> [/prodf_neq0 H|/(all_nthP 0) H].
  by apply/(all_nthP 0) => i Hi; exact: (H (Ordinal Hi)).
by apply/prodf_neq0 => i _; apply: H.
Qed.

(** Existence of the decomposition. *)
Lemma cholesky_exists n (H : 'M[C]_n) : hermitian H -> posdef H ->
  exists U : 'M[C]_n,
  [/\ H = U *m adjm U, forall i, 0 < U i i & forall i j : 'I_n, (j < i)%N -> U i j = 0].
Proof.
elim: n H => [|n IH] H hH pH.
  by exists 0; split=> [|[]//|[]//]; apply/matrixP => -[].
pose H' : 'M[C]_(1 + n) := H.
pose a := ulsubmx H'; pose b := ursubmx H'; pose D := drsubmx H'.
have hH' : adjm H' = H' by apply/hermitianP.
have Edl : dlsubmx H' = adjm b.
  by apply/matrixP => i j; rewrite /b !mxE -{1}hH' mxE.
have hD : hermitian D.
  by move=> i j; rewrite /D !mxE; apply: hH.
have pad v (w : 'rV[C]_n) : hform H' (row_mx v w) =
   (v *m a *m adjm v + w *m adjm b *m adjm v + (v *m b *m adjm w + w *m D *m adjm w)) 0 0.
  have E : H' = block_mx a b (adjm b) D by rewrite -Edl submxK.
  have Ea : adjm (row_mx v w) = col_mx (adjm v) (adjm w).
    apply/matrixP => i j; rewrite !mxE; case: splitP => k _; by rewrite !mxE.
  by rewrite hformE {1}E Ea mul_row_block mul_row_col !mulmxDl.
have pD : posdef D.
  move=> w w0; have := pad 0 w.
  rewrite !mul0mx !add0r (_ : adjm (0 : 'rV[C]_1) = 0); last by apply/matrixP => i j; rewrite !mxE conjC0.
  rewrite mulmx0 add0r -hformE => <-; apply: pH.
  by apply: contra_neq w0 => E; have := congr1 (@rsubmx _ 1 1 n) E; rewrite row_mxKr => ->; apply/matrixP=> i j; rewrite !mxE.
have [U' [EU pU tU]] := IH D hD pD.
have uU : U' \in unitmx.
  have := posdef_unit pD; rewrite EU unitmx_mul => /andP[//].
have uUa : adjm U' \in unitmx.
  have := posdef_unit pD; rewrite EU unitmx_mul => /andP[//].
pose x := b *m invmx (adjm U').
have Eb : b = x *m adjm U' by rewrite /x mulmxKV.
have Ebc : adjm b = U' *m adjm x by rewrite Eb adjm_mul adjmK.
pose s := a 0 0 - ip x x.
have s0 : 0 < s.
  pose w := - (x *m invmx U').
  have wU : w *m U' = - x by rewrite /w mulNmx mulmxKV.
  have Ew := pad 1%:M w.
  have : 0 < hform H' (row_mx 1%:M w).
    apply: pH; apply/eqP => E; have := congr1 (@lsubmx _ 1 1 n) E; rewrite row_mxKl.
    by move=> /matrixP/(_ 0 0); rewrite !mxE => /eqP; rewrite oner_eq0.
  rewrite Ew !adjm1 !mulmx1 !mul1mx Ebc Eb EU !mulmxA wU.
  have -> : x *m adjm U' *m adjm w = - (x *m adjm x).
    rewrite -mulmxA -adjm_mul wU; apply/matrixP => i j; rewrite !mxE -sumrN.
    by apply: eq_bigr => k _; rewrite !mxE !cjE mulrN.
  have -> : - x *m adjm U' *m adjm w = x *m adjm x.
    rewrite -mulmxA -adjm_mul wU; apply/matrixP => i j; rewrite !mxE.
    by apply: eq_bigr => k _; rewrite !mxE !cjE mulrNN.
  rewrite addNr addr0 mulNmx /s.
  have -> : (a - x *m adjm x) 0 0 = a 0 0 - (x *m adjm x) 0 0.
    by rewrite [LHS]mxE; congr (_ + _); rewrite mxE.
  suff -> : (x *m adjm x) 0 0 = ip x x by [].
  by rewrite mxE; apply: eq_bigr => k _; rewrite adjmE.
pose u := sqrtC s.
have u0 : 0 < u by rewrite sqrtC_gt0.
pose U : 'M[C]_(1 + n) := block_mx u%:M x 0 U'.
have EH : H' = U *m adjm U.
  rewrite -(submxK H') Edl -/a -/b -/D.
  have -> : adjm U = block_mx (u^*)%:M 0 (adjm x) (adjm U').
    rewrite adjm_tr /U tr_block_mx map_block_mx -!adjm_tr; congr block_mx.
      by apply/matrixP => i j; rewrite !mxE eq_sym; case: eqP => _; rewrite ?mulr1n ?mulr0n ?cj0.
    by apply/matrixP => i j; rewrite !mxE cj0.
  rewrite {1}/U mulmx_block !mul0mx !add0r mulmx0 add0r -Eb -Ebc -EU; congr block_mx.
  apply/matrixP => i j; rewrite !ord1 [RHS]mxE -scalar_mxM [X in X + _]mxE eqxx mulr1n.
  have -> : (x *m adjm x) 0 0 = ip x x.
    by rewrite mxE; apply: eq_bigr => k _; rewrite adjmE.
  have -> : u * u^* = s by rewrite (geC0_conj (ltW u0)) -expr2 sqrtCK.
  by rewrite /s subrK.
have P1 (i : 'I_(1 + n)) : 0 < U i i.
  have [k ->|k ->] := split_ordP i; rewrite /U.
    by rewrite block_mxEul mxE eqxx mulr1n.
  by rewrite block_mxEdr.
have P2 (i j : 'I_(1 + n)) : (j < i)%N -> U i j = 0.
  have [k ->|k ->] := split_ordP i; have [l ->|l ->] := split_ordP j; rewrite /U.
  + by rewrite !ord1.
  + by rewrite ord1 /=; lia.
  + by rewrite block_mxEdl mxE.
  + by rewrite block_mxEdr /= !ltn_add2l; exact: tU.
by exists U; split; [exact: EH|exact: P1|exact: P2].
Qed.
End Chol.
