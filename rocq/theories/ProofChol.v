(** Which Cholesky parameters give the same matrix. *)
From Coq Require Import ZArith Lia.
From mathcomp Require Import all_ssreflect all_algebra.
From mathcomp Require Import zify ssrZ.
From Verif Require Import Base ModelUtil ModelMC ModelML Herm Herm2 ProofML ProofML2.
Delimit Scope Z_scope with Z.

Set Implicit Arguments.
Unset Strict Implicit.
Unset Printing Implicit Defensive.

Import GRing.Theory Num.Theory Order.POrderTheory.
Local Open Scope ring_scope.

Section Chol.
Variable C : numClosedFieldType.

Lemma sqmx_inj n (A B : 'M[C]_n) : SqMx A = SqMx B -> A = B.
Proof.
pose f (M : sqmx C) : 'M[C]_n := if sqdim M =P n is ReflectT e then castmx (e, e) (sqval M) else 0.
have fE (M : 'M[C]_n) : f (SqMx M) = M by rewrite /f /=; case: eqP => // e; rewrite castmx_id.
by move=> /(congr1 f); rewrite !fE.
Qed.

Definition upper_mx n (U : 'M[C]_n) := forall i j : 'I_n, (j < i)%N -> U i j = 0.

(** The quotient of upper triangular matrices is upper triangular. *)
Lemma upper_quot n (U V W : 'M[C]_n) : upper_mx U -> upper_mx V -> (forall i, V i i != 0) -> U = V *m W -> upper_mx W.
Proof.
move=> tU tV dV E i j; have [m] := ubnP (n - i); elim: m i j => // m IH i j im ji.
have := congr1 (fun M : 'M_n => M i j) E; rewrite /= (tU _ _ ji) mxE (bigD1 i) //= big1 => [|k ki]; last first.
  have [k1|k1|k1] := ltngtP k i; first by rewrite tV // mul0r.
    by rewrite IH ?mulr0 // ?(ltn_trans ji k1) //; have := ltn_ord k; lia.
  by move: ki; rewrite (val_inj k1) eqxx.
by rewrite addr0 => /esym/eqP; rewrite mulf_eq0 (negPf (dV i)) /= => /eqP.
Qed.

Lemma upper_unit n (U : 'M[C]_n) : upper_mx U -> (forall i, U i i != 0) -> U \in unitmx.
Proof.
move=> tU dU; rewrite unitmxE unitfE -det_tr det_trig.
  by apply/prodf_neq0 => i _; rewrite mxE.
by apply/is_trig_mxP => i j ij; rewrite mxE tU.
Qed.

Lemma chol_unique n (U V : 'M[C]_n) : upper_mx U -> upper_mx V -> (forall i, U i i != 0) -> (forall i, V i i != 0) ->
  U *m adjm U = V *m adjm V -> exists d : 'rV[C]_n, (forall i, `|d 0 i| = 1) /\ U = V *m diag_mx d.
Proof.
move=> tU tV dU dV E; have uV := upper_unit tV dV; pose W := invmx V *m U.
have EU : U = V *m W by rewrite /W mulmxA mulmxV // mul1mx.
have WW : W *m adjm W = 1%:M.
  rewrite /W adjm_mul mulmxA -[invmx V *m U *m _]mulmxA E !mulmxA mulVmx // mul1mx -adjm_mul mulVmx //.
  by apply/matrixP => i j; rewrite !mxE eq_sym rmorph_nat.
have EV : V = U *m adjm W by rewrite EU -mulmxA WW mulmx1.
have tW := upper_quot tU tV dV EU; have tW' := upper_quot tV tU dU EV.
have Wd : W = diag_mx (\row_i W i i).
  apply/matrixP => i j; rewrite [RHS]mxE; have [->|ij] := eqVneq i j; first by rewrite mxE mulr1n.
  have [k|k|k] := ltngtP i j; rewrite mulr0n; last by move: ij; rewrite (val_inj k) eqxx.
    by have := tW' _ _ k; rewrite adjmE => /eqP; rewrite conjC_eq0 => /eqP.
  exact: tW.
exists (\row_i W i i); split; last by rewrite -Wd.
move=> i; have := congr1 (fun M : 'M_n => M i i) WW; rewrite /= [LHS]mxE (bigD1 i) //= big1 => [|k ki]; last first.
  by rewrite {1}Wd !mxE eq_sym (negPf ki) mulr0n mul0r.
rewrite addr0 adjmE -normCK [1%:M _ _]mxE eqxx [(\row_j _) _ _]mxE => /eqP; rewrite -(expr1n C 2) eqr_expn2 // ?normr_ge0 ?ler01 //.
by move=> /eqP ->; rewrite expr1n.
Qed.

Lemma sign_of (d x y : C) : `|d| = 1 -> x \is Num.real -> y \is Num.real -> y != 0 -> x = y * d -> exists e : bool, d = (- 1) ^+ e.
Proof.
move=> d1 xr yr y0 E; have dr : d \is Num.real.
  by have -> : d = x / y; [rewrite E mulrC mulKf|rewrite realM ?realV].
by exists (d < 0)%R; rewrite {1}(realEsign dr) d1 mulr1.
Qed.

Definition same_up_to_signs n (diag upper diag' upper' : seq C) := exists e : nat -> bool,
   (forall i, (i < n)%N -> nth 0 diag' i = (- 1) ^+ (e i) * nth 0 diag i) /\
   (forall i j, (i < j < n)%N -> let p := (\sum_(a < i) (n - a.+1) + (j - i.+1))%N in
      nth 0 upper' p = (- 1) ^+ (e j) * nth 0 upper p).

Lemma same_mx n diag upper diag' upper' :
  (forall i : 'I_n, nth 0 diag i \is Num.real) -> (forall i : 'I_n, nth 0 diag' i \is Num.real) ->
  (forall i : 'I_n, nth 0 diag i != 0) ->
  (cholU n diag upper *m adjm (cholU n diag upper) = cholU n diag' upper' *m adjm (cholU n diag' upper') <->
   same_up_to_signs n diag upper diag' upper').
Proof.
move=> rd rd' d0; set U := cholU n diag upper; set V := cholU n diag' upper'.
have dU i : U i i = nth 0 diag i by rewrite mxE ltnn eqxx.
have dV i : V i i = nth 0 diag' i by rewrite mxE ltnn eqxx.
have tU : upper_mx U by move=> i j ij; rewrite mxE ltnNge (ltnW ij) /= -val_eqE /= gtn_eqF.
have tV : upper_mx V by move=> i j ij; rewrite mxE ltnNge (ltnW ij) /= -val_eqE /= gtn_eqF.
split=> [E|[e [He Hu]]].
  have uU : U \in unitmx by apply: upper_unit => // i; rewrite dU.
  have V0 i : V i i != 0.
    have : V \in unitmx.
      have := f_equal (fun M => \det M) E; rewrite /= !det_mulmx => D.
      rewrite unitmxE unitfE; apply/eqP => V0; move: D; rewrite V0 mul0r => /eqP.
      rewrite mulf_eq0 !det_adjm conjC_eq0 orbb => /eqP U0.
      by move: uU; rewrite unitmxE unitfE U0 eqxx.
    rewrite unitmxE unitfE -det_tr det_trig; first by move=> /prodf_neq0/(_ i isT); rewrite mxE.
    by apply/is_trig_mxP => a b ab; rewrite mxE tV.
  have U0 i : U i i != 0 by rewrite dU.
  have [d [d1 EV]] := chol_unique tV tU V0 U0 (esym E).
  have VE i j : V i j = U i j * d 0 j by rewrite {1}EV mul_mx_diag mxE.
  have [e He] : exists e : nat -> bool, forall i : 'I_n, d 0 i = (- 1) ^+ (e i).
    exists (fun i => if insub i is Some i' then (d 0 i' < 0) else false) => i; rewrite valK.
    have [b bE] : exists b : bool, d 0 i = (- 1) ^+ b.
      by apply: (sign_of (d1 i) (rd' i) (rd i) (d0 i)); rewrite -dV VE dU.
    by rewrite bE; case: b {bE}; rewrite ?expr0 ?expr1 ?oppr_lt0 ?ltr01 ?ltr10.
  exists e; split=> [i Hi|i j /andP[ij jn] p].
    by have := VE (Ordinal Hi) (Ordinal Hi); rewrite dV dU He mulrC.
  have := VE (Ordinal (ltn_trans ij jn)) (Ordinal jn); rewrite He /V /U ![cholU _ _ _ _ _]mxE /= ij mulrC.
  by [].
have -> : V = U *m diag_mx (\row_i (- 1) ^+ (e i)).
  apply/matrixP => i j; rewrite mul_mx_diag [RHS]mxE [X in _ * X]mxE.
  have [ij|ij|ij] := ltngtP i j.
  - rewrite /V /U ![cholU _ _ _ _ _]mxE ij mulrC; apply: Hu; by rewrite ij ltn_ord.
  - by rewrite tV // tU // mul0r.
  by rewrite (val_inj ij) dV dU mulrC; apply: He.
rewrite adjm_mul mulmxA -[U *m _ *m _]mulmxA.
suff -> : diag_mx (\row_i (- 1) ^+ (e i)) *m adjm (diag_mx (\row_i (- 1) ^+ (e i))) = 1%:M :> 'M[C]_n by rewrite mulmx1.
apply/matrixP => i j; rewrite mul_diag_mx mxE adjmE !mxE eq_sym.
case: eqVneq => [->|_]; rewrite ?mulr0n ?conjC0 ?mulr0 // !mulr1n.
by rewrite rmorphX rmorphN rmorph1 -expr2 sqrr_sign.
Qed.

Lemma decode_same diag upper diag' upper' : size upper = 'C(size diag, 2) -> size upper' = 'C(size diag', 2) ->
  all (fun x => x \is Num.real) diag -> all (fun x => x \is Num.real) diag' ->
  all (fun x => x != 0) diag ->
  (cholesky_decode diag upper = cholesky_decode diag' upper' <->
   size diag' = size diag /\ same_up_to_signs (size diag) diag upper diag' upper').
Proof.
move=> su su' /(all_nthP 0) rd /(all_nthP 0) rd' /(all_nthP 0) d0; rewrite !cholesky_decodeE //.
have key (En : size diag' = size diag) := same_mx (n := size diag) upper upper'
  (fun i => rd i (ltn_ord i)) (fun i => rd' i (eq_ind_r (fun m => (i < m)%N) (ltn_ord i) En)) (fun i => d0 i (ltn_ord i)).
split=> [E|[En /(key En).2 K]]; last by rewrite En K.
have En : size diag' = size diag by case: E.
split=> //; apply/(key En).1; move: E; rewrite En.
by move=> /(congr1 (fun r => if r is Ok x then x else SqMx (0 : 'M[C]_0)))/sqmx_inj.
Qed.

Lemma pos_sign (x y : C) (e : bool) : 0 < x -> 0 < y -> y = (- 1) ^+ e * x -> e = false.
Proof.
by case: e => // x0 y0 E; move: y0; rewrite E expr1 mulN1r oppr_gt0 => /(lt_trans x0); rewrite ltxx.
Qed.

Lemma triu_cover n k : (k < 'C(n, 2))%N -> exists i j, (i < j < n)%N /\ k = (\sum_(a < i) (n - a.+1) + (j - i.+1))%N.
Proof.
rewrite -triu_size => Hk; case E : (nth (0%N, 0%N) (triu_indices n) k) => [i j]; exists i, j.
have ij : (i < j < n)%N by rewrite -triu_mem -E mem_nth.
by rewrite -triu_index // -E index_uniq ?triu_uniq.
Qed.

Lemma decode_pos (diag upper diag' upper' : seq C) : size upper = 'C(size diag, 2) -> size upper' = 'C(size diag', 2) ->
  all (fun x => 0 < x) diag -> all (fun x => 0 < x) diag' ->
  cholesky_decode diag upper = cholesky_decode diag' upper' -> diag = diag' /\ upper = upper'.
Proof.
move=> su su' p p' E.
have r := sub_all (fun x => @gtr0_real C x) p; have r' := sub_all (fun x => @gtr0_real C x) p'.
have n0 : all (fun x : C => x != 0) diag by apply: sub_all p => x; exact: lt0r_neq0.
have [sz [e [He Hu]]] := (decode_same su su' r r' n0).1 E.
move/(all_nthP 0) in p; move/(all_nthP 0) in p'.
have e0 i : (i < size diag)%N -> e i = false.
  by move=> Hi; apply: (pos_sign (p i Hi) _ (He i Hi)); apply: p'; rewrite sz.
split; apply: (@eq_from_nth _ 0) => [|i Hi] //; rewrite ?su ?su' ?sz //.
  by rewrite He // e0 // expr0 mul1r.
rewrite su in Hi; have [a [b [ab ->]]] := triu_cover Hi; rewrite Hu // e0 ?mul1r //.
by case/andP: ab.
Qed.

Lemma zip_rect (a b c d : seq C) : size b = size a -> size c = size a -> size d = size a ->
  all (fun x => x \is Num.real) (a ++ b) -> all (fun x => x \is Num.real) (c ++ d) ->
  [seq p.1 + 'i * p.2 | p <- zip a b] = [seq p.1 + 'i * p.2 | p <- zip c d] -> a = c /\ b = d.
Proof.
elim: a b c d => [|x a IH] [|y b] [|z c] [|w d] //= [sb] [sc] [sd].
rewrite !all_cat /= => /and4P[xr ar yr br] /and4P[zr cr wr dr] [E1 E2].
have [-> ->] : x = z /\ y = w.
  have := congr1 (fun v => 'Re v) E1; have := congr1 (fun v => 'Im v) E1.
  by rewrite /= !Re_rect // !Im_rect.
by have [|||||->->] := IH b c d _ _ _ _ _ E2; rewrite ?all_cat ?ar ?br ?cr ?dr.
Qed.

Lemma param_split (p : seq C) n : size p = (n ^ 2)%N -> exists diag re im, [/\ p = diag ++ re ++ im, size diag = n,
  size re = 'C(n, 2), size im = 'C(n, 2) & take n p = diag].
Proof.
rewrite -mulnn => sz; exists (take n p), (take 'C(n, 2) (drop n p)), (drop 'C(n, 2) (drop n p)).
have sd : size (take n p) = n by rewrite size_takel // sz; nia.
have sr : size (drop n p) = 'C(n, 2).*2.
  by rewrite size_drop sz bin2_double; case: (n) => //= k; lia.
rewrite !cat_take_drop; split=> //; first by rewrite size_takel // sr -addnn leq_addr.
by rewrite (size_drop 'C(n, 2)) sr -addnn addnK.
Qed.

Lemma param_unique n (p q : seq C) : size p = (n ^ 2)%N -> size q = (n ^ 2)%N ->
  all (fun x => x \is Num.real) p -> all (fun x => x \is Num.real) q ->
  all (fun x => 0 < x) (take n p) -> all (fun x => 0 < x) (take n q) ->
  cholesky_from_param p = cholesky_from_param q -> p = q.
Proof.
move=> sp sq rp rq pp pq.
have [d [r [i [Ep sd sr si td]]]] := param_split sp; have [d' [r' [i' [Eq sd' sr' si' td']]]] := param_split sq.
rewrite td in pp; rewrite td' in pq; subst p q.
rewrite !from_param_cat ?sd ?sd' ?sr ?sr' ?si ?si' // => E.
have [||-> U] := decode_pos _ _ pp pq E; rewrite ?size_map ?size_zip ?sr ?sr' ?si ?si' ?sd ?sd' ?minnn //.
move: rp rq; rewrite all_cat => /andP[_ rp]; rewrite all_cat => /andP[_ rq].
by have [|||->->] := zip_rect _ _ _ rp rq U; rewrite ?sr ?si ?sr' ?si'.
Qed.

Lemma param_bijective n (H : 'M[C]_n) : hermitian H -> posdef H ->
  exists2 p, [/\ size p = (n ^ 2)%N, all (fun x => x \is Num.real) p, all (fun x => 0 < x) (take n p) &
    cholesky_from_param p = Ok (SqMx H)] &
  forall q, size q = (n ^ 2)%N -> all (fun x => x \is Num.real) q -> all (fun x => 0 < x) (take n q) ->
    cholesky_from_param q = Ok (SqMx H) -> q = p.
Proof.
move=> hH pH; have [diag [upper [sd su pd E]]] := all_posdef_reached hH pH.
pose p := diag ++ [seq 'Re x | x <- upper] ++ [seq 'Im x | x <- upper].
have sp : size p = (n ^ 2)%N.
  by rewrite !size_cat !size_map sd su addnn bin2_double -mulnn; case: (n) => //= k; lia.
have rp : all (fun x => x \is Num.real) p.
  rewrite !all_cat !all_map; apply/and3P; split.
  + by apply: sub_all pd => x; exact: gtr0_real.
  + by apply/allP => x _; exact: Creal_Re.
  + by apply/allP => x _; exact: Creal_Im.
have pp : all (fun x => 0 < x) (take n p) by rewrite take_size_cat.
have Ep : cholesky_from_param p = Ok (SqMx H) by rewrite from_param_cat ?size_map ?sd // zip_ReIm.
by exists p => // q sq rq pq Eq; apply: (param_unique sq sp rq rp pq pp); rewrite Ep.
Qed.
End Chol.
