(** More lemmas about ModelML.v: parameters, sampler, loss, network. *)
From Coq Require Import ZArith Lia.
From mathcomp Require Import all_ssreflect all_algebra.
From mathcomp Require Import zify ring.
From Verif Require Import Base ModelUtil ModelMC ModelML Herm ProofML.
Delimit Scope Z_scope with Z.

Set Implicit Arguments.
Unset Strict Implicit.
Unset Printing Implicit Defensive.

Import GRing.Theory Num.Theory Order.POrderTheory.
Local Open Scope ring_scope.

Lemma bin2_double n : ('C(n, 2).*2 = n * n.-1)%N.
Proof. by have := bin_ffact n 2; rewrite ffactnS ffactn1 -muln2. Qed.

Lemma round_sqrtP m (b := round_sqrt m) :
  (m <= b * b + b)%N /\ (b * b < m + b)%N \/ (m = 0 /\ b = 0)%N.
Proof.
rewrite /b /round_sqrt {b}.
have [H1 H2] := Nat.sqrt_spec' m.
move: H1 H2; move: (Nat.sqrt m) => s H1 H2.
case: (leqP (m - s * s) s) => H; last by left; split; nia.
case: s H1 H2 H => [|s] H1 H2 H; last by left; split; nia.
by right; split=> //; nia.
Qed.

Lemma round_sqrt_sq n : round_sqrt (n * n) = n.
Proof.
have [[H1 H2]|[H1 H2]] := round_sqrtP (n * n); last by move: H1 H2; case: n => // n; lia.
set b := round_sqrt _ in H1 H2 *; nia.
Qed.

Section Param.
Variable C : numClosedFieldType.

Lemma decode_rejects (diag upper : seq C) :
  size upper != 'C(size diag, 2) -> size upper != 1%N ->
  cholesky_decode diag upper = Err ValueError.
Proof.
rewrite /cholesky_decode /broadcast1 triu_size => /negbTE -> /=.
by case: upper => [|x [|y u]].
Qed.

Lemma cholU_of n (U : 'M[C]_n) : (forall i j : 'I_n, (j < i)%N -> U i j = 0) ->
  exists diag upper, [/\ size diag = n, size upper = 'C(n, 2),
    (forall i, nth 0 diag (nat_of_ord i) = U i i) & cholU n diag upper = U].
Proof.
move=> tU.
pose f (p : nat * nat) := if insub p.1 is Some i then
    (if insub p.2 is Some j then U i j else 0) else 0.
pose diag := [seq U i i | i <- enum 'I_n].
have dE (i : 'I_n) : nth 0 diag i = U i i.
  by rewrite (nth_map i) ?size_enum_ord // nth_ord_enum.
exists diag, [seq f p | p <- triu_indices n]; split=> //.
- by rewrite size_map size_enum_ord.
- by rewrite size_map triu_size.
apply/matrixP => i j; rewrite mxE; case: ltnP => ij.
  have H : (i < j < n)%N by rewrite ij ltn_ord.
  rewrite -triu_index // (nth_map (0%N, 0%N)) ?index_mem ?triu_mem //.
  by rewrite nth_index ?triu_mem // /f /= !valK.
case: eqP => [->|ne]; first exact: dE.
rewrite tU // ltn_neqAle ij andbT; apply/eqP => E; apply: ne; exact: val_inj.
Qed.

Lemma all_posdef_reached n (H : 'M[C]_n) : hermitian H -> posdef H ->
  exists diag upper, [/\ size diag = n, size upper = 'C(n, 2), all (fun d => 0 < d) diag &
    cholesky_decode diag upper = Ok (SqMx H)].
Proof.
move=> hH pH; have [U [-> pU tU]] := cholesky_exists hH pH.
have [diag [upper [sd su dE Ec]]] := cholU_of tU.
exists diag, upper; split=> //.
  by apply/(all_nthP 0) => i; rewrite sd => Hi; rewrite (dE (Ordinal Hi)).
by subst n; rewrite cholesky_decodeE // Ec.
Qed.

Lemma zip_ReIm (u : seq C) :
  [seq p.1 + 'i * p.2 | p <- zip [seq 'Re x | x <- u] [seq 'Im x | x <- u]] = u.
Proof. by elim: u => //= x u ->; rewrite -Crect. Qed.

Lemma from_param_cat (diag re im : seq C) : size re = 'C(size diag, 2) -> size im = size re ->
  cholesky_from_param (diag ++ re ++ im) =
  cholesky_decode diag [seq p.1 + 'i * p.2 | p <- zip re im].
Proof.
move=> sr si; rewrite /cholesky_from_param.
have -> : size (diag ++ re ++ im) = (size diag * size diag)%N.
  by rewrite !size_cat si sr addnn bin2_double; case: (size diag) => //= n; lia.
rewrite round_sqrt_sq take_size_cat // drop_size_cat // size_cat si addnn odd_double.
by rewrite doubleK take_size_cat // drop_size_cat.
Qed.

Lemma all_posdef_param n (H : 'M[C]_n) : hermitian H -> posdef H ->
  exists h_par, [/\ size h_par = (n ^ 2)%N, all (fun x => x \is Num.real) h_par &
    cholesky_from_param h_par = Ok (SqMx H)].
Proof.
move=> hH pH; have [diag [upper [sd su pd E]]] := all_posdef_reached hH pH.
exists (diag ++ [seq 'Re x | x <- upper] ++ [seq 'Im x | x <- upper]); split.
- by rewrite !size_cat !size_map sd su addnn bin2_double -mulnn; case: (n) => //= k; lia.
- rewrite !all_cat !all_map; apply/and3P; split.
  + by apply: sub_all pd => x; exact: gtr0_real.
  + by apply/allP => x _; exact: Creal_Re.
  + by apply/allP => x _; exact: Creal_Im.
by rewrite from_param_cat ?size_map ?sd // zip_ReIm.
Qed.

Lemma from_param_square (h_par : seq C) n : size h_par = (n ^ 2)%N ->
  exists H : 'M[C]_n,
  [/\ cholesky_from_param h_par = Ok (SqMx H), hermitian H, possemidef H &
      posdef H <-> all (fun d => d != 0) (take n h_par)].
Proof.
rewrite -mulnn => sz; rewrite /cholesky_from_param sz round_sqrt_sq.
have sd : size (take n h_par) = n by rewrite size_takel // sz; nia.
have sr : size (drop n h_par) = 'C(n, 2).*2.
  by rewrite size_drop sz bin2_double; case: (n) => //= k; lia.
rewrite sr odd_double doubleK; set upper := map _ _.
have su : size upper = 'C(size (take n h_par), 2).
  by rewrite sd size_map size_zip (size_takel (s := drop n _)) ?(size_drop 'C(n, 2)) sr; lia.
move: sd; clearbody upper; set diag := take n h_par in su *; clearbody diag => sd.
have [U [E _ _ [hU sU] pU]] := decode_lemma su.
by subst n; exists (U *m adjm U).
Qed.

Lemma from_param_bad (h_par : seq C) : (forall n, size h_par <> n ^ 2)%N ->
  cholesky_from_param h_par = Err ValueError.
Proof.
move=> H; rewrite /cholesky_from_param; set m := size h_par; set b := round_sqrt m.
have Hb : m <> (b * b)%N by rewrite mulnn; exact: H.
have bm : (b <= m)%N.
  by have [[]|[]] := round_sqrtP m; rewrite -/b; nia.
have sd : size (take b h_par) = b by rewrite size_takel.
have sr : size (drop b h_par) = (m - b)%N by rewrite size_drop.
rewrite sr; case: ifP => // odd; set upper := map _ _.
have su : (size upper).*2 = (m - b)%N.
  have := odd_double_half (m - b); rewrite odd add0n => oh.
  rewrite size_map size_zip (size_takel (s := drop b _)) ?(size_drop (m - b)./2) sr; lia.
apply: decode_rejects; rewrite ?sd; apply/eqP => E.
  by have := bin2_double b; rewrite -E su; case: (b) bm Hb => [|k]; lia.
move: su; rewrite E /= => su.
have [[]|[]] := round_sqrtP m; rewrite -/b; last by lia.
clearbody b; have Em : m = (b + 2)%N by lia.
rewrite Em => H1 H2; have b2 : (b <= 2)%N by nia.
by move: H1 Hb; rewrite Em; case: (b) b2 => [|[|[|]]].
Qed.

(** Diagonal parameters. *)
Lemma cholU_zero n (diag : seq C) m : cholU n diag (nseq m 0) *m adjm (cholU n diag (nseq m 0))
  = \matrix_(i, j) if i == j then nth 0 diag i * (nth 0 diag i)^* else 0.
Proof.
have E : cholU n diag (nseq m 0) = \matrix_(i, j) if i == j then nth 0 diag i else 0.
  apply/matrixP => i j; rewrite !mxE; case: ltnP => ij //.
  by rewrite nth_nseq if_same; case: eqP => // E; rewrite E ltnn in ij.
rewrite E; apply/matrixP => i j; rewrite [LHS]mxE [RHS]mxE (bigD1 i) //= big1 ?addr0; last first.
  by move=> k ki; rewrite mxE eq_sym (negbTE ki) mul0r.
rewrite adjmE !mxE eqxx eq_sym; case: eqP => [->|_] //.
by rewrite cj0 mulr0.
Qed.

Lemma diag_param (diag : seq C) n : size diag = n ->
  cholesky_from_param (diag ++ nseq (n ^ 2 - n) 0) =
  Ok (SqMx (\matrix_(i < n, j < n) if i == j then nth 0 diag i * (nth 0 diag i)^* else 0)).
Proof.
move=> sd.
have E : (n ^ 2 - n = 'C(n, 2) + 'C(n, 2))%N.
  by rewrite addnn bin2_double -mulnn; case: (n) => //= k; lia.
have -> : nseq (n ^ 2 - n) 0 = nseq 'C(n, 2) 0 ++ nseq 'C(n, 2) 0 :> seq C.
  by rewrite E nseqD.
rewrite from_param_cat ?size_nseq ?sd //.
have -> : [seq p.1 + 'i * p.2 | p <- zip (nseq 'C(n, 2) 0) (nseq 'C(n, 2) 0)] = nseq 'C(n, 2) (0 : C).
  by elim: 'C(n, 2) => //= k ->; rewrite mulr0 addr0.
rewrite cholesky_decodeE ?size_nseq ?sd //.
by subst n; rewrite cholU_zero.
Qed.

Lemma param_initE normals n (fl : option C) : size normals = n ->
  hermitian_param_init normals n fl =
  [seq (if fl is Some f then 1 + x * f else 1) | x <- normals] ++ nseq (n ^ 2 - n) 0.
Proof.
move=> sn; rewrite /hermitian_param_init drop_nseq.
congr (_ ++ _); case: fl => // ; rewrite -sn.
by elim: normals {sn} => //= x s <-.
Qed.

Lemma init_identity normals n : size normals = n ->
  cholesky_from_param (hermitian_param_init normals n None) = Ok (SqMx (1%:M : 'M[C]_n)).
Proof.
move=> sn; rewrite param_initE // diag_param ?size_map //; congr (Ok (SqMx _)).
apply/matrixP => i j; rewrite !mxE; case: eqP => //= _.
by rewrite (nth_map 0) ?sn // cj1 mulr1.
Qed.

Lemma init_fluct normals n (f : C) : size normals = n -> f \is Num.real ->
  all (fun x => x \is Num.real) normals ->
  cholesky_from_param (hermitian_param_init normals n (Some f)) =
  Ok (SqMx (\matrix_(i < n, j < n) ((1 + nth 0 normals i * f) ^+ 2 *+ (i == j)))).
Proof.
move=> sn fr nr; rewrite param_initE // diag_param ?size_map //; congr (Ok (SqMx _)).
apply/matrixP => i j; rewrite !mxE; case: eqP => //= _.
rewrite (nth_map 0) ?sn // conj_Creal ?expr2 //.
rewrite rpredD ?rpred1 // rpredM //; apply: (allP nr); apply: mem_nth; by rewrite sn.
Qed.
End Param.
