(** Lemmas about the evaluation of sections. *)
From Coq Require Import ZArith Lia.
From mathcomp Require Import all_ssreflect all_algebra.
From mathcomp Require Import zify ssrZ.
From SsrMultinomials Require Import mpoly.
From Verif Require Import Base ModelUtil ModelProjective ProofUtil ProofProjective.
From Verif Require Import ModelMon SpecMon ProofMon ModelBasis SpecBasis ProofBasis.
Delimit Scope Z_scope with Z.

Set Implicit Arguments.
Unset Strict Implicit.
Unset Printing Implicit Defensive.

Import GRing.Theory Num.Theory.
Local Open Scope ring_scope.

Section Eval.
Variable C : numClosedFieldType.
Implicit Types (zs : seq C) (row : seq nat).

Definition zprod (z : seq C) row : C := \prod_(xp <- zip z row) xp.1 ^+ xp.2.

Lemma zprodE (z : seq C) row : size row = size z -> zprod z row = monomial_at z row.
Proof.
rewrite /zprod /monomial_at; elim: z row => [|x z IH] [|k row] //= => [_|[h]].
  by rewrite big_nil big_ord0.
by rewrite big_cons big_ord_recl IH.
Qed.

Lemma size_pow_scan (z0 zi : C) n : size (pow_scan z0 zi n) = n.+1.
Proof. by elim: n z0 => //= n IH z0; rewrite IH. Qed.

Lemma nth_pow_scan (z0 zi : C) n i : (i <= n)%N -> nth 0 (pow_scan z0 zi n) i = z0 * zi ^+ i.
Proof.
elim: n z0 i => [|n IH] z0 [|i] //=; rewrite ?expr0 ?mulr1 // => h.
by rewrite IH // exprS mulrA.
Qed.

Lemma take_getpows (zi : C) n i : (i <= n)%N -> take_at (getpows zi n) i = zi ^+ i.
Proof.
move=> h; rewrite /take_at size_pow_scan /=; have /minn_idPl -> := h.
by rewrite nth_pow_scan // mul1r.
Qed.

Lemma columns_prod zs (cols : seq (seq nat)) D k :
  size cols = size zs -> all (fun c => (k < size c)%N) cols ->
  all (fun c => (nth 0%N c k <= D)%N) cols ->
  \prod_(row <- [seq [seq take_at ai.1 i | i <- ai.2] | ai <- zip [seq getpows z D | z <- zs] cols]) nth 1 row k
  = zprod zs [seq nth 0%N c k | c <- cols].
Proof.
rewrite /zprod; elim: zs cols => [|x zs IH] [|c cols] //=; first by rewrite !big_nil.
move=> [h] /andP[k1 hk] /andP[d1 hd]; rewrite !big_cons IH //; congr (_ * _).
by rewrite (nth_map 0%N) // take_getpows.
Qed.

Lemma transpose_row (pows : powers) m k : (k < size pows)%N -> all (fun r => size r == m) pows ->
  [seq nth 0%N c k | c <- transpose pows] = nth [::] pows k.
Proof.
move=> hk hall.
have -> : transpose pows = [seq [seq nth 0%N row j | row <- pows] | j <- iota 0 m].
  by rewrite /transpose; case: pows hk hall => //= r pows _ /andP[/eqP ->].
rewrite -map_comp.
have /eqP sr : size (nth [::] pows k) == m by apply: (allP hall); apply: mem_nth.
apply: (@eq_from_nth _ 0%N); first by rewrite size_map size_iota sr.
rewrite size_map size_iota => j hj; rewrite (nth_map 0%N) ?size_iota // nth_iota //= add0n.
by rewrite (nth_map [::]).
Qed.

Lemma size_transpose (pows : powers) m : pows != [::] -> all (fun r => size r == m) pows ->
  size (transpose pows) = m.
Proof.
by rewrite /transpose size_map size_iota; case: pows => //= r pows _ /andP[/eqP].
Qed.

Lemma transpose_all (pows : powers) : all (fun c => size c == size pows) (transpose pows).
Proof. by apply/allP => c /mapP[j _ ->]; rewrite size_map. Qed.

Lemma all_del (T : Type) (a : pred T) s i : all a s -> all a (del s i).
Proof.
rewrite -{1}(cat_take_drop i s) all_cat /del all_cat => /andP[-> /=].
by rewrite -add1n -drop_drop; case: (drop i s) => //= x t /andP[]; rewrite drop0.
Qed.

Lemma map_iota_nth (T U : Type) (f : T -> U) x0 s : [seq f (nth x0 s k) | k <- iota 0 (size s)] = map f s.
Proof. by rewrite -[in RHS](mkseq_nth x0 s) /mkseq -map_comp. Qed.

(** Rows of [m] powers not above [D]. *)
Definition good (m D : nat) (pows : powers) : bool :=
  all (fun r => (size r == m) && all (fun k => (k <= D)%N) r) pows.

Lemma good_size m D pows : good m D pows -> all (fun r => size r == m) pows.
Proof. by apply: sub_all => r /andP[]. Qed.

Lemma good_nth m D pows k j : good m D pows -> (nth 0%N (nth [::] pows k) j <= D)%N.
Proof.
move=> g; case: (ltnP k (size pows)) => hk; last by rewrite (nth_default [::] hk) nth_nil.
have /andP[_ /allP h] := allP g _ (mem_nth [::] hk).
case: (ltnP j (size (nth [::] pows k))) => hj; last by rewrite (nth_default 0%N hj).
exact/h/mem_nth.
Qed.

Lemma index_none zs (pows : powers) D : pows != [::] -> good (size zs) D pows ->
  compute_monomials_index zs None pows D = Ok [seq monomial_at zs row | row <- pows].
Proof.
move=> pn g; have gs := good_size g; rewrite /compute_monomials_index /= size_map (size_transpose pn gs) eqxx /=.
congr Ok; rewrite -(map_iota_nth _ [::]); apply/eq_in_map => k.
rewrite mem_iota add0n => /andP[_ hk].
rewrite columns_prod ?(size_transpose pn gs) //; last 2 first.
- by apply: sub_all (transpose_all pows) => c /eqP ->.
- apply/allP => c /(nthP [::])[j hj <-].
  have := good_nth k j g; rewrite -(transpose_row hk gs) (nth_map [::]) //.
rewrite (transpose_row hk gs) zprodE //.
by have /eqP -> : size (nth [::] pows k) == size zs by apply: (allP gs); apply: mem_nth.
Qed.

Lemma zprod_ins zs row (p : nat) : (p <= size zs)%N -> size row = (size zs).+1 ->
  zprod (ins zs p 1) row = zprod zs (del row p).
Proof.
move=> hp sr; rewrite /zprod /ins /del.
have st : size (take p zs) = p by rewrite size_takel.
have sr' : size (take p row) = p by rewrite size_takel // sr ltnW.
rewrite -[in LHS](cat_take_drop p row) zip_cat ?st ?sr' //.
rewrite -[in RHS](cat_take_drop p zs) zip_cat ?st ?sr' //.
rewrite !big_cat /=; congr (_ * _).
rewrite (drop_nth 0%N) ?sr ?ltnS //= big_cons expr1n mul1r //.
Qed.

Lemma index_some zs (pows : powers) D (p : nat) : pows != [::] -> good (size zs).+1 D pows ->
  (p <= size zs)%N ->
  compute_monomials_index zs (Some (Z.of_nat p)) pows D =
  Ok [seq monomial_at (affine_to_hom zs (Z.of_nat p)) row | row <- pows].
Proof.
move=> pn g hp; have gs := good_size g; rewrite /compute_monomials_index.
have stp := size_transpose pn gs.
rewrite (pop_del [::]) ?stp // [rmap _ _]/= [rbind _ _]/= size_map size_del ?stp //= eqxx /=.
congr Ok; rewrite -[in RHS](map_iota_nth _ [::]); apply/eq_in_map => k.
rewrite mem_iota add0n => /andP[_ hk].
have hr := transpose_row hk gs.
rewrite columns_prod; last 3 first.
- by rewrite size_del stp.
- by apply: all_del; apply: sub_all (transpose_all pows) => c /eqP ->.
- apply: all_del; apply/allP => c /(nthP [::])[j hj <-].
  by have := good_nth k j g; rewrite -hr (nth_map [::]).
have /eqP sr : size (nth [::] pows k) == (size zs).+1 by apply: (allP gs); apply: mem_nth.
rewrite map_del hr affine_to_homE // -zprodE ?size_ins //.
by rewrite zprod_ins.
Qed.

(** The logarithmic variant *)
Variables (lg ex : C -> C).
Hypothesis el : exp_log_ok lg ex.

Lemma ex_sum zs row : all (fun z => z != 0) zs ->
  ex (\sum_(pz <- zip row [seq lg z | z <- zs]) pz.1%:R * pz.2) = zprod zs row.
Proof.
have [e0 eD eL] := el; rewrite /zprod.
elim: zs row => [|x zs IH] [|k row] //= => [_|_|_|/andP[hx hz]]; rewrite ?big_nil ?e0 //.
by rewrite !big_cons eD IH // mulrC /= [_%:R * _]mulrC (ex_nat el) eL // mulrC.
Qed.

Lemma log_none zs (pows : powers) : all (fun r => size r == size zs) pows ->
  all (fun z => z != 0) zs ->
  compute_monomials_log lg ex zs None pows = Ok [seq monomial_at zs row | row <- pows].
Proof.
move=> hs hz; rewrite /compute_monomials_log hs /=; congr Ok; apply/eq_in_map => row hr.
by rewrite ex_sum // zprodE //; apply/eqP/(allP hs).
Qed.

Lemma log_some zs (pows : powers) (p : nat) : all (fun r => size r == (size zs).+1) pows ->
  all (fun z => z != 0) zs -> (p <= size zs)%N ->
  compute_monomials_log lg ex zs (Some (Z.of_nat p)) pows =
  Ok [seq monomial_at (affine_to_hom zs (Z.of_nat p)) row | row <- pows].
Proof.
move=> hs hz hp; rewrite /compute_monomials_log.
have -> : all (fun row => size row == size (roll zs (- Z.of_nat p)))
    [seq behead (roll row (- Z.of_nat p)) | row <- pows].
  rewrite size_roll all_map; apply: sub_all hs => row /eqP h /=.
  by rewrite size_behead size_roll h.
rewrite -map_comp /=; congr Ok; apply/eq_in_map => row hr /=.
have /eqP sr := allP hs _ hr.
have hrr : roll row (- Z.of_nat p) = rot p row by rewrite roll_rot // sr; lia.
rewrite ex_sum; last first.
  by rewrite roll_rot //; apply/allP => z; rewrite mem_rot; apply: (allP hz).
rewrite [roll zs _]roll_rot // affine_to_homE // -zprodE ?size_ins // zprod_ins // /del.
have -> : behead (roll row (- Z.of_nat p)) = drop p.+1 row ++ take p row.
  by rewrite hrr /rot (drop_nth 0%N) ?sr ?ltnS.
rewrite -[rot p zs]/(drop p zs ++ take p zs).
rewrite /zprod zip_cat ?size_drop ?sr ?subSS // big_cat /= [LHS]mulrC.
rewrite -[in RHS](cat_take_drop p zs) zip_cat ?big_cat //.
by rewrite !size_takel // sr; lia.
Qed.
End Eval.

Lemma mons_good n d : good n d (mons n d).
Proof.
apply/allP => v; rewrite mem_mons => /andP[-> /eqP <-] /=; apply/allP => k hk.
by rewrite (perm_sumn (perm_to_rem hk)) leq_addr.
Qed.

Lemma mons_neq0 n d : mons n.+1 d != [::].
Proof. by rewrite -size_eq0 size_mons -lt0n bin_gt0 leq_addl. Qed.
