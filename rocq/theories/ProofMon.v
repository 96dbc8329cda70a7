(** Monomials from tables. *)
From Coq Require Import ZArith Lia Ascii String.
From mathcomp Require Import all_ssreflect all_algebra.
From mathcomp Require Import zify ssrZ ring.
From Verif Require Import Base ModelStr ModelExpr ModelPoly ModelMon SpecMon.
Delimit Scope Z_scope with Z.

Set Implicit Arguments.
Unset Strict Implicit.
Unset Printing Implicit Defensive.

Import GRing.Theory Num.Theory.
Local Open Scope ring_scope.

Section Mon.
Variable C : numClosedFieldType.
Variables (lg ex : C -> C).
Implicit Types (vp : option (seq C) * option ptable) (pr : seq C).

Lemma prod_powersE (v : seq C) row : size row = size v ->
  prod_powers v row = \prod_(j < size v) nth 0 v j ^+ nth 0%N row j.
Proof.
rewrite /prod_powers => sz; rewrite (big_nth (0, 0%N)) size_zip sz minnn big_mkord.
by apply: eq_bigr => j _; rewrite nth_zip.
Qed.

Lemma mon_scan_false (v : seq C) row p : mon_scan false v row p = p * prod_powers v row.
Proof.
rewrite /mon_scan /prod_powers; elim: (zip v row) p => [|[x k] z IH] p /=.
  by rewrite big_nil mulr1.
rewrite IH big_cons /mon_scalar /=; case: eqP => [->|_]; first by rewrite expr0 mul1r.
by rewrite mulrA.
Qed.

Lemma factor_prod i (v : seq C) p n : (i < n)%N -> table_ok n (Some v, Some p) ->
  prod_powers v (nth [::] p i) = factor_value i (Some v, Some p).
Proof.
move=> ni /andP[/eqP sp al]; rewrite prod_powersE //; apply/eqP/(allP al)/mem_nth.
by rewrite sp.
Qed.

Lemma zip_mkseq (A B D : Type) (a0 : A) (b0 : B) (f : A * B -> D) (s : seq A) (t : seq B) n :
  size s = n -> size t = n ->
  [seq f x | x <- zip s t] = mkseq (fun i => f (nth a0 s i, nth b0 t i)) n.
Proof.
move=> ss st; apply: (@eq_from_nth _ (f (a0, b0))).
  by rewrite size_map size_mkseq size_zip ss st minnn.
move=> i; rewrite size_map size_zip ss st minnn => ni.
by rewrite (nth_map (a0, b0)) ?size_zip ?ss ?st ?minnn // nth_mkseq // nth_zip // ss st.
Qed.

Lemma step_plain st pr vp : (if st is Log then false else true) -> table_ok (size pr) vp ->
  mon_step lg st pr vp = Ok (mkseq (fun i => nth 0 pr i * factor_value i vp) (size pr)).
Proof.
case: vp => [[v|] [p|]] ns /=; last 3 first.
- by move=> _; rewrite -[in LHS](mkseq_nth 0 pr); congr Ok; apply: eq_mkseq => i; rewrite mulr1.
- by move=> ->; rewrite /= -[in LHS](mkseq_nth 0 pr); congr Ok; apply: eq_mkseq => i; rewrite mulr1.
- by move=> _; rewrite -[in LHS](mkseq_nth 0 pr); congr Ok; apply: eq_mkseq => i; rewrite mulr1.
move=> tk; have := tk; rewrite /= /fits_table => -> /=; have [/eqP sp al] := andP tk.
have E1 : [seq rp.1 * prod_powers v rp.2 | rp <- zip pr p] =
    mkseq (fun i => nth 0 pr i * factor_value i (Some v, Some p)) (size pr).
  rewrite (zip_mkseq 0 [::] _ (erefl (size pr)) sp); apply/eq_in_map => i.
  rewrite mem_iota add0n => /andP[_ ni] /=; by rewrite (factor_prod ni tk).
case: st ns => // _; rewrite ?E1 //; congr Ok; rewrite -E1 /compute_mon.
rewrite (zip_mkseq [::] 0 _ sp (erefl (size pr))) (zip_mkseq 0 [::] _ (erefl (size pr)) sp).
by apply: eq_mkseq => i /=; rewrite mon_scan_false.
Qed.

Lemma loop_plain st pr vps : (if st is Log then false else true) -> all (table_ok (size pr)) vps ->
  mon_loop lg st pr vps =
  Ok (mkseq (fun i => nth 0 pr i * \prod_(vp <- vps) factor_value i vp) (size pr)).
Proof.
move=> ns; elim: vps pr => [|vp vps IH] pr /=.
  move=> _; rewrite -[in LHS](mkseq_nth 0 pr); congr Ok; apply: eq_mkseq => i.
  by rewrite big_nil mulr1.
case/andP=> t1 t2; rewrite step_plain //= IH size_mkseq //; congr Ok.
apply/eq_in_map => i; rewrite mem_iota add0n => /andP[_ ni].
by rewrite nth_mkseq // big_cons mulrA.
Qed.

Lemma loop_err n vps : ~~ all (table_ok n) vps ->
  exists e, forall st pr, size pr = n -> mon_loop lg st pr vps = Err e.
Proof.
elim: vps => //= vp vps IH.
have [t1 /= t2|t1 _] := boolP (table_ok n vp); last first.
  case: vp t1 => [[v|] [p|]] //= t1.
    by exists ValueError => st pr sp; rewrite sp /fits_table t1.
  by exists AssertionError => st pr sp; rewrite (negbTE t1).
have [e He] := IH t2; exists e => st pr sp.
have [pr' [-> sp']] : exists pr', mon_step lg st pr vp = Ok pr' /\ size pr' = n; last exact: He.
rewrite -sp in t1; case: vp t1 => [[v|] [p|]] /=; last 3 first.
- by exists pr.
- by move=> ->; exists pr.
- by exists pr.
rewrite /fits_table => tk; have [/eqP szp _] := andP tk; rewrite tk /=.
by case: st; eexists; (split; first by []); rewrite ?/compute_mon size_map size_zip szp minnn sp.
Qed.

Lemma compute_plain st values coeffs powers : (if st is Log then false else true) ->
  all (table_ok (size coeffs)) (zip values powers) ->
  compute_monomials lg ex st values coeffs powers = Ok (monomial_values values coeffs powers).
Proof.
move=> ns tk; rewrite /compute_monomials.
have -> : (if st is Log then 0 else 1) = 1 :> C by case: st ns.
rewrite loop_plain ?size_nseq //=; congr Ok.
rewrite (zip_mkseq 0 0 _ (erefl (size coeffs)) (size_mkseq _ _)); apply/eq_in_map => i.
rewrite mem_iota add0n => /andP[_ ni] /=.
by rewrite nth_mkseq // nth_nseq ni mul1r; case: st ns {tk}.
Qed.

Hypothesis el : exp_log_ok lg ex.

Lemma ex_nat x n : ex (x * n%:R) = ex x ^+ n.
Proof.
have [e0 eD _] := el; elim: n => [|n IH]; first by rewrite mulr0 e0.
by rewrite -addn1 natrD mulrDr mulr1 eD IH exprD expr1.
Qed.

Lemma ex_scan (v : seq C) row p : all (fun xk => (xk.2 == 0%N) || (xk.1 != 0)) (zip v row) ->
  ex (mon_scan true (map lg v) row p) = ex p * prod_powers v row.
Proof.
have [_ eD eL] := el; rewrite /mon_scan /prod_powers.
elim: v row p => [|x v IH] [|k row] p /=; try by rewrite big_nil mulr1.
case/andP=> xk al; rewrite IH // big_cons mulrA /mon_scalar /=; congr (_ * _).
case: eqP xk => [->|_] /=; first by rewrite mulr1.
by move=> xn; rewrite eD ex_nat eL.
Qed.

Lemma loop_log pr vps : all (table_ok (size pr)) vps -> all (@log_safe C) vps ->
  exists2 pr', mon_loop lg Log pr vps = Ok pr' & size pr' = size pr /\
    forall i, (i < size pr)%N -> ex (nth 0 pr' i) = ex (nth 0 pr i) * \prod_(vp <- vps) factor_value i vp.
Proof.
elim: vps pr => [|vp vps IH] pr /=.
  by exists pr => //; split=> // i _; rewrite big_nil mulr1.
case/andP=> t1 t2 /andP[l1 l2].
have [pr1 [E1 s1 H1]] : exists pr1, [/\ mon_step lg Log pr vp = Ok pr1, size pr1 = size pr &
    forall i, (i < size pr)%N -> ex (nth 0 pr1 i) = ex (nth 0 pr i) * factor_value i vp].
  case: vp t1 l1 => [[v|] [p|]] tk /=; last 3 first.
  - by exists pr; split=> // i _; rewrite mulr1.
  - by move=> _; exists pr; rewrite /= in tk; rewrite tk; split=> // i _; rewrite mulr1.
  - by exists pr; split=> // i _; rewrite mulr1.
  move=> ls; have := tk; rewrite /= /fits_table => -> /=; have [/eqP sp al] := andP tk.
  eexists; split; first by []; rewrite /compute_mon; first by rewrite size_map size_zip sp minnn.
  move=> i ni; rewrite (zip_mkseq [::] 0 _ sp (erefl (size pr))) nth_mkseq //= ex_scan.
    by rewrite (factor_prod ni tk).
  by apply: (allP ls); rewrite mem_nth // sp.
rewrite E1 /=; have [|pr' E' [s' H']] := IH pr1 _ l2; first by rewrite s1.
exists pr' => //; rewrite s' s1; split=> // i ni.
by rewrite H' ?s1 // H1 // big_cons mulrA.
Qed.

Lemma compute_log values coeffs powers :
  all (table_ok (size coeffs)) (zip values powers) -> all (@log_safe C) (zip values powers) ->
  compute_monomials lg ex Log values coeffs powers = Ok (monomial_values values coeffs powers).
Proof.
move=> tk ls; rewrite /compute_monomials.
have [|pr' -> [sp H]] := @loop_log (nseq (size coeffs) 0) (zip values powers) _ ls.
  by rewrite size_nseq.
rewrite size_nseq in sp H; rewrite /=; congr Ok.
rewrite (zip_mkseq 0 0 _ (erefl (size coeffs)) sp); apply/eq_in_map => i.
rewrite mem_iota add0n => /andP[_ ni] /=; rewrite H // nth_nseq ni.
by have [-> _ _] := el; rewrite mul1r.
Qed.
End Mon.
