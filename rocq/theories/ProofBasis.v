(** Lemmas about the lists of monomials. *)
From Coq Require Import ZArith Lia.
From mathcomp Require Import all_ssreflect all_algebra.
From mathcomp Require Import zify ssrZ.
From SsrMultinomials Require Import mpoly.
From Verif Require Import Base ModelUtil ModelProjective ProofUtil ProofUtil2 ModelBasis.
Delimit Scope Z_scope with Z.

Set Implicit Arguments.
Unset Strict Implicit.
Unset Printing Implicit Defensive.

Lemma combS (T : Type) r (x : T) pool :
  combinations r.+1 (x :: pool) = [seq x :: c | c <- combinations r (x :: pool)] ++ combinations r.+1 pool.
Proof. by []. Qed.

Lemma combS0 (T : Type) r : combinations r.+1 [::] = [::] :> seq (seq T).
Proof. by []. Qed.

Lemma comb_size r k a : size (combinations r (iota a k.+1)) = 'C(k + r, r).
Proof.
elim: r k a => [|r IHr] k a; first by rewrite bin0.
elim: k a => [|k IHk] a.
  by rewrite [iota _ _]/= combS combS0 cats0 size_map (IHr 0) add0n !binn.
rewrite -[iota a k.+2]/(a :: iota a.+1 k.+1) combS size_cat size_map IHk.
rewrite -[a :: _]/(iota a k.+2) IHr [k.+1 + r.+1]addnS binS [RHS]addnC.
by rewrite [k.+1 + r]addSnnS.
Qed.

Lemma mem_comb r k a c :
  (c \in combinations r (iota a k)) = [&& size c == r, path leq a c & all (fun i => i < a + k) c].
Proof.
elim: r k a c => [|r IHr] k a c.
  by rewrite inE; case: c.
elim: k a c => [|k IHk] a c.
  rewrite [iota _ _]/= combS0 in_nil; apply/esym/negbTE.
  case: c => [|x c] //=; rewrite addn0 !negb_and; case: (leqP a x) => h; last by rewrite orbT.
  by rewrite /= !orbT.
rewrite -[iota a k.+1]/(a :: iota a.+1 k) combS mem_cat IHk.
case: c => [|x c]; first by rewrite /= orbF; apply/negbTE/negP=> /mapP[c' _ //].
have -> : (x :: c \in [seq a :: c0 | c0 <- combinations r (a :: iota a.+1 k)]) =
          (x == a) && (c \in combinations r (iota a k.+1)).
  apply/mapP/andP => [[c' hc [-> ->]]|[/eqP -> hc]]; first by rewrite eqxx.
  by exists c.
rewrite IHr /= eqSS addSnnS.
case: (size c == r) => //=; last by rewrite andbF.
have [-> | ne] := eqVneq x a.
  rewrite ltnn leqnn addnS ltnS leq_addr /=; case: (path leq a c) => //=.
  by rewrite orbF.
by rewrite /= [a < x]ltn_neqAle eq_sym ne.
Qed.

Lemma comb_uniq r k a : uniq (combinations r (iota a k)).
Proof.
elim: r k a => [|r IHr] k a //.
elim: k a => [|k IHk] a //.
rewrite -[iota a k.+1]/(a :: iota a.+1 k) combS cat_uniq IHk andbT.
rewrite map_inj_uniq; last by move=> ? ? [].
rewrite -[a :: _]/(iota a k.+1) IHr andTb; apply/hasPn => c.
rewrite mem_comb => /and3P[_ hp _]; apply/negP => /mapP[c' _ E].
by move: hp; rewrite E /= ltnn.
Qed.

(** Exponents *)
Definition expo n c := foldl add_at (nseq n 0) c.

Lemma size_add_at c i : size (add_at c i) = size c.
Proof. by rewrite /add_at; case: ifP => // h; rewrite size_set_nth; apply/maxn_idPr. Qed.

Lemma size_expo n c : size (expo n c) = n.
Proof.
rewrite /expo -[RHS](size_nseq n 0); elim: c (nseq n 0) => //= i c IH v.
by rewrite IH size_add_at.
Qed.

Lemma nth_add_at c i j : i < size c -> nth 0 (add_at c i) j = nth 0 c j + (i == j).
Proof.
move=> h; rewrite /add_at h nth_set_nth /= eq_sym; case: eqVneq => [->|]; by rewrite ?addn1 ?addn0.
Qed.

Lemma nth_expo n c j : all (fun i => i < n) c -> nth 0 (expo n c) j = count_mem j c.
Proof.
rewrite /expo -[X in all (fun i => i < X)](size_nseq n 0).
suff H v : all (fun i => i < size v) c ->
    nth 0 (foldl add_at v c) j = nth 0 v j + count_mem j c.
  by move=> /H ->; rewrite nth_nseq if_same.
elim: c v => [|i c IH] v /=; first by rewrite addn0.
by case/andP=> hi hc; rewrite IH ?size_add_at // nth_add_at // addnA.
Qed.

Lemma expoE n c : all (fun i => i < n) c -> expo n c = mkseq (fun j => count_mem j c) n.
Proof.
move=> h; apply: (@eq_from_nth _ 0); rewrite ?size_mkseq size_expo // => j hj.
by rewrite nth_expo // nth_mkseq.
Qed.

Lemma sum_iota n (F : nat -> nat) : \sum_(i <- iota 0 n) F i = \sum_(i < n) F i.
Proof. by rewrite -[in LHS](subn0 n) -/(index_iota 0 n) big_mkord. Qed.

Lemma sumn_count n c : all (fun i => i < n) c -> sumn (mkseq (fun j => count_mem j c) n) = size c.
Proof.
move=> h; rewrite sumnE big_map sum_iota.
elim: c h => [|i c IH] /= => [_|/andP[hi hc]]; first by rewrite big1.
by rewrite big_split /= IH // (bigD1 (Ordinal hi)) //= eqxx big1 // => j /negbTE; rewrite -val_eqE /= eq_sym => ->.
Qed.

Definition unexpo (v : seq nat) : seq nat := flatten [seq nseq (nth 0 v i) i | i <- iota 0 (size v)].

Lemma count_unexpo v j : count_mem j (unexpo v) = nth 0 v j.
Proof.
rewrite /unexpo count_flatten -map_comp sumnE big_map.
under eq_bigr do rewrite /= count_nseq /=.
case: (ltnP j (size v)) => h; last first.
  rewrite nth_default // big_seq big1 // => i; rewrite mem_iota add0n => /andP[_ hi].
  by have -> : (i == j) = false by apply/negbTE; rewrite neq_ltn (leq_trans hi h).
rewrite sum_iota (bigD1 (Ordinal h)) //= eqxx mul1n big1 ?addn0 // => i /negbTE.
by rewrite -val_eqE /= => ->.
Qed.

Lemma all_unexpo v : all (fun i => i < size v) (unexpo v).
Proof.
apply/allP => i /flattenP[s /mapP[k]]; rewrite mem_iota add0n => /andP[_ hk] ->.
by rewrite mem_nseq => /andP[_ /eqP ->].
Qed.

Lemma path_nseq_leq a k : path leq a (nseq k a).
Proof. by elim: k => //= k ->; rewrite leqnn. Qed.

Lemma path_unexpo v : path leq 0 (unexpo v).
Proof.
rewrite /unexpo; move: {1 3}0 (size v) => a n.
have : a <= a by [].
move: {1 3}a => b; elim: n a b => [|n IH] a b //= hb.
rewrite cat_path.
have -> : path leq b (nseq (nth 0 v a) a).
  by case: (nth 0 v a) => //= k; rewrite hb path_nseq_leq.
have hl : last b (nseq (nth 0 v a) a) <= a.+1.
  case: (nth 0 v a) => [|k]; first exact: leq_trans hb _.
  by rewrite -[nseq k.+1 a]/(ncons k.+1 a [::]) /=; elim: k => //=.
exact: IH.
Qed.

Lemma expoK v : expo (size v) (unexpo v) = v.
Proof.
rewrite expoE ?all_unexpo //; apply: (@eq_from_nth _ 0); rewrite ?size_mkseq // => i hi.
by rewrite nth_mkseq // count_unexpo.
Qed.

Lemma expo_inj n a b : all (fun i => i < n) a -> all (fun i => i < n) b ->
  sorted leq a -> sorted leq b -> expo n a = expo n b -> a = b.
Proof.
move=> ha hb sa sb E; apply: (sorted_eq leq_trans anti_leq sa sb).
apply/allP => j _ /=; apply/eqP; by rewrite -(nth_expo j ha) E nth_expo.
Qed.

(** The monomials of degree [d] in [n] variables. *)
Definition mons (n d : nat) : powers :=
  [seq expo n c | c <- combinations d (iota 0 n)].

Lemma basisE n (d : nat) : monomial_basis n (Z.of_nat d) = Ok (mons n.+1 d).
Proof.
rewrite /monomial_basis; case: (Z.eqb_spec (Z.of_nat d) 0) => h.
  by have -> : d = 0 by lia.
rewrite /monomial_basis_indices; have -> : (Z.of_nat d <? 0)%Z = false by lia.
by rewrite /= Nat2Z.id.
Qed.

Lemma mem_mons n d v : (v \in mons n d) = (size v == n) && (sumn v == d).
Proof.
apply/mapP/andP => [[c]|[/eqP sv /eqP dv]].
  rewrite mem_comb add0n => /and3P[/eqP sc _ hc] ->.
  by rewrite size_expo expoE // sumn_count // sc !eqxx.
exists (unexpo v); last by rewrite -sv expoK.
rewrite mem_comb add0n path_unexpo -sv all_unexpo andbT /=.
by rewrite -(sumn_count (all_unexpo v)) -expoE ?all_unexpo // expoK dv eqxx.
Qed.

Lemma uniq_mons n d : uniq (mons n d).
Proof.
rewrite map_inj_in_uniq ?comb_uniq // => a b.
rewrite !mem_comb !add0n => /and3P[_ pa aa] /and3P[_ pb ab].
by apply: expo_inj => //; apply: path_sorted; eauto.
Qed.

Lemma size_mons n d : size (mons n.+1 d) = 'C(n + d, d).
Proof. by rewrite size_map comb_size. Qed.

Lemma basis_neg n (d : Z) : (d < 0)%Z -> monomial_basis n d = Err ValueError.
Proof.
move=> h; rewrite /monomial_basis /monomial_basis_indices.
have -> : Z.eqb d 0 = false by lia.
by have -> : (d <? 0)%Z = true by lia.
Qed.

(** Sizes *)
Lemma basis_size_ok (n d : nat) :
  monomial_basis_size (Z.of_nat n) (Z.of_nat d) false = Ok (Z.of_nat (size (mons n.+1 d))).
Proof.
rewrite /monomial_basis_size -Nat2Z.inj_add.
by rewrite -[(n + d)%coq_nat]/(n + d)%N binomial_ok ?leq_addl //= size_mons.
Qed.

Lemma basis_size_reduced (n d : nat) :
  monomial_basis_size (Z.of_nat n) (Z.of_nat d) true =
  Ok (Z.of_nat (size (mons n.+1 d)) -
      (if (n < d)%N then Z.of_nat (size (mons n.+1 (d - n.+1))) else 0))%Z.
Proof.
rewrite /monomial_basis_size -Nat2Z.inj_add.
rewrite -[(n + d)%coq_nat]/(n + d)%N binomial_ok ?leq_addl //= size_mons.
case: ltnP => h; last first.
  have -> : (Z.of_nat d <? Z.of_nat n + 1)%Z = true by lia.
  by rewrite Z.sub_0_r.
have -> : (Z.of_nat d <? Z.of_nat n + 1)%Z = false by lia.
have -> : (Z.of_nat (n + d) - (Z.of_nat n + 1) = Z.of_nat (n + (d - n.+1)))%Z by lia.
have -> : (Z.of_nat d - (Z.of_nat n + 1) = Z.of_nat (d - n.+1))%Z by lia.
by rewrite binomial_ok ?leq_addl //= size_mons.
Qed.

(** Reduction *)
(** Componentwise comparison: [a] divides [b]. *)
Definition divides (a b : seq nat) : bool := all (fun ab => ab.1 <= ab.2) (zip a b).

Lemma remove_firstE m pows : uniq pows -> m \in pows ->
  remove_first m pows = Some [seq p <- pows | p != m].
Proof.
elim: pows => //= p pows IH /andP[hp hu]; rewrite inE eq_sym.
case: eqVneq => [<- _|ne /= hm] /=; last by rewrite IH.
by rewrite (eq_in_filter (a2 := predT)) ?filter_predT // => q hq; apply: contra hp => /eqP <-.
Qed.

Lemma size_add_rows a b : size (add_rows a b) = minn (size a) (size b).
Proof. by rewrite size_map size_zip. Qed.

Lemma add_rows_inj a b c : size b = size a -> size c = size a ->
  add_rows a b = add_rows a c -> b = c.
Proof.
elim: a b c => [|x a IH] [|y b] [|z c] //= [sb] [sc] [E1 E2].
by rewrite (IH b c) //; congr cons; lia.
Qed.

Lemma sumn_add_rows a b : size b = size a -> sumn (add_rows a b) = sumn a + sumn b.
Proof. by elim: a b => [|x a IH] [|y b] //= [h]; rewrite -/(add_rows a b) IH //; lia. Qed.

Definition sub_rows (b a : seq nat) : seq nat := [seq ab.2 - ab.1 | ab <- zip a b].

Lemma dividesP a b : size b = size a ->
  reflect (exists2 c, size c = size a & b = add_rows a c) (divides a b).
Proof.
move=> sb; apply: (iffP idP) => [h|[c sc ->]].
  exists (sub_rows b a); first by rewrite size_map size_zip sb minnn.
  elim: a b sb h => [|x a IH] [|y b] //= [sb] /andP[hx h].
  by rewrite /add_rows /= -/(add_rows _ _) -IH // subnKC.
by elim: a c sc {sb} => [|x a IH] [|y c] //= [sc]; rewrite /divides /= leq_addr; exact: IH.
Qed.

Lemma reduce_loopE row rows aux pows :
  (forall a, a \in aux -> size a = size row) -> uniq aux -> uniq pows ->
  (forall a, a \in aux -> add_rows row a \in pows) ->
  reduce_loop (row :: rows) aux pows =
  Ok [seq p <- pows | p \notin [seq add_rows row a | a <- aux]].
Proof.
elim: aux pows => [|a aux IH] pows hs /= => [_ _ _|/andP[ha hu] up hin].
  by rewrite (eq_filter (a2 := predT)) ?filter_predT.
rewrite remove_firstE ?hin ?mem_head //= IH ?filter_uniq //; last first.
- move=> b hb; rewrite mem_filter hin ?inE ?hb ?orbT // andbT.
  apply/eqP => E; move: ha; rewrite -(@add_rows_inj row b a) ?hb ?hs ?inE ?eqxx ?hb ?orbT //.
- by move=> b hb; apply: hs; rewrite inE hb orbT.
rewrite -filter_predI; congr Ok; apply: eq_filter => p /=.
by rewrite inE negb_or andbC.
Qed.

Lemma roll_const (T : eqType) (x : T) (s : seq T) : all (pred1 x) s -> roll s 1 = s.
Proof.
move=> h; have -> : s = nseq (size s) x by apply/all_pred1P.
rewrite /roll size_nseq; case: ifP => // _.
set k := Z.to_nat _; have /all_pred1P -> : all (pred1 x) (rot k (nseq (size s) x)).
  by apply/allP => y; rewrite mem_rot mem_nseq => /andP[_].
by rewrite size_rot size_nseq.
Qed.

Lemma reducedE n d row rows :
  all (fun r => (size r == n.+1) && (sumn r == sumn row)) (row :: rows) ->
  reduced_monomial_basis (Z.of_nat d) (row :: rows) =
  Ok [seq p <- mons n.+1 d | ~~ divides row p].
Proof.
move=> hall; have /andP[/andP[/eqP sr _] _] := hall.
rewrite /reduced_monomial_basis.
have -> : [seq sumn r | r <- row :: rows] == roll [seq sumn r | r <- row :: rows] 1.
  rewrite (@roll_const _ (sumn row)) // all_map.
  by apply: sub_all hall => r /andP[_].
rewrite [rassert _]/= [rbind _ _]/= sr.
have -> : all (fun r => size r == n.+1) rows.
  by have /andP[_ h] := hall; apply: sub_all h => r /andP[].
rewrite eqxx [~~ _]/=; case: Z.ltb_spec => h.
  rewrite basisE; congr Ok; rewrite (eq_in_filter (a2 := predT)) ?filter_predT // => v.
  rewrite mem_mons => /andP[/eqP sv /eqP dv]; apply/negP => /dividesP[|c sc E]; first by rewrite sv sr.
  by move: dv h; rewrite E sumn_add_rows //; lia.
have -> : (Z.of_nat d - Z.of_nat (sumn row) = Z.of_nat (d - sumn row))%Z by lia.
have hd : sumn row <= d by lia.
rewrite !basisE [rbind _ _]/= reduce_loopE ?uniq_mons //; last 2 first.
- by move=> a; rewrite mem_mons sr => /andP[/eqP].
- move=> a; rewrite !mem_mons => /andP[/eqP sa /eqP da].
  by rewrite size_add_rows sa sr minnn sumn_add_rows ?sa ?sr // da subnKC // !eqxx.
congr Ok; apply: eq_in_filter => v; rewrite mem_mons => /andP[/eqP sv /eqP dv].
have svr : size v = size row by rewrite sv sr.
congr negb; apply/mapP/(dividesP svr) => [[a]|[c sc E]].
  by rewrite mem_mons => /andP[/eqP sa _] ->; exists a; rewrite ?sa ?sr.
exists c => //; rewrite mem_mons sc sr eqxx /=; apply/eqP.
by move: dv; rewrite E sumn_add_rows //; lia.
Qed.

Lemma reduced_size n d row : size row = n.+1 -> sumn row <= d ->
  size [seq p <- mons n.+1 d | ~~ divides row p] + size (mons n.+1 (d - sumn row)) = size (mons n.+1 d).
Proof.
move=> sr hd.
have <- : size [seq p <- mons n.+1 d | divides row p] = size (mons n.+1 (d - sumn row)).
  rewrite -[RHS](size_map (add_rows row)); apply: perm_size; apply: uniq_perm.
  - by rewrite filter_uniq ?uniq_mons.
  - rewrite map_inj_in_uniq ?uniq_mons // => a b; rewrite !mem_mons => /andP[/eqP sa _] /andP[/eqP sb _].
    by apply: add_rows_inj; rewrite ?sa ?sb sr.
  move=> v; rewrite mem_filter mem_mons; apply/andP/mapP => [[hd' /andP[/eqP sv /eqP dv]]|[a]].
    have svr : size v = size row by rewrite sv sr.
    have /(dividesP svr)[c sc E] := hd'.
    exists c => //; rewrite mem_mons sc sr eqxx /=; apply/eqP.
    by move: dv; rewrite E sumn_add_rows //; lia.
  rewrite mem_mons => /andP[/eqP sa /eqP da] ->.
  rewrite size_add_rows sa sr minnn sumn_add_rows ?sa ?sr // da subnKC // !eqxx; split=> //.
  by apply/dividesP; [rewrite size_add_rows sa sr minnn | exists a; rewrite ?sa ?sr].
by rewrite !size_filter addnC count_predC.
Qed.
