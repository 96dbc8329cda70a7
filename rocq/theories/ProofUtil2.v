(** Lemmas about flatten/unflatten, shuffle_axis, binomial, PRNGSequence and
    Monte Carlo integration. *)
From Coq Require Import ZArith Lia.
From mathcomp Require Import all_ssreflect all_algebra.
From mathcomp Require Import zify ring.
From Verif Require Import Base ModelUtil ModelMC ProofUtil.
Delimit Scope Z_scope with Z.

Set Implicit Arguments.
Unset Strict Implicit.
Unset Printing Implicit Defensive.

(** ravel *)
Lemma ravel_foldl acc (l : seq (nat * nat)) :
  foldl (fun acc p => acc * p.1 + p.2) acc l =
  acc * \prod_(p <- l) p.1 + foldl (fun acc p => acc * p.1 + p.2) 0 l.
Proof.
elim: l acc => [|p l IH] acc /=; first by rewrite big_nil muln1 addn0.
rewrite IH [in RHS]IH big_cons; lia.
Qed.

Lemma prod_zip_fst (a b : seq nat) : size b = size a ->
  \prod_(p <- zip a b) p.1 = \prod_(d <- a) d.
Proof.
elim: a b => [|x a IH] [|y b] //=; first by rewrite !big_nil.
by move=> [/IH H]; rewrite !big_cons H.
Qed.

Lemma ravel_cat sh1 sh2 i1 i2 : size i1 = size sh1 -> size i2 = size sh2 ->
  ravel (sh1 ++ sh2) (i1 ++ i2) =
  ravel sh1 i1 * (\prod_(d <- sh2) d) + ravel sh2 i2.
Proof.
move=> H1 H2; rewrite /ravel zip_cat // foldl_cat ravel_foldl prod_zip_fst //.
Qed.

Lemma ravel1 d k : ravel [:: d] [:: k] = k. Proof. by []. Qed.

Lemma ravel_lt sh i : valid_index sh i -> ravel sh i < \prod_(d <- sh) d.
Proof.
move=> /andP[/eqP]; elim/last_ind: sh i => [|sh d IH] i.
  by rewrite big_nil; case: i.
case/lastP: i => [|i k]; rewrite !size_rcons // => -[sz].
rewrite zip_rcons // all_rcons /= => /andP[kd al].
rewrite -!cats1 ravel_cat // ravel1 big_cat /= !big_cons !big_nil muln1.
have := IH _ sz al. set P := \prod_(j <- sh) j => H.
by nia.
Qed.

Lemma prod_rcons_last (sh : seq nat) : sh != [::] ->
  \prod_(d <- sh) d = (\prod_(d <- take (size sh).-1 sh) d) * last 0 sh.
Proof.
case/lastP: sh => // sh d _.
by rewrite size_rcons /= -cats1 take_size_cat // last_cat /= big_cat /= big_cons big_nil muln1.
Qed.

Section Flat.
Variables (T : Type).

Lemma flatten_coordE (zs : ndarray T) bs dim :
  shape zs = rcons bs dim -> wf_nd zs -> 0 < dim ->
  flatten_coord zs = Ok (chunks (\prod_(d <- bs) d) dim (data zs), bs).
Proof.
move=> sh /eqP sz d0; rewrite /flatten_coord sh.
have -> : last 0 (rcons bs dim) = dim by rewrite last_rcons.
rewrite size_rcons /= -cats1 take_size_cat //.
rewrite sz sh -cats1 big_cat /= big_cons big_nil muln1 mulnK //.
case: (bs ++ [:: dim]) (cats1 bs dim) => [|a l _]; first by case: (bs).
by rewrite gtn_eqF.
Qed.

Lemma nth_iota_map (U : Type) (f : nat -> U) n k x0 : k < n ->
  nth x0 [seq f i | i <- iota 0 n] k = f k.
Proof. by move=> kn; rewrite (nth_map 0) ?size_iota // nth_iota. Qed.

Lemma flat_block (U : Type) (ss : seq (seq U)) d k j x0 :
  all (fun r => size r == d) ss -> k < size ss -> j < d ->
  nth x0 (flatten ss) (k * d + j) = nth x0 (nth [::] ss k) j.
Proof.
move=> al ks jd; rewrite -(nth_chunks (flatten ss) x0 ks jd).
by rewrite chunks_flattenK.
Qed.

Lemma chunk_row (zs : ndarray T) bs dim I x0 :
  shape zs = rcons bs dim -> wf_nd zs -> 0 < dim -> valid_index bs I ->
  nth [::] (chunks (\prod_(d <- bs) d) dim (data zs)) (ravel bs I) =
  [seq nd_get x0 zs (rcons I k) | k <- iota 0 dim].
Proof.
move=> sh /eqP sz d0 vI.
have lt := ravel_lt vI.
have szd : size (data zs) = (\prod_(d <- bs) d) * dim.
  by rewrite sz sh -cats1 big_cat /= big_cons big_nil muln1.
have sr : size (nth [::] (chunks (\prod_(d <- bs) d) dim (data zs)) (ravel bs I)) = dim.
  apply/eqP; apply: (all_nthP [::] (chunks_all szd)); by rewrite size_chunks.
apply: (@eq_from_nth _ x0); first by rewrite sr size_map size_iota.
rewrite sr => k kd.
rewrite nth_chunks // nth_iota_map // /nd_get sh -!cats1 ravel_cat //; last first.
  by case/andP: vI => /eqP.
by rewrite ravel1 big_cons big_nil muln1.
Qed.

Lemma flatten_unflatten_point (U : Type) (zs : ndarray T) bs dim
    (f : seq T -> seq U) oshape I J x0 y0 rows old :
  shape zs = rcons bs dim -> wf_nd zs -> 0 < dim ->
  (forall r, size (f r) = \prod_(d <- oshape) d) ->
  flatten_coord zs = Ok (rows, old) ->
  valid_index bs I -> valid_index oshape J ->
  nd_get y0 (unflatten_coord oshape [seq f r | r <- rows] old) (I ++ J) =
  nth y0 (f [seq nd_get x0 zs (rcons I k) | k <- iota 0 dim]) (ravel oshape J).
Proof.
move=> sh wf d0 fo; rewrite (flatten_coordE sh wf d0) => -[<- <-] vI vJ.
case/andP: (vI) => /eqP sI _; case/andP: (vJ) => /eqP sJ _.
have lt := ravel_lt vI; have ltJ := ravel_lt vJ.
rewrite /unflatten_coord {1}/nd_get /= ravel_cat //.
rewrite flat_block //; last first.
- by rewrite size_map size_chunks.
- by rewrite all_map (@eq_all _ _ predT) ?all_predT // => r /=; rewrite fo eqxx.
by rewrite (nth_map [::]) ?size_chunks // (chunk_row x0 sh).
Qed.

Lemma flatten_unflatten_id (zs : ndarray T) bs dim rows old :
  shape zs = rcons bs dim -> wf_nd zs -> 0 < dim ->
  flatten_coord zs = Ok (rows, old) -> unflatten_coord [:: dim] rows old = zs.
Proof.
move=> sh wf d0; rewrite (flatten_coordE sh wf d0) => -[<- <-].
case: zs sh wf => s d /= -> /eqP /= sz; rewrite /unflatten_coord cats1; congr NdArray.
apply: chunks_flatten.
by rewrite sz -cats1 big_cat /= big_cons big_nil muln1.
Qed.

End Flat.

(** shuffle_axis *)
Lemma slice_pos_lt rank axis :
  (- Z.of_nat rank <= axis < Z.of_nat rank)%Z -> slice_pos rank axis < rank.
Proof. by rewrite /slice_pos; case: (Z.ltb_spec axis 0); lia. Qed.

Section Shuffle.
Variable T : Type.
Variables (perm : nat -> seq nat) (x : ndarray T) (axis : Z) (pre post : seq nat) (len : nat).
Hypothesis sh : shape x = pre ++ len :: post.
Hypothesis wf : wf_nd x.
Hypothesis ax : slice_pos (size (shape x)) axis = size pre.
Hypothesis perm_ok : forall i, i < \prod_(d <- pre) d -> perm_eq (perm i) (iota 0 len).

Let n := \prod_(d <- pre) d.
Let sl := \prod_(d <- post) d.

Lemma shuffleE : shuffle_axis perm x axis =
  NdArray (shape x) (flatten
    [seq flatten [seq nth [::] (chunks len sl (nth [::] (chunks n (len * sl) (data x)) i)) j
                 | j <- perm i] | i <- iota 0 n]).
Proof.
rewrite /shuffle_axis ax sh take_size_cat // nth_cat ltnn subnn /=.
by rewrite -[X in drop _ X]cat_rcons drop_size_cat ?size_rcons.
Qed.

Lemma szx : size (data x) = n * (len * sl).
Proof. by move/eqP: wf => ->; rewrite sh big_cat big_cons /=. Qed.

Lemma block_size i : i < n -> size (nth [::] (chunks n (len * sl) (data x)) i) = len * sl.
Proof. by move=> i_n; apply/eqP; apply: (all_nthP [::] (chunks_all szx)); rewrite size_chunks. Qed.

Lemma slice_all i : i < n ->
  all (fun r => size r == sl) (chunks len sl (nth [::] (chunks n (len * sl) (data x)) i)).
Proof. by move=> i_n; apply: chunks_all; rewrite block_size. Qed.

Lemma perm_lt i j : i < n -> j \in perm i -> j < len.
Proof. by move=> /perm_ok /perm_mem ->; rewrite mem_iota. Qed.

Lemma size_perm i : i < n -> size (perm i) = len.
Proof. by move=> /perm_ok /perm_size ->; rewrite size_iota. Qed.

Lemma perm_slices_all i : i < n ->
  all (fun r => size r == sl)
   [seq nth [::] (chunks len sl (nth [::] (chunks n (len * sl) (data x)) i)) j | j <- perm i].
Proof.
move=> i_n; rewrite all_map; apply/allP => j /(perm_lt i_n) jl /=.
by apply: (all_nthP [::] (slice_all i_n)); rewrite size_chunks.
Qed.

Lemma flatten_const_size (U : Type) d (ss : seq (seq U)) :
  all (fun r => size r == d) ss -> size (flatten ss) = size ss * d.
Proof. by elim: ss => //= r ss IH /andP[/eqP rd /IH H]; rewrite size_cat H rd mulSn. Qed.

Lemma blocks_all : all (fun r => size r == len * sl)
 [seq flatten [seq nth [::] (chunks len sl (nth [::] (chunks n (len * sl) (data x)) i)) j
                 | j <- perm i] | i <- iota 0 n].
Proof.
rewrite all_map; apply/allP => i; rewrite mem_iota /= => i_n.
by rewrite (flatten_const_size (perm_slices_all i_n)) size_map size_perm.
Qed.

Lemma shuffle_wf : wf_nd (shuffle_axis perm x axis).
Proof.
rewrite shuffleE /wf_nd /= (flatten_const_size blocks_all) size_map size_iota.
by rewrite sh big_cat big_cons /=.
Qed.

Lemma shuffle_get x0 I j K : valid_index pre I -> j < len -> valid_index post K ->
  nd_get x0 (shuffle_axis perm x axis) (I ++ j :: K) =
  nd_get x0 x (I ++ nth 0 (perm (ravel pre I)) j :: K).
Proof.
move=> vI jl vK.
have lI := ravel_lt vI; have lK := ravel_lt vK.
case/andP: (vI) => /eqP sI _; case/andP: (vK) => /eqP sK _.
have ravE m : m < len -> ravel (pre ++ len :: post) (I ++ m :: K) =
    ravel pre I * (len * sl) + (m * sl + ravel post K).
  move=> ml; rewrite ravel_cat //=; last by rewrite sK.
  rewrite big_cons -/sl; congr (_ + _).
  by rewrite -cat1s -(cat1s m) ravel_cat.
set m := nth 0 (perm (ravel pre I)) j.
have ml : m < len.
  apply: (perm_lt lI); apply: mem_nth; by rewrite size_perm.
rewrite shuffleE /nd_get /= sh !ravE //.
have small a : a < len -> a * sl + ravel post K < len * sl.
  by move: lK; rewrite -/sl; nia.
rewrite (flat_block _ blocks_all); [|by rewrite size_map size_iota|exact: small].
rewrite nth_iota_map // (flat_block _ (perm_slices_all lI)) //; last first.
  by rewrite size_map size_perm.
rewrite (nth_map 0) ?size_perm // -/m nth_chunks // nth_chunks //.
exact: small.
Qed.
End Shuffle.

(** binomial *)
Lemma binomial_ok (n k : nat) : k <= n ->
  binomial (Z.of_nat n) (Z.of_nat k) = Ok (Z.of_nat 'C(n, k)).
Proof.
move=> kn; rewrite /binomial /py_factorial.
do 3 (case: Z.ltb_spec; [lia|move=> _ /=]).
rewrite Nat2Z.id.
have -> : (Z.to_nat (Z.of_nat k)) = k by lia.
have -> : (Z.to_nat (Z.of_nat n - Z.of_nat k)) = n - k by lia.
have := bin_fact kn; set c := 'C(n, k) => H; congr Ok.
have p1 := fact_gt0 k. have p2 := fact_gt0 (n - k).
rewrite -H; set p := k`! in p1 *; set q := (n-k)`! in p2 *.
by symmetry; apply: Z.div_unique_exact; nia.
Qed.

Lemma binomial_err n k : (n < 0 \/ k < 0 \/ k > n)%Z -> binomial n k = Err ValueError.
Proof.
rewrite /binomial /py_factorial.
case: Z.ltb_spec => //= A; case: Z.ltb_spec => //= B; case: Z.ltb_spec => //= D; lia.
Qed.

(** PRNGSequence *)
Section Prng.
Variables (key : Type) (split : key -> key * key).
Lemma prng_runE n s : prng_run split n s =
  ([seq (split (iter i (fun k => (split k).2) s)).1 | i <- iota 0 n],
   iter n (fun k => (split k).2) s).
Proof.
elim: n s => //= n IH s; rewrite /prng_next; case E: (split s) => [k s1] /=.
rewrite IH (iotaDl 1 0) -map_comp; congr (_ :: _, _).
  by apply: eq_map => i; rewrite /comp add1n iterSr E.
by rewrite -(iterS n (fun k => (split k).2)) iterSr E.
Qed.
End Prng.

(** Monte Carlo *)
Section MCproof.
Import GRing.Theory.
Local Open Scope ring_scope.
Variables (F : fieldType) (key pt : Type) (split : key -> key * key).
Variables (fn : pt -> F) (sample : key -> nat -> seq (pt * F)).

Lemma mc_scanE b bs k : mc_scan split b bs fn sample k =
  [seq (mc_step split bs fn sample (iter i (fun k => (split k).2) k)).2 | i <- iota 0 b].
Proof.
elim: b k => [//|b IH k].
have -> : mc_scan split b.+1 bs fn sample k =
  (mc_step split bs fn sample k).2 :: mc_scan split b bs fn sample (split k).2 by [].
rewrite IH -[iota 0 b.+1]/(0%N :: iota 1 b) map_cons (iotaDl 1 0) -map_comp; congr (_ :: _).
by apply: eq_map => i; rewrite /comp add1n iterSr.
Qed.

Lemma mean_flatten bs (ws : seq (seq F)) :
  all (fun w => size w == bs) ws ->
  mean [seq mean w | w <- ws] = mean (flatten ws).
Proof.
move=> al; rewrite /mean size_map.
have -> : size (flatten ws) = (size ws * bs)%N.
  by elim: ws al => //= w ws IH /andP[/eqP wb /IH H]; rewrite size_cat H wb mulSn.
rewrite natrM invfM mulrA big_map; rewrite mulrAC; congr (_ / _).
elim: ws al => [|w ws IH] /=; first by rewrite !big_nil mul0r.
by move=> /andP[/eqP wb /IH H]; rewrite !big_cons big_cat /= H mulrDl wb.
Qed.

Lemma mean_scale (ws : seq F) c : mean [seq x / c | x <- ws] = mean ws / c.
Proof. by rewrite /mean size_map big_map -mulr_suml mulrAC. Qed.
End MCproof.

(** Statements assembled for PropsUtil.v *)
Lemma pop_insert_lemma (T : Type) (arr : seq T) v (i : nat) : i <= size arr ->
  pop (insert_1d arr [:: v] (Z.of_nat i)) (Z.of_nat i) = Ok (v, arr).
Proof.
move=> Hi; rewrite insert_1d_pos // (pop_ok v); last first.
  by rewrite !size_cat size_take size_drop /=; case: ltnP; lia.
rewrite Nat2Z.id.
have st : size (take i arr) = i by rewrite size_take; case: ltngtP Hi => // ->.
congr (Ok (_, _)); first by rewrite nth_cat st ltnn subnn.
rewrite take_cat st ltnn subnn take0 cats0 drop_cat st.
have -> : (i.+1 < i)%N = false by lia.
by rewrite subSnn /= drop0 cat_take_drop.
Qed.

Lemma insert_1d_neg_nth (T : Type) (arr : seq T) v (i : Z) x0 :
  (- Z.of_nat (size arr) - 1 <= i < 0)%Z ->
  let out := insert_1d arr [:: v] i in
  nth x0 out (Z.to_nat (Z.of_nat (size out) + i)) = v /\
  forall j, (j < size arr)%N ->
    nth x0 out (if (Z.of_nat j <? Z.of_nat (size out) + i)%Z then j else j.+1) = nth x0 arr j.
Proof.
move=> Hi; rewrite /= size_insert_1d insert_1d_neg //=.
set p := Z.to_nat (i + Z.of_nat (size arr) + 1).
have -> : Z.to_nat (Z.of_nat (size arr + 1) + i) = p by rewrite /p; lia.
have Hp : (p <= size arr)%N by rewrite /p; lia.
have st : size (take p arr) = p by rewrite size_take; case: ltngtP Hp => // ->.
split; first by rewrite nth_cat st ltnn subnn.
move=> j Hj; case: Z.ltb_spec => H.
  have jp : (j < p)%N by rewrite /p; lia.
  by rewrite nth_cat st jp nth_take.
have jp : (p <= j)%N by rewrite /p; lia.
rewrite nth_cat st ltnNge (leq_trans jp) //= subSn //= nth_drop; congr (nth _ _ _); lia.
Qed.

Section MCfinal.
Import GRing.Theory.
Local Open Scope ring_scope.

Lemma mc_lemma (F : fieldType) (key pt : Type) (k : key) count (fn : pt -> F)
    (sample : key -> nat -> seq (pt * F)) var :
  let zw := sample k count in
  let N := (size zw)%:R in
  let W := (\sum_(p <- zw) p.2) / N in
  let r := mc_integrate k count fn sample var in
  [/\ r.1 = W,
      r.1 = (\sum_(p <- zw) fn p.1 * p.2) / N <->
        (\sum_(p <- zw) fn p.1 * p.2) / N = W &
      r.2 = if var then
              Some (((\sum_(p <- zw) (fn p.1 * p.2) ^+ 2) / N - W ^+ 2) / count%:R)
            else None]%R.
Proof.
rewrite /mc_integrate /mean /= !size_map !big_map; by split.
Qed.

Lemma mc_batched_lemma (F : fieldType) (key pt : Type) (split : key -> key * key)
    (k : key) batches bsize (fn : pt -> F) (sample : key -> nat -> seq (pt * F)) var :
  (forall k, size (sample k bsize) = bsize) ->
  let keys := [seq iter i (fun k => (split k).2) k | i <- iota 0 batches] in
  let zw := flatten [seq sample k bsize | k <- keys] in
  let N := (batches * bsize)%:R in
  let W := (\sum_(p <- zw) p.2) / N in
  let r := mc_integrate_batched split k batches bsize fn sample var in
  r.1 = W /\
  r.2 = if var then
          Some (((\sum_(p <- zw) (fn p.1 * p.2) ^+ 2) / N - W ^+ 2) / N)
        else None.
Proof.
move=> Hs keys zw N W r.
have szk : size keys = batches by rewrite size_map size_iota.
have al (g : pt * F -> F) :
    all (fun w => size w == bsize) [seq [seq g p | p <- sample k bsize] | k <- keys].
  by rewrite all_map (@eq_all _ _ predT) ?all_predT // => x /=; rewrite size_map Hs eqxx.
have M (g : pt * F -> F) :
    mean [seq mean [seq g p | p <- sample k bsize] | k <- keys] = (\sum_(p <- zw) g p / N)%R.
  have := mean_flatten (al g); rewrite -map_comp => -> .
  have -> : flatten [seq [seq g p | p <- sample k0 bsize] | k0 <- keys] = map g zw.
    by rewrite /zw map_flatten -map_comp.
  rewrite /mean big_map size_map -GRing.mulr_suml; congr (_ / _%:R)%R.
  rewrite /zw -szk; elim: (keys) => //= x l IH.
  by rewrite size_cat IH Hs mulSn.
have r1 : r.1 = W.
  rewrite /r /W /mc_integrate_batched /= mc_scanE GRing.mulr_suml -(M (fun p => p.2)).
  by rewrite /keys -!map_comp.
split=> //; move: r1; rewrite /r /mc_integrate_batched; case: (var) => //= ->.
congr Some.
rewrite mc_scanE -map_comp GRing.mulrBl; congr (_ - _)%R.
have -> : [seq (fun p : F * F => p.2) (mc_step split bsize fn sample
             (iter i (fun k0 => (split k0).2) k)).2 | i <- iota 0 batches] =
   [seq x / bsize%:R | x <- [seq mean [seq (fn p.1 * p.2) ^+ 2 | p <- sample k bsize]
                            | k <- keys]].
  rewrite /keys -!map_comp; apply: eq_map => i /=; by rewrite -map_comp.
rewrite mean_scale M -mulr_suml -!mulrA; congr (_ * (_ * _)).
by rewrite /N natrM invfM mulrC.
Qed.
End MCfinal.

Lemma pop_neg_wrong (T : eqType) (arr : seq T) (i : Z) v rest
    (r := Z.to_nat (i + Z.of_nat (size arr))) :
  uniq arr -> (3 <= size arr)%N -> (- Z.of_nat (size arr) <= i < 0)%Z ->
  pop arr i = Ok (v, rest) -> rest <> take r arr ++ drop r.+1 arr.
Proof.
move=> U S H; have [x0 _] : exists x0 : T, True by move: S; case: (arr) => // x0; exists x0.
rewrite (pop_neg x0 H) -/r => -[_ <-].
have rn : (r < size arr)%N by rewrite /r; lia.
have : uniq (take r arr ++ drop r.+1 arr).
  apply: (subseq_uniq _ U).
  have E : arr = take r arr ++ nth x0 arr r :: drop r.+1 arr.
    by rewrite -drop_nth // cat_take_drop.
  rewrite [X in subseq _ X]E; apply: cat_subseq; first exact: subseq_refl.
  exact: subseq_cons.
have : (2 <= size (take r arr ++ drop r.+1 arr))%N.
  by rewrite size_cat size_take rn size_drop; lia.
case: (_ ++ _) => [|a [|b l]] // _ /andP[] /=; rewrite inE negb_or => /andP[ab _] _.
by rewrite rot1_cons /= => -[E _]; rewrite E eqxx in ab.
Qed.

Lemma flatten_c_shape (T : Type) (conj : T -> T) (zs zc : ndarray T) :
  shape zs != shape zc -> flatten_coord_c conj zs (Some zc) = Err AssertionError.
Proof. by rewrite /flatten_coord_c => ->. Qed.

Lemma chunks_map (T U : Type) (f : T -> U) m d s :
  chunks m d (map f s) = map (map f) (chunks m d s).
Proof. by elim: m s => //= m IH s; rewrite -map_take -map_drop IH. Qed.

Lemma flatten_c_default (T : Type) (conj : T -> T) (zs : ndarray T) bs dim :
  shape zs = rcons bs dim -> wf_nd zs -> (0 < dim)%N ->
  exists rows, flatten_coord zs = Ok (rows, bs) /\
    flatten_coord_c conj zs None = Ok (rows, [seq [seq conj x | x <- r] | r <- rows], bs).
Proof.
move=> sh wf d0; eexists; rewrite (flatten_coordE sh wf d0); split; first by [].
rewrite /flatten_coord_c /= eqxx /= (flatten_coordE sh wf d0) /=.
rewrite (@flatten_coordE _ _ bs dim) //=; last first.
  by rewrite /wf_nd /= size_map; exact: wf.
by rewrite chunks_map.
Qed.

Lemma shuffle_lemma (T : Type) (perm : nat -> seq nat)
    (x : ndarray T) (axis : Z) (pre post : seq nat) (len : nat) :
  shape x = pre ++ len :: post -> wf_nd x ->
  (axis = Z.of_nat (size pre) \/ axis = - Z.of_nat (size post) - 1)%Z ->
  (forall i, (i < \prod_(d <- pre) d)%N -> perm_eq (perm i) (iota 0 len)) ->
  let y := shuffle_axis perm x axis in
  [/\ shape y = shape x, wf_nd y &
      forall x0 I, valid_index pre I ->
      exists p : nat -> nat,
        (forall j, (j < len)%N -> (p j < len)%N) /\
        (forall j k, (j < len)%N -> (k < len)%N -> p j = p k -> j = k) /\
        forall j K, (j < len)%N -> valid_index post K ->
          nd_get x0 y (I ++ j :: K) = nd_get x0 x (I ++ p j :: K)].
Proof.
move=> sh wf ax po.
have ax' : slice_pos (size (shape x)) axis = size pre.
  rewrite sh size_cat /= /slice_pos.
  by case: ax => ->; case: Z.ltb_spec; lia.
split.
- by rewrite (shuffleE perm sh ax').
- exact: shuffle_wf sh wf ax' po.
move=> x0 I vI; exists (nth 0%N (perm (ravel pre I))).
have lt := ravel_lt vI.
have sz := size_perm po lt.
split; [|split].
- by move=> j jl; apply: (perm_lt po lt); apply: mem_nth; rewrite sz.
- move=> j k jl kl /eqP; rewrite nth_uniq ?sz //; first by move/eqP.
  by rewrite (perm_uniq (po _ lt)) iota_uniq.
by move=> j K jl vK; rewrite (shuffle_get sh wf ax' po).
Qed.

Lemma binomial_subsets (n k : nat) : (k <= n)%N ->
  binomial (Z.of_nat n) (Z.of_nat k) =
    Ok (Z.of_nat #|[set A : {set 'I_n} | #|A| == k]|).
Proof. by move=> kn; rewrite binomial_ok // card_draws card_ord. Qed.

Section MCref.
Import GRing.Theory.
Local Open Scope ring_scope.
Lemma mc_refuted :
  exists (fn : rat -> rat) (sample : unit -> nat -> seq (rat * rat)),
    let zw := sample tt 2%N in
    size zw = 2%N /\
    (mc_integrate tt 2 fn sample false).1 <>
      (\sum_(p <- zw) fn p.1 * p.2) / (size zw)%:R.
Proof.
exists id, (fun _ _ => [:: (2%:R, 1); (3%:R, 1)]); split=> //.
by rewrite /mc_integrate /mean /= !big_cons !big_nil; apply/eqP.
Qed.
End MCref.

Lemma prng_nth (key : Type) (split : key -> key * key)
    (n : nat) (s : key) (k0 : key) (i : nat) : (i < n)%N ->
  nth k0 (prng_run split n s).1 i = (split (iter i (fun k => (split k).2) s)).1.
Proof. by move=> i_n; rewrite prng_runE /= nth_iota_map. Qed.

Lemma prng_app (key : Type) (split : key -> key * key) (m n : nat) (s : key) :
  prng_run split (m + n) s =
    let '(ks, s1) := prng_run split m s in
    let '(ks', s2) := prng_run split n s1 in (ks ++ ks', s2).
Proof.
elim: m s => [|m IH] s /=; first by case: prng_run.
case: (prng_next _ s) => k s1; rewrite IH.
by case: (prng_run split m s1) => a b; case: (prng_run split n b).
Qed.
