(** Properties C01-C10: cyjax/util.py. *)
From Coq Require Import ZArith.
From mathcomp Require Import all_ssreflect all_algebra.
From Verif Require Import Base ModelUtil ModelMC ProofUtil ProofUtil2.
Delimit Scope Z_scope with Z.

Set Implicit Arguments.
Unset Strict Implicit.
Unset Printing Implicit Defensive.

(** C01: value and remainder of pop for 0 <= i < n. *)
Theorem pop_removes_entry : forall (T : Type) (x0 : T) (arr : seq T) (i : Z),
  (0 <= i < Z.of_nat (size arr))%Z ->
  pop arr i = Ok (nth x0 arr (Z.to_nat i),
                  take (Z.to_nat i) arr ++ drop (Z.to_nat i).+1 arr).
Proof. exact pop_ok. Qed.
Print Assumptions pop_removes_entry.

Example pop_ex : pop [:: 10; 11; 12; 13] 2 = Ok (12, [:: 10; 11; 13]).
Proof. by []. Qed.

(** C01/C02, any integer index whatsoever: value arr[i mod n], remainder rolled
    by the number of times the index wraps around. *)
Theorem pop_any_index : forall (T : Type) (x0 : T) (arr : seq T) (i : Z)
    (n := Z.of_nat (size arr)) (r := Z.to_nat (i mod n)),
  size arr != 0 ->
  pop arr i = Ok (nth x0 arr r, roll (take r arr ++ drop r.+1 arr) (i / n)).
Proof. exact pop_gen. Qed.
Print Assumptions pop_any_index.

Theorem pop_empty : forall (T : Type) (i : Z),
  pop [::] i = Err IndexError :> res (T * seq T).
Proof. exact pop_nil. Qed.
Print Assumptions pop_empty.

(** C02: negative index: right value, remainder rotated by one place. *)
Theorem pop_negative : forall (T : Type) (x0 : T) (arr : seq T) (i : Z)
    (r := Z.to_nat (i + Z.of_nat (size arr))),
  (- Z.of_nat (size arr) <= i < 0)%Z ->
  pop arr i = Ok (nth x0 arr r, rot 1 (take r arr ++ drop r.+1 arr)).
Proof. exact pop_neg. Qed.
Print Assumptions pop_negative.

Example pop_negative_ex : pop [:: 10; 11; 12; 13] (-1) = Ok (13, [:: 11; 12; 10]).
Proof. by []. Qed.

(** C02, documented "remaining array": false for every negative index and every
    array of at least three distinct entries. *)
Theorem pop_negative_order_refuted : forall (T : eqType) (arr : seq T) (i : Z) v rest
    (r := Z.to_nat (i + Z.of_nat (size arr))),
  uniq arr -> 3 <= size arr -> (- Z.of_nat (size arr) <= i < 0)%Z ->
  pop arr i = Ok (v, rest) -> rest <> take r arr ++ drop r.+1 arr.
Proof. exact pop_neg_wrong. Qed.
Print Assumptions pop_negative_order_refuted.

Example pop_negative_wrong_ex :
  exists v rest, pop [:: 1; 2; 3] (-1) = Ok (v, rest) /\ rest <> [:: 1; 2].
Proof. by exists 3, [:: 2; 1]. Qed.

(** C03: insertion of a block before position i. *)
Theorem insert_1d_nonneg : forall (T : Type) (arr val : seq T) (i : nat),
  i <= size arr ->
  insert_1d arr val (Z.of_nat i) = take i arr ++ val ++ drop i arr.
Proof. exact insert_1d_pos. Qed.
Print Assumptions insert_1d_nonneg.

(** C03: negative index, single value: it ends up at output[i], and the entries
    of arr keep their order around it. *)
Theorem insert_1d_negative : forall (T : Type) (arr : seq T) v (i : Z) x0,
  (- Z.of_nat (size arr) - 1 <= i < 0)%Z ->
  let out := insert_1d arr [:: v] i in
  nth x0 out (Z.to_nat (Z.of_nat (size out) + i)) = v /\
  forall j, j < size arr ->
    nth x0 out (if (Z.of_nat j <? Z.of_nat (size out) + i)%Z then j else j.+1)
      = nth x0 arr j.
Proof. exact insert_1d_neg_nth. Qed.
Print Assumptions insert_1d_negative.

(** C03: blocks with a negative index: the block goes before position n+1+i, so
    it is its first entry whose place counts from the end of arr. *)
Theorem insert_1d_negative_block : forall (T : Type) (arr val : seq T) (i : Z)
    (p := Z.to_nat (i + Z.of_nat (size arr) + 1)),
  (- Z.of_nat (size arr) - 1 <= i < 0)%Z ->
  insert_1d arr val i = take p arr ++ val ++ drop p arr.
Proof. exact insert_1d_neg. Qed.
Print Assumptions insert_1d_negative_block.

(** C03: pop undoes insert_1d. *)
Theorem pop_insert_1d : forall (T : Type) (arr : seq T) v (i : nat),
  i <= size arr ->
  pop (insert_1d arr [:: v] (Z.of_nat i)) (Z.of_nat i) = Ok (v, arr).
Proof. exact pop_insert_lemma. Qed.
Print Assumptions pop_insert_1d.

Example insert_1d_ex :
  insert_1d [:: 1; 2; 3] [:: 9] 1 = [:: 1; 9; 2; 3] /\
  insert_1d [:: 1; 2; 3] [:: 9] (-2) = [:: 1; 2; 9; 3] /\
  insert_1d [:: 1; 2; 3] [:: 8; 9] (-1) = [:: 1; 2; 3; 8; 9].
Proof. by []. Qed.

(** C04: insert_col is insert_1d in every row; wrong row counts raise. *)
Theorem insert_col_rows : forall (T : Type) (mat col : seq (seq T)) ncol (i : Z),
  size mat = size col -> all (fun c => size c == ncol) col ->
  insert_col mat col ncol i = Ok [seq insert_1d p.1 p.2 i | p <- zip mat col].
Proof. exact insert_colE. Qed.
Print Assumptions insert_col_rows.

Theorem insert_col_bad_rows : forall (T : Type) (mat col : seq (seq T)) ncol (i : Z),
  size mat != size col -> insert_col mat col ncol i = Err TypeError.
Proof. exact insert_col_err. Qed.
Print Assumptions insert_col_bad_rows.

Example insert_col_ex :
  insert_col1 [:: [:: 1; 2]; [:: 3; 4]] [:: 8; 9] 1 = Ok [:: [:: 1; 8; 2]; [:: 3; 9; 4]]
  /\ insert_col1 [:: [:: 1; 2]; [:: 3; 4]] [:: 8; 9] (-1) = Ok [:: [:: 1; 2; 8]; [:: 3; 4; 9]].
Proof. by []. Qed.

(** C05: at every batch index I (and output index J) the result of flatten,
    per-point function, unflatten is the function value at zs[I, :]. *)
Theorem flatten_unflatten_pointwise : forall (T U : Type) (zs : ndarray T) bs dim
    (f : seq T -> seq U) oshape I J x0 y0 rows old,
  shape zs = rcons bs dim -> wf_nd zs -> 0 < dim ->
  (forall r, size (f r) = \prod_(d <- oshape) d) ->
  flatten_coord zs = Ok (rows, old) ->
  valid_index bs I -> valid_index oshape J ->
  nd_get y0 (unflatten_coord oshape [seq f r | r <- rows] old) (I ++ J) =
  nth y0 (f [seq nd_get x0 zs (rcons I k) | k <- iota 0 dim]) (ravel oshape J).
Proof. exact flatten_unflatten_point. Qed.
Print Assumptions flatten_unflatten_pointwise.

(** C05: flatten_coord does not raise on such input and returns the batch shape
    and one row per point. *)
Theorem flatten_coord_total : forall (T : Type) (zs : ndarray T) bs dim,
  shape zs = rcons bs dim -> wf_nd zs -> 0 < dim ->
  flatten_coord zs = Ok (chunks (\prod_(d <- bs) d) dim (data zs), bs).
Proof. exact flatten_coordE. Qed.
Print Assumptions flatten_coord_total.

Theorem flatten_unflatten_identity : forall (T : Type) (zs : ndarray T) bs dim rows old,
  shape zs = rcons bs dim -> wf_nd zs -> 0 < dim ->
  flatten_coord zs = Ok (rows, old) -> unflatten_coord [:: dim] rows old = zs.
Proof. exact flatten_unflatten_id. Qed.
Print Assumptions flatten_unflatten_identity.

(** C05: conjugates of another shape are rejected; without conjugates the second
    component is the entrywise conjugate of the same points. *)
Theorem flatten_coord_c_shape : forall (T : Type) (conj : T -> T) (zs zc : ndarray T),
  shape zs != shape zc -> flatten_coord_c conj zs (Some zc) = Err AssertionError.
Proof. exact flatten_c_shape. Qed.
Print Assumptions flatten_coord_c_shape.

Theorem flatten_coord_c_default : forall (T : Type) (conj : T -> T) (zs : ndarray T) bs dim,
  shape zs = rcons bs dim -> wf_nd zs -> 0 < dim ->
  exists rows, flatten_coord zs = Ok (rows, bs) /\
    flatten_coord_c conj zs None = Ok (rows, [seq [seq conj x | x <- r] | r <- rows], bs).
Proof. exact flatten_c_default. Qed.
Print Assumptions flatten_coord_c_default.

Example flatten_ex :
  let zs := NdArray [:: 2; 1; 3] [:: 1; 2; 3; 4; 5; 6] in
  wf_nd zs /\
  flatten_coord zs = Ok ([:: [:: 1; 2; 3]; [:: 4; 5; 6]], [:: 2; 1]) /\
  unflatten_coord [:: 1] [seq [:: sumn r] | r <- [:: [:: 1; 2; 3]; [:: 4; 5; 6]]] [:: 2; 1]
    = NdArray [:: 2; 1; 1] [:: 6; 15].
Proof. by rewrite /wf_nd /= !big_cons big_nil. Qed.

(** C06: same shape, and along the shuffled axis a permutation for every leading
    index I (entries x[I, j, K]); also for negative axes. *)
Theorem shuffle_axis_permutes : forall (T : Type) (perm : nat -> seq nat)
    (x : ndarray T) (axis : Z) (pre post : seq nat) (len : nat),
  shape x = pre ++ len :: post -> wf_nd x ->
  (axis = Z.of_nat (size pre) \/ axis = - Z.of_nat (size post) - 1)%Z ->
  (forall i, i < \prod_(d <- pre) d -> perm_eq (perm i) (iota 0 len)) ->
  let y := shuffle_axis perm x axis in
  [/\ shape y = shape x, wf_nd y &
      forall x0 I, valid_index pre I ->
      exists p : nat -> nat,
        (forall j, j < len -> p j < len) /\
        (forall j k, j < len -> k < len -> p j = p k -> j = k) /\
        forall j K, j < len -> valid_index post K ->
          nd_get x0 y (I ++ j :: K) = nd_get x0 x (I ++ p j :: K)].
Proof. exact shuffle_lemma. Qed.
Print Assumptions shuffle_axis_permutes.

Example shuffle_ex :
  let x := NdArray [:: 2; 3] [:: 1; 2; 3; 4; 5; 6] in
  let perm i := if i == 0 then [:: 2; 0; 1] else [:: 1; 0; 2] in
  [/\ wf_nd x, perm_eq (perm 0) (iota 0 3), perm_eq (perm 1) (iota 0 3) &
      data (shuffle_axis perm x (-1)) = [:: 3; 1; 2; 5; 4; 6]].
Proof. by rewrite /wf_nd /shuffle_axis /= !big_cons !big_nil. Qed.

(** C07 *)
Theorem binomial_exact : forall n k : nat, k <= n ->
  binomial (Z.of_nat n) (Z.of_nat k) =
    Ok (Z.of_nat #|[set A : {set 'I_n} | #|A| == k]|).
Proof. exact binomial_subsets. Qed.
Print Assumptions binomial_exact.

Theorem binomial_raises : forall n k : Z, (n < 0 \/ k < 0 \/ k > n)%Z ->
  binomial n k = Err ValueError.
Proof. exact binomial_err. Qed.
Print Assumptions binomial_raises.

Example binomial_ex : binomial 7 3 = Ok 35%Z. Proof. by []. Qed.

(** C08: value and variance returned by mc_integrate for any integrand. *)
Local Open Scope ring_scope.
Theorem mc_integrate_value : forall (F : fieldType) (key pt : Type) (k : key) count
    (fn : pt -> F) (sample : key -> nat -> seq (pt * F)) var,
  let zw := sample k count in
  let N := (size zw)%:R in
  let W := (\sum_(p <- zw) p.2) / N in
  let r := mc_integrate k count fn sample var in
  [/\ r.1 = W,
      r.1 = (\sum_(p <- zw) fn p.1 * p.2) / N <->
        (\sum_(p <- zw) fn p.1 * p.2) / N = W &
      r.2 = if var then
              Some (((\sum_(p <- zw) (fn p.1 * p.2) ^+ 2) / N - W ^+ 2) / count%:R)
            else None].
Proof. exact mc_lemma. Qed.
Print Assumptions mc_integrate_value.

(** C08, documented contract: false. *)
Theorem mc_integrate_documented_refuted :
  exists (fn : rat -> rat) (sample : unit -> nat -> seq (rat * rat)),
    let zw := sample tt 2%N in
    size zw = 2%N /\
    (mc_integrate tt 2%N fn sample false).1 <>
      (\sum_(p <- zw) fn p.1 * p.2) / (size zw)%:R.
Proof. exact mc_refuted. Qed.
Print Assumptions mc_integrate_documented_refuted.

(** C09: all batches together. *)
Theorem mc_integrate_batched_value : forall (F : fieldType) (key pt : Type)
    (split : key -> key * key) (k : key) batches bsize (fn : pt -> F)
    (sample : key -> nat -> seq (pt * F)) var,
  (forall k, size (sample k bsize) = bsize) ->
  let keys := [seq iter i (fun k => (split k).2) k | i <- iota 0 batches] in
  let zw := flatten [seq sample k bsize | k <- keys] in
  let N := (batches * bsize)%:R in
  let W := (\sum_(p <- zw) p.2) / N in
  let r := mc_integrate_batched split k batches bsize fn sample var in
  r.1 = W /\
  r.2 = if var then
          Some (((\sum_(p <- zw) (fn p.1 * p.2) ^+ 2) / N - W ^+ 2) / N)
        else None.
Proof. exact mc_batched_lemma. Qed.
Print Assumptions mc_integrate_batched_value.

Example mc_batched_ex :
  let split := fun k : nat => (k.*2, k.*2.+1) in
  let sample := fun (k n : nat) => [seq (0 : rat, (k + i)%N%:R : rat) | i <- iota 0 n] in
  (forall k, size (sample k 2%N) = 2%N) /\
  (mc_integrate_batched split 1%N 2 2 (fun=> 1) sample true).1 = 10%:R / 4%:R.
Proof.
split=> [k|]; first by rewrite size_map size_iota.
by do 2 rewrite ?/mc_integrate_batched /mean /= !(big_cons, big_nil) /=; apply/eqP.
Qed.

(** C10 *)
Theorem prng_sequence_stream : forall (key : Type) (split : key -> key * key)
    (n : nat) (s : key) (k0 : key) (i : nat), (i < n)%N ->
  nth k0 (prng_run split n s).1 i = (split (iter i (fun k => (split k).2) s)).1.
Proof. exact prng_nth. Qed.
Print Assumptions prng_sequence_stream.

Theorem prng_sequence_history : forall (key : Type) (split : key -> key * key)
    (m n : nat) (s : key),
  prng_run split (m + n) s =
    let '(ks, s1) := prng_run split m s in
    let '(ks', s2) := prng_run split n s1 in (ks ++ ks', s2).
Proof. exact prng_app. Qed.
Print Assumptions prng_sequence_history.

Theorem prng_seed_int_key : forall (key : Type) (split : key -> key * key)
    (prng_key : Z -> key) (z : Z) n,
  prng_run split n (prng_init prng_key (SeedInt key z)) =
  prng_run split n (prng_init prng_key (SeedKey (prng_key z))).
Proof. by []. Qed.
Print Assumptions prng_seed_int_key.

Example prng_ex :
  (prng_run (fun k => (k.*2, k.*2.+1)) 3%N 1%N).1 = [:: 2; 6; 14]%N.
Proof. by []. Qed.
