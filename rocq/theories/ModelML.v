(** Model of cyjax/ml.py: Cholesky parametrisation, BatchSampler, variance loss
    and the structure of HNetMLP.

    Real numbers appear as elements of the complex field C. *)
From Coq Require Import ZArith.
From mathcomp Require Import all_ssreflect all_algebra.
From mathcomp Require Import ssrZ.
From Verif Require Import Base ModelUtil ModelMC.
Delimit Scope Z_scope with Z.

Set Implicit Arguments.
Unset Strict Implicit.
Unset Printing Implicit Defensive.

Import GRing.Theory Num.Theory.
Local Open Scope ring_scope.

Section Cholesky.
Variable C : numClosedFieldType.

(** A square array together with its size. *)
Record sqmx := SqMx { sqdim : nat; sqval : 'M[C]_sqdim }.

(** jnp.triu_indices(n, 1): pairs i < j, row by row. *)
Definition triu_indices (n : nat) : seq (nat * nat) :=
  [seq (i, j) | i <- iota 0 n, j <- iota i.+1 (n - i.+1)].

(** Broadcasting of a 1-d array to length m. *)
Definition broadcast1 (m : nat) (s : seq C) : res (seq C) :=
  if size s == m then Ok s
  else if s is [:: x] then Ok (nseq m x) else Err ValueError.

(** mat.at[i, j].set(v) *)
Definition mx_set n (M : 'M[C]_n) (p : nat * nat) (v : C) : 'M[C]_n :=
  \matrix_(a, b) if (nat_of_ord a == p.1) && (nat_of_ord b == p.2) then v else M a b.

Definition mx_scatter n (M : 'M[C]_n) (upd : seq ((nat * nat) * C)) : 'M[C]_n :=
  foldl (fun M u => mx_set M u.1 u.2) M upd.

(** ml.py:31-59  cholesky_decode; mat @ mat.T.conj(). *)
Definition cholesky_decode (diag upper : seq C) : res sqmx :=
  let n := size diag in
  let mat := \matrix_(i < n, j < n) if i == j then nth 0 diag i else 0 in
  let upper_ind := triu_indices n in
  do u <- broadcast1 (size upper_ind) upper;
  let mat := mx_scatter mat (zip upper_ind u) in
  Ok (SqMx (mat *m map_mx conjC mat^T)).

(** np.round(np.sqrt(m)) for an integer m (never a tie). *)
Definition round_sqrt (m : nat) : nat :=
  let s := Nat.sqrt m in if (m - s * s <= s)%N then s else s.+1.

(** ml.py:62-81  cholesky_from_param *)
Definition cholesky_from_param (h_par : seq C) : res sqmx :=
  let basis_size := round_sqrt (size h_par) in
  let diag := take basis_size h_par in
  let rest := drop basis_size h_par in
  (* .reshape(2, -1) *)
  if odd (size rest) then Err ValueError else
  let upper_r := take (size rest)./2 rest in
  let upper_i := drop (size rest)./2 rest in
  cholesky_decode diag [seq p.1 + 'i * p.2 | p <- zip upper_r upper_i].

(** ml.py:84-102  hermitian_param_init; [normals] are the values drawn by
    jax.random.normal(key, (basis_size,)). *)
Definition hermitian_param_init (normals : seq C) (basis_size : nat)
    (fluctuate : option C) : seq C :=
  let par := nseq (basis_size ^ 2) 0 in
  let diag := if fluctuate is Some f then [seq 1 + x * f | x <- normals]
              else nseq basis_size 1 in
  diag ++ drop basis_size par.
End Cholesky.

Section Sampler.
Variables (key S : Type) (split : key -> key * key) (sample : key -> res S).
Variable buffer_size : nat.

(** ml.py:105-181  BatchSampler; [sample] is the compiled sampling function,
    which may raise; device placement is not modelled.  A negative buffer_size
    behaves like 0 (empty range). *)
Record sampler := Sampler { sbuffer : seq S; sindex : nat; srns : key }.

(** new_buffer, lines 163-170: [n] more samples; an exception leaves the
    samples drawn so far in the buffer. *)
Fixpoint fill (n : nat) (buf : seq S) (rns : key) : option exn * (seq S * key) :=
  if n is n'.+1 then
    let '(k, rns') := prng_next split rns in
    match sample k with
    | Ok s => fill n' (rcons buf s) rns'
    | Err e => (Some e, (buf, rns'))
    end
  else (None, (buf, rns)).

(** __init__, lines 156-161 (the key sequence already created). *)
Definition sampler_init (rns : key) : res sampler :=
  let '(r, (buf, rns')) := fill buffer_size [::] rns in
  if r is Some e then Err e else Ok (Sampler buf 0 rns').

(** __next__, lines 175-181: result and the state afterwards. *)
Definition sampler_next (st : sampler) : res S * sampler :=
  match drop (sindex st) (sbuffer st) with
  | [::] => (Err IndexError, st)
  | s :: _ =>
    let i := (sindex st).+1 in
    if i == buffer_size then
      let '(r, (buf, rns')) := fill buffer_size [::] (srns st) in
      if r is Some e then (Err e, Sampler buf i rns') else (Ok s, Sampler buf 0 rns')
    else (Ok s, Sampler (sbuffer st) i (srns st))
  end.

(** n calls of next(). *)
Fixpoint sampler_run (n : nat) (st : sampler) : seq (res S) * sampler :=
  if n is n'.+1 then
    let '(r, st1) := sampler_next st in
    let '(rs, st2) := sampler_run n' st1 in (r :: rs, st2)
  else ([::], st).
End Sampler.

Section Loss.
Variables (R : realFieldType) (log : R -> R).

(** ml.py:184-199  variance_eta_loss, from the real parts of eta at the sampled
    points and their weights. *)
Definition variance_eta_mean (etas weights : seq R) : R :=
  mean [seq p.2 * p.1 | p <- zip etas weights] / mean weights.

Definition variance_part (etas weights : seq R) : R :=
  mean [seq (p.1 / variance_eta_mean etas weights - 1) ^+ 2 * p.2 | p <- zip etas weights].

Definition variance_eta_loss (etas weights : seq R) : R :=
  variance_part etas weights
  + mean [seq log ((if e < 0 then e else 0) ^+ 2 + 1) | e <- etas].
End Loss.

Section HNet.
Variable C : numClosedFieldType.

(** itertools.product of m copies of ps. *)
Fixpoint cart (ps : seq Z) (m : nat) : seq (seq Z) :=
  if m is m'.+1 then [seq p :: q | p <- ps, q <- cart ps m'] else [:: [::]].

(** np.unique: sorted without repetition. *)
Definition np_unique (s : seq Z) : seq Z := undup (sort Z.leb s).

(** x ** p for an integer power. *)
Definition zpow (x : C) (p : Z) : C :=
  if (0 <=? p)%Z then x ^+ Z.to_nat p else x ^- Z.to_nat (- p).

(** ml.py:275-280  the powers used for the features, in order. *)
Definition feature_powers (powers : seq Z) (m : nat) : seq (seq Z) :=
  [seq pw <- cart (np_unique (0%Z :: powers)) m | ~~ all (Z.eqb 0) pw].

Definition power_product (moduli : seq C) (pw : seq Z) : C :=
  \prod_(p <- zip moduli pw) zpow p.1 p.2.

(** ml.py:275-289  input features of one set of moduli (integer powers). *)
Definition hnet_features (angle : C -> C) (powers : seq Z)
    (feature_angle feature_abs feature_parts : bool) (moduli : seq C) : res (seq C) :=
  let psi_pow := [seq power_product moduli pw | pw <- feature_powers powers (size moduli)] in
  if nilp psi_pow then Err ValueError  (* jnp.stack of an empty list *)
  else if ~~ [|| feature_angle, feature_abs | feature_parts] then Err ValueError
  else Ok ((if feature_angle then [seq angle z | z <- moduli] else [::]) ++
      (if feature_abs then [seq `|f| | f <- psi_pow] else [::]) ++
      (if feature_parts then [seq 'Re f | f <- psi_pow] ++ [seq 'Im f | f <- psi_pow]
       else [::])).

(** nn.Dense: kernel given by its columns. *)
Definition dense (kernel : seq (seq C)) (bias x : seq C) : seq C :=
  [seq (\sum_(p <- zip x kb.1) p.1 * p.2) + kb.2 | kb <- zip kernel bias].

(** ml.py:291-294  which hidden layers are built. *)
Definition hidden_layers (layer_sizes : seq nat) (dropout_rates : option (seq (option C)))
    : seq (nat * option C) :=
  let dropout := if dropout_rates is Some d then d else nseq (size layer_sizes) None in
  zip layer_sizes dropout.

(** ml.py:294-298  one hidden layer; [dropf] is the (random) dropout function. *)
Definition hidden_layer (activation : C -> C) (dropf : C -> seq C -> seq C)
    (x : seq C) (l : (seq (seq C) * seq C) * option C) : seq C :=
  let x := [seq activation y | y <- dense l.1.1 l.1.2 x] in
  if l.2 is Some rate then dropf rate x else x.

(** jax.nn.sigmoid in terms of the exponential. *)
Definition sigmoid (exp : C -> C) (x : C) : C := (1 + exp (- x))^-1.

(** ml.py:291-329  the network after the features, for one set of moduli. *)
Definition hnet_forward (exp activation : C -> C) (dropf : C -> seq C -> seq C)
    (hidden : seq ((seq (seq C) * seq C) * option C))
    (final_kernel : seq (seq C)) (final_bias : seq C)
    (sig_suppress : bool) (basis_size : nat) (x : seq C) : seq C :=
  let x := foldl (hidden_layer activation dropf) x hidden in
  let h_params := dense final_kernel final_bias x in
  if sig_suppress then
    let N := (basis_size ^ 2)%N in
    [seq sigmoid exp p.1 * p.2 | p <- zip (take N h_params) (drop N h_params)]
  else h_params.

(** ml.py:300-321  initial kernel and bias of the last layer for inputs of
    width [width]. *)
Definition hnet_bias_init (normals : seq C) (basis_size : nat) (init_fluctuation : C)
    (sig_suppress : bool) : seq C :=
  let h := hermitian_param_init normals basis_size (Some init_fluctuation) in
  if sig_suppress then nseq (size h) 0 ++ h else h.

Definition hnet_kernel_init (basis_size width : nat) (sig_suppress : bool) : seq (seq C) :=
  let h_features := (if sig_suppress then (basis_size ^ 2).*2 else basis_size ^ 2)%N in
  nseq h_features (nseq width 0).
End HNet.
