(** Properties C56-C62 and C69: cyjax/ml.py. *)
From Coq Require Import ZArith.
From mathcomp Require Import all_ssreflect all_algebra all_field.
From mathcomp Require Import ssrZ.
From Verif Require Import Base ModelUtil ModelMC ModelML Herm ProofML ProofML2 ProofML3 ProofML4.
Delimit Scope Z_scope with Z.

Set Implicit Arguments.
Unset Strict Implicit.
Unset Printing Implicit Defensive.

Import GRing.Theory Num.Theory Order.POrderTheory.
Local Open Scope ring_scope.

(** C56: the result is U U^* with U upper triangular, its diagonal [diag] and
    the entries above it [upper] in row-major order. *)
Theorem cholesky_decode_posdef : forall (C : numClosedFieldType) (diag upper : seq C)
    (n := size diag), size upper = 'C(n, 2) ->
  exists U : 'M[C]_n,
  [/\ cholesky_decode diag upper = Ok (SqMx (U *m adjm U)),
      (forall i, U i i = nth 0 diag i) /\ (forall i j : 'I_n, (j < i)%N -> U i j = 0),
      (forall i j : 'I_n, (i < j)%N ->
         U i j = nth 0 upper (\sum_(a < i) (n - a.+1) + (j - i.+1))%N),
      hermitian (U *m adjm U) /\ possemidef (U *m adjm U) &
      posdef (U *m adjm U) <-> all (fun d => d != 0) diag].
Proof. exact decode_lemma. Qed.
Print Assumptions cholesky_decode_posdef.

Theorem cholesky_decode_onto : forall (C : numClosedFieldType) n (H : 'M[C]_n),
  hermitian H -> posdef H ->
  exists diag upper, [/\ size diag = n, size upper = 'C(n, 2), all (fun d => 0 < d) diag &
    cholesky_decode diag upper = Ok (SqMx H)].
Proof. exact all_posdef_reached. Qed.
Print Assumptions cholesky_decode_onto.

Theorem cholesky_decode_bad_size : forall (C : numClosedFieldType) (diag upper : seq C),
  size upper != 'C(size diag, 2) -> size upper != 1%N ->
  cholesky_decode diag upper = Err ValueError.
Proof. exact decode_rejects. Qed.
Print Assumptions cholesky_decode_bad_size.

(** diag (1, 2), upper (3): the matrix ((1, 3), (0, 2)) times its adjoint. *)
Example cholesky_decode_ex : forall C : numClosedFieldType,
  exists H : 'M[C]_2, cholesky_decode [:: 1; 2%:R] [:: 3%:R] = Ok (SqMx H) /\
  H 0 0 = 10%:R /\ H 0 1 = 6%:R /\ H 1 1 = 4%:R.
Proof. exact decode_example. Qed.

(** C57 *)
Theorem hermitian_param_init_identity : forall (C : numClosedFieldType) normals n,
  size normals = n ->
  cholesky_from_param (hermitian_param_init normals n None) = Ok (SqMx (1%:M : 'M[C]_n)).
Proof. exact init_identity. Qed.
Print Assumptions hermitian_param_init_identity.

Theorem hermitian_param_init_fluctuate : forall (C : numClosedFieldType) normals n (f : C),
  size normals = n -> f \is Num.real -> all (fun x => x \is Num.real) normals ->
  cholesky_from_param (hermitian_param_init normals n (Some f)) =
  Ok (SqMx (\matrix_(i < n, j < n) ((1 + nth 0 normals i * f) ^+ 2 *+ (i == j)))).
Proof. exact init_fluct. Qed.
Print Assumptions hermitian_param_init_fluctuate.

Theorem cholesky_from_param_square : forall (C : numClosedFieldType) (h_par : seq C) n,
  size h_par = (n ^ 2)%N ->
  exists H : 'M[C]_n,
  [/\ cholesky_from_param h_par = Ok (SqMx H), hermitian H, possemidef H &
      posdef H <-> all (fun d => d != 0) (take n h_par)].
Proof. exact from_param_square. Qed.
Print Assumptions cholesky_from_param_square.

Theorem cholesky_from_param_onto : forall (C : numClosedFieldType) n (H : 'M[C]_n),
  hermitian H -> posdef H ->
  exists h_par, [/\ size h_par = (n ^ 2)%N, all (fun x => x \is Num.real) h_par &
    cholesky_from_param h_par = Ok (SqMx H)].
Proof. exact all_posdef_param. Qed.
Print Assumptions cholesky_from_param_onto.

Theorem cholesky_from_param_rejects : forall (C : numClosedFieldType) (h_par : seq C),
  (forall n, size h_par <> n ^ 2)%N -> cholesky_from_param h_par = Err ValueError.
Proof. exact from_param_bad. Qed.
Print Assumptions cholesky_from_param_rejects.

(** The documented range of the fluctuation is exceeded: a normal draw of 2
    gives the diagonal parameter 1 + 2 f. *)
Theorem hermitian_param_init_range_refuted : forall (C : numClosedFieldType) (f : C), 0 < f ->
  exists x : C, x \is Num.real /\
    1 + f < nth 0 (hermitian_param_init [:: x] 1 (Some f)) 0.
Proof. exact range_witness. Qed.
Print Assumptions hermitian_param_init_range_refuted.

Example from_param_ex : forall C : numClosedFieldType,
  exists H : 'M[C]_2, cholesky_from_param [:: 1; 2%:R; 3%:R; 1] = Ok (SqMx H) /\
  H 0 0 = 11%:R /\ H 0 1 = 2%:R * (3%:R + 'i).
Proof. exact from_param_example. Qed.

(** C58: initially the last kernel vanishes, so H does not depend on the input;
    without suppression H = diag((1 + f n_i)^2), with suppression (the default)
    a quarter of it. *)
Theorem hnet_initial_matrix : forall (C : numClosedFieldType) (exp act : C -> C) dropf hidden
    normals n f sig_suppress width x,
  exp 0 = 1 -> size normals = n -> f \is Num.real -> all (fun y => y \is Num.real) normals ->
  cholesky_from_param
    (hnet_forward exp act dropf hidden (hnet_kernel_init C n width sig_suppress)
       (hnet_bias_init normals n f sig_suppress) sig_suppress n x) =
  Ok (SqMx ((if sig_suppress then 4%:R^-1 else 1) *:
     \matrix_(i < n, j < n) ((1 + nth 0 normals i * f) ^+ 2 *+ (i == j)))).
Proof. exact hnet_init_matrix. Qed.
Print Assumptions hnet_initial_matrix.

(** "H starts close to the identity" fails for the default setting: however
    small the fluctuation |n_i f| <= 1/2, the initial H is not within 7/16 of
    the identity; in particular with fluctuation zero it is 1/4 times it. *)
Theorem hnet_initial_identity_refuted : forall (C : numClosedFieldType) (exp act : C -> C)
    dropf hidden normals n f width x (H : 'M[C]_n),
  exp 0 = 1 -> size normals = n -> f \is Num.real -> all (fun y => y \is Num.real) normals ->
  all (fun y => `|y * f| <= 2%:R^-1) normals ->
  cholesky_from_param
    (hnet_forward exp act dropf hidden (hnet_kernel_init C n width true)
       (hnet_bias_init normals n f true) true n x) = Ok (SqMx H) ->
  forall i, H i i <= 9%:R / 16%:R.
Proof. exact hnet_not_identity. Qed.
Print Assumptions hnet_initial_identity_refuted.

(** C59 *)
Theorem hnet_features_value : forall (C : numClosedFieldType) (angle : C -> C) powers fa fb fp
    (moduli : seq C),
  moduli != [::] -> has (fun p => p != 0%Z) powers -> [|| fa, fb | fp] ->
  exists pws,
  [/\ uniq pws,
      forall pw, (pw \in pws) =
        [&& size pw == size moduli, all (fun p => p \in 0%Z :: powers) pw
          & has (fun p => p != 0%Z) pw],
      (size pws).+1 = (size (undup (0%Z :: powers)) ^ size moduli)%N &
      let f := [seq \prod_(p <- zip moduli pw) zpow p.1 p.2 | pw <- pws] in
      hnet_features angle powers fa fb fp moduli =
      Ok ((if fa then [seq angle z | z <- moduli] else [::]) ++
          (if fb then [seq `|x| | x <- f] else [::]) ++
          (if fp then [seq 'Re x | x <- f] ++ [seq 'Im x | x <- f] else [::]))].
Proof. exact features_lemma. Qed.
Print Assumptions hnet_features_value.

Theorem hnet_features_raises : forall (C : numClosedFieldType) (angle : C -> C) powers fa fb fp
    (moduli : seq C),
  moduli = [::] \/ ~~ has (fun p => p != 0%Z) powers \/ ~~ [|| fa, fb | fp] ->
  hnet_features angle powers fa fb fp moduli = Err ValueError.
Proof. exact features_empty. Qed.
Print Assumptions hnet_features_raises.

(** The documented angle features arg(f_n) are one per power product; the code
    has one per modulus, which is fewer for the default powers. *)
Theorem hnet_angle_features_refuted : forall (C : numClosedFieldType) (angle : C -> C)
    (moduli x : seq C),
  hnet_features angle [:: 1%Z; 2%Z; 3%Z] true false false moduli = Ok x ->
  size x = size moduli /\
  (size moduli < size (feature_powers [:: 1%Z; 2%Z; 3%Z] (size moduli)))%N.
Proof. exact angle_refuted. Qed.
Print Assumptions hnet_angle_features_refuted.

Theorem hnet_output_size : forall (C : numClosedFieldType) (exp act : C -> C) dropf hidden
    (fk : seq (seq C)) fb sig_suppress n x,
  size fk = (if sig_suppress then (n ^ 2).*2 else n ^ 2)%N -> size fb = size fk ->
  size (hnet_forward exp act dropf hidden fk fb sig_suppress n x) = (n ^ 2)%N.
Proof. exact forward_size. Qed.
Print Assumptions hnet_output_size.

Example feature_powers_ex :
  feature_powers [:: 2%Z; 1%Z] 2 =
  [:: [:: 0; 1]; [:: 0; 2]; [:: 1; 0]; [:: 1; 1]; [:: 1; 2]; [:: 2; 0]; [:: 2; 1]; [:: 2; 2]]%Z.
Proof. by []. Qed.

(** C60: key i of the sequence started at s is the first half of splitting the
    i-th successor of s. *)
Theorem batch_sampler_stream : forall (key S : Type) (split : key -> key * key)
    (sample : key -> res S) B, (0 < B)%N -> forall (v : nat -> S) s n,
  (forall i, sample (split (iter i (fun k => (split k).2) s)).1 = Ok (v i)) ->
  exists st, sampler_init split sample B s = Ok st /\
    (sampler_run split sample B n st).1 = [seq Ok (v i) | i <- iota 0 n].
Proof. exact sampler_stream. Qed.
Print Assumptions batch_sampler_stream.

Theorem batch_sampler_zero_buffer : forall (key S : Type) (split : key -> key * key)
    (sample : key -> res S) s n,
  exists st, sampler_init split sample 0 s = Ok st /\
    (sampler_run split sample 0 n st).1 = nseq n (Err IndexError).
Proof. exact sampler_zero. Qed.
Print Assumptions batch_sampler_zero_buffer.

(** C61: key K >= B is the first that fails.  The samples with numbers from
    (K / B) * B - 1 on are lost and the sampler never recovers. *)
Theorem batch_sampler_failure_refuted : forall (key S : Type) (split : key -> key * key)
    (sample : key -> res S) B, (0 < B)%N -> forall (v : nat -> S) s K e n
    (good := (K %/ B * B).-1), (B <= K)%N ->
  (forall i, (i < K)%N -> sample (split (iter i (fun k => (split k).2) s)).1 = Ok (v i)) ->
  sample (split (iter K (fun k => (split k).2) s)).1 = Err e ->
  exists st, sampler_init split sample B s = Ok st /\
    (sampler_run split sample B (good + n.+1) st).1 =
    [seq Ok (v i) | i <- iota 0 good] ++ Err e :: nseq n (Err IndexError).
Proof. exact sampler_failed. Qed.
Print Assumptions batch_sampler_failure_refuted.

(** Keys are numbers, sampling fails at number 5 only, buffer size 2: three good
    samples although five were drawn, then nothing. *)
Example batch_sampler_ex :
  let split k := (k, k.+1) in
  let sample k := if k == 5%N then Err ValueError else Ok k in
  exists st, sampler_init split sample 2 0%N = Ok st /\
  (sampler_run split sample 2 6 st).1 =
  [:: Ok 0%N; Ok 1%N; Ok 2%N; Err ValueError; Err IndexError; Err IndexError].
Proof. by eexists. Qed.

(** C62 *)
Theorem variance_loss_nonneg : forall (R : realFieldType) (log : R -> R),
  log 1 = 0 -> (forall x, 1 < x -> 0 < log x) -> forall etas weights : seq R,
  all (fun x => 0 <= x) weights -> 0 <= variance_eta_loss log etas weights.
Proof. exact loss_ge0. Qed.
Print Assumptions variance_loss_nonneg.

Theorem variance_part_scale_free : forall (R : realFieldType) (c : R) (etas weights : seq R),
  c != 0 -> variance_part [seq c * x | x <- etas] weights = variance_part etas weights.
Proof. exact variance_scale. Qed.
Print Assumptions variance_part_scale_free.

Theorem variance_loss_zero : forall (R : realFieldType) (log : R -> R),
  log 1 = 0 -> (forall x, 1 < x -> 0 < log x) -> forall etas weights : seq R,
  size etas = size weights -> all (fun x => 0 <= x) weights ->
  \sum_(p <- zip etas weights) p.1 * p.2 != 0 ->
  variance_eta_loss log etas weights = 0 <->
  (forall i, (i < size etas)%N -> 0 <= nth 0 etas i) /\
  (exists c, forall i, (i < size etas)%N -> nth 0 weights i != 0 -> nth 0 etas i = c).
Proof. exact loss_eq0. Qed.
Print Assumptions variance_loss_zero.

Example variance_part_ex :
  variance_part [:: 1; 3%:R] [:: 1; 1 : rat] = 4%:R^-1.
Proof. by rewrite /variance_part /variance_eta_mean /mean /= !big_cons !big_nil; apply/eqP. Qed.

(** C69: with a dropout list the number of hidden layers is the smaller of the
    two lengths. *)
Theorem hnet_hidden_layers_count : forall (C : numClosedFieldType) layer_sizes
    (d : seq (option C)),
  size (hidden_layers layer_sizes (Some d)) = minn (size layer_sizes) (size d) /\
  size (hidden_layers layer_sizes (None : option (seq (option C)))) = size layer_sizes.
Proof. exact hidden_layers_count. Qed.
Print Assumptions hnet_hidden_layers_count.

Theorem hnet_layer_sizes_refuted : forall (C : numClosedFieldType),
  exists layer_sizes (d : seq (option C)),
    map fst (hidden_layers layer_sizes (Some d)) <> layer_sizes.
Proof. exact layers_witness. Qed.
Print Assumptions hnet_layer_sizes_refuted.
