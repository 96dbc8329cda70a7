(** More lemmas about ModelML.v: sampler, loss, network. *)
From Coq Require Import ZArith Lia.
From mathcomp Require Import all_ssreflect all_algebra.
From mathcomp Require Import zify ring.
From Verif Require Import Base ModelUtil ModelMC ModelML Herm ProofML ProofML2.
Delimit Scope Z_scope with Z.

Set Implicit Arguments.
Unset Strict Implicit.
Unset Printing Implicit Defensive.

Import GRing.Theory Num.Theory Order.POrderTheory.

Section Sampler.
Variables (key S : Type) (split : key -> key * key) (sample : key -> res S).
Variable B : nat.

(** State of the key sequence after n keys, and the n-th key. *)
Definition seq_state (s : key) (n : nat) : key := iter n (fun k => (split k).2) s.
Definition seq_key (s : key) (n : nat) : key := (split (seq_state s n)).1.

Lemma seq_stateS s n : seq_state (seq_state s 1) n = seq_state s n.+1.
Proof. by rewrite /seq_state -iterSr. Qed.

Lemma fill_ok (v : nat -> S) n buf s :
  (forall i, i < n -> sample (seq_key s i) = Ok (v i)) ->
  fill split sample n buf s = (None, (buf ++ [seq v i | i <- iota 0 n], seq_state s n)).
Proof.
elim: n v buf s => [|n IH] v buf s H /=; first by rewrite cats0.
have := H 0 isT; rewrite /seq_key /= /prng_next; case E: (split s) => [k s1] /= ->.
rewrite (IH (fun i => v i.+1)) => [|i Hi].
  rewrite cat_rcons (iotaDl 1 0) -map_comp -[s1](_ : seq_state s 1 = s1); last by rewrite /seq_state /= E.
  by rewrite seq_stateS.
by rewrite -H // /seq_key -seq_stateS {2}/seq_state /= E.
Qed.

Lemma fill_err (v : nat -> S) n k e buf s : k < n ->
  (forall i, i < k -> sample (seq_key s i) = Ok (v i)) -> sample (seq_key s k) = Err e ->
  fill split sample n buf s = (Some e, (buf ++ [seq v i | i <- iota 0 k], seq_state s k.+1)).
Proof.
elim: n k v buf s => [|n IH] [|k] v buf s // kn H He /=; move: He (H 0);
  rewrite /seq_key /= /prng_next; case E: (split s) => [k1 s1] /=.
  by move=> -> _; rewrite cats0.
move=> He /(_ isT) ->.
rewrite (IH k (fun i => v i.+1)) => [|//|i Hi|].
- rewrite cat_rcons (iotaDl 1 0) -map_comp -[s1](_ : seq_state s 1 = s1); last by rewrite /seq_state /= E.
  by rewrite seq_stateS.
- by rewrite -H // /seq_key -seq_stateS {2}/seq_state /= E.
- rewrite -He; congr (sample (split _).1).
  by rewrite -[RHS]/(seq_state s k.+1) -seq_stateS {3}/seq_state /= E.
Qed.

Lemma seq_stateD s m n : seq_state (seq_state s m) n = seq_state s (m + n).
Proof. by rewrite /seq_state addnC iterD. Qed.

Lemma seq_keyD s m n : seq_key (seq_state s m) n = seq_key s (m + n).
Proof. by rewrite /seq_key seq_stateD. Qed.

(** The state after n successful calls. *)
Definition state_at (v : nat -> S) s n : sampler key S :=
  Sampler [seq v (n %/ B * B + i) | i <- iota 0 B] (n %% B) (seq_state s ((n %/ B).+1 * B)).

Hypothesis B0 : 0 < B.

Lemma init_ok v s : (forall i, i < B -> sample (seq_key s i) = Ok (v i)) ->
  sampler_init split sample B s = Ok (state_at v s 0).
Proof.
by move=> H; rewrite /sampler_init (fill_ok _ H) /state_at div0n mod0n mul0n mul1n.
Qed.

Lemma drop_state v q r : r < B ->
  exists t, drop r [seq v (q * B + i) | i <- iota 0 B] = v (q * B + r) :: t :> seq S.
Proof.
move=> rB; rewrite -map_drop drop_iota add0n.
have -> : B - r = (B - r).-1.+1 by lia.
by eexists.
Qed.

Lemma next_inside v s n : n %% B != B.-1 ->
  sampler_next split sample B (state_at v s n) = (Ok (v n), state_at v s n.+1).
Proof.
move=> H; have rB := ltn_pmod n B0; rewrite /sampler_next /state_at /=.
have [t ->] := drop_state v (n %/ B) rB.
have -> : ((n %% B).+1 == B) = false by move: H rB; lia.
rewrite -divn_eq.
have E1 : n.+1 = n %/ B * B + (n %% B).+1 by rewrite addnS -divn_eq.
have lt : (n %% B).+1 < B by move: H rB; lia.
have -> : n.+1 %/ B = n %/ B by rewrite E1 divnMDl // (divn_small lt) addn0.
by have -> : n.+1 %% B = (n %% B).+1 by rewrite E1 modnMDl (modn_small lt).
Qed.

Lemma next_block v s n : n %% B = B.-1 ->
  (forall i, i < B -> sample (seq_key s (n.+1 + i)) = Ok (v (n.+1 + i))) ->
  sampler_next split sample B (state_at v s n) = (Ok (v n), state_at v s n.+1).
Proof.
move=> H Hs; have rB := ltn_pmod n B0; rewrite /sampler_next /state_at /=.
have [t ->] := drop_state v (n %/ B) rB.
have -> : ((n %% B).+1 == B) by rewrite H; lia.
rewrite -divn_eq.
have E1 : n.+1 = (n %/ B).+1 * B by rewrite mulSn {1}(divn_eq n B) H; lia.
rewrite (fill_ok (v := fun i => v (n.+1 + i))) => [|i Hi]; last by rewrite seq_keyD -E1 Hs.
have -> : n.+1 %/ B = (n %/ B).+1 by rewrite E1 mulnK.
by rewrite seq_stateD {2}E1 modnMl -E1 E1 /= [in RHS]mulSn addnC.
Qed.

Lemma run_ok v s m n : (forall i, i < ((m + n) %/ B).+1 * B -> sample (seq_key s i) = Ok (v i)) ->
  sampler_run split sample B n (state_at v s m) =
  ([seq Ok (v (m + i)) | i <- iota 0 n], state_at v s (m + n)).
Proof.
elim: n m => [|n IH] m H /=; first by rewrite addn0.
have -> : sampler_next split sample B (state_at v s m) = (Ok (v m), state_at v s m.+1).
  case: (eqVneq (m %% B) B.-1) => E; last exact: next_inside.
  apply: next_block => // i Hi; apply: H.
  have : (m.+1 %/ B).+1 * B <= ((m + n.+1) %/ B).+1 * B.
    by rewrite leq_mul2r ltnS leq_div2r ?orbT // addnS ltnS leq_addr.
  apply: leq_trans.
  have E1 : m.+1 = (m %/ B).+1 * B by rewrite mulSn {1}(divn_eq m B) E; lia.
  rewrite {2}E1 mulnK // mulSn -E1 addnC; lia.
rewrite IH addSnnS //; congr (_ :: _, _); first by rewrite addn0.
by rewrite (iotaDl 1 0) -map_comp; apply: eq_map => i /=; rewrite addSnnS add1n.
Qed.

Lemma sampler_stream v s n : (forall i, sample (seq_key s i) = Ok (v i)) ->
  exists st, sampler_init split sample B s = Ok st /\
    (sampler_run split sample B n st).1 = [seq Ok (v i) | i <- iota 0 n].
Proof.
move=> H; exists (state_at v s 0); split; first exact: init_ok.
by rewrite run_ok.
Qed.

Lemma run_cat m n st : sampler_run split sample B (m + n) st =
  let '(r1, st1) := sampler_run split sample B m st in
  let '(r2, st2) := sampler_run split sample B n st1 in (r1 ++ r2, st2).
Proof.
elim: m st => [|m IH] st /=; first by case: sampler_run.
case: (sampler_next _ _ _ _) => r st1; rewrite IH; case: sampler_run => r1 st2.
by case: sampler_run.
Qed.

Lemma run_stuck n buf rns i : size buf <= i ->
  sampler_run split sample B n (Sampler buf i rns) =
  (nseq n (Err IndexError), Sampler buf i rns).
Proof.
move=> H; elim: n => //= n IH.
by rewrite /sampler_next /= drop_oversize // IH.
Qed.

Lemma sampler_failed v s K e n (good := (K %/ B * B).-1) : B <= K ->
  (forall i, i < K -> sample (seq_key s i) = Ok (v i)) -> sample (seq_key s K) = Err e ->
  exists st, sampler_init split sample B s = Ok st /\
    (sampler_run split sample B (good + n.+1) st).1 =
    [seq Ok (v i) | i <- iota 0 good] ++ Err e :: nseq n (Err IndexError).
Proof.
move=> BK H He; exists (state_at v s 0); split.
  by apply: init_ok => i Hi; apply: H; apply: leq_trans BK.
have q0 : 0 < K %/ B by rewrite divn_gt0.
have qB : 0 < K %/ B * B by rewrite muln_gt0 q0.
have gE : good.+1 = K %/ B * B by rewrite /good prednK.
have lt : B.-1 < B by rewrite prednK.
have gq : good %/ B = (K %/ B).-1.
  have -> : good = (K %/ B).-1 * B + B.-1.
    by rewrite /good -{1}(prednK q0) mulSn; lia.
  by rewrite divnMDl // (divn_small lt) addn0.
have gr : good %% B = B.-1.
  have -> : good = (K %/ B).-1 * B + B.-1.
    by rewrite /good -{1}(prednK q0) mulSn; lia.
  by rewrite modnMDl (modn_small lt).
rewrite run_cat run_ok; last first.
  move=> i; rewrite add0n gq prednK // => Hi; apply: H; apply: leq_trans Hi _.
  exact: leq_trunc_div.
rewrite add0n.
have -> : sampler_run split sample B n.+1 (state_at v s good) =
   let '(rs, st2) := sampler_run split sample B n
      (Sampler [seq v (K %/ B * B + i) | i <- iota 0 (K %% B)] B (seq_state s K.+1)) in
   (Err e :: rs, st2).
  rewrite /= /sampler_next {1 2 3}/state_at /= gr.
  have [t ->] := drop_state v (good %/ B) lt.
  rewrite prednK // eqxx gq prednK //.
  rewrite (fill_err (v := fun i => v (K %/ B * B + i)) (k := K %% B) (e := e)) ?ltn_pmod //.
  - by rewrite seq_stateD addnS -divn_eq.
  - move=> i Hi; rewrite seq_keyD H // {2}(divn_eq K B) ltn_add2l //.
  - by rewrite seq_keyD -divn_eq.
rewrite run_stuck; last by rewrite size_map size_iota ltnW // ltn_pmod.
by [].
Qed.
End Sampler.

Lemma sampler_zero (key S : Type) (split : key -> key * key) (sample : key -> res S) s n :
  exists st, sampler_init split sample 0 s = Ok st /\
    (sampler_run split sample 0 n st).1 = nseq n (Err IndexError).
Proof.
exists (Sampler [::] 0 s); split=> //; by rewrite run_stuck.
Qed.
