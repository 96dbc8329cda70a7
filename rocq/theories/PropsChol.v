(** Property C152: which Cholesky parameters give the same matrix H. *)
From Coq Require Import ZArith Lia.
From mathcomp Require Import all_ssreflect all_algebra.
From Verif Require Import Base ModelUtil ModelMC ModelML Herm ProofML ProofML2 ProofChol.
Delimit Scope Z_scope with Z.

Set Implicit Arguments.
Unset Strict Implicit.
Unset Printing Implicit Defensive.

Import GRing.Theory Num.Theory Order.POrderTheory.
Local Open Scope ring_scope.

(** ** C152: two sets of parameters give the same matrix exactly if the columns of the
    triangular matrices differ by signs; the position of the entry (i, j) is the sum below. *)
Theorem cholesky_decode_same : forall (C : numClosedFieldType) (diag upper diag' upper' : seq C),
  size upper = 'C(size diag, 2) -> size upper' = 'C(size diag', 2) ->
  all (fun x => x \is Num.real) diag -> all (fun x => x \is Num.real) diag' ->
  all (fun x => x != 0) diag ->
  (cholesky_decode diag upper = cholesky_decode diag' upper' <->
   size diag' = size diag /\ exists e : nat -> bool,
     (forall i, (i < size diag)%N -> nth 0 diag' i = (- 1) ^+ (e i) * nth 0 diag i) /\
     (forall i j, (i < j < size diag)%N -> let p := (\sum_(a < i) (size diag - a.+1) + (j - i.+1))%N in
        nth 0 upper' p = (- 1) ^+ (e j) * nth 0 upper p)).
Proof. exact decode_same. Qed.
Print Assumptions cholesky_decode_same.

Theorem cholesky_param_unique : forall (C : numClosedFieldType) n (p q : seq C),
  size p = (n ^ 2)%N -> size q = (n ^ 2)%N ->
  all (fun x => x \is Num.real) p -> all (fun x => x \is Num.real) q ->
  all (fun x => 0 < x) (take n p) -> all (fun x => 0 < x) (take n q) ->
  cholesky_from_param p = cholesky_from_param q -> p = q.
Proof. exact param_unique. Qed.
Print Assumptions cholesky_param_unique.

(** Positive diagonals and Hermitian positive definite matrices correspond one to one. *)
Theorem cholesky_param_bijective : forall (C : numClosedFieldType) n (H : 'M[C]_n), hermitian H -> posdef H ->
  exists2 p, [/\ size p = (n ^ 2)%N, all (fun x => x \is Num.real) p, all (fun x => 0 < x) (take n p) &
    cholesky_from_param p = Ok (SqMx H)] &
  forall q, size q = (n ^ 2)%N -> all (fun x => x \is Num.real) q -> all (fun x => 0 < x) (take n q) ->
    cholesky_from_param q = Ok (SqMx H) -> q = p.
Proof. exact param_bijective. Qed.
Print Assumptions cholesky_param_bijective.

(** Changing the sign of the second column: (1, 2; 3) and (1, -2; -3) give the same matrix, (1, 2; -3) does not. *)
Example cholesky_signs (C : numClosedFieldType) :
  cholesky_decode [:: 1; 2%:R] [:: 3%:R] = cholesky_decode [:: 1; - 2%:R] [:: - 3%:R : C] /\
  cholesky_decode [:: 1; 2%:R] [:: 3%:R] <> cholesky_decode [:: 1; 2%:R] [:: - 3%:R : C].
Proof.
have r x : (x%:R : C) \is Num.real by exact: realn.
have r1 : (1 : C) \is Num.real by exact: real1.
have n0 : (2%:R : C) != 0 by rewrite pnatr_eq0.
split.
  apply/cholesky_decode_same; rewrite //= ?oner_eq0 ?n0 ?r ?r1 ?rpredN ?r ?r1 //; split=> //.
  exists (fun i => i == 1%N); split=> [[|[|i]] //= _|i j /andP[ij j2]]; rewrite ?mul1r ?expr1 ?mulN1r //.
  have [-> ->] : i = 0%N /\ j = 1%N; first by case: j ij j2 => [|[|j]] //; case: i.
  by rewrite !big_ord0 /= expr1 mulN1r.
move/cholesky_decode_same; rewrite /= ?oner_eq0 ?n0 ?r ?r1 => /(_ erefl erefl isT isT isT)[_ [e [/(_ 1%N isT) Hd /(_ 0%N 1%N isT)]]].
move: Hd; rewrite big_ord0 /=; case: (e 1%N); rewrite ?expr0 ?expr1 ?mulN1r ?mul1r => /eqP.
  by rewrite -addr_eq0 -natrD pnatr_eq0.
by move=> _ /eqP; rewrite eq_sym -addr_eq0 -natrD pnatr_eq0.
Qed.
