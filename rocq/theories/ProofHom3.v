(** Dwork and Fermat polynomials. *)
From Coq Require Import ZArith Lia Ascii String.
From mathcomp Require Import all_ssreflect all_algebra.
From mathcomp Require Import zify ssrZ ring.
From Verif Require Import Base ModelUtil ProofUtil ModelProjective ModelStr ModelExpr
  ModelPoly SpecPoly ModelHom SpecHom ProofHom ProofHom2.
Delimit Scope Z_scope with Z.

Set Implicit Arguments.
Unset Strict Implicit.
Unset Printing Implicit Defensive.

Import GRing.Theory Num.Theory.
Local Open Scope ring_scope.

Lemma roll_perm (T : eqType) (s : seq T) k : perm_eq (roll s k) s.
Proof. by rewrite /roll; case: ifP => // _; rewrite perm_rot. Qed.

Lemma insert_perm (T : eqType) (s v : seq T) k : perm_eq (insert_1d s v k) (v ++ s).
Proof.
rewrite /insert_1d; apply: (perm_trans (roll_perm _ _)); rewrite perm_catC perm_cat2l.
exact: roll_perm.
Qed.

Section Families.
Variable C : numClosedFieldType.
Implicit Types (z ps : seq C) (f : dwork_factor C).

Lemma sum_scale l z n : \sum_(x <- scale l z) x ^+ n = l ^+ n * \sum_(x <- z) x ^+ n.
Proof. by rewrite big_map mulr_sumr; apply: eq_bigr => x _; rewrite exprMn. Qed.

Lemma prod_scale l z : \prod_(x <- scale l z) x = l ^+ size z * \prod_(x <- z) x.
Proof.
elim: z => [|x z IH]; first by rewrite !big_nil mul1r.
by rewrite /= !big_cons IH exprS mulrACA.
Qed.

Lemma dwork_form n f z psi ps patch v : dwork_call n f z (psi :: ps) patch = Ok v ->
  v = (if patch is Some _ then 1 else 0) + \sum_(i < size z) nth 0 z i ^+ n +
      (match f with FBool true => - (psi *+ 5) | FBool false => psi | FNum c => psi * c end) *
      \prod_(i < size z) nth 0 z i :> C.
Proof.
rewrite /dwork_call /rassert; case: eqP => //= _ [<-].
rewrite (big_nth 0) big_mkord (big_nth 0) big_mkord.
have -> : dwork_factor_value f * psi = match f with FBool true => - (psi *+ 5) | FBool false => psi | FNum c => psi * c end.
  case: f => [[]|c] /=; first by rewrite mulNr mulr_natl.
    by rewrite mul1r.
  by rewrite mulrC.
by case: patch => [p|]; rewrite ?add0r // addrA.
Qed.

Lemma dwork_ones n psi ps :
  dwork_call n (FBool C true) (nseq n 1) (psi :: ps) None = Ok 0 <-> psi = n%:R / 5%:R.
Proof.
have E : dwork_call n (FBool C true) (nseq n 1) (psi :: ps) None = Ok (n%:R - 5%:R * psi).
  rewrite /dwork_call size_nseq addn0 eqxx /= !big_nseq; congr Ok.
  have -> : iter n ( *%R 1) 1 = 1 :> C by elim: n => //= n ->; rewrite mulr1.
  rewrite mulr1 mulNr expr1n; congr (_ - _).
  by elim: n => [|n IH] /=; rewrite ?mulr0n // IH mulrS.
have n5 : 5%:R != 0 :> C by rewrite pnatr_eq0.
rewrite E; split=> [[/eqP]|->].
  by rewrite subr_eq0 => /eqP ->; rewrite mulrC mulKf.
by rewrite mulrC divfK // subrr.
Qed.

Lemma dwork_homogeneous n f z ps l :
  dwork_call n f (scale l z) ps None = rmap (fun v => l ^+ n * v) (dwork_call n f z ps None).
Proof.
rewrite /dwork_call size_map addn0; case: eqP => //= E; case: item => //= p0.
by rewrite sum_scale prod_scale E mulrDr; congr (Ok (_ + _)); rewrite mulrCA.
Qed.

Lemma dwork_perm n f z z' ps patch : perm_eq z z' ->
  dwork_call n f z ps patch = dwork_call n f z' ps patch.
Proof.
move=> zz; rewrite /dwork_call (perm_size zz) !(perm_big _ zz) //.
Qed.

Lemma dwork_affine n f z ps p :
  dwork_call n f z ps (Some p) = dwork_call n f (affine_to_hom z p) ps None.
Proof.
rewrite (dwork_perm n f ps None (insert_perm z [:: 1] p)) /dwork_call /= addn1 addn0.
by case: eqP => //= _; case: item => //= p0; rewrite !big_cons expr1n mul1r addrA.
Qed.

Lemma dwork_ok n f z ps patch : is_ok (dwork_call n f z ps patch) =
  (size z + isSome patch == n)%N && (0 < size ps)%N.
Proof. by rewrite /dwork_call; case: eqP => //= _; case: ps. Qed.

Lemma fermat_homogeneous n z l :
  fermat_call n (scale l z) None = rmap (fun v => l ^+ n * v) (fermat_call n z None).
Proof. by rewrite /fermat_call size_map addn0; case: eqP => //= E; rewrite sum_scale. Qed.

Lemma fermat_perm n z z' patch : perm_eq z z' -> fermat_call n z patch = fermat_call n z' patch.
Proof. by move=> zz; rewrite /fermat_call (perm_size zz) !(perm_big _ zz). Qed.

Lemma fermat_affine n z p :
  fermat_call n z (Some p) = fermat_call n (affine_to_hom z p) None.
Proof.
rewrite (fermat_perm n None (insert_perm z [:: 1] p)) /fermat_call /= addn1 addn0.
by case: eqP => //= _; rewrite !big_cons expr1n.
Qed.

(** Fermat is Dwork at psi = 0. *)
Lemma fermat_dwork n f z patch : fermat_call n z patch = dwork_call n f z [:: 0] patch.
Proof.
by rewrite /fermat_call /dwork_call; case: eqP => //= _; rewrite mulr0 mul0r addr0.
Qed.

(** A generic homogeneous polynomial that agrees with the special class on all
    of C^n agrees with it in every patch. *)
Lemma dwork_generic (norm : expr C -> expr C) P H n f : norm_ok norm ->
  hom_ok P -> hom_init P = Ok H -> (1 < n)%N ->
  variable_indices P = dim_indices [:: n] -> size (parameters P) = 1%N ->
  (forall z psi, size z = n -> call_num P [:: PArr z; PArr [:: psi]] [::] = dwork_call n f z [:: psi] None) ->
  forall hist z psi p, all (valid_patch [:: n]) hist -> (0 <= p < Z.of_nat n)%Z -> size z = n.-1 ->
  rmap fst (hom_call norm (affine_run norm H hist) [:: PArr z; PArr [:: psi]] [::] (Some [:: p])) =
  dwork_call n f z [:: psi] (Some p).
Proof.
move=> nok hP hi n1 Ei sp agree hist z psi p vh pr sz.
have Ed : hp_dims P = [:: n] by rewrite /hp_dims Ei /= size_map size_iota.
have vp : valid_patch [:: n] [:: p] by rewrite valid_cons /valid_patch /= andbT; lia.
rewrite (@hom_call_valid C norm P) ?Ed //.
have [||||v [E1 E2]] := @affine_consecutive C norm nok P [:: n] [:: p] [:: z] [:: psi] hP Ei vp.
- by rewrite /= n1.
- by [].
- by case.
- by rewrite sp.
rewrite /= in E1 E2; rewrite E1 dwork_affine -E2 agree // size_insert_1d sz /=; lia.
Qed.
End Families.
