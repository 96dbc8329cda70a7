(** Random points: projective space and overlaps of patches. *)
From Coq Require Import ZArith Reals Lra Psatz.
From mathcomp Require Import all_ssreflect all_algebra.
From mathcomp Require Import complex zify ssrZ.
From Verif Require Import Base ModelUtil ModelProjective RealField ComplexR ModelRandom SpecRandom Herm Deriv Bridge
  ProofProjective ProofRandom.
Delimit Scope Z_scope with Z.

Set Implicit Arguments.
Unset Strict Implicit.
Unset Printing Implicit Defensive.

Import GRing.Theory Num.Theory Order.POrderTheory.
Local Open Scope ring_scope.
Delimit Scope R_scope with RR.

Section Sphere.
Variables (n : nat).

Lemma sphere_equivariant (v v' : seq R) (U : 'M[CR]_n) :
  size v = (n + n)%N -> size v' = (n + n)%N -> has (fun x => x != 0) v -> has (fun x => x != 0) v' ->
  U *m adjm U = 1%:M ->
  \row_(k < n) nth 0 (joined n v') k = \row_(k < n) nth 0 (joined n v) k *m U ->
  \row_(k < n) nth 0 (complex_sphere n v') k = \row_(k < n) nth 0 (complex_sphere n v) k *m U.
Proof.
move=> sv sv' h h' uU E.
have Nrm w : size w = (n + n)%N ->
  (\row_(k < n) nth 0 (joined n w) k *m adjm (\row_(k < n) nth 0 (joined n w) k)) 0 0 = rc (rnorm w) ^+ 2.
  move=> sw; have -> : rc (rnorm w) ^+ 2 = rc (\sum_(x <- w) x ^+ 2) by rewrite expr2 -rcM; congr rc; exact: rnorm_sqr.
  rewrite -(joined_norm sw) mxE [RHS](big_nth 0) size_joined // big_mkord.
  by apply: eq_bigr => k _; rewrite !mxE normCK.
have eN : rnorm v' = rnorm v.
  have : rc (rnorm v') ^+ 2 = rc (rnorm v) ^+ 2.
    by rewrite -!Nrm // E adjm_mul mulmxA -[X in X *m _]mulmxA uU mulmx1.
  move/eqP; rewrite eqf_sqr => /orP[/eqP/rc_inj //|/eqP e].
  have a := rnorm_gt0 h; have b := rnorm_gt0 h'.
  by move: e; rewrite -rcN => /rc_inj e; exfalso; rewrite e in b; lra.
have R w : size w = (n + n)%N -> has (fun x => x != 0) w ->
  \row_(k < n) nth 0 (complex_sphere n w) k = (rc (rnorm w))^-1 *: \row_(k < n) nth 0 (joined n w) k.
  move=> sw hw; apply/rowP => k; rewrite !mxE complex_sphereE // (nth_map 0) ?size_joined //.
  by rewrite mulrC.
by rewrite !R // eN E scalemxAl.
Qed.
End Sphere.

Lemma projective_draw dim (v : seq R) : size v = (dim.+1 + dim.+1)%N -> has (fun x => x != 0) v ->
  exists z p, [/\ uniform_projective dim v = Ok (z, p), (p <= dim)%N, size z = dim,
    forall x, x \in z -> `|x| <= 1 &
    nth 0 (joined dim.+1 v) p != 0 /\
    affine_to_hom z (Z.of_nat p) = [seq x / nth 0 (joined dim.+1 v) p | x <- joined dim.+1 v]].
Proof.
move=> sv h; have [s1 s2] := complex_sphere_unit sv h.
have n0 := rnorm_gt0 h; have nn : rc (rnorm v) != 0 by apply/eqP => /rc_inj e; rewrite e in n0; exact: (Rlt_irrefl 0).
have hs : has (fun x => x != 0) (complex_sphere dim.+1 v).
  apply: contra_eqT s2 => /hasPn H; rewrite big_seq big1 1?eq_sym ?oner_neq0 // => z /H.
  by rewrite negbK => /eqP ->; rewrite normr0 expr0n.
have [z [p [E [ps pn _ _ [Ea zb _]]]]] := auto_lemma hs.
exists z, p; have pd : (p <= dim)%N by rewrite s1 in ps.
have nj : nth 0 (complex_sphere dim.+1 v) p = nth 0 (joined dim.+1 v) p / rc (rnorm v).
  by rewrite complex_sphereE // (nth_map 0) ?size_joined.
have jn : nth 0 (joined dim.+1 v) p != 0.
  by move: pn; rewrite nj mulf_eq0 negb_or => /andP[].
have sz : size z = dim.
  move: E; rewrite /uniform_projective /hom_to_affine_auto; case: (argmax _) => //= q.
  rewrite /hom_to_affine; case Ep: (pop _ _) => [[z0 z1]|] //= [<- e]; rewrite size_map; move: e Ep => {q} -> Ep.
  by move: Ep; rewrite (pop_del 0) // => -[_ <-]; rewrite size_del // s1.
split=> //; split=> //; rewrite Ea complex_sphereE // -map_comp; apply: eq_map => x /=.
rewrite (nth_map 0) ?size_joined //; move: (rc _) nn => c nn.
by rewrite invfM invrK mulrACA mulVf ?mulr1 // mulrC.
Qed.
