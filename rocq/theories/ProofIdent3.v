(** The Fubini-Study matrix and the unitary changes of the coordinates. *)
From Coq Require Import ZArith Lia.
From mathcomp Require Import all_ssreflect all_algebra.
From mathcomp Require Import zify ssrZ ring.
From SsrMultinomials Require Import mpoly.
From Verif Require Import Base ModelUtil ModelProjective SpecMon ModelBasis ModelGeom ProofUtil Bridge Deriv Herm Herm3 SpecGeom SpecBasis SpecSections
  SpecPatch SpecPipe SpecFubini PolyGrad ProofBasis2 ProofBasis3 ProofSections ProofPatch ProofFubini ProofSymmetry2 SpecLinear ProofLinear3 ProofIdent.
Delimit Scope Z_scope with Z.

Set Implicit Arguments.
Unset Strict Implicit.
Unset Printing Implicit Defensive.

Import GRing.Theory Num.Theory Order.POrderTheory.
Local Open Scope ring_scope.

(** Reflections *)
Section Reflect.
Variables (C : numClosedFieldType) (n : nat).
Implicit Types x y v : 'rV[C]_n.

Definition dot x y : C := (x *m adjm y) 0 0.
Lemma dotE x y : x *m adjm y = (dot x y)%:M.
Proof. exact: mx11_scalar. Qed.

Lemma dot_sum x y : dot x y = \sum_j x 0 j * (y 0 j)^*.
Proof. by rewrite /dot mxE; apply: eq_bigr => j _; rewrite adjmE. Qed.

Lemma dotC x y : (dot x y)^* = dot y x.
Proof. by rewrite !dot_sum rmorph_sum; apply: eq_bigr => j _; rewrite rmorphM /= conjCK mulrC. Qed.

Lemma dot_gt0 x : x != 0 -> 0 < dot x x.
Proof.
move=> x0; rewrite lt0r; apply/andP; split; last by rewrite dot_sum sumr_ge0 // => j _; rewrite -normCK exprn_ge0.
apply: contra x0 => /eqP E; apply/eqP/rowP => j; rewrite mxE; apply/eqP.
move: E; rewrite dot_sum => /psumr_eq0P H.
have := H _ j erefl; rewrite -normCK => E; rewrite -normr_eq0 -sqrf_eq0 E // => i _; by rewrite -normCK exprn_ge0.
Qed.

Definition refl v : 'M[C]_n := 1%:M - (2%:R / dot v v) *: (adjm v *m v).

Lemma refl_unitary v : v != 0 -> unitary (refl v).
Proof.
move=> v0; have d0 := lt0r_neq0 (dot_gt0 v0).
have rc : (2%:R / dot v v)^* = 2%:R / dot v v by rewrite rmorphM fmorphV /= conjC_nat dotC.
have ad : adjm (refl v) = refl v.
  rewrite /refl -scaleN1r adjm_add adjm1 !adjm_scale rc adjm_mul adjmK.
  by rewrite rmorphN rmorph1.
have WW : (adjm v *m v) *m (adjm v *m v) = dot v v *: (adjm v *m v).
  by rewrite -mulmxA [v *m (adjm v *m v)]mulmxA dotE mul_scalar_mx -scalemxAr.
rewrite /unitary ad /refl mulmxBl mul1mx mulmxBr mulmx1 -scalemxAl -scalemxAr WW !scalerA.
have -> : 2%:R / dot v v * (2%:R / dot v v) * dot v v = 2%:R / dot v v + 2%:R / dot v v by move: (dot v v) d0 => d d0; field.
by rewrite scalerDl opprB addrK subrK.
Qed.

Lemma refl_swap x y : dot x x = dot y y -> dot x y = dot y x -> x *m refl (x - y) = y \/ x = y.
Proof.
move=> E1 E2; have [e|ne] := eqVneq (x - y) 0; first by right; apply/eqP; rewrite -subr_eq0 e.
left; have d0 := lt0r_neq0 (dot_gt0 ne).
rewrite /refl mulmxBr mulmx1 -scalemxAr mulmxA dotE mul_scalar_mx scalerA.
have S : dot (x - y) (x - y) = 2%:R * dot x (x - y).
  rewrite !dot_sum; have -> : \sum_j (x - y) 0 j * ((x - y) 0 j)^* = dot x x - dot x y - dot y x + dot y y.
    rewrite !dot_sum -!sumrB -big_split; apply: eq_bigr => j _; rewrite !mxE rmorphB /=.
    by move: ((x 0 j)^*) ((y 0 j)^*) => a b; ring.
  have -> : \sum_j x 0 j * ((x - y) 0 j)^* = dot x x - dot x y.
    by rewrite !dot_sum -sumrB; apply: eq_bigr => j _; rewrite !mxE rmorphB mulrBr.
  by rewrite -E1 -E2; ring.
have -> : 2%:R / dot (x - y) (x - y) * dot x (x - y) = 1 by rewrite mulrAC -S divff.
by rewrite scale1r opprB addrC subrK.
Qed.

(** Unitary matrices take every vector to every other of the same length, up to a phase. *)
Lemma unitary_move x y : dot x x = dot y y -> exists A c, [/\ unitary A, `|c| = 1 & x *m A = c *: y].
Proof.
move=> E; pose c := if dot x y == 0 then 1 else dot x y / `|dot x y|.
have [nc rl] : `|c| = 1 /\ dot x (c *: y) = dot (c *: y) x.
  have S : dot x (c *: y) = c^* * dot x y.
    by rewrite !dot_sum mulr_sumr; apply: eq_bigr => j _; rewrite mxE rmorphM /= mulrCA.
  have S' : dot (c *: y) x = (dot x (c *: y))^* by rewrite dotC.
  rewrite S' S /c; have [->|d0] := eqVneq (dot x y) 0; first by rewrite normr1 mulr0 conjC0.
  have n0 : `|dot x y| != 0 by rewrite normr_eq0.
  split; first by rewrite normrM normfV normr_id divff.
  rewrite !rmorphM !fmorphV /= conjCK !conj_normC; move: (dot x y) (`|dot x y|^-1) ((dot x y)^*) => a b d; ring.
have L : dot x x = dot (c *: y) (c *: y).
  by rewrite E !dot_sum; apply: eq_bigr => j _; rewrite !mxE rmorphM /= mulrACA -[c * c^*]normCK nc expr1n mul1r.
have [e|ne] := eqVneq (x - c *: y) 0.
  exists 1%:M, c; split=> //; first by rewrite /unitary adjm1 mulmx1.
  by rewrite mulmx1; apply/eqP; rewrite -subr_eq0 e.
exists (refl (x - c *: y)), c; split=> //; first exact: refl_unitary.
by have [//|H] := refl_swap L rl; move: ne; rewrite H subrr eqxx.
Qed.
End Reflect.

Section Invariant.
Variables (C : numClosedFieldType) (m k : nat) (B : basis).
Hypothesis EB : basis_full m.+1 k = Ok B.
Notation N := (size (power_matrix B)).
Notation s x := (hom_sections B (row_seq x) : 'rV[C]_N).
Notation F := (diag_mx (fubini_h C B)).

Lemma fub_form (x y : 'rV[C]_m.+2) : s x *m F *m adjm (s y) = ((dot x y) ^+ k)%:M.
Proof.
have [Ep Ek] := full_mons EB.
apply/matrixP => a b; rewrite !ord1 [RHS]mxE eqxx mulr1n dot_sum.
have -> : \sum_j x 0 j * (y 0 j)^* = \sum_j (\row_j (x 0 j * (y 0 j)^*)) 0 j :> C by apply: eq_bigr => j _; rewrite [RHS]mxE.
rewrite -mons_power -Ep (big_nth [::]) big_mkord mxE; apply: eq_bigr => c _.
rewrite adjmE mul_mx_diag mxE [fubini_h _ _ _ _]mxE Ek [s x 0 c]mxE [s y 0 c]mxE !size_row_seq rmorph_prod mulrAC.
rewrite mulrC; congr (_ * _); rewrite -big_split; apply: eq_bigr => j _.
by rewrite /= mxE exprMn rmorphX /= !nth_row_seq.
Qed.

Lemma fub_unitary (A : 'M[C]_m.+2) (R : 'M[C]_N) : unitary A -> lin_sections A R -> R *m F *m adjm R = F.
Proof.
move=> UA AR; apply: (form_unique EB) => x.
have -> : s x *m (R *m F *m adjm R) *m adjm (s x) = (s x *m R) *m F *m adjm (s x *m R) by rewrite adjm_mul !mulmxA.
rewrite -AR !fub_form; congr (_ ^+ _)%:M.
by rewrite /dot adjm_mul mulmxA -[x *m A *m adjm A]mulmxA UA mulmx1.
Qed.

Lemma fub_only (M : 'M[C]_N) : (forall (A : 'M[C]_m.+2) (R : 'M[C]_N), unitary A -> lin_sections A R -> R *m M *m adjm R = M) ->
  exists c, M = c *: F.
Proof.
move=> I; pose e : 'rV[C]_m.+2 := delta_mx 0 0.
have de : dot e e = 1.
  by rewrite dot_sum (bigD1 0) //= !mxE conjC1 mulr1 big1 ?addr0 // => j j0; rewrite !mxE (negbTE j0) mul0r.
exists ((s e *m M *m adjm (s e)) 0 0); apply: (form_unique EB) => x.
rewrite -scalemxAr -scalemxAl fub_form.
have [->|x0] := eqVneq x 0.
  have E0 : s (0 : 'rV[C]_m.+2) = (0 : C) ^+ k *: s e by rewrite -(s_scale EB) scale0r.
  have -> : dot (0 : 'rV[C]_m.+2) 0 = 0 by rewrite /dot mul0mx mxE.
  rewrite E0 adjm_scale -scalemxAr -!scalemxAl scalerA rmorphX /= conjC0.
  case: (k) => [|k']; last by rewrite expr0n /= mul0r scale0r raddf0 scaler0.
  by rewrite !expr0 mulr1 scale1r [LHS]mx11_scalar scale_scalar_mx mulr1.
pose l := sqrtC (dot x x).
have l2 : l ^+ 2 = dot x x by rewrite sqrtCK.
have dx := dot_gt0 x0; have l0 : 0 < l by rewrite sqrtC_gt0.
have lr : l^* = l by apply: conj_Creal; exact: gtr0_real.
have E : dot (l *: e) (l *: e) = dot x x.
  by rewrite /dot adjm_scale -scalemxAl -scalemxAr scalerA lr -expr2 l2 mxE -/(dot e e) de mulr1.
have [A [c [UA nc Hx]]] := unitary_move E.
have uA : A \in unitmx by have [] := mulmx1_unit UA.
have [R [_ AR _]] := lin_unit EB uA.
have Q (y : 'rV[C]_m.+2) : s (y *m A) *m M *m adjm (s (y *m A)) = s y *m M *m adjm (s y).
  by rewrite AR -[in RHS](I _ _ UA AR) adjm_mul !mulmxA.
have P (d : C) (y : 'rV[C]_m.+2) : s (d *: y) *m M *m adjm (s (d *: y)) = (`|d| ^+ 2) ^+ k *: (s y *m M *m adjm (s y)).
  by rewrite (s_scale EB) adjm_scale -scalemxAr -!scalemxAl scalerA rmorphX -exprMn mulrC -normCK.
have := Q (l *: e); rewrite Hx !P nc !expr1n scale1r => ->.
rewrite ger0_norm ?(ltW l0) // l2 [X in _ *: X]mx11_scalar !scale_scalar_mx; congr (_%:M); exact: mulrC.
Qed.
End Invariant.

(** Quadrics in two coordinates: the identity is not invariant. *)
Lemma id_not_invariant (C : numClosedFieldType) : exists2 B, basis_full 1 2 = Ok B &
  ~ (forall (A : 'M[C]_2) (R : 'M[C]_(size (power_matrix B))), unitary A -> lin_sections A R -> R *m 1%:M *m adjm R = 1%:M).
Proof.
eexists; first by vm_compute; reflexivity.
set B := (X in size (power_matrix X)); have EB : basis_full 1 2 = Ok B by vm_compute; reflexivity.
move=> /(fub_only EB)[c E].
have s3 : size (power_matrix B) = 3%N by [].
pose a : 'I_(size (power_matrix B)) := Ordinal (isT : (0 < 3)%N); pose b : 'I_(size (power_matrix B)) := Ordinal (isT : (1 < 3)%N).
have := congr1 (fun X : 'M_(size (power_matrix B)) => X a a) E; have := congr1 (fun X : 'M_(size (power_matrix B)) => X b b) E.
have n2 : (2%:R : C) != 0 by rewrite pnatr_eq0.
have f2 : 2`! = 2%N by [].
rewrite /= !mxE !eqxx !mulr1n /multinomial unlock /= !muln1 ?fact0 !f2 divr1 => Eb.
rewrite divff // mulr1 => Ec; move: Eb; rewrite -Ec mul1r => /eqP.
by rewrite -[1]/(1%:R) eqr_nat.
Qed.
