(** An instance: the quadric z0 z1 + a z2^2 with a = 1 at the point (1 : -4 : 2). *)
From Coq Require Import ZArith Lia Epsilon.
From mathcomp Require Import all_ssreflect all_algebra.
From mathcomp Require Import zify ssrZ ring.
From SsrMultinomials Require Import mpoly.
From Verif Require Import Base ModelStr ModelUtil ModelProjective ModelDiff ModelExpr ModelPoly ModelHom ModelVariety ModelBasis ModelGeom ModelAlg.
From Verif Require Import SpecPoly SpecHom SpecVariety SpecGeom SpecBasis SpecSections SpecPatch SpecAlg Herm.
From Verif Require Import Deriv Wirtinger Bridge PolyGrad ProofUtil ProofProjective ProofDiff ProofDiff2 ProofSections ProofPatch.
From Verif Require Import ProofHom ProofHom2 ProofBasis3 ProofPolyExpr ProofAlg PropsHom PropsVariety.
Delimit Scope Z_scope with Z.

Set Implicit Arguments.
Unset Strict Implicit.
Unset Printing Implicit Defensive.

Import GRing.Theory Num.Theory Order.POrderTheory.
Local Open Scope ring_scope.

(** A differentiation operator, by choice. *)
Definition choice_D (C : numClosedFieldType) n (f : 'rV[C]_n -> C) (z : 'rV[C]_n) : 'rV[C]_n :=
  epsilon (inhabits 0) (fun g => is_grad f z g).

Lemma choice_D_ok (C : numClosedFieldType) : diff_ok (@choice_D C).
Proof.
move=> n f z g H.
have H' : is_grad f z (choice_D f z) by apply: (epsilon_spec (inhabits 0) (fun g => is_grad f z g)); exists g.
exact: is_grad_unique H' H.
Qed.

Section Quadric.
Variable C : numClosedFieldType.

Lemma row3 (z : 'rV[C]_3) : row_seq z = [:: z 0 0; z 0 1; z 0 2].
Proof.
rewrite /row_seq !enum_ordS /= enum_ord0 /=.
by congr [:: _; _; _]; congr (z 0 _); exact: val_inj.
Qed.
Lemma row2 (z : 'rV[C]_2) : row_seq z = [:: z 0 0; z 0 1].
Proof. by rewrite /row_seq !enum_ordS /= enum_ord0 /=; congr [:: _; _]; congr (z 0 _); exact: val_inj. Qed.

Definition quadric_Q : {mpoly C[3]} := 'X_0 * 'X_1 + 'X_2 ^+ 2.
Definition quadric_x : 'rV[C]_3 := \row_(i < 3) nth 0 [:: 1; - 4%:R; 2%:R] i.

Lemma quadric_V : exists V, [/\ hypersurface V [:: 1] 1 2, @defined_by C V [:: 1] 1 quadric_Q &
  v_defining V (row_seq quadric_x) (PArr [:: 1]) (PatchNone C) = Ok 0].
Proof.
have ok := quadric_ok C; have [_ _ hd _ _] := quadric_sample_ex C.
have nk : norm_ok (@id (expr C)) by split=> // e s.
have [H hi] : exists H, hom_init (quadric C [:: 0; 1; 2]%Z) = Ok H.
  by eexists; rewrite /hom_init /= /hp_dims /= big_seq1.
have [hE _] := init_ok id hi.
have [V Ev] : exists V, variety_init id H = Ok V by eexists; rewrite /variety_init hE.
have hV : hypersurface V [:: 1] 1 2 by apply: Or31; exists id, (quadric C [:: 0; 1; 2]%Z), H.
have dQ : @defined_by C V [:: 1] 1 quadric_Q.
  move=> z; move: Ev; rewrite /variety_init; case: rassert => //= _ [<-].
  rewrite /v_defining /defining (transform_none id _ _ hi) row3.
  rewrite /= /call_num /=; congr Ok; rewrite /quadric_Q /peval mevalD mevalM rmorphX /= !mevalXU.
  by ring.
exists V; split=> //; rewrite dQ; congr Ok.
by rewrite /quadric_Q /peval mevalD mevalM rmorphX /= !mevalXU !mxE /=; ring.
Qed.

Definition quadric_a : 'rV[C]_2 := \row_(i < 2) nth 0 [:: - 4%:R; 2%:R] i.

Lemma quadric_grad : pgrad (dehom 0 quadric_Q) quadric_a = \row_(i < 2) nth 0 [:: 1; 4%:R] i.
Proof.
have l0 : lift 0 0 = 1 :> 'I_3 by exact: val_inj.
have l1 : lift 0 1 = 2 :> 'I_3 by exact: val_inj.
have E : dehom 0 quadric_Q = 'X_0 + 'X_1 ^+ 2.
  apply: peval_inj => y; rewrite dehom_eval /quadric_Q /peval !mevalD mevalM !rmorphX /= !mevalXU.
  by rewrite -l1 -l0 !homr_lift homr_patch mul1r.
rewrite E; apply/rowP => i; rewrite !mxE expr2 /peval mderivD mderivM !mderivX !mnm1E.
have U (j : 'I_2) : ('X_[U_(j) - U_(j)] : {mpoly C[2]}) = 1.
  by rewrite (_ : (U_(j) - U_(j))%MM = 0%MM) ?mpolyX0 //; apply/mnmP => a; rewrite mnmBE subnn mnm0E.
case: (unliftP 0 i) => [a ->|->]; last first.
  by rewrite /= !scale0r mul0r mulr0 !addr0 U scale1r meval1.
rewrite ord1 (_ : lift 0 0 = 1 :> 'I_2) ?eqxx /=; last exact: val_inj.
rewrite !scale0r add0r !scale1r !U mulr1 mul1r mevalD !mevalXU mxE /=; ring.
Qed.

Lemma quadric_affine : hom_to_affine (row_seq quadric_x) 0%Z = Ok (row_seq quadric_a).
Proof.
rewrite (hom_to_affine_seq 0 quadric_x); congr (Ok (row_seq _)).
by apply/rowP => i; rewrite !mxE /= divr1.
Qed.

Lemma quadric_gradient (D : forall n : nat, ('rV[C]_n -> C) -> 'rV[C]_n -> 'rV[C]_n) V : diff_ok D ->
  hypersurface V [:: 1] 1 2 -> @defined_by C V [:: 1] 1 quadric_Q ->
  v_grad_defining D V (row_seq quadric_a) (PArr [:: 1]) (PatchInt C 0%Z) = Ok [:: 1; 4%:R].
Proof.
move=> hD hV hQ; have := grad_code hD hV hQ 0 quadric_a; rewrite quadric_grad => /= ->.
by rewrite row2 !mxE.
Qed.

Lemma quadric_setting (k : nat) (d : 'I_2) : diff_ok (@choice_D C) /\
  exists V B, [/\ hypersurface V [:: 1] 1 2, @defined_by C V [:: 1] 1 quadric_Q,
    basis_for k quadric_Q B, hermitian (1%:M : 'M[C]_(size (power_matrix B))) /\ posdef (1%:M : 'M[C]_(size (power_matrix B))) &
    forall D, diff_ok D -> smooth_at D V [:: 1] quadric_x 0 d (row_seq quadric_a) [:: 1; 4%:R]].
Proof.
split; first exact: choice_D_ok.
have [V [hV hQ hx]] := quadric_V; have [B [hB _ _ _ _]] := full_class 2 k.
exists V, B; split=> //; [by left|by split; [exact: herm1|exact: pd1]|].
move=> D hD; split=> //; [by rewrite mxE oner_eq0|exact: quadric_affine|exact: quadric_gradient|].
by case: d => -[|[|//]] l; rewrite /= ?oner_eq0 ?pnatr_eq0.
Qed.

Lemma quadric_inputs : exists V : variety C,
  [/\ alg_point 1 V [:: 3%:R; - 12%:R; 6%:R] None = alg_point 1 V [:: 1; - 4%:R; 2%:R] None,
      alg_point 1 V [:: 1; - 4%:R; 2%:R] None = Ok (\row_(i < 2) nth 0 [:: - 4%:R^-1; - 2%:R^-1] i, 1%Z),
      alg_point 1 V [:: 1; - 4%:R] None = Err AssertionError &
      alg_point 1 V [:: 1] (Some 0%Z) = Err AssertionError].
Proof.
have [V [hV hQ _]] := quadric_V; have hd := V_dim hV; exists V.
have n4 : 4%:R != 0 :> C by rewrite pnatr_eq0.
split.
- rewrite (_ : [:: 3%:R; _; _] = [seq 3%:R * x | x <- [:: 1; - 4%:R; 2%:R]]).
    by rewrite /alg_point auto_scale // pnatr_eq0.
  by rewrite /= mulr1 mulrN -!natrM.
- rewrite /alg_point /hom_to_affine_auto /argmax /= !normrN normr1 !normr_nat.
  rewrite ltr1n /= ltr_nat /=.
  rewrite /v_dim_projective hd /=; congr (Ok (_, _)); apply/rowP => i; rewrite !mxE.
  case: i => -[|[|//]] l /=; first by rewrite div1r invrN.
  by rewrite invrN mulrN (_ : 4%:R = 2%:R * 2%:R) -?natrM //; congr (- _); rewrite natrM invfM mulrA divff ?mul1r // pnatr_eq0.
- rewrite /alg_point /hom_to_affine_auto /argmax /= !normrN normr1 !normr_nat ltr1n /=.
  by rewrite /v_dim_projective hd.
by rewrite /alg_point /= /v_dim_projective hd.
Qed.
End Quadric.
