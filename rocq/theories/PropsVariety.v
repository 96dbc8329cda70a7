(** Properties C39-C43: cyjax/variety.py. *)
From Coq Require Import ZArith Ascii String.
From mathcomp Require Import all_ssreflect all_algebra.
From mathcomp Require Import ssrZ ring.
From Verif Require Import Base ModelUtil ModelProjective ModelDiff ModelStr ModelExpr ModelPoly SpecPoly
  SpecUniv ModelHom SpecHom ModelVariety SpecVariety Bridge Herm
  ProofVariety2 ProofVariety3 PropsHom.
Delimit Scope Z_scope with Z.

Set Implicit Arguments.
Unset Strict Implicit.
Unset Printing Implicit Defensive.

Import GRing.Theory Num.Theory.
Local Open Scope ring_scope.

(** ** C39, C40: points, and how many *)
Theorem sample_on_variety : forall (C : numClosedFieldType) (norm : expr C -> expr C)
    (order : seq (sym * expr C) -> seq (sym * expr C)) (visit : expr C -> seq sym)
    (terms : poly C -> sym -> seq (nat * expr C)) (roots : seq C -> seq C)
    (P : poly C) n d ps count lines,
  norm_ok norm -> order_ok order -> visit_ok visit -> roots_ok roots ->
  single P n -> (0 < n)%N -> wf_params [:: lit "t"; lit "p"; lit "q"] (parameters P) -> homogeneous P d ->
  (forall L, line_poly norm order visit P = Ok L ->
     terms_ok L (lit "t") (terms L (lit "t")) /\ terms_nonzero (terms L (lit "t"))) ->
  size ps = size (parameters P) ->
  size (lines (sample_count count n) n) = sample_count count n ->
  all (fun pq => (size pq.1 == n) && (size pq.2 == n)) (lines (sample_count count n) n) ->
  (forall pq, pq \in lines (sample_count count n) n ->
     exists2 v, call_num P [:: PArr pq.2; PArr ps] [::] = Ok v & v != 0) ->
  exists zs, [/\ sample_hom norm order visit terms roots P ps count lines = Ok zs,
    size zs = minn count (d * sample_count count n) &
    forall z, z \in zs -> size z = n /\ call_num P [:: PArr z; PArr ps] [::] = Ok 0].
Proof. exact sample_main. Qed.
Print Assumptions sample_on_variety.

(** In affine coordinates, when no line passes through the origin. *)
Theorem sample_affine_on_variety : forall (C : numClosedFieldType) (norm : expr C -> expr C)
    (order : seq (sym * expr C) -> seq (sym * expr C)) (visit : expr C -> seq sym)
    (terms : poly C -> sym -> seq (nat * expr C)) (roots : seq C -> seq C)
    (P : poly C) H n d ps count lines,
  norm_ok norm -> order_ok order -> visit_ok visit -> roots_ok roots ->
  hom_ok P -> hom_init P = Ok H -> variable_indices P = dim_indices [:: n] -> (1 < n)%N ->
  wf_params [:: lit "t"; lit "p"; lit "q"] (parameters P) -> homogeneous P d ->
  (forall L, line_poly norm order visit P = Ok L ->
     terms_ok L (lit "t") (terms L (lit "t")) /\ terms_nonzero (terms L (lit "t"))) ->
  size ps = size (parameters P) ->
  size (lines (sample_count count n) n) = sample_count count n ->
  all (fun pq => (size pq.1 == n) && (size pq.2 == n)) (lines (sample_count count n) n) ->
  (forall pq, pq \in lines (sample_count count n) n ->
     (exists2 v, call_num P [:: PArr pq.2; PArr ps] [::] = Ok v & v != 0) /\
     forall x, pq.1 <> scale x pq.2) ->
  exists ap, [/\ sample_affine norm order visit terms roots P ps count lines = Ok ap,
    size ap = minn count (d * sample_count count n) &
    forall a p, (a, p) \in ap -> [/\ (p < n)%N, size a = n.-1, (forall x, x \in a -> `|x| <= 1) &
      defining norm H a (PArr ps) (PatchInt C (Z.of_nat p)) = Ok 0]].
Proof. exact affine_main. Qed.
Print Assumptions sample_affine_on_variety.

Theorem sample_count_enough : forall count n d : nat, (0 < n)%N -> (n <= d)%N ->
  minn count (d * sample_count count n) = count.
Proof. exact count_enough. Qed.
Print Assumptions sample_count_enough.

(** Of n requested points only d are returned when the degree is less than n. *)
Theorem sample_count_short_refuted : forall n d : nat, (0 < n)%N -> (d < n)%N ->
  minn n (d * sample_count n n) = d.
Proof. exact count_short. Qed.
Print Assumptions sample_count_short_refuted.

Example sample_count_ex : [/\ sample_count 10 5 = 2%N, sample_count 11 5 = 3%N,
  minn 11 (5 * sample_count 11 5) = 11%N & minn 6 (2 * sample_count 6 3) = 4%N].
Proof. by []. Qed.

(** The quadric z0 z1 + a z2^2 on the line p + t q. *)
Definition quadric_terms (C : numClosedFieldType) : seq (nat * expr C) :=
  let p i := ESym (merge_subscript (lit "p") i) in
  let q i := ESym (merge_subscript (lit "q") i) in
  let a := ESym (lit "a") in
  [:: (2%N, EAdd [:: EMul [:: q 0%Z; q 1%Z]; EMul [:: a; EPow (q 2%Z) 2]]);
      (1%N, EAdd [:: EMul [:: p 0%Z; q 1%Z]; EMul [:: q 0%Z; p 1%Z];
                     EMul [:: ENum 2%:R; a; p 2%Z; q 2%Z]]);
      (0%N, EAdd [:: EMul [:: p 0%Z; p 1%Z]; EMul [:: a; EPow (p 2%Z) 2]])].

Definition esym_set (C : numClosedFieldType) (e : expr C) : seq sym := undup (esyms e).
Definition closed_roots (C : numClosedFieldType) (cs : seq C) : seq C :=
  sval (closed_field_poly_normal (desc_poly cs)).

Example closed_roots_ok (C : numClosedFieldType) : roots_ok (@closed_roots C).
Proof. exact: closed_roots_lemma. Qed.

Definition quadric_line (C : numClosedFieldType) : poly C :=
  let p i := ESym (merge_subscript (lit "p") i) in
  let q i := ESym (merge_subscript (lit "q") i) in
  let z i := EAdd [:: p i; EMul [:: ESym (lit "t"); q i]] in
  MkPoly [:: lit "t"; lit "p"; lit "q"] [:: None; Some [:: 0; 1; 2]%Z; Some [:: 0; 1; 2]%Z] [:: lit "a"]
    (SPoly [:: lit "t"; lit "p0"; lit "p1"; lit "p2"; lit "q0"; lit "q1"; lit "q2"]
       (EAdd [:: EMul [:: z 0%Z; z 1%Z]; EMul [:: ESym (lit "a"); EPow (z 2%Z) 2]])).

Example quadric_line_eq (C : numClosedFieldType) :
  line_poly id id (@esym_set C) (quadric C [:: 0; 1; 2]%Z) = Ok (quadric_line C).
Proof. by vm_compute. Qed.

Example quadric_line_ex (C : numClosedFieldType) L :
  line_poly id id (@esym_set C) (quadric C [:: 0; 1; 2]%Z) = Ok L ->
  terms_ok L (lit "t") (quadric_terms C) /\ terms_nonzero (quadric_terms C).
Proof.
rewrite quadric_line_eq => -[<-]; split; last first.
  have nz k : (k.+1%:R : C) != 0 by rewrite pnatr_eq0.
  move=> [|[|[|]]] // _; exists (fun=> 1); rewrite /= !(big_cons, big_nil).
  - by rewrite (_ : _ + _ = 2%:R) //; ring.
  - by rewrite (_ : _ + _ = 4%:R) //; ring.
  - by rewrite (_ : _ + _ = 2%:R) //; ring.
split=> // rho; rewrite /value /= !(big_cons, big_nil) /= !(big_cons, big_nil).
ring.
Qed.

Example quadric_sample_ex (C : numClosedFieldType) :
  let P := quadric C [:: 0; 1; 2]%Z in
  [/\ single P 3, wf_params [:: lit "t"; lit "p"; lit "q"] (parameters P), homogeneous P 2,
      call_num P [:: PArr [:: 1; 1; 0]; PArr [:: 1]] [::] <> Ok 0 &
      forall x : C, [:: 1; 0; 1] <> scale x [:: 1; 1; 0]].
Proof.
move=> P; split.
- by have [wP _ _ uP] := quadric_ok C; split=> //; exists (lit "z"), [:: 0; 1; 2]%Z.
- by move=> p; rewrite inE => /eqP ->; exists (lit "a") => //; exists None.
- by move=> rho l; rewrite /value /= !(big_cons, big_nil) /=; ring.
- rewrite /= => -[] /eqP; rewrite (_ : _ + _ = 1) ?oner_eq0 //; ring.
- by move=> x [_ /esym/eqP]; rewrite mulr1 => /eqP -> /esym/eqP; rewrite mulr0 eq_sym oner_eq0.
Qed.

Example quadric_sampled (C : numClosedFieldType) :
  exists zs, [/\ sample_hom id id (@esym_set C) (fun _ _ => quadric_terms C) (@closed_roots C)
      (quadric C [:: 0; 1; 2]%Z) [:: 1] 4 (fun k _ => nseq k ([:: 1; 0; 1], [:: 1; 1; 0])) = Ok zs,
    size zs = 4%N &
    forall z, z \in zs -> call_num (quadric C [:: 0; 1; 2]%Z) [:: PArr z; PArr [:: 1]] [::] = Ok 0].
Proof.
have [sP wp hd nz _] := quadric_sample_ex C.
have nk : norm_ok (@id (expr C)) by split=> // e s.
have oo : order_ok (@id (seq (sym * expr C))) by move=> d; exact: Permutation.Permutation_refl.
have ov : visit_ok (@esym_set C) by move=> e; split; [exact: undup_uniq|exact: mem_undup].
pose ln k (_ : nat) := nseq k ([:: 1; 0; 1 : C], [:: 1; 1; 0 : C]).
have s1 : size (ln (sample_count 4%N 3%N) 3%N) = sample_count 4%N 3%N by exact: size_nseq.
have s2 : all (fun pq => (size pq.1 == 3) && (size pq.2 == 3))%N (ln (sample_count 4%N 3%N) 3%N).
  by apply/allP => pq; rewrite mem_nseq => /andP[_ /eqP ->].
have Hq pq : pq \in ln (sample_count 4%N 3%N) 3%N ->
    exists2 v, call_num (quadric C [:: 0; 1; 2]%Z) [:: PArr pq.2; PArr [:: 1]] [::] = Ok v & v != 0.
  rewrite mem_nseq => /andP[_ /eqP ->]; exists (0 + 1 * 1 + 1 * 0 ^+ 2); first by [].
  by rewrite (_ : _ + _ = 1) ?oner_eq0 //; ring.
have [zs [E sz H]] := @sample_on_variety C id id (@esym_set C) (fun _ _ => quadric_terms C)
  (@closed_roots C) (quadric C [:: 0; 1; 2]%Z) 3%N 2%N [:: 1] 4%N ln nk oo ov (@closed_roots_ok C) sP (isT : (0 < 3)%N) wp hd
  (@quadric_line_ex C) (erefl : size [:: 1 : C] = size [:: lit "a"]) s1 s2 Hq.
by exists zs; split; [exact: E|exact: sz|move=> z /H[_]].
Qed.

(** ** C41: weights *)
Theorem weights_closed_form : forall (C : numClosedFieldType) (pi : C) m (zs G : 'rV[C]_m.+1) (d : 'I_m.+1) vol,
  0 < pi -> G 0 d != 0 ->
  let g := fs_metric_real zs in
  let A := \det (g + G^T *m adjm G^T) - \det g in
  let c := if vol is Some _ then pi ^+ m / m`!%:R else 1 in
  [/\ weights pi zs (row_seq G) (Some (Z.of_nat d)) vol = Ok (c / A), 0 < c / A &
      weights pi zs (row_seq G) None vol = Ok (c / A)].
Proof. exact weights_lemma. Qed.
Print Assumptions weights_closed_form.

(** The two parts, and their ratio: the weight times [vol]. *)
Theorem weights_separate_parts : forall (C : numClosedFieldType) (pi : C) m (zs G : 'rV[C]_m.+1) (d : 'I_m.+1) vol,
  0 < pi -> G 0 d != 0 ->
  exists dv da w,
  [/\ weights_separate pi zs (row_seq G) (Some (Z.of_nat d)) vol = Ok (dv, da),
      weights pi zs (row_seq G) (Some (Z.of_nat d)) vol = Ok w,
      dv = odflt 1 vol / `|G 0 d| ^+ 2, 0 < da & dv / da = odflt 1 vol * w].
Proof. exact separate_lemma. Qed.
Print Assumptions weights_separate_parts.

Theorem weights_vol_refuted : forall (C : numClosedFieldType) (pi : C) m (zs G : 'rV[C]_m.+1) (d : 'I_m.+1) v,
  0 < pi -> G 0 d != 0 -> v != 1 ->
  exists dv da w,
  [/\ weights_separate pi zs (row_seq G) (Some (Z.of_nat d)) (Some v) = Ok (dv, da),
      weights pi zs (row_seq G) (Some (Z.of_nat d)) (Some v) = Ok w & w <> dv / da].
Proof. exact vol_lemma_refuted. Qed.
Print Assumptions weights_vol_refuted.

(** On a curve, at the origin of a patch with gradient (1, 2): the metric is the
    identity and the induced metric 1 + 1/4, so the weight is 1 / (5/4 * 4). *)
Example weights_ex (C : numClosedFieldType) :
  let G := \row_(i < 2) (i.+1%:R : C) in
  G 0 1 != 0 /\
  weights 1 (0 : 'rV[C]_2) (row_seq G) (Some 1%Z) None = Ok 5%:R^-1.
Proof. exact: weights_example. Qed.

(** ** C42: completion of points *)
Theorem solve_defining_completes : forall (C : numClosedFieldType) (norm : expr C -> expr C)
    (visit : expr C -> seq sym) (terms : poly C -> sym -> seq (nat * expr C)) (roots : seq C -> seq C)
    (P : poly C) H n p dep zs ps,
  norm_ok norm -> visit_ok visit -> roots_ok roots ->
  hom_ok P -> hom_init P = Ok H -> variable_indices P = dim_indices [:: n] -> (2 < n)%N ->
  (p < n)%N -> (dep < n.-1)%N -> size zs = n.-2 -> size ps = size (parameters P) ->
  let s := merge_subscript (head [::] (variable_names P)) (index_affine_to_hom (Z.of_nat p) (Z.of_nat dep)) in
  let A := affine_build norm P [:: Z.of_nat p] in
  let D := (\max_(t <- terms A s) t.1)%N in
  let pt x := take dep zs ++ x :: drop dep zs in
  terms_ok A s (terms A s) ->
  exists q : {poly C},
    [/\ forall x, defining norm H (pt x) (PArr ps) (PatchInt C (Z.of_nat p)) = Ok q.[x],
        (size q <= D.+1)%N &
        size q = D.+1 ->
        exists pts, [/\ solve_defining norm visit terms roots H zs ps (Z.of_nat dep) (Some (Z.of_nat p)) = Ok pts,
          size pts = D &
          forall z, z \in pts -> exists2 r, z = pt r & q.[r] = 0]].
Proof. exact solve_main. Qed.
Print Assumptions solve_defining_completes.

(** patch=None, the default, always raises. *)
Theorem solve_defining_no_patch_refuted : forall (C : numClosedFieldType) (norm : expr C -> expr C)
    (visit : expr C -> seq sym) (terms : poly C -> sym -> seq (nat * expr C)) (roots : seq C -> seq C)
    H zs ps dep, solve_defining norm visit terms roots H zs ps dep None = Err TypeError.
Proof. exact solve_none. Qed.
Print Assumptions solve_defining_no_patch_refuted.

(** z0 z1 + a z2^2 = 0 in the patch z0 = 1, solved for z1 (position 0): the point
    (-a y^2, y). *)
Definition quadric_affine_terms (C : numClosedFieldType) : seq (nat * expr C) :=
  [:: (1%N, ENum 1); (0%N, EMul [:: ESym (lit "a"); EPow (ESym (lit "z2")) 2])].

Example quadric_affine_ex (C : numClosedFieldType) :
  terms_ok (affine_build id (quadric C [:: 0; 1; 2]%Z) [:: 0%Z]) (lit "z1") (quadric_affine_terms C).
Proof.
split=> // rho; rewrite /value /= !(big_cons, big_nil) /= !(big_cons, big_nil).
by rewrite -[merge_subscript _ 1]/(lit "z1") -[merge_subscript _ 2]/(lit "z2") /lit /=; ring.
Qed.

Example solve_defining_ex (C : numClosedFieldType) (y a : C) :
  exists2 H, hom_init (quadric C [:: 0; 1; 2]%Z) = Ok H &
  solve_defining id (@esym_set C) (fun _ _ => quadric_affine_terms C)
    (fun cs => if cs is [:: x; c] then [:: - c / x] else [::]) H [:: y] [:: a] 0 (Some 0%Z) =
  Ok [:: [:: - (a * y ^+ 2) / 1; y]].
Proof.
eexists; first by rewrite /hom_init /= /hp_dims /= big_seq1.
rewrite /solve_defining /univariate_coefficients.
have -> : \max_(t <- quadric_affine_terms C) t.1 = 1%N by rewrite !big_cons big_nil.
by [].
Qed.

(** ** C43: best_dependent *)
Theorem best_dependent_refuted : forall (C : numClosedFieldType) (norm : expr C -> expr C)
    grad (H : hompoly C) zs params patch,
  is_ok (best_dependent norm grad H zs params patch) = false.
Proof. exact best_dependent_err. Qed.
Print Assumptions best_dependent_refuted.

(** The gradient itself is already requested with exchanged arguments. *)
Theorem best_dependent_swapped_refuted : forall (C : numClosedFieldType) (norm : expr C -> expr C)
    grad (H : hompoly C) zs (ps : seq C) p,
  best_dependent norm grad H zs (PArr ps) (PatchInt C p) = Err TypeError.
Proof. exact best_swapped. Qed.
Print Assumptions best_dependent_swapped_refuted.
