(** AlgebraicMetric with a gradient which is passed: rescaling it. *)
From Coq Require Import ZArith Lia.
From mathcomp Require Import all_ssreflect all_algebra.
From Verif Require Import Base ModelUtil ModelProjective ModelDiff ModelExpr ModelPoly ModelHom ModelVariety ModelBasis ModelGeom ModelAlg.
From Verif Require Import Deriv Bridge ProofUtil ProofAlg.
Delimit Scope Z_scope with Z.

Set Implicit Arguments.
Unset Strict Implicit.
Unset Printing Implicit Defensive.

Import GRing.Theory Num.Theory.
Local Open Scope ring_scope.

Section Scale.
Variable C : numClosedFieldType.

Lemma jacobian_scale (c : C) s d : c != 0 -> jacobian_embed [seq c * x | x <- s] d = jacobian_embed s d.
Proof.
move=> c0; rewrite /jacobian_embed size_map pop_map; case: pop => [[y r]|//] /=.
congr insert_col1; rewrite -map_comp; apply: eq_map => x /=.
by rewrite -mulrN -mulf_div divff // mul1r.
Qed.

Lemma row_seq_scale n (c : C) (g : 'rV[C]_n) : row_seq (c *: g) = [seq c * x | x <- row_seq g].
Proof.
apply: (@eq_from_nth _ 0) => [|i]; first by rewrite (size_map _ (row_seq g)) !size_row_seq.
rewrite size_row_seq => ni.
by rewrite (nth_map 0) ?size_row_seq // (nth_row_seq _ (Ordinal ni)) (nth_row_seq g (Ordinal ni)) mxE.
Qed.

Variable D : forall n : nat, ('rV[C]_n -> C) -> 'rV[C]_n -> 'rV[C]_n.
Variables (lg ex : C -> C) (pi : C) (m : nat) (V : variety C) (B : basis).
Variables (h : hvalue C (size (power_matrix B))) (zs : seq C) (params : pyval C) (patch dep : option Z).
Variables (g : 'rV[C]_m.+1) (c : C).
Hypothesis c0 : c != 0.

Let set_grad (o : objects C (size (power_matrix B)) m) : objects C (size (power_matrix B)) m :=
  Objects (o_h o) (o_degree o) (o_s o) (o_s1 o) (o_s2 o) (c *: o_grad o) (o_dep o) (o_jach o).

Lemma objects_scaled : alg_objects D lg ex m V h zs params patch (Some (c *: g)) dep =
  rmap (fun op => (set_grad op.1, op.2)) (alg_objects D lg ex m V h zs params patch (Some g) dep).
Proof.
rewrite /alg_objects; case: alg_point => [[y p]|//]; cbn [rbind].
case: alg_sections => [s|//]; cbn [rbind alg_grad].
have -> : choose_dependent (row_seq (c *: g)) dep = choose_dependent (row_seq g) dep.
  by rewrite /choose_dependent row_seq_scale argmax_scale.
by case: choose_dependent.
Qed.

Lemma jac_scaled (u : 'rV[C]_m.+1) d : jac (c *: u) d = jac u d.
Proof. by rewrite /jac row_seq_scale jacobian_scale. Qed.

Lemma dep_scaled o : ob_dependent (set_grad o) = ob_dependent o.
Proof. by rewrite /ob_dependent /=; case: o_dep => //; rewrite row_seq_scale argmax_scale. Qed.

Lemma ob_jac_scaled o : ob_jac (set_grad o) = ob_jac o.
Proof. by rewrite /ob_jac dep_scaled /=; case: ob_dependent => //= d; rewrite jac_scaled. Qed.

Lemma g_loc_scaled o : ob_g_loc pi (set_grad o) = ob_g_loc pi o.
Proof. by rewrite /ob_g_loc ob_jac_scaled. Qed.

Lemma ricci_scaled o : ob_ricci_loc pi (set_grad o) = ob_ricci_loc pi o.
Proof.
by rewrite /ob_ricci_loc /ob_ricci_proj /ob_g_loc_a /ob_g_loc_h /ob_g_loc_ha g_loc_scaled ob_jac_scaled.
Qed.

Lemma gradient_scale :
  [/\ alg_metric D lg ex pi m V h zs params patch (Some (c *: g)) dep =
      alg_metric D lg ex pi m V h zs params patch (Some g) dep,
      alg_ricci D lg ex pi m V h zs params patch (Some (c *: g)) dep =
      alg_ricci D lg ex pi m V h zs params patch (Some g) dep,
      alg_ricci_scalar D lg ex pi m V h zs params patch (Some (c *: g)) dep =
      alg_ricci_scalar D lg ex pi m V h zs params patch (Some g) dep &
      alg_eta D lg ex pi m V h zs params patch (Some (c *: g)) dep =
      rmap (fun e => `|c| ^+ 2 * e) (alg_eta D lg ex pi m V h zs params patch (Some g) dep)].
Proof.
split.
- rewrite /alg_metric objects_scaled; case: alg_objects => [[o p]|//]; cbn [rbind rmap fst snd].
  by rewrite g_loc_scaled dep_scaled.
- rewrite /alg_ricci objects_scaled; case: alg_objects => [[o p]|//]; cbn [rbind rmap fst snd].
  by rewrite ricci_scaled dep_scaled.
- rewrite /alg_ricci_scalar objects_scaled; case: alg_objects => [[o p]|//]; cbn [rbind rmap fst snd].
  by rewrite /ob_ricci_scalar ricci_scaled g_loc_scaled.
- rewrite /alg_eta objects_scaled; case: alg_objects => [[o p]|//]; cbn [rbind rmap fst snd].
  rewrite /ob_eta g_loc_scaled dep_scaled; case: ob_g_loc => [G|//]; cbn [rbind].
  case: ob_dependent => [d|//]; cbn [rbind]; rewrite /eta /=; case: py_pos => [k|//] /=; congr Ok.
  rewrite row_seq_scale; have [lt|ge] := ltnP k (size (row_seq (o_grad o))).
    by rewrite (nth_map 0) // normrM exprMn mulrCA.
  have E : nth 0 (row_seq (o_grad o)) k = 0 by apply: nth_default.
  have E' : nth 0 [seq c * x | x <- row_seq (o_grad o)] k = 0.
    by apply: nth_default; rewrite (size_map _ (row_seq _)).
  by rewrite E E' normr0 expr0n /= !mulr0.
Qed.
End Scale.
