(** Derivatives of the ambient metric. *)
From Coq Require Import ZArith.
From mathcomp Require Import all_ssreflect all_algebra.
From mathcomp Require Import ring.
From Verif Require Import Base ModelUtil ModelGeom Deriv Wirtinger SpecGeom Herm.
Delimit Scope Z_scope with Z.

Set Implicit Arguments.
Unset Strict Implicit.
Unset Printing Implicit Defensive.

Import GRing.Theory Num.Theory Order.POrderTheory.
Local Open Scope ring_scope.

#[local] Hint Extern 0 (is_true (0 < _)) => solve [apply: ltr01 | apply: ltr0Sn] : core.

Section Contr.
Variables (C : numClosedFieldType) (N : nat) (M : 'M[C]_N).

Definition contr (u w : 'I_N -> C) : C := \sum_i \sum_j u i * M i j * w j.

Lemma contr_eq u u' w w' : u =1 u' -> w =1 w' -> contr u w = contr u' w'.
Proof. by move=> E E'; apply: eq_bigr => i _; apply: eq_bigr => j _; rewrite E E'. Qed.

Lemma contr0l w : contr (fun _ => 0) w = 0.
Proof. by rewrite /contr big1 // => i _; rewrite big1 // => j _; rewrite !mul0r. Qed.
Lemma contr0r u : contr u (fun _ => 0) = 0.
Proof. by rewrite /contr big1 // => i _; rewrite big1 // => j _; rewrite mulr0. Qed.

Lemma contr_conj u w : hermitian M ->
  (contr u (fun j => (w j)^*))^* = contr w (fun j => (u j)^*).
Proof.
move=> H; rewrite /contr exchange_big rmorph_sum; apply: eq_bigr => j _.
rewrite rmorph_sum; apply: eq_bigr => i _; rewrite !cjE -H.
by ring.
Qed.

Lemma wgrad_contr n (u w : 'rV[C]_n -> 'I_N -> C) z du dw :
  (forall i, is_wgrad (fun y => u y i) z (du i) (fun _ => 0)) ->
  (forall j, is_wgrad (fun y => w y j) z (dw j) (fun _ => 0)) ->
  is_wgrad (fun y => contr (u y) (fun j => (w y j)^*)) z
    (fun a => contr (fun i => du i a) (fun j => (w z j)^*))
    (fun a => contr (u z) (fun j => (dw j a)^*)).
Proof.
move=> Hu Hw; apply: wgrad_sum => i _; apply: wgrad_sum => j _.
have H1 := wgrad_mul (wgrad_mul (Hu i) (wgrad_const (M i j) z)) (wgrad_conj (Hw j)).
by apply: wgrad_eq H1 => a /=; rewrite ?cj0; ring.
Qed.
End Contr.

Section Ambient.
Variables (C : numClosedFieldType) (N m : nat) (log : C -> C) (pi : C).
Notation n := m.+1.
Variables (o : 'rV[C]_n -> objects C N m) (z : 'rV[C]_n) (M : 'M[C]_N) (k : nat).
Hypothesis HM : hermitian M.

(** the contract at one point *)
Definition at_point y := (forall s : 'I_N,
    [/\ is_grad (fun x => o_s (o x) s) y (\row_i o_s1 (o y) s i),
        forall i, is_grad (fun x => o_s1 (o x) s i) y (\row_j o_s2 (o y) s i j),
        forall i j, o_s2 (o y) s i j = o_s2 (o y) s j i &
        forall i j, exists t, is_grad (fun x => o_s2 (o x) s i j) y t]).
Hypothesis Hh : forall y, o_h (o y) = HMat M.
Hypothesis Hk : forall y, o_degree (o y) = k.

Notation c1 y i := (fun s => o_s1 (o y) s i).
Notation c2 y i j := (fun s => o_s2 (o y) s i j).
Notation cj u := (fun s : 'I_N => (u s)^*).

Lemma psiE y : ob_psi (o y) = contr M (o_s (o y)) (cj (o_s (o y))).
Proof. by rewrite /ob_psi Hh. Qed.
Lemma psi_hE y i : ob_psi_h (o y) i = contr M (c1 y i) (cj (o_s (o y))).
Proof. by rewrite /ob_psi_h Hh. Qed.
Lemma psi_aE y i : ob_psi_a (o y) i = contr M (o_s (o y)) (cj (c1 y i)).
Proof. by rewrite /ob_psi_a /psi_a psi_hE (contr_conj _ _ HM). Qed.
Lemma psi_haE y i j : ob_psi_ha (o y) i j = contr M (c1 y i) (cj (c1 y j)).
Proof. by rewrite /ob_psi_ha Hh. Qed.
Definition hh y i j := contr M (c2 y i j) (cj (o_s (o y))).
Lemma psi_hhE y : exists2 f, ob_psi_hh (o y) = Ok f & forall i j, f i j = hh y i j.
Proof. by rewrite /ob_psi_hh Hh /=; eexists. Qed.
Lemma psi_hhaE y i j l : ob_psi_hha (o y) i j l = contr M (c2 y i j) (cj (c1 y l)).
Proof. by rewrite /ob_psi_hha Hh. Qed.
Lemma psi_hhaaE y i j l q : ob_psi_hhaa (o y) i j l q = contr M (c2 y i j) (cj (c2 y l q)).
Proof. by rewrite /ob_psi_hhaa Hh. Qed.

Lemma psi_real y : (ob_psi (o y))^* = ob_psi (o y).
Proof. by rewrite psiE (contr_conj _ _ HM). Qed.
Lemma psi_h_conj y i : (ob_psi_h (o y) i)^* = ob_psi_a (o y) i.
Proof. by rewrite psi_hE psi_aE (contr_conj _ _ HM). Qed.
Lemma psi_ha_conj y i j : (ob_psi_ha (o y) i j)^* = ob_psi_ha (o y) j i.
Proof. by rewrite !psi_haE (contr_conj _ _ HM). Qed.

Section At.
Variable y : 'rV[C]_n.
Hypothesis Hy : at_point y.

Lemma d_s s : is_wgrad (fun x => o_s (o x) s) y (o_s1 (o y) s) (fun _ => 0).
Proof. by have [/wgrad_hol H _ _ _] := Hy s; apply: wgrad_eq H => a //; rewrite mxE. Qed.
Lemma d_s1 i s : is_wgrad (fun x => o_s1 (o x) s i) y (o_s2 (o y) s i) (fun _ => 0).
Proof. by have [_ /(_ i)/wgrad_hol H _ _] := Hy s; apply: wgrad_eq H => a //; rewrite mxE. Qed.
Lemma d_s2 i j : exists t : 'I_N -> 'I_n -> C, forall s,
  is_wgrad (fun x => o_s2 (o x) s i j) y (t s) (fun _ => 0).
Proof.
have H s : exists t : 'rV[C]_n, is_grad (fun x => o_s2 (o x) s i j) y t.
  by have [_ _ _ /(_ i j)] := Hy s.
have [t Ht] := fin_all_exists H.
by exists (fun s a => t s 0 a) => s; apply/wgrad_hol.
Qed.
Lemma sym2 i j : c2 y i j =1 c2 y j i.
Proof. by move=> s; have [_ _ H _] := Hy s. Qed.

Lemma hha_sym i j l : ob_psi_hha (o y) i j l = ob_psi_hha (o y) j i l.
Proof. by rewrite !psi_hhaE; apply: contr_eq => // s; apply: sym2. Qed.
Lemma hh_sym i j : hh y i j = hh y j i.
Proof. by apply: contr_eq => // s; apply: sym2. Qed.

Lemma d_psi : is_wgrad (fun x => ob_psi (o x)) y (ob_psi_h (o y)) (ob_psi_a (o y)).
Proof.
apply: wgrad_ext (wgrad_eq _ _ (wgrad_contr M d_s d_s)) => [x|a|a]; by rewrite ?psiE ?psi_hE ?psi_aE.
Qed.
Lemma d_psi_h i : is_wgrad (fun x => ob_psi_h (o x) i) y (hh y i) (ob_psi_ha (o y) i).
Proof.
apply: wgrad_ext (wgrad_eq _ _ (wgrad_contr M (d_s1 i) d_s)) => [x|a|a] //; by rewrite ?psi_hE ?psi_haE.
Qed.
Lemma d_psi_a j : is_wgrad (fun x => ob_psi_a (o x) j) y
  (fun a => ob_psi_ha (o y) a j) (fun a => (hh y j a)^*).
Proof.
by apply: wgrad_eq (wgrad_conj (d_psi_h j)) => a //; rewrite psi_ha_conj.
Qed.
Lemma d_psi_ha i j : is_wgrad (fun x => ob_psi_ha (o x) i j) y
  (fun a => ob_psi_hha (o y) a i j) (fun a => (ob_psi_hha (o y) j a i)^*).
Proof.
apply: wgrad_ext (wgrad_eq _ _ (wgrad_contr M (d_s1 i) (d_s1 j))) => [x|a|a].
- by rewrite psi_haE.
- by rewrite hha_sym psi_hhaE.
- by rewrite psi_hhaE (contr_conj _ _ HM).
Qed.
Lemma d_hh i j : exists t, is_wgrad (fun x => hh x i j) y t (fun a => ob_psi_hha (o y) i j a).
Proof.
have [t Ht] := d_s2 i j; eexists.
by apply: wgrad_eq (wgrad_contr M Ht d_s) => [//|a]; rewrite psi_hhaE.
Qed.
Lemma d_psi_hha i j l : exists t, is_wgrad (fun x => ob_psi_hha (o x) i j l) y t
  (fun a => ob_psi_hhaa (o y) i j l a).
Proof.
have [t Ht] := d_s2 i j; eexists.
apply: wgrad_ext (wgrad_eq _ _ (wgrad_contr M Ht (d_s1 l))) => [x|//|a].
  by rewrite psi_hhaE.
by rewrite psi_hhaaE.
Qed.
Lemma hhaa_sym i j l q : ob_psi_hhaa (o y) i j l q = ob_psi_hhaa (o y) i j q l.
Proof. by rewrite !psi_hhaaE; apply: contr_eq => // s; rewrite sym2. Qed.
End At.

(** *** the potential *)
Hypothesis Hc : exists2 r : C, 0 < r & forall y, norm1 (y - z) < r -> at_point y.
Hypothesis psi0 : ob_psi (o z) != 0.

Lemma at_z : at_point z.
Proof. by have [r r0 H] := Hc; apply: H; rewrite subrr norm10. Qed.

Lemma near_psi : exists2 r : C, 0 < r & forall y, norm1 (y - z) < r -> at_point y /\ ob_psi (o y) != 0.
Proof.
have [r r0 H] := Hc.
have /wgrad_diff Hd := d_psi at_z.
have [d d0 Hn] := diff_nonzero Hd psi0.
have [e [e0 e1 e2]] := pos_min r0 d0; exists e => // y Hy.
by split; [apply: H; apply: (lt_le_trans Hy) | case: (Hn y (lt_le_trans Hy e2))].
Qed.

Lemma near_log : log_near log (ob_psi (o z)) ->
  exists2 r : C, 0 < r & forall y, norm1 (y - z) < r ->
  [/\ at_point y, ob_psi (o y) != 0 & is_deriv log (ob_psi (o y)) (ob_psi (o y))^-1].
Proof.
move=> [r r0 H]; have [s s0 Hs] := near_psi.
have /wgrad_diff Hd := d_psi at_z.
have [d d0 Hn] := diff_close Hd r0.
have [e [e0 e1 e2]] := pos_min s0 d0; exists e => // y Hy.
have [? ?] := Hs y (lt_le_trans Hy e1); split=> //.
by apply: H; apply: Hn; apply: (lt_le_trans Hy).
Qed.

Lemma d_kahler y : at_point y -> is_deriv log (ob_psi (o y)) (ob_psi (o y))^-1 ->
  is_wgrad (fun x => ob_kahler log pi (o x)) y
    (fun i => ob_psi_h (o y) i / ob_psi (o y) / (pi * k%:R))
    (fun i => ob_psi_a (o y) i / ob_psi (o y) / (pi * k%:R)).
Proof.
move=> Hy Hl; have H := wgrad_scale (pi * k%:R)^-1 (wgrad_comp1 Hl (d_psi Hy)).
apply: wgrad_ext (wgrad_eq _ _ H) => [x|a|a]; first by rewrite /ob_kahler /kahler Hk mulrC.
  by rewrite mulrC [_ * ob_psi_h _ _]mulrC.
by rewrite mulrC [_ * ob_psi_a _ _]mulrC.
Qed.

Lemma hessian_lemma : log_near log (ob_psi (o z)) ->
  is_mixed (fun y => ob_kahler log pi (o y)) z (ob_g_proj pi (o z)).
Proof.
move=> /near_log[r r0 Hr].
exists (fun y i => ob_psi_h (o y) i / ob_psi (o y) / (pi * k%:R)),
       (fun y i => ob_psi_a (o y) i / ob_psi (o y) / (pi * k%:R)), r.
split=> //; split=> [y Hy|i]; first by have [? ? ?] := Hr y Hy; apply: d_kahler.
have H := wgrad_mul (wgrad_div psi0 (d_psi_h at_z i) (d_psi at_z)) (wgrad_const (pi * k%:R)^-1 z).
eexists; apply: wgrad_eq H => [//|a].
by rewrite /ob_g_proj /g_proj Hk mulr0 add0r [pi * _]mulrC; exact: mulrC.
Qed.

Lemma g_herm i j : 0 < pi -> (ob_g_proj pi (o z) i j)^* = ob_g_proj pi (o z) j i.
Proof.
move=> p0; have pc : pi^* = pi by apply/CrealP/ger0_real/ltW.
rewrite /ob_g_proj /g_proj.
rewrite !cjE pc !psi_h_conj psi_real psi_ha_conj.
by rewrite [ob_psi_a _ _ * _]mulrC.
Qed.

Lemma alg_h (F : fieldType) (p d X Y A B p1 X1 Y1 A1 : F) : p != 0 ->
  (X1 / p - X * p1 / p ^+ 2 - ((A * Y1 + Y * A1) / p ^+ 2 - A * Y * (p ^+ 1 *+ 2 * p1) / p ^+ 2 ^+ 2)) * d =
  (X1 / p - (p1 * X + A * Y1 + Y * A1) / p ^+ 2 + p1 * A * Y * 2%:R / p ^+ 3) * d.
Proof. by move=> p0; congr (_ * d); field. Qed.

Lemma wgrad_exp (f : 'rV[C]_n -> C) y g c e : is_wgrad f y g c ->
  is_wgrad (fun x => f x ^+ e) y (fun a => f y ^+ e.-1 *+ e * g a) (fun a => f y ^+ e.-1 *+ e * c a).
Proof.
move=> H; elim: e => [|e IH].
  by apply: wgrad_ext (wgrad_eq _ _ (wgrad_const 1 y)) => a; rewrite ?mulr0n ?mul0r.
have E (t : C) : f y * (f y ^+ e.-1 *+ e * t) + f y ^+ e * t = f y ^+ e.+1.-1 *+ e.+1 * t.
  rewrite [_ *+ e.+1]mulrSr mulrDl /=; congr (_ + _); rewrite mulrA; congr (_ * _).
  by case: e {IH} => [|e] /=; [rewrite mulr0n mulr0 | rewrite mulrnAr -exprS].
by apply: wgrad_ext (wgrad_eq _ _ (wgrad_mul H IH)) => a; rewrite ?exprS //; apply: E.
Qed.

(** the value of g_proj_h *)
Definition gh y a i j : C :=
  (ob_psi_hha (o y) a i j / ob_psi (o y)
   - (ob_psi_h (o y) a * ob_psi_ha (o y) i j + ob_psi_h (o y) i * ob_psi_ha (o y) a j
      + ob_psi_a (o y) j * hh y a i) / ob_psi (o y) ^+ 2
   + ob_psi_h (o y) a * ob_psi_h (o y) i * ob_psi_a (o y) j * 2%:R / ob_psi (o y) ^+ 3)
  / (k%:R * pi).

Lemma g_proj_hE y : exists2 f, ob_g_proj_h pi (o y) = Ok f & forall a i j, f a i j = gh y a i j.
Proof.
have [f Ef Hf] := psi_hhE y; rewrite /ob_g_proj_h /ob_two_hha Ef /=; eexists; first by [].
by move=> a i j; rewrite /g_proj_h /two_hha Hf Hk.
Qed.

Lemma d_g_proj y i j : at_point y -> ob_psi (o y) != 0 -> 0 < pi ->
  is_wgrad (fun x => ob_g_proj pi (o x) i j) y (fun a => gh y a i j) (fun a => (gh y a j i)^*).
Proof.
move=> Hy p0 pi0; have pc : pi^* = pi by apply/CrealP/ger0_real/ltW.
have p2 : ob_psi (o y) ^+ 2 != 0 by rewrite expf_neq0.
have H := wgrad_mul (wgrad_sub (wgrad_div p0 (d_psi_ha Hy i j) (d_psi Hy))
            (wgrad_div p2 (wgrad_mul (d_psi_h Hy i) (d_psi_a Hy j)) (wgrad_exp 2 (d_psi Hy))))
          (wgrad_const (k%:R * pi)^-1 y).
apply: wgrad_ext (wgrad_eq _ _ H) => [x|a|a].
- by rewrite /ob_g_proj /g_proj Hk.
- rewrite mulr0 add0r mulrC alg_h // /gh; congr (_ * _); congr (_ - _ / _ + _).
  by rewrite (hh_sym Hy); ring.
- rewrite mulr0 add0r mulrC alg_h // /gh !cjE pc psi_real !psi_h_conj !psi_ha_conj.
  rewrite (hha_sym Hy j a) (hh_sym Hy a j); congr (_ * _); congr (_ - _ / _ + _ * _ / _).
    ring.
  ring.
Qed.

(** the value of g_proj_ha *)
Definition gha y a b i j : C :=
  (ob_psi_hhaa (o y) a i b j / ob_psi (o y)
   - (ob_psi_hha (o y) a i j * ob_psi_a (o y) b + ob_psi_hha (o y) a i b * ob_psi_a (o y) j
      + (ob_psi_hha (o y) j b i)^* * ob_psi_h (o y) a + (ob_psi_hha (o y) j b a)^* * ob_psi_h (o y) i
      + ob_psi_ha (o y) a b * ob_psi_ha (o y) i j + ob_psi_ha (o y) i b * ob_psi_ha (o y) a j
      + (hh y b j)^* * hh y a i) / ob_psi (o y) ^+ 2
   + ((ob_psi_h (o y) a * ob_psi_ha (o y) i j + ob_psi_h (o y) i * ob_psi_ha (o y) a j
       + ob_psi_a (o y) j * hh y a i) * ob_psi_a (o y) b
      + (ob_psi_h (o y) i * ob_psi_ha (o y) a b + ob_psi_h (o y) a * ob_psi_ha (o y) i b) * ob_psi_a (o y) j
      + ob_psi_h (o y) a * ob_psi_h (o y) i * (hh y b j)^*) * 2%:R / ob_psi (o y) ^+ 3
   - ob_psi_h (o y) a * ob_psi_h (o y) i * ob_psi_a (o y) j * ob_psi_a (o y) b * 6%:R / ob_psi (o y) ^+ 4)
  / (k%:R * pi).

Lemma g_proj_haE y : exists2 f, ob_g_proj_ha pi (o y) = Ok f & forall a b i j, f a b i j = gha y a b i j.
Proof.
have [f Ef Hf] := psi_hhE y.
rewrite /ob_g_proj_ha /ob_two_haha /ob_three_haha /ob_two_hha Ef /=; eexists; first by [].
move=> a b i j; rewrite /g_proj_ha /two_haha /three_haha /two_hha /psi_aa /psi_hha_psi_a !Hf Hk /gha.
have E (x : C) l : (x * ob_psi_a (o y) l)^* = x^* * ob_psi_h (o y) l.
  by rewrite cjM -psi_h_conj cjK.
by rewrite !E.
Qed.

Lemma d_gh y a i j : at_point y -> ob_psi (o y) != 0 ->
  exists t, is_wgrad (fun x => gh x a i j) y t (fun b => gha y a b i j).
Proof.
move=> Hy p0.
have p2 : ob_psi (o y) ^+ 2 != 0 by rewrite expf_neq0.
have p3 : ob_psi (o y) ^+ 3 != 0 by rewrite expf_neq0.
have [t1 H1] := d_psi_hha Hy a i j.
have [t2 H2] := d_hh Hy a i.
have HT := wgrad_add (wgrad_add (wgrad_mul (d_psi_h Hy a) (d_psi_ha Hy i j))
             (wgrad_mul (d_psi_h Hy i) (d_psi_ha Hy a j))) (wgrad_mul (d_psi_a Hy j) H2).
have HE := wgrad_mul (wgrad_mul (wgrad_mul (d_psi_h Hy a) (d_psi_h Hy i)) (d_psi_a Hy j))
             (wgrad_const 2%:R y).
have H := wgrad_mul (wgrad_add (wgrad_sub (wgrad_div p0 H1 (d_psi Hy))
             (wgrad_div p2 HT (wgrad_exp 2 (d_psi Hy)))) (wgrad_div p3 HE (wgrad_exp 3 (d_psi Hy))))
          (wgrad_const (k%:R * pi)^-1 y).
eexists; apply: wgrad_eq H => [//|b].
rewrite /gha mulr0 add0r (hhaa_sym Hy a i b j) [hh y b j](hh_sym Hy) mulrC; congr (_ / _).
move: p0; clear; move: (ob_psi (o y)) (ob_psi_hhaa (o y) a i j b) (ob_psi_hha (o y) a i j) (ob_psi_a (o y) b).
move: (ob_psi_h (o y) a) (ob_psi_h (o y) i) (ob_psi_a (o y) j) (ob_psi_ha (o y) i j) (ob_psi_ha (o y) a j).
move: (ob_psi_ha (o y) a b) (ob_psi_ha (o y) i b) (hh y a i) (ob_psi_hha (o y) a i b).
move: (hh y j b)^* (ob_psi_hha (o y) j b i)^* (ob_psi_hha (o y) j b a)^*.
by move=> x1 x2 x3 x4 x5 x6 x7 x8 x9 x10 x11 x12 p x13 x14 x15 p0; field.
Qed.

Lemma ambient_lemma : 0 < pi ->
  exists gh ga gha, [/\ ob_g_proj_h pi (o z) = Ok gh, ob_g_proj_a pi (o z) = Ok ga,
    ob_g_proj_ha pi (o z) = Ok gha,
    forall i j, is_wgrad (fun y => ob_g_proj pi (o y) i j) z (fun a => gh a i j) (fun a => ga a i j) &
    forall i j, is_mixed (fun y => ob_g_proj pi (o y) i j) z (fun a b => gha a b i j)].
Proof.
move=> pi0; have [f Ef Hf] := g_proj_hE z; have [f2 Ef2 Hf2] := g_proj_haE z.
exists f, (g_proj_a f), f2; split=> //; first by rewrite /ob_g_proj_a Ef.
  move=> i j; apply: wgrad_eq (d_g_proj i j at_z psi0 pi0) => a; first by rewrite Hf.
  by rewrite /g_proj_a Hf.
move=> i j; have [r r0 Hr] := near_psi.
exists (fun y a => gh y a i j), (fun y a => (gh y a j i)^*), r; split=> //; split=> [y Hy|a].
  by have [? ?] := Hr y Hy; apply: d_g_proj.
have [t Ht] := d_gh a i j at_z psi0; exists t; apply: wgrad_eq Ht => // b.
Qed.
End Ambient.
