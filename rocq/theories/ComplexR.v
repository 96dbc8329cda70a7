(** The complex numbers over the reals of the standard library, with
    exponential and logarithm.  An instance of the arbitrary field [C] of the
    other files, in which the hypotheses on exp, log and pi hold. *)
From Coq Require Import Reals Lra Psatz.
From mathcomp Require Import all_ssreflect all_algebra.
From mathcomp Require Import complex.
From Verif Require Import RealField RealLog Deriv.

Set Implicit Arguments.
Unset Strict Implicit.
Unset Printing Implicit Defensive.

Import GRing.Theory Num.Theory Order.POrderTheory.
Local Open Scope ring_scope.

Definition CR : numClosedFieldType := [numClosedFieldType of R[i]%C].

Notation re := (@complex.Re R).
Notation im := (@complex.Im R).

Definition rc (x : R) : CR := Complex x R0.

Lemma CR_eq (x y : CR) : re x = re y -> im x = im y -> x = y.
Proof. by case: x y => [a b] [c d] /= -> ->. Qed.

Lemma ReD (x y : CR) : re (x + y) = Rplus (re x) (re y). Proof. by case: x y => ? ? [? ?]. Qed.
Lemma ImD (x y : CR) : im (x + y) = Rplus (im x) (im y). Proof. by case: x y => ? ? [? ?]. Qed.
Lemma ReN (x : CR) : re (- x) = Ropp (re x). Proof. by case: x. Qed.
Lemma ImN (x : CR) : im (- x) = Ropp (im x). Proof. by case: x. Qed.
Lemma ReM (x y : CR) : re (x * y) = Rminus (Rmult (re x) (re y)) (Rmult (im x) (im y)).
Proof. by case: x y => ? ? [? ?]. Qed.
Lemma ImM (x y : CR) : im (x * y) = Rplus (Rmult (re x) (im y)) (Rmult (im x) (re y)).
Proof. by case: x y => ? ? [? ?]. Qed.
Lemma Re1 : re (1 : CR) = R1. Proof. by []. Qed.
Lemma Im1 : im (1 : CR) = R0. Proof. by []. Qed.
Lemma Re0 : re (0 : CR) = R0. Proof. by []. Qed.
Lemma Im0 : im (0 : CR) = R0. Proof. by []. Qed.
Definition ReImE := (ReD, ImD, ReN, ImN, ReM, ImM, Re1, Im1, Re0, Im0).

(** the modulus as a real number *)
Definition modulus (z : CR) : R := sqrt (Rplus (Rmult (re z) (re z)) (Rmult (im z) (im z))).

Lemma sqr_ge0R (x : R) : Rle 0 (Rmult x x). Proof. nra. Qed.

Lemma modulus_ge0 z : Rle 0 (modulus z). Proof. exact: sqrt_pos. Qed.

Lemma modulus_sqr z : Rmult (modulus z) (modulus z) = Rplus (Rmult (re z) (re z)) (Rmult (im z) (im z)).
Proof. by apply: sqrt_sqrt; nra. Qed.

Lemma norm_modulus (z : CR) : `|z| = rc (modulus z).
Proof.
rewrite normc_def /rc; congr (_ +i* _)%C; rewrite /modulus.
apply/eqP; rewrite -(@eqr_expn2 _ 2%N) //; last 2 first.
- by rewrite sqrtr_ge0.
- exact/RleP/sqrt_pos.
rewrite sqr_sqrtr; last by rewrite addr_ge0 // sqr_ge0.
by rewrite -[X in _ == X]/(Rmult (sqrt _) _ ^+ 1) expr1 sqrt_sqrt ?expr2 //; nra.
Qed.

Lemma rc_inj : injective rc. Proof. by move=> x y []. Qed.
Lemma rcD x y : rc (Rplus x y) = rc x + rc y. Proof. by apply: CR_eq; rewrite !ReImE //= Rplus_0_r. Qed.
Lemma rcM x y : rc (Rmult x y) = rc x * rc y.
Proof. by apply: CR_eq; rewrite !ReImE /=; ring. Qed.
Lemma rcN x : rc (Ropp x) = - rc x. Proof. by apply: CR_eq; rewrite !ReImE //= Ropp_0. Qed.
Lemma rc0 : rc R0 = 0. Proof. by []. Qed.
Lemma rc1 : rc R1 = 1. Proof. by []. Qed.
Lemma rc_le x y : (rc x <= rc y) <-> Rle x y.
Proof. by rewrite /rc lecR; split=> /RleP. Qed.
Lemma rc_lt x y : (rc x < rc y) <-> Rlt x y.
Proof. by rewrite /rc ltcR; split=> /RltP. Qed.
Lemma rc_nat n : rc (INR n) = n%:R.
Proof. by elim: n => // n IH; rewrite S_INR rcD IH rc1 -addn1 natrD. Qed.
Lemma pos_rc (e : CR) : 0 < e -> exists2 x, Rlt 0 x & e = rc x.
Proof.
case: e => a b; rewrite ltcE /= => /andP[/eqP b0 /RltP a0]; exists a => //.
by rewrite b0.
Qed.
Lemma rcV x : x <> R0 -> rc (Rinv x) = (rc x)^-1.
Proof.
move=> x0; have xc : rc x != 0 by apply/eqP => /rc_inj.
by apply: (mulfI xc); rewrite divff // -rcM Rinv_r.
Qed.

Lemma normM_modulus (x y : CR) : modulus (x * y) = Rmult (modulus x) (modulus y).
Proof. by apply: rc_inj; rewrite rcM -!norm_modulus normrM. Qed.
Lemma modulus_triangle (x y : CR) : Rle (modulus (x + y)) (Rplus (modulus x) (modulus y)).
Proof. by apply/rc_le; rewrite rcD -!norm_modulus ler_norm_add. Qed.
Lemma modulus_eq0 (z : CR) : modulus z = R0 <-> z = 0.
Proof.
split=> [h|->]; last by rewrite /modulus /= Rmult_0_l Rplus_0_l sqrt_0.
by apply/eqP; rewrite -normr_eq0 norm_modulus h.
Qed.
Lemma modulus_gt0 (z : CR) : z != 0 -> Rlt 0 (modulus z).
Proof.
by move=> /eqP z0; have [//|h] := modulus_ge0 z; case: z0; apply/modulus_eq0.
Qed.
Lemma re_le_modulus (z : CR) : Rle (Rabs (re z)) (modulus z).
Proof.
rewrite -sqrt_Rsqr_abs; apply: sqrt_le_1_alt; rewrite /Rsqr.
by have := sqr_ge0R (im z); lra.
Qed.
Lemma im_le_modulus (z : CR) : Rle (Rabs (im z)) (modulus z).
Proof.
rewrite -sqrt_Rsqr_abs; apply: sqrt_le_1_alt; rewrite /Rsqr.
by have := sqr_ge0R (re z); lra.
Qed.
Lemma modulus_le_sum (z : CR) : Rle (modulus z) (Rplus (Rabs (re z)) (Rabs (im z))).
Proof.
have a := Rabs_pos (re z); have b := Rabs_pos (im z).
rewrite /modulus -(sqrt_Rsqr (Rplus (Rabs (re z)) (Rabs (im z)))); last lra.
apply: sqrt_le_1_alt; rewrite /Rsqr.
have -> : Rmult (re z) (re z) = Rmult (Rabs (re z)) (Rabs (re z)) by rewrite -Rabs_mult Rabs_pos_eq; nra.
have -> : Rmult (im z) (im z) = Rmult (Rabs (im z)) (Rabs (im z)) by rewrite -Rabs_mult Rabs_pos_eq; nra.
nra.
Qed.

(** exponential *)
Definition cexp (z : CR) : CR := Complex (Rmult (exp (re z)) (cos (im z))) (Rmult (exp (re z)) (sin (im z))).

Lemma cexp0 : cexp 0 = 1.
Proof. by apply: CR_eq; rewrite /= -[GRing.zero _]/R0 exp_0 ?cos_0 ?sin_0 -?[GRing.one _]/R1 -?[GRing.zero _]/R0; ring. Qed.

Lemma cexpD (x y : CR) : cexp (x + y) = cexp x * cexp y.
Proof. by apply: CR_eq; rewrite !ReImE /= !ReImE exp_plus ?cos_plus ?sin_plus; ring. Qed.

Lemma modulus_cexp (z : CR) : modulus (cexp z) = exp (re z).
Proof.
rewrite /modulus /=; have e := exp_pos (re z); rewrite -[RHS]sqrt_Rsqr; last lra.
congr sqrt; have := sin2_cos2 (im z); rewrite /Rsqr => h.
by rewrite -[RHS]Rmult_1_r -h; ring.
Qed.

(** logarithm, principal branch *)
Definition arg (z : CR) : R :=
  let t := acos (Rdiv (re z) (modulus z)) in if Rle_dec 0 (im z) then t else Ropp t.
Definition clog (z : CR) : CR := Complex (ln (modulus z)) (arg z).

Lemma ratio_bound (z : CR) : z != 0 -> Rle (-1) (Rdiv (re z) (modulus z)) /\ Rle (Rdiv (re z) (modulus z)) 1.
Proof.
move=> z0; have m0 := modulus_gt0 z0; have h := re_le_modulus z.
have i0 := Rinv_0_lt_compat _ m0.
have e : Rmult (modulus z) (Rinv (modulus z)) = R1 by apply: Rinv_r; lra.
have [h1 h2] : Rle (Ropp (modulus z)) (re z) /\ Rle (re z) (modulus z).
  by move: h; rewrite /Rabs; case: Rcase_abs => ?; lra.
by rewrite /Rdiv; split; nra.
Qed.

Lemma cos_arg (z : CR) : z != 0 -> cos (arg z) = Rdiv (re z) (modulus z).
Proof.
move=> z0; have h := ratio_bound z0; rewrite /arg.
by case: Rle_dec => ? /=; rewrite ?cos_neg cos_acos.
Qed.

Lemma sin_arg (z : CR) : z != 0 -> sin (arg z) = Rdiv (im z) (modulus z).
Proof.
move=> z0; have h := ratio_bound z0; have m0 := modulus_gt0 z0.
have E : sin (acos (Rdiv (re z) (modulus z))) = Rdiv (Rabs (im z)) (modulus z).
  rewrite sin_acos //.
  have i0 := Rinv_0_lt_compat _ m0.
  rewrite -(sqrt_Rsqr (Rdiv (Rabs (im z)) (modulus z))); last first.
    by rewrite /Rdiv; have := Rabs_pos (im z); nra.
  congr sqrt; rewrite /Rsqr /Rdiv.
  have -> : Rmult (Rmult (Rabs (im z)) (Rinv (modulus z))) (Rmult (Rabs (im z)) (Rinv (modulus z))) =
    Rmult (Rmult (im z) (im z)) (Rmult (Rinv (modulus z)) (Rinv (modulus z))).
    rewrite -(Rabs_pos_eq (Rmult (im z) (im z))) ?Rabs_mult; [by ring|nra].
  have := modulus_sqr z => ms.
  have -> : Rmult (im z) (im z) = Rminus (Rmult (modulus z) (modulus z)) (Rmult (re z) (re z)) by lra.
  by field; lra.
rewrite /arg; case: Rle_dec => hi /=; rewrite ?sin_neg E.
  by rewrite Rabs_pos_eq.
by rewrite Rabs_left; [field; lra|lra].
Qed.

Lemma cexp_clog (z : CR) : z != 0 -> cexp (clog z) = z.
Proof.
move=> z0; have m0 := modulus_gt0 z0.
by apply: CR_eq; rewrite /= exp_ln // ?cos_arg ?sin_arg //; field; lra.
Qed.

Lemma arg_atan (z : CR) : Rlt 0 (re z) -> arg z = atan (Rdiv (im z) (re z)).
Proof.
move=> x0; have z0 : z != 0 by apply/eqP => h; move: x0; rewrite h; exact: Rlt_irrefl.
have m0 := modulus_gt0 z0; have s := sin_arg z0; have [h1 h2] := ratio_bound z0.
have i0 := Rinv_0_lt_compat _ m0.
have c0 : Rlt 0 (Rdiv (re z) (modulus z)) by rewrite /Rdiv; nra.
have E : Rdiv (sqrt (Rminus 1 (Rsqr (Rdiv (re z) (modulus z))))) (Rdiv (re z) (modulus z)) =
   Rdiv (Rabs (im z)) (re z).
  rewrite -sin_acos //.
  have -> : sin (acos (Rdiv (re z) (modulus z))) = Rdiv (Rabs (im z)) (modulus z).
    move: s; rewrite /arg; case: Rle_dec => hi /=; rewrite ?sin_neg.
      by rewrite Rabs_pos_eq.
    by rewrite Rabs_left => [h|]; [rewrite -[LHS]Ropp_involutive h; field; lra|lra].
  by field; lra.
rewrite /arg /= acos_atan // E; case: Rle_dec => hi /=.
  by rewrite Rabs_pos_eq.
rewrite Rabs_left; last lra.
by rewrite /Rdiv Ropp_mult_distr_l_reverse atan_opp Ropp_involutive.
Qed.

Lemma abs_cases (x : R) : Rle (Ropp (Rabs x)) x /\ Rle x (Rabs x).
Proof. by rewrite /Rabs; case: Rcase_abs => ?; lra. Qed.

Lemma clog1_est (w : CR) : Rle (modulus w) (Rinv 8) ->
  Rle (modulus (clog (1 + w) - w)) (Rmult 14 (Rmult (modulus w) (modulus w))).
Proof.
move=> small; have m0 := modulus_ge0 w; have ms := modulus_sqr w.
have hp := re_le_modulus w; have hq := im_le_modulus w.
have [p1 p2] := abs_cases (re w); have [q1 q2] := abs_cases (im w).
move: small; set M := modulus w in m0 ms hp hq * => small.
set p := re w in ms hp p1 p2 *; set q := im w in ms hq q1 q2 *.
have pos : Rlt 0 (re (1 + w)) by rewrite !ReImE -/p; lra.
have nz : 1 + w != 0 by apply/eqP => h; move: pos; rewrite h; exact: Rlt_irrefl.
have d0 := modulus_gt0 nz.
apply: Rle_trans (modulus_le_sum _) _; rewrite !ReImE /= -/p -/q.
(* real part *)
pose s := Rplus (Rmult 2 p) (Rplus (Rmult p p) (Rmult q q)).
have Es : Rmult (modulus (1 + w)) (modulus (1 + w)) = Rplus 1 s.
  by rewrite modulus_sqr !ReImE -/p -/q /s; ring.
have El : Rmult 2 (ln (modulus (1 + w))) = ln (Rplus 1 s) by rewrite -Es ln_mult //; ring.
have s1 : Rle (Rabs s) (Rmult 3 M) by rewrite /s /Rabs; case: Rcase_abs => ?; nra.
have ls : Rle (Rabs (Rminus (ln (Rplus 1 s)) s)) (Rmult 2 (Rmult s s)) by apply: ln_est; lra.
have ss : Rle (Rmult s s) (Rmult 9 (Rmult M M)).
  have [a b] := abs_cases s; nra.
have A : Rle (Rabs (Rplus (ln (modulus (1 + w))) (Ropp p))) (Rmult 10 (Rmult M M)).
  have -> : ln (modulus (1 + w)) = Rdiv (ln (Rplus 1 s)) 2 by lra.
  have [a b] := abs_cases (Rminus (ln (Rplus 1 s)) s).
  have e : s = Rplus (Rmult 2 p) (Rmult M M) by rewrite /s ms; ring.
  by rewrite /Rabs; case: Rcase_abs => ?; nra.
(* imaginary part *)
have B : Rle (Rabs (Rplus (arg (1 + w)) (Ropp q))) (Rmult 4 (Rmult M M)).
  rewrite arg_atan // !ReImE -/p -/q Rplus_0_l.
  set u := Rdiv q (Rplus R1 p); have ea := atan_est u.
  have eu : Rmult u (Rplus R1 p) = q by rewrite /u; field; lra.
  have [a b] := abs_cases (Rminus (atan u) u).
  have u1 : Rle (Rabs u) (Rmult 2 M).
    have p3 : Rle (Rdiv 7 8) (Rplus R1 p) by lra.
    have f : Rle (Rmult (Rabs u) (Rplus R1 p)) M.
      by rewrite -(Rabs_pos_eq (Rplus R1 p)); [rewrite -Rabs_mult eu | lra].
    have := Rabs_pos u; nra.
  have uu : Rle (Rmult u u) (Rmult 4 (Rmult M M)) by have [c d] := abs_cases u; nra.
  have u3 : Rle (Rmult (Rabs u) (Rmult u u)) (Rmult M M).
    have := Rabs_pos u; have : Rle 0 (Rmult u u) by nra.
    nra.
  have df : Rle (Rabs (Rminus u q)) (Rmult 2 (Rmult M M)).
    have -> : Rminus u q = Ropp (Rmult u p) by rewrite -eu; ring.
    rewrite Rabs_Ropp Rabs_mult; have := Rabs_pos u; have := Rabs_pos p; nra.
  have [c d] := abs_cases (Rminus u q).
  by rewrite /Rabs; case: Rcase_abs => ?; nra.
lra.
Qed.

Lemma clog_mul (z w : CR) : Rlt 0 (re z) -> Rle (modulus w) (Rinv 8) ->
  Rlt (Rmult (modulus z) (modulus w)) (Rdiv (re z) 2) ->
  Rlt (Rmult 4 (Rmult (Rmult (modulus z) (modulus z)) (modulus w))) (Rmult (re z) (re z)) ->
  clog (z * (1 + w)) = clog z + clog (1 + w).
Proof.
move=> x0 small c1 c2.
have hp := re_le_modulus w; have hq := im_le_modulus w.
have [p1 p2] := abs_cases (re w); have [q1 q2] := abs_cases (im w).
have m0 := modulus_ge0 w; have z0 := modulus_ge0 z.
have hx := re_le_modulus z; have hy := im_le_modulus z; have zs := modulus_sqr z.
have [y1 y2] := abs_cases (im z).
have nz : z != 0 by apply/eqP => h; move: x0; rewrite h; exact: Rlt_irrefl.
have pos : Rlt 0 (re (1 + w)) by rewrite !ReImE; lra.
have nw : 1 + w != 0 by apply/eqP => h; move: pos; rewrite h; exact: Rlt_irrefl.
have bound : Rle (Rmult (modulus z) (modulus w)) (Rdiv (re z) 2) by lra.
have xw : Rle (Rabs (Rminus (Rmult (re z) (re w)) (Rmult (im z) (im w)))) (Rmult (modulus z) (modulus w)).
  by have := re_le_modulus (z * w); rewrite normM_modulus !ReImE.
have [a b] := abs_cases (Rminus (Rmult (re z) (re w)) (Rmult (im z) (im w))).
set D := Rminus (Rmult (re z) (re w)) (Rmult (im z) (im w)) in xw a b.
have Dp : Rlt 0 (Rminus (Rmult (re z) (Rplus R1 (re w))) (Rmult (im z) (im w))).
  have -> : Rminus (Rmult (re z) (Rplus R1 (re w))) (Rmult (im z) (im w)) = Rplus (re z) D by rewrite /D; ring.
  lra.
have rez : re (z * (1 + w)) = Rminus (Rmult (re z) (Rplus R1 (re w))) (Rmult (im z) (im w)).
  by rewrite !ReImE; ring.
have imz : im (z * (1 + w)) = Rplus (Rmult (im z) (Rplus R1 (re w))) (Rmult (re z) (im w)).
  by rewrite !ReImE; ring.
apply: CR_eq; rewrite !ReImE /=.
  by rewrite normM_modulus ln_mult //; apply: modulus_gt0.
rewrite !arg_atan // ?rez ?imz // !ReImE Rplus_0_l.
apply: atan_mul => //; first lra.
set E := Rminus _ _ in Dp *.
have EE : E = Rplus (re z) D by rewrite /E /D; ring.
have -> : Rminus (Rdiv (Rplus (Rmult (im z) (Rplus R1 (re w))) (Rmult (re z) (im w))) E) (Rdiv (im z) (re z)) =
  Rdiv (Rmult (im w) (Rmult (modulus z) (modulus z))) (Rmult (re z) E).
  by rewrite zs; rewrite /E; field; split=> //; [rewrite -/E; lra|lra].
have E2 : Rle (Rdiv (re z) 2) E by lra.
have xe : Rle (Rdiv (Rmult (re z) (re z)) 2) (Rmult (re z) E) by nra.
have xp : Rlt 0 (Rmult (re z) E) by nra.
rewrite /Rdiv Rabs_mult (Rabs_pos_eq (Rinv _)); last by apply: Rlt_le; apply: Rinv_0_lt_compat.
rewrite Rabs_mult (Rabs_pos_eq (Rmult (modulus z) _)); last nra.
apply: (Rmult_lt_reg_r (Rmult (re z) E)) => //.
rewrite Rmult_assoc Rinv_l; last lra.
have : Rle (Rmult (Rabs (im w)) (Rmult (modulus z) (modulus z))) (Rmult (modulus w) (Rmult (modulus z) (modulus z))).
  by apply: Rmult_le_compat_r => //; nra.
lra.
Qed.

Lemma clog_deriv (z : CR) : Rlt 0 (re z) -> is_deriv clog z z^-1.
Proof.
move=> x0; have nz : z != 0 by apply/eqP => h; move: x0; rewrite h; exact: Rlt_irrefl.
move=> e /pos_rc[e' e0 ->].
have m0 := modulus_gt0 nz; set m := modulus z in m0.
pose r := Rmin (Rmin (Rdiv m 8) (Rdiv (re z) 2)) (Rmin (Rdiv (Rmult (re z) (re z)) (Rmult 4 m)) (Rdiv (Rmult e' (Rmult m m)) 14)).
have r0 : Rlt 0 r.
  have mm : Rlt 0 (Rmult m m) by nra.
  have em := Rmult_lt_0_compat _ _ e0 mm; have xx : Rlt 0 (Rmult (re z) (re z)) by nra.
  rewrite /r; apply: Rmin_glb_lt; apply: Rmin_glb_lt; apply: Rdiv_lt_0_compat; lra.
exists (rc r); first by rewrite -rc0; apply/rc_lt.
move=> t; rewrite !norm_modulus => /rc_lt tr; rewrite -rcM; apply/rc_le.
have [r1 r2 [r3 r4]] : [/\ Rlt (modulus t) (Rdiv m 8), Rlt (modulus t) (Rdiv (re z) 2) &
   Rlt (modulus t) (Rdiv (Rmult (re z) (re z)) (Rmult 4 m)) /\ Rlt (modulus t) (Rdiv (Rmult e' (Rmult m m)) 14)].
  have a := Rmin_l (Rmin (Rdiv m 8) (Rdiv (re z) 2)) (Rmin (Rdiv (Rmult (re z) (re z)) (Rmult 4 m)) (Rdiv (Rmult e' (Rmult m m)) 14)).
  have b := Rmin_r (Rmin (Rdiv m 8) (Rdiv (re z) 2)) (Rmin (Rdiv (Rmult (re z) (re z)) (Rmult 4 m)) (Rdiv (Rmult e' (Rmult m m)) 14)).
  have c := Rmin_l (Rdiv m 8) (Rdiv (re z) 2); have d := Rmin_r (Rdiv m 8) (Rdiv (re z) 2).
  have f := Rmin_l (Rdiv (Rmult (re z) (re z)) (Rmult 4 m)) (Rdiv (Rmult e' (Rmult m m)) 14).
  have g := Rmin_r (Rdiv (Rmult (re z) (re z)) (Rmult 4 m)) (Rdiv (Rmult e' (Rmult m m)) 14).
  by rewrite -/r in a b; split; [lra|lra|split; lra].
pose w := t / z; have tz : t = z * w by rewrite /w mulrC divfK.
have mt : modulus t = Rmult m (modulus w) by rewrite tz normM_modulus.
have w0 := modulus_ge0 w.
have -> : z + t = z * (1 + w) by rewrite mulrDr mulr1 -tz.
have small : Rle (modulus w) (Rinv 8) by rewrite mt in r1; nra.
rewrite clog_mul //; first last.
- move: r3; rewrite mt -/m => r3.
  apply: (Rmult_lt_reg_r (Rinv (Rmult 4 m))); first by apply: Rinv_0_lt_compat; lra.
  apply: Rle_lt_trans r3; right; field; lra.
- by rewrite -/m -mt.
rewrite [clog z + _]addrC addrK [z^-1 * t]mulrC -/w.
apply: Rle_trans (clog1_est small) _; rewrite mt.
have r4' : Rlt (Rmult m (modulus w)) (Rdiv (Rmult e' (Rmult m m)) 14) by rewrite -mt.
have : Rle (Rmult 14 (modulus w)) (Rmult e' m).
  apply: (Rmult_le_reg_l m) => //; lra.
nra.
Qed.
