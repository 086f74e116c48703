(** Derivative at 0 of a curve in an ordered field, by the usual epsilon-delta definition,
    and the calculus rules needed for the measurement Jacobians.  No axioms: everything is
    over an arbitrary ordered field (real closed where a square root is taken). *)
From mathcomp Require Import all_ssreflect all_algebra.
From Verif Require Import Tac.
Set Implicit Arguments.
Unset Strict Implicit.
Unset Printing Implicit Defensive.
Import Order.Theory GRing.Theory Num.Theory.
Local Open Scope ring_scope.

Section Scalar.
Variable R : realFieldType.

(** [f] has derivative [l] at 0 *)
Definition is_deriv (f : R -> R) (l : R) : Prop :=
  forall eps, 0 < eps -> exists2 del, 0 < del &
    forall t, `|t| < del -> `|f t - f 0 - t * l| <= eps * `|t|.

(** remainders that vanish at 0 *)
Definition small (r : R -> R) : Prop :=
  forall eps, 0 < eps -> exists2 del, 0 < del & forall t, `|t| < del -> `|r t| <= eps.

Lemma is_derivP f l : is_deriv f l <-> exists2 r, small r & forall t, f t = f 0 + t * (l + r t).
Proof.
split=> [H|[r sr E]] ; last first.
  move=> e e0; have [d d0 H] := sr e e0; exists d => // t /H h.
  rewrite (_ : f t - f 0 - t * l = r t * t); last by rewrite [f t]E; rng.
  by rewrite normrM ler_wpmul2r.
exists (fun t => if t == 0 then 0 else (f t - f 0) / t - l).
  move=> e e0; have [d d0 h] := H e e0; exists d => // t td.
  case: eqP => [_|/eqP t0]; first by rewrite normr0 ltW.
  have := h t td; rewrite -[f t - f 0 - _](divfK t0) normrM ler_pmul2r ?normr_gt0 // mulrBl.
  by rewrite [t * l]mulrC mulfK.
move=> t; case: eqP => [->|/eqP t0]; first by rewrite mul0r addr0.
by rewrite [l + _]addrC subrK mulrC divfK // addrC subrK.
Qed.

Lemma small_add r s : small r -> small s -> small (fun t => r t + s t).
Proof.
move=> sr ss e e0; have h0 : 0 < e / 2%:R := divr_gt0 e0 (ltr0Sn _ 1).
have [d d0 H] := sr _ h0; have [d' d0' H'] := ss _ h0.
exists (Num.min d d'); first by rewrite lt_minr d0.
move=> t; rewrite lt_minr => /andP [/H h /H' h']; apply: le_trans (ler_norm_add _ _) _.
by apply: le_trans (ler_add h h') _; rewrite -splitr.
Qed.
Lemma small_scale c r : small r -> small (fun t => c * r t).
Proof.
move=> sr e e0; have k0 : 0 < `|c| + 1 by apply: ltr_paddl.
have [d d0 H] := sr (e / (`|c| + 1)) (divr_gt0 e0 k0); exists d => // t /H h.
rewrite normrM; apply: le_trans (_ : (`|c| + 1) * `|r t| <= _).
  by apply: ler_wpmul2r => //; rewrite ler_addl.
by rewrite mulrC -ler_pdivl_mulr.
Qed.
Lemma small_mul r s : small r -> small s -> small (fun t => r t * s t).
Proof.
move=> sr ss e e0; have [d d0 H] := sr 1 ltr01; have [d' d0' H'] := ss e e0.
exists (Num.min d d'); first by rewrite lt_minr d0.
move=> t; rewrite lt_minr => /andP [/H h /H' h']; rewrite normrM.
by rewrite -[e]mul1r; apply: ler_pmul.
Qed.
Lemma small_id : small id.
Proof. by move=> e e0; exists e => // t /ltW. Qed.
Lemma eq_small r s : r =1 s -> small r -> small s.
Proof. by move=> E sr e e0; have [d d0 H] := sr e e0; exists d => // t /H; rewrite E. Qed.
Lemma small0 : small (fun=> 0).
Proof. by move=> e e0; exists 1 => // t _; rewrite normr0 ltW. Qed.

Lemma eq_deriv f g l : f =1 g -> is_deriv f l -> is_deriv g l.
Proof. by move=> E H e e0; have [d d0 h] := H e e0; exists d => // t /h; rewrite !E. Qed.
Lemma deriv_const c : is_deriv (fun=> c) 0.
Proof. by move=> e e0; exists 1 => // t _; rewrite mulr0 subrr subr0 normr0 mulr_ge0 // ltW. Qed.
Lemma deriv_id : is_deriv id 1.
Proof. by move=> e e0; exists 1 => // t _; rewrite mulr1 subr0 subrr normr0 mulr_ge0 // ltW. Qed.
Lemma derivD f g l m : is_deriv f l -> is_deriv g m -> is_deriv (fun t => f t + g t) (l + m).
Proof.
move=> /is_derivP [r sr Er] /is_derivP [s ss Es]; apply/is_derivP.
exists (fun t => r t + s t); first exact: small_add.
move=> t; rewrite Er Es; rng.
Qed.
Lemma derivZ c f l : is_deriv f l -> is_deriv (fun t => c * f t) (c * l).
Proof.
move=> /is_derivP [r sr Er]; apply/is_derivP; exists (fun t => c * r t); first exact: small_scale.
move=> t; rewrite Er; rng.
Qed.
Lemma derivN f l : is_deriv f l -> is_deriv (fun t => - f t) (- l).
Proof.
move=> /(derivZ (-1)) H; rewrite -[- l]mulN1r; apply: eq_deriv H => t; exact: mulN1r.
Qed.
Lemma derivB f g l m : is_deriv f l -> is_deriv g m -> is_deriv (fun t => f t - g t) (l - m).
Proof. by move=> H /derivN; apply: derivD. Qed.
Lemma derivM f g l m : is_deriv f l -> is_deriv g m ->
  is_deriv (fun t => f t * g t) (l * g 0 + f 0 * m).
Proof.
move=> /is_derivP [r sr Er] /is_derivP [s ss Es]; apply/is_derivP.
exists (fun t => f 0 * s t + g 0 * r t + t * ((l + r t) * (m + s t))).
  apply: small_add; first by apply: small_add; apply: small_scale.
  apply: (@eq_small (fun t => l * m * id t + l * (id t * s t) + m * (id t * r t) + id t * (r t * s t))).
    move=> t /=; rng.
  apply: small_add; first apply: small_add; first apply: small_add.
  - apply: small_scale; exact: small_id.
  - by apply: small_scale; apply: small_mul => //; exact: small_id.
  - by apply: small_scale; apply: small_mul => //; exact: small_id.
  - by apply: small_mul; [exact: small_id|apply: small_mul].
move=> t; rewrite {1}Er {1}Es; rng.
Qed.
Lemma deriv_uniq f l m : is_deriv f l -> is_deriv f m -> l = m.
Proof.
move=> H H'; apply/eqP; rewrite -subr_eq0; apply/eqP/eqP; case: (boolP (l - m == 0)) => // n0.
have p0 : 0 < `|l - m| / 2%:R / 2%:R by rewrite !divr_gt0 ?normr_gt0 ?ltr0n.
have [d d0 h] := H _ p0; have [d' d0' h'] := H' _ p0.
have [t [t0 td td']] : exists t, [/\ 0 < t, `|t| < d & `|t| < d'].
  exists (Num.min d d' / 2%:R); have m0 : 0 < Num.min d d' by rewrite lt_minr d0.
  have q0 : 0 < Num.min d d' / 2%:R by rewrite divr_gt0 ?ltr0n.
  have : Num.min d d' / 2%:R < Num.min d d' by rewrite ltr_pdivr_mulr ?ltr0n // ltr_pmulr // ltr1n.
  by rewrite gtr0_norm // lt_minr => /andP [-> ->].
have A : `|t * (l - m)| <= `|l - m| / 2%:R * t.
  rewrite (_ : t * (l - m) = (f t - f 0 - t * m) - (f t - f 0 - t * l)); last by rng.
  apply: le_trans (ler_norm_sub _ _) _; apply: le_trans (ler_add (h' t td') (h t td)) _.
  by rewrite [`|t|]gtr0_norm // -mulrDl -splitr.
move: A; rewrite normrM [`|t|]gtr0_norm // mulrC ler_pmul2r // ler_pdivl_mulr ?ltr0n // mulr_natr mulr2n ger_addl.
by rewrite normr_le0 (negbTE n0).
Qed.

Lemma small_comp r s : small r -> small s -> small (fun t => r (s t)).
Proof.
move=> sr ss e e0; have [d d0 H] := sr e e0; have [d' d0' H'] := ss (d / 2%:R) (divr_gt0 d0 (ltr0Sn _ 1)).
exists d' => // t /H' h; apply: H; apply: le_lt_trans h _.
by rewrite ltr_pdivr_mulr ?ltr0n // ltr_pmulr // ltr1n.
Qed.

(** chain rule, the outer function being differentiable at [f 0] *)
Lemma deriv_comp f g l m : is_deriv f l -> is_deriv (fun s => g (f 0 + s)) m ->
  is_deriv (fun t => g (f t)) (m * l).
Proof.
move=> /is_derivP [r sr Er] /is_derivP [q sq Eq]; apply/is_derivP.
have ss : small (fun t => t * (l + r t)).
  apply: (@eq_small (fun t => l * id t + id t * r t)); first by move=> t /=; rng.
  by apply: small_add; [apply: small_scale; exact: small_id|apply: small_mul => //; exact: small_id].
have sqs := small_comp sq ss.
exists (fun t => m * r t + l * q (t * (l + r t)) + r t * q (t * (l + r t))).
  by apply: small_add; [apply: small_add; apply: small_scale|apply: small_mul].
move=> t; rewrite [f t]Er Eq addr0; rng.
Qed.

Lemma deriv_inv_at a : a != 0 -> is_deriv (fun s => (a + s)^-1) (- (a ^+ 2)^-1).
Proof.
move=> a0 e e0; have na : 0 < `|a| by rewrite normr_gt0.
have na3 : 0 < `|a| ^+ 3 by rewrite exprn_gt0.
have two : 0 < 2%:R :> R by rewrite ltr0n.
exists (Num.min (`|a| / 2%:R) (e * `|a| ^+ 3 / 2%:R)).
  by rewrite lt_minr !divr_gt0 // mulr_gt0.
move=> s; rewrite lt_minr => /andP [h1 h2]; rewrite addr0.
have h3 : `|a| / 2%:R <= `|a + s|.
  have := ler_norm_sub (a + s) s; rewrite addrK => h.
  rewrite -(ler_add2r (`|a| / 2%:R)) -splitr; apply: le_trans h _.
  by rewrite ler_add2l ltW.
have as0 : a + s != 0 by rewrite -normr_gt0; apply: lt_le_trans h3; rewrite divr_gt0.
have -> : (a + s)^-1 - a^-1 - s * - (a ^+ 2)^-1 = s * s / (a ^+ 2 * (a + s)).
  rewrite [(_ * (a + s))^-1]invfM -!exprVn; have hx : a * a^-1 = 1 by rewrite divff.
  have hy : (a + s) * (a + s)^-1 = 1 by rewrite divff.
  set x := a^-1 in hx *; set y := (a + s)^-1 in hy *.
  transitivity (y * (a * x) * (a * x) - x * (a * x) * ((a + s) * y) + s * x ^+ 2 * ((a + s) * y)).
    rewrite hx hy; rng.
  rng.
rewrite normf_div [`|s * s|]normrM [`|_ * (a + s)|]normrM normrX ler_pdivr_mulr; last by rewrite mulr_gt0 ?normr_gt0 // exprn_gt0.
rewrite mulrAC; apply: ler_wpmul2r => //.
apply: ltW; apply: lt_le_trans h2 _; rewrite [`|a| ^+ 3]exprSr -!mulrA ler_pmul2l //.
by rewrite !ler_pmul2l.
Qed.
Lemma derivV f l : f 0 != 0 -> is_deriv f l -> is_deriv (fun t => (f t)^-1) (- (f 0 ^+ 2)^-1 * l).
Proof. by move=> f0 H; apply: (deriv_comp (g := GRing.inv) H); apply: deriv_inv_at. Qed.
Lemma deriv_div f g l m : g 0 != 0 -> is_deriv f l -> is_deriv g m ->
  is_deriv (fun t => f t / g t) (l / g 0 - f 0 * m / g 0 ^+ 2).
Proof.
move=> g0 H H'; have := derivM H (derivV g0 H').
by rewrite (_ : f 0 * (- (g 0 ^+ 2)^-1 * m) = - (f 0 * m / g 0 ^+ 2)) //; rng.
Qed.
Lemma deriv_sum n (f : 'I_n -> R -> R) l : (forall i, is_deriv (f i) (l i)) ->
  is_deriv (fun t => \sum_i f i t) (\sum_i l i).
Proof.
elim: n f l => [|n IH] f l H.
  by rewrite big_ord0; apply: eq_deriv (deriv_const 0) => t; rewrite big_ord0.
rewrite big_ord_recl; apply: (@eq_deriv (fun t => f ord0 t + \sum_(i < n) f (lift ord0 i) t)).
  by move=> t; rewrite big_ord_recl.
by apply: derivD => //; apply: IH.
Qed.
Lemma deriv_above f l c : is_deriv f l -> c < f 0 ->
  exists2 del, 0 < del & forall t, `|t| < del -> c < f t.
Proof.
move=> H lt; have [d d0 h] := H 1 ltr01; have k0 : 0 < `|l| + 1 by apply: ltr_paddl.
exists (Num.min d ((f 0 - c) / (`|l| + 1))); first by rewrite lt_minr d0 divr_gt0 // subr_gt0.
move=> t; rewrite lt_minr => /andP [/h h1 h2]; rewrite ltr_pdivl_mulr // in h2.
have : `|f t - f 0| < f 0 - c.
  apply: le_lt_trans h2; rewrite mulrDr mulr1 -{1}[f t - f 0](subrK (t * l)).
  by apply: le_trans (ler_norm_add _ _) _; rewrite addrC normrM ler_add2l -[`|t|]mul1r.
rewrite ltr_norml => /andP [h3 _]; rewrite -(ltr_add2r (- f 0)); apply: le_lt_trans h3.
by rewrite opprB.
Qed.
End Scalar.

Section Sqrt.
Variable R : rcfType.
Lemma deriv_sqrt_at (a : R) : 0 < a -> is_deriv (fun s => Num.sqrt (a + s)) (2%:R * Num.sqrt a)^-1.
Proof.
move=> a0 e e0; have q0 : 0 < Num.sqrt a by rewrite sqrtr_gt0.
have two : 0 < 2%:R :> R by rewrite ltr0n.
exists (Num.min a (e * (2%:R * a * Num.sqrt a))).
  by rewrite lt_minr a0 !mulr_gt0.
move=> s; rewrite lt_minr => /andP [h1 h2]; rewrite addr0.
have as0 : 0 < a + s.
  by move: h1; rewrite ltr_norml => /andP [h _]; rewrite -ltr_subl_addl sub0r.
set q := Num.sqrt a in q0 h2 *; set p := Num.sqrt (a + s).
have p0 : 0 < p by rewrite sqrtr_gt0.
have Eq : q * q = a by rewrite -expr2 sqr_sqrtr // ltW.
have Ep : p * p = a + s by rewrite -expr2 sqr_sqrtr // ltW.
have Es : s = (p - q) * (p + q) by rewrite mulrBl !mulrDr Ep Eq; rng.
have q2 : 2%:R * q != 0 by rewrite mulf_neq0 ?lt0r_neq0.
have -> : p - q - s / (2%:R * q) = - ((p - q) * (p - q) / (2%:R * q)).
  apply: (mulIf q2); rewrite mulNr divfK // mulrBl divfK // {1}Es; rng.
rewrite normrN normf_div normrM [`|2%:R * q|]gtr0_norm ?mulr_gt0 // ler_pdivr_mulr ?mulr_gt0 //.
have Q : `|p - q| * q <= `|s|.
  rewrite Es normrM; apply: ler_wpmul2l => //.
  by rewrite [`|p + q|]gtr0_norm ?addr_gt0 // ler_addr ltW.
have Q2 : `|p - q| * `|p - q| * a <= `|s| * `|s|.
  by rewrite -Eq mulrACA ler_pmul // mulr_ge0 // ltW.
rewrite -(ler_pmul2r a0); apply: le_trans Q2 _.
have -> : e * `|s| * (2%:R * q) * a = `|s| * (e * (2%:R * a * q)) by rng.
by rewrite ler_wpmul2l // ltW.
Qed.
Lemma deriv_sqrt (f : R -> R) l : 0 < f 0 -> is_deriv f l ->
  is_deriv (fun t => Num.sqrt (f t)) ((2%:R * Num.sqrt (f 0))^-1 * l).
Proof. by move=> f0 H; apply: (deriv_comp (g := Num.sqrt) H); apply: deriv_sqrt_at. Qed.
End Sqrt.

(** *** Matrix-valued curves, entry by entry *)
Section Matrix.
Variable R : realFieldType.
Definition is_mderiv m n (F : R -> 'M[R]_(m, n)) (L : 'M[R]_(m, n)) : Prop :=
  forall i j, is_deriv (fun t => F t i j) (L i j).

Lemma eq_mderiv m n (F G : R -> 'M[R]_(m, n)) L : F =1 G -> is_mderiv F L -> is_mderiv G L.
Proof. by move=> E H i j; apply: eq_deriv (H i j) => t; rewrite E. Qed.
Lemma mderiv_const m n (A : 'M[R]_(m, n)) : is_mderiv (fun=> A) 0.
Proof. by move=> i j; rewrite mxE; apply: deriv_const. Qed.
Lemma mderivD m n (F G : R -> 'M[R]_(m, n)) L K : is_mderiv F L -> is_mderiv G K ->
  is_mderiv (fun t => F t + G t) (L + K).
Proof. by move=> H H' i j; rewrite mxE; apply: eq_deriv (derivD (H i j) (H' i j)) => t; rewrite mxE. Qed.
Lemma mderivN m n (F : R -> 'M[R]_(m, n)) L : is_mderiv F L -> is_mderiv (fun t => - F t) (- L).
Proof. by move=> H i j; rewrite mxE; apply: eq_deriv (derivN (H i j)) => t; rewrite mxE. Qed.
Lemma mderivB m n (F G : R -> 'M[R]_(m, n)) L K : is_mderiv F L -> is_mderiv G K ->
  is_mderiv (fun t => F t - G t) (L - K).
Proof. by move=> H /mderivN; apply: mderivD. Qed.
Lemma mderivM m n p (F : R -> 'M[R]_(m, n)) (G : R -> 'M[R]_(n, p)) L K :
  is_mderiv F L -> is_mderiv G K -> is_mderiv (fun t => F t *m G t) (L *m G 0 + F 0 *m K).
Proof.
move=> H H' i j; rewrite !mxE -big_split /=.
apply: (@eq_deriv _ (fun t => \sum_k F t i k * G t k j)) => [t|]; first by rewrite mxE.
by apply: deriv_sum => k; apply: derivM.
Qed.
Lemma mderivMl m n p (A : 'M[R]_(m, n)) (G : R -> 'M[R]_(n, p)) K :
  is_mderiv G K -> is_mderiv (fun t => A *m G t) (A *m K).
Proof. by move=> H; have := mderivM (mderiv_const A) H; rewrite mul0mx add0r. Qed.
Lemma mderivMr m n p (A : 'M[R]_(n, p)) (F : R -> 'M[R]_(m, n)) L :
  is_mderiv F L -> is_mderiv (fun t => F t *m A) (L *m A).
Proof. by move=> H; have := mderivM H (mderiv_const A); rewrite mulmx0 addr0. Qed.
Lemma mderivT m n (F : R -> 'M[R]_(m, n)) L : is_mderiv F L -> is_mderiv (fun t => (F t)^T) L^T.
Proof. by move=> H i j; rewrite mxE; apply: eq_deriv (H j i) => t; rewrite mxE. Qed.
Lemma mderiv_lin m n (A : 'M[R]_(m, n)) : is_mderiv (fun t => t *: A) A.
Proof.
move=> i j; rewrite -[A i j]mulr1.
by apply: eq_deriv (derivZ (A i j) (@deriv_id R)) => t; rewrite mxE mulrC.
Qed.
Lemma mderiv_ul m1 m2 n1 n2 (F : R -> 'M[R]_(m1 + m2, n1 + n2)) L :
  is_mderiv F L -> is_mderiv (fun t => ulsubmx (F t)) (ulsubmx L).
Proof. by move=> H i j; rewrite !mxE; apply: eq_deriv (H _ _) => t; rewrite !mxE. Qed.
Lemma mderiv_ur m1 m2 n1 n2 (F : R -> 'M[R]_(m1 + m2, n1 + n2)) L :
  is_mderiv F L -> is_mderiv (fun t => ursubmx (F t)) (ursubmx L).
Proof. by move=> H i j; rewrite !mxE; apply: eq_deriv (H _ _) => t; rewrite !mxE. Qed.
Lemma mderiv_l m n1 n2 (F : R -> 'M[R]_(m, n1 + n2)) L :
  is_mderiv F L -> is_mderiv (fun t => lsubmx (F t)) (lsubmx L).
Proof. by move=> H i j; rewrite !mxE; apply: eq_deriv (H _ _) => t; rewrite !mxE. Qed.
Lemma mderiv_r m n1 n2 (F : R -> 'M[R]_(m, n1 + n2)) L :
  is_mderiv F L -> is_mderiv (fun t => rsubmx (F t)) (rsubmx L).
Proof. by move=> H i j; rewrite !mxE; apply: eq_deriv (H _ _) => t; rewrite !mxE. Qed.
Lemma mderiv_uniq m n (F : R -> 'M[R]_(m, n)) L K : is_mderiv F L -> is_mderiv F K -> L = K.
Proof. by move=> H H'; apply/matrixP => i j; apply: deriv_uniq (H i j) (H' i j). Qed.
End Matrix.

(** the Euclidean norm and its derivative *)
Section Norm.
Variable R : rcfType.
(** np.linalg.norm *)
Definition norm2 n (v : 'cV[R]_n) : R := Num.sqrt (\sum_i v i 0 ^+ 2).
Lemma norm2E n (v : 'cV[R]_n) : \sum_i v i 0 ^+ 2 = (v^T *m v) 0 0.
Proof. by rewrite mxE; apply: eq_bigr => i _; rewrite mxE expr2. Qed.
Lemma sumsq_ge0 n (v : 'cV[R]_n) : 0 <= \sum_i v i 0 ^+ 2.
Proof. by apply: sumr_ge0 => i _; rewrite sqr_ge0. Qed.
Lemma sumsq_gt0 n (v : 'cV[R]_n) : v != 0 -> 0 < \sum_i v i 0 ^+ 2.
Proof.
move=> v0; rewrite lt_def sumsq_ge0 andbT; apply: contra v0 => /eqP h.
apply/eqP/matrixP => i j; rewrite ord1 mxE.
have := h => /psumr_eq0P /(_ i isT) H; apply/eqP; rewrite -sqrf_eq0; apply/eqP/H.
by move=> k _; rewrite sqr_ge0.
Qed.
Lemma norm2_gt0 n (v : 'cV[R]_n) : v != 0 -> 0 < norm2 v.
Proof. by move=> /sumsq_gt0; rewrite sqrtr_gt0. Qed.
Lemma deriv_norm2 n (F : R -> 'cV[R]_n) L : F 0 != 0 -> is_mderiv F L ->
  is_deriv (fun t => norm2 (F t)) ((((norm2 (F 0))^-1 *: F 0)^T *m L) 0 0).
Proof.
move=> F0 H.
have D : is_deriv (fun t => \sum_i F t i 0 ^+ 2) (2%:R * ((F 0)^T *m L) 0 0).
  rewrite mxE mulr_sumr; apply: deriv_sum => i; rewrite mxE mulr_natl mulr2n.
  have := derivM (H i 0) (H i 0); rewrite [L i 0 * _]mulrC.
  by apply: eq_deriv => t; rewrite expr2.
have := deriv_sqrt (sumsq_gt0 F0) D.
rewrite -/(norm2 (F 0)); congr is_deriv; rewrite linearZ /= -scalemxAl [RHS]mxE.
by rewrite invfM mulrA [_ / _ * 2%:R]mulrAC mulVf ?mul1r // pnatr_eq0.
Qed.
End Norm.
