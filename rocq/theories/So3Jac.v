(** Bounds on the coefficients of the SO(3) maps, and their derivatives at zero rotation. *)
From Coq Require Import Reals Lra.
From mathcomp Require Import all_ssreflect all_algebra.
From Verif Require Import Base Tac LinAlg Deriv RealStruct RealTrig RealProps EkfModel PreintModel PreintProps ImuModel ImuProps So3Model So3Props.
Set Implicit Arguments.
Unset Strict Implicit.
Unset Printing Implicit Defensive.
Import Order.Theory GRing.Theory Num.Theory.
Local Open Scope ring_scope.
Bind Scope ring_scope with Rdefinitions.R.
Local Notation R := Rdefinitions.R.

(** mean value bound *)
Lemma mvt_bound (f g : R -> R) (K : R) n : (forall t, is_deriv (fun h => f (t + h)) (g t)) -> f 0 = 0 -> 0 <= K ->
  (forall t, `|g t| <= K * `|t| ^+ n) -> forall t, `|f t| <= K * `|t| ^+ n.+1.
Proof.
move=> H f0 K0 B t.
have D c : derivable_pt_lim f c (g c) by apply: lim_of_deriv.
have P c : `|c| <= `|t| -> `|g c * t| <= K * `|t| ^+ n.+1.
  move=> ct; rewrite normrM exprSr mulrA ler_wpmul2r //; apply: le_trans (B c) _.
  by rewrite ler_wpmul2l // ler_expn2r // nnegrE.
have [t0|t0|->] := ltgtP t 0; last by rewrite f0 normr0 expr0n mulr0.
- have [|c [e [/RltP c1 /RltP c2]]] := MVT_cor2 f g t 0 _ (fun c _ => D c); first exact/RltP.
  have -> : f t = g c * t.
    move: e; rewrite f0 => e; apply: oppr_inj; rewrite -mulrN -[LHS]add0r -[- t]add0r; exact: e.
  by apply: P; rewrite !ltr0_norm // ler_opp2 ltW.
- have [|c [e [/RltP c1 /RltP c2]]] := MVT_cor2 f g 0 t _ (fun c _ => D c); first exact/RltP.
  have -> : f t = g c * t.
    move: e; rewrite f0 => e; rewrite -[LHS]subr0 -[X in _ * X]subr0; exact: e.
  by apply: P; rewrite !gtr0_norm // ltW.
Qed.
Section Coef.
Variable w : R.
Hypothesis w0 : w != 0.
Definition s5 (t : R) : R := (t ^+ 3 / 6%:R - s3 w t) / w ^+ 2.
Lemma cube_deriv (t : R) : is_deriv (fun h => (t + h) ^+ 3 / 6%:R) (t ^+ 2 / 2%:R).
Proof.
have := derivZ 3%:R^-1 (derivM (shift_deriv t) (sq_deriv t)); rewrite addr0 mul1r.
rewrite (_ : _ * (_ + _) = t ^+ 2 / 2%:R); last by rfield.
apply: eq_deriv => h; rfield.
Qed.
Lemma s5_deriv t : is_deriv (fun h => s5 (t + h)) (s4 w t).
Proof.
have := derivZ (w ^+ 2)^-1 (derivB (cube_deriv t) (s3_deriv w0 t)).
rewrite [_ * (_ - _)]mulrC.
by apply: eq_deriv => h; rewrite /s5 mulrC.
Qed.
Lemma s1_0 : s1 w 0 = 0. Proof. by rewrite /s1 mul0r sin0 mul0r. Qed.
Lemma s2_0 : s2 w 0 = 0. Proof. by rewrite /s2 mul0r cos0 subrr mul0r. Qed.
Lemma s3_0 : s3 w 0 = 0. Proof. by rewrite /s3 s1_0 subrr mul0r. Qed.
Lemma s4_0 : s4 w 0 = 0. Proof. by rewrite /s4 s2_0 expr2 !mul0r subrr mul0r. Qed.
Lemma s5_0 : s5 0 = 0. Proof. by rewrite /s5 s3_0 exprS !mul0r subrr mul0r. Qed.
Lemma s1_bound t : `|s1 w t| <= 1 * `|t| ^+ 1.
Proof.
apply: (@mvt_bound (s1 w) (fun t => cos (t * w)) 1 0 _ s1_0 ler01) => [u|u].
  have := s1_deriv w0 u; rewrite /s2 mulrCA divff ?expf_neq0 // mulr1 subKr //.
by rewrite expr0 mulr1; apply/RleP; rewrite RnormE; apply: Rabs_le; exact: COS_bound.
Qed.
Lemma s2_bound t : `|s2 w t| <= 1 * `|t| ^+ 2. Proof. exact: mvt_bound (s2_deriv w0) s2_0 ler01 s1_bound t. Qed.
Lemma s3_bound t : `|s3 w t| <= 1 * `|t| ^+ 3. Proof. exact: mvt_bound (s3_deriv w0) s3_0 ler01 s2_bound t. Qed.
Lemma s4_bound t : `|s4 w t| <= 1 * `|t| ^+ 4. Proof. exact: mvt_bound (s4_deriv w0) s4_0 ler01 s3_bound t. Qed.
Lemma s5_bound t : `|s5 t| <= 1 * `|t| ^+ 5. Proof. exact: mvt_bound s5_deriv s5_0 ler01 s4_bound t. Qed.
End Coef.
Lemma deriv_small_o (f : R -> R) (K : R) n : 0 <= K -> (forall h, `|f h| <= K * `|h| ^+ n.+2) -> is_deriv f 0.
Proof.
move=> K0 B e e0; have K1 : 0 < K + 1 by rewrite ltr_paddl ?ltr01.
exists (Num.min 1 (e / (K + 1))); first by rewrite lt_minr ltr01 divr_gt0.
move=> h; rewrite lt_minr => /andP[h1 h2].
have f0 : f 0 = 0 by apply/eqP; rewrite -normr_le0; apply: le_trans (B 0) _; rewrite normr0 expr0n mulr0.
rewrite f0 subr0 mulr0 subr0; apply: le_trans (B h) _; rewrite exprSr mulrA ler_wpmul2r //.
have : `|h| ^+ n.+1 <= `|h| by rewrite exprS ler_pimulr // exprn_ile1 // ltW.
move=> p; apply: (@le_trans _ _ ((K + 1) * `|h|)).
  by apply: ler_pmul => //; rewrite ?exprn_ge0 // ler_addl ler01.
by rewrite mulrC -ler_pdivl_mulr // ltW.
Qed.
Lemma deriv_add0 (f r : R -> R) l : is_deriv f l -> is_deriv r 0 -> is_deriv (fun h => f h + r h) l.
Proof. by move=> a b; have := derivD a b; rewrite addr0. Qed.
Lemma Jl0_deriv (w : 'cV[R]_3) : is_mderiv (fun h => so3Jl (h *: w)) (2%:R^-1 *: wedge w).
Proof.
have [->|o0] := eqVneq w 0.
  rewrite wedge0 scaler0; apply: eq_mderiv (mderiv_const 1%:M) => h; by rewrite scaler0 so3Jl0.
set n := norm2 w; have n0 : n != 0 by rewrite norm2_eq0.
pose r2 h : R := s2 n h / h - h / 2%:R; pose r3 h : R := s3 n h / h.
have B3 h : `|r3 h| <= 1 * `|h| ^+ 2.
  rewrite /r3; have [->|h0] := eqVneq h 0; first by rewrite s3_0 mul0r normr0 expr0n mulr0.
  by rewrite normrM normfV ler_pdivr_mulr ?normr_gt0 // -mulrA -exprSr s3_bound.
have B2 h : `|r2 h| <= n ^+ 2 * `|h| ^+ 3.
  rewrite /r2; have [->|h0] := eqVneq h 0; first by rewrite s2_0 !mul0r subrr normr0 expr0n mulr0.
  have -> : s2 n h / h - h / 2%:R = - (n ^+ 2) * (s4 n h / h) by rewrite /s4; rfield.
  rewrite normrM normrN ger0_norm ?sqr_ge0 // ler_wpmul2l ?sqr_ge0 // normrM normfV ler_pdivr_mulr ?normr_gt0 //.
  by rewrite -exprSr -[X in _ <= X]mul1r s4_bound.
have D2 : is_deriv (fun h => h / 2%:R + r2 h) 2%:R^-1.
  apply: deriv_add0; last by apply: (deriv_small_o (sqr_ge0 n) B2).
  by have := derivZ (2%:R^-1 : R) (@deriv_id _); rewrite mulr1; apply: eq_deriv => h; rewrite mulrC.
have := mderivD (mderivD (mderiv_const 1%:M) (mderiv_sc (wedge w) D2)) (mderiv_sc (wedge w *m wedge w) (deriv_small_o ler01 B3)).
rewrite add0r scale0r addr0; apply: eq_mderiv => h.
have [->|h0] := eqVneq h 0.
  by rewrite scale0r so3Jl0 /r2 /r3 s2_0 s3_0 !mul0r subrr addr0 !scale0r !addr0.
have -> : so3Jl (h *: w) = h^-1 *: Jline w h by rewrite -J_line // scalerA mulVf // scale1r.
rewrite /Jline -/n !scalerDr !scalerA scale_scalar_mx mulVf //.
congr (_ + _ *: _ + _ *: _); rewrite /r2 /r3; rfield.
Qed.
(** the exact N *)
Definition Nexact (v : 'cV[R]_3) : 'M[R]_3 := if v == 0 then 1%:M else N_matrix 0 v.
Lemma N0_deriv (w : 'cV[R]_3) : is_mderiv (fun h => Nexact (h *: w)) (3%:R^-1 *: wedge w).
Proof.
have [->|o0] := eqVneq w 0.
  rewrite wedge0 scaler0; apply: eq_mderiv (mderiv_const 1%:M) => h; by rewrite scaler0 /Nexact eqxx.
set n := norm2 w; have n0 : n != 0 by rewrite norm2_eq0.
pose r3 h : R := 2%:R * s3 n h / h ^+ 2 - h / 3%:R; pose r4 h : R := 2%:R * s4 n h / h ^+ 2.
have B4 h : `|r4 h| <= 2%:R * `|h| ^+ 2.
  rewrite /r4; have [->|h0] := eqVneq h 0; first by rewrite s4_0 mulr0 mul0r normr0 expr0n mulr0.
  rewrite normrM normfV ler_pdivr_mulr ?normr_gt0 ?expf_neq0 // normrM ger0_norm ?ler0n // normrX -mulrA -exprD ler_wpmul2l ?ler0n //.
  by rewrite -[X in _ <= X]mul1r s4_bound.
have B3 h : `|r3 h| <= (2%:R * n ^+ 2) * `|h| ^+ 3.
  rewrite /r3; have [->|h0] := eqVneq h 0; first by rewrite s3_0 mulr0 !mul0r subrr normr0 expr0n mulr0.
  have -> : 2%:R * s3 n h / h ^+ 2 - h / 3%:R = (2%:R * n ^+ 2) * - (s5 n h / h ^+ 2) by rewrite /s5; rfield.
  have k0 : 0 <= 2%:R * n ^+ 2 by rewrite mulr_ge0 ?ler0n ?sqr_ge0.
  rewrite normrM normrN ger0_norm // ler_wpmul2l // normrM normfV ler_pdivr_mulr ?normr_gt0 ?expf_neq0 //.
  by rewrite normrX -exprD -[X in _ <= X]mul1r s5_bound.
have D3 : is_deriv (fun h => h / 3%:R + r3 h) 3%:R^-1.
  apply: deriv_add0; last by apply: (deriv_small_o _ B3); rewrite mulr_ge0 ?ler0n ?sqr_ge0.
  by have := derivZ (3%:R^-1 : R) (@deriv_id _); rewrite mulr1; apply: eq_deriv => h; rewrite mulrC.
have := mderivD (mderivD (mderiv_const 1%:M) (mderiv_sc (wedge w) D3)) (mderiv_sc (wedge w *m wedge w) (deriv_small_o (ler0n _ 2) B4)).
rewrite add0r scale0r addr0; apply: eq_mderiv => h.
have [->|h0] := eqVneq h 0.
  by rewrite scale0r /Nexact eqxx /r3 /r4 s3_0 s4_0 !mulr0 !mul0r subrr addr0 !scale0r !addr0.
have hw : h *: w != 0 by rewrite scaler_eq0 negb_or h0.
have k0 : h ^+ 2 / 2%:R != 0 by rewrite mulf_neq0 ?invr_eq0 ?expf_neq0 ?pnatr_eq0.
rewrite /Nexact (negbTE hw).
have -> : N_matrix 0 (h *: w) = (h ^+ 2 / 2%:R)^-1 *: Nline w h.
  by rewrite -(N_line o0 (tol := 0)) ?scalerA ?mulVf ?scale1r //; right; exact: norm2_ge0.
rewrite /Nline -/n !scalerDr !scalerA scale_scalar_mx mulVf //.
congr (_ + _ *: _ + _ *: _); rewrite /r3 /r4; rfield.
Qed.
