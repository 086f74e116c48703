(** C81: IMU propagation is the exact solution of the continuous-time kinematics. *)
From Coq Require Import Reals Lra.
From mathcomp Require Import all_ssreflect all_algebra.
From Verif Require Import Base Tac LinAlg Deriv RealStruct RealTrig RealProps EkfModel PreintModel PreintProps ImuModel ImuProps So3Model.
Set Implicit Arguments.
Unset Strict Implicit.
Unset Printing Implicit Defensive.
Import Order.Theory GRing.Theory Num.Theory.
Local Open Scope ring_scope.
Bind Scope ring_scope with Rdefinitions.R.
Local Notation R := Rdefinitions.R.

Lemma norm2_ge0 n (v : 'cV[R]_n) : 0 <= norm2 v. Proof. exact: sqrtr_ge0. Qed.
Lemma norm2_sq n (v : 'cV[R]_n) : norm2 v ^+ 2 = \sum_i v i 0 ^+ 2.
Proof. by rewrite sqr_sqrtr // sumsq_ge0. Qed.
Lemma norm2Z n (k : R) (v : 'cV[R]_n) : norm2 (k *: v) = `|k| * norm2 v.
Proof.
rewrite /norm2 (eq_bigr (fun i => k ^+ 2 * v i 0 ^+ 2)); last by move=> i _; rewrite mxE exprMn.
by rewrite -mulr_sumr sqrtrM ?sqr_ge0 // sqrtr_sqr.
Qed.
Lemma norm2_eq0 n (v : 'cV[R]_n) : (norm2 v == 0) = (v == 0).
Proof.
apply/idP/idP => [h|/eqP ->]; last first.
  by rewrite /norm2 big1 ?sqrtr0 // => i _; rewrite mxE expr0n.
by apply: contraTT h => /norm2_gt0; rewrite lt0r => /andP[].
Qed.

(** field identities over R by Coq's [field] *)
Lemma RsubE (x y : R) : x - y = Rminus x y. Proof. by []. Qed.
Lemma RinvE' (x : R) : x != 0 -> x^-1 = Rinv x. Proof. by move/eqP => h; apply: RinvE. Qed.
Lemma Rnz (x : R) : x != 0 -> x <> R0. Proof. by move/eqP. Qed.
Lemma opp_nz (x : R) : x != 0 -> - x != 0. Proof. by rewrite oppr_eq0. Qed.
Lemma nat_nz n : n.+1%:R != 0 :> R. Proof. by rewrite pnatr_eq0. Qed.
Ltac nzb := repeat first [assumption | apply: mulf_neq0 | apply: invr_neq0 | apply: opp_nz | apply: nat_nz].
Ltac nz := first [solve [repeat split; apply: Rnz; assumption] | solve [repeat split; apply: Rnz; solve [nzb]]].
Ltac rfield := rewrite ?exprVn ?exprS ?expr0 ?mulr1;
  repeat (match goal with |- context [@GRing.inv _ ?x] => rewrite [x^-1]RinvE'; last solve [nzb] end);
  rewrite ?RnatE ?RsubE ?RaddE ?RoppE ?RmulE ?R0E ?R1E ?INR_IZR_INZ /=; field; repeat split; nz.
(** W^3 = - |phi|^2 W, and the outer product *)
Lemma wedge_cube (v : 'cV[R]_3) : wedge v *m wedge v *m wedge v = - norm2 v ^+ 2 *: wedge v.
Proof.
rewrite norm2_sq; apply/matrixP=> i j; rewrite /wedge !mxE ?big_ord_recl ?big_ord0 ?mxE ?big_ord_recl ?big_ord0 ?mxE /=.
rewrite !(atE v) ord31 ord32 /= /bump /= !addn0; change (1 + 1)%N with 2%N.
by case: i => [[|[|[|//]]] ?]; case: j => [[|[|[|//]]] ?] /=; rng.
Qed.
Lemma wedge_outer (v : 'cV[R]_3) : wedge v *m wedge v = v *m v^T - (norm2 v ^+ 2)%:M.
Proof.
rewrite norm2_sq; apply/matrixP=> i j; rewrite /wedge !mxE ?big_ord_recl ?big_ord0 ?mxE ?big_ord_recl ?big_ord0 ?mxE /=.
rewrite !(atE v) ord31 ord32 /= /bump /= !addn0; change (1 + 1)%N with 2%N.
by case: i => [[|[|[|//]]] ?]; case: j => [[|[|[|//]]] ?] /=; rewrite ?mulr1n ?mulr0n; rng.
Qed.

(** *** scalar coefficients along a line t |-> t om, w = |om| *)
Section Coef.
Variable w : R.
Hypothesis w0 : w != 0.
Definition s1 (t : R) : R := sin (t * w) / w.
Definition s2 (t : R) : R := (1 - cos (t * w)) / w ^+ 2.
Definition s3 (t : R) : R := (t - s1 t) / w ^+ 2.
Definition s4 (t : R) : R := (t ^+ 2 / 2%:R - s2 t) / w ^+ 2.
Lemma lin_deriv (t : R) : is_deriv (fun h => (t + h) * w) w.
Proof.
have := derivD (deriv_const (t * w)) (derivZ w (@deriv_id _)); rewrite add0r mulr1.
by apply: eq_deriv => h; rewrite mulrDl [w * _]mulrC.
Qed.
Lemma s1_deriv t : is_deriv (fun h => s1 (t + h)) (1 - w ^+ 2 * s2 t).
Proof.
have := derivZ w^-1 (@deriv_comp _ _ sin _ (cos ((t + 0) * w)) (lin_deriv t) (sin_deriv _)).
rewrite mulrCA mulVf // mulr1 addr0 /s2 mulrCA divff ?expf_neq0 // mulr1 subKr.
by apply: eq_deriv => h; rewrite /s1 mulrC.
Qed.
Lemma s2_deriv t : is_deriv (fun h => s2 (t + h)) (s1 t).
Proof.
have := derivZ (w ^+ 2)^-1 (derivB (deriv_const 1) (@deriv_comp _ _ cos _ (- sin ((t + 0) * w)) (lin_deriv t) (cos_deriv _))).
rewrite sub0r mulNr opprK addr0.
rewrite (_ : (w ^+ 2)^-1 * (_ * w) = s1 t); last by rewrite /s1 expr2 invfM mulrCA -mulrA mulVf ?mulr1.
by apply: eq_deriv => h; rewrite /s2 mulrC.
Qed.
Lemma shift_deriv (t : R) : is_deriv (fun h => t + h) 1.
Proof. by have := derivD (deriv_const t) (@deriv_id _); rewrite add0r. Qed.
Lemma s3_deriv t : is_deriv (fun h => s3 (t + h)) (s2 t).
Proof.
have := derivZ (w ^+ 2)^-1 (derivB (shift_deriv t) (s1_deriv t)).
rewrite subKr mulKf ?expf_neq0 //.
by apply: eq_deriv => h; rewrite /s3 mulrC.
Qed.
Lemma sq_deriv (t : R) : is_deriv (fun h => (t + h) ^+ 2 / 2%:R) t.
Proof.
have := derivZ (2%:R^-1) (derivM (shift_deriv t) (shift_deriv t)).
rewrite addr0 mulr1 mul1r -mulr2n -[t *+ 2]mulr_natl mulKf ?pnatr_eq0 //.
by apply: eq_deriv => h; rewrite mulrC expr2.
Qed.
Lemma s4_deriv t : is_deriv (fun h => s4 (t + h)) (s3 t).
Proof.
have := derivZ (w ^+ 2)^-1 (derivB (sq_deriv t) (s2_deriv t)).
rewrite [_ * (t - _)]mulrC.
by apply: eq_deriv => h; rewrite /s4 mulrC.
Qed.
End Coef.

Lemma mderiv_sc m n (f : R -> R) l (A : 'M[R]_(m, n)) : is_deriv f l -> is_mderiv (fun h => f h *: A) (l *: A).
Proof.
move=> H i j; rewrite mxE mulrC; apply: eq_deriv (derivZ (A i j) H) => h.
by rewrite mxE mulrC.
Qed.

(** *** the three matrix functions along a line *)
Section Line.
Variable om : 'cV[R]_3.
Hypothesis om0 : om != 0.
Let w := norm2 om.
Let W := wedge om.
Let w0 : w != 0. Proof. by rewrite norm2_eq0. Qed.
Definition Eline t := 1%:M + s1 w t *: W + s2 w t *: (W *m W).
Definition Jline (t : R) := t%:M + s2 w t *: W + s3 w t *: (W *m W).
Definition Nline (t : R) := (t ^+ 2 / 2%:R)%:M + s3 w t *: W + s4 w t *: (W *m W).
Lemma abs_cases (t : R) : t != 0 -> exists2 e : R, `|t| = e * t & e = 1 \/ e = -1.
Proof.
move=> t0; case: (ger0P t) => h; first by exists 1; [rewrite mul1r|left].
by exists (-1); [rewrite mulN1r|right].
Qed.
Lemma norm_line t : t != 0 -> exists2 e : R, norm2 (t *: om) = e * (t * w) & e = 1 \/ e = -1.
Proof.
move=> /abs_cases [e h1 h2]; exists e => //.
by rewrite norm2Z h1 mulrA.
Qed.
Lemma exp_line t : so3Exp (t *: om) = Eline t.
Proof.
rewrite /so3Exp norm2_eq0 scaler_eq0 (negbTE om0) orbF.
have [->|t0] := eqVneq t 0.
  by rewrite /Eline /s1 /s2 !mul0r sin0 cos0 subrr !mul0r !scale0r !addr0.
have [e -> e1] := norm_line t0.
rewrite /Eline wedgeZ -!scalemxAr -!scalemxAl !scalerA -/W; congr (_ + _ *: _ + _ *: _).
  case: e1 => ->; rewrite ?mul1r ?mulN1r ?sinN ?invrN ?mulrNN /s1 invfM -mulrA.
    by rewrite mulrAC mulVf // mul1r.
  by rewrite mulrAC mulVf // mul1r.
have -> : (1 - cos (e * (t * w))) = 1 - cos (t * w) by case: e1 => ->; rewrite ?mul1r ?mulN1r ?cosN.
have -> : (e * (t * w)) ^+ 2 = (t * w) ^+ 2 by case: e1 => ->; rewrite ?mul1r // mulN1r sqrrN.
by rewrite /s2 exprMn invfM -!mulrA; congr (_ * _); rewrite mulrCA -expr2 mulVf ?mulr1 // expf_neq0.
Qed.

Lemma J_line (t : R) : t *: so3Jl (t *: om) = Jline t.
Proof.
rewrite /so3Jl norm2_eq0 scaler_eq0 (negbTE om0) orbF.
have [->|t0] := eqVneq t 0.
  by rewrite /Jline /s3 /s1 /s2 !mul0r sin0 cos0 !subrr !mul0r subrr !mul0r !scale0r !addr0 [0%:M]raddf0.
have [e -> e1] := norm_line t0.
rewrite /Jline wedgeZ -!scalemxAr -!scalemxAl !scalerDr !scalerA -/W; congr (_ + _ *: _ + _ *: _).
- by rewrite scalemx1.
- have -> : (1 - cos (e * (t * w))) = 1 - cos (t * w) by case: e1 => ->; rewrite ?mul1r ?mulN1r ?cosN.
  have -> : (e * (t * w)) ^+ 2 = (t * w) ^+ 2 by case: e1 => ->; rewrite ?mul1r // mulN1r sqrrN.
  rewrite /s2; rfield.
- have -> : (e * (t * w) - sin (e * (t * w))) / (e * (t * w)) ^+ 3 = (t * w - sin (t * w)) / (t * w) ^+ 3.
    case: e1 => ->; rewrite ?mul1r // ?mulN1r sinN -opprD exprNn -signr_odd expr1 mulN1r invrN mulrNN //.
  rewrite /s3 /s1; rfield.
Qed.
Lemma N_closed tol (v : 'cV[R]_3) : v != 0 -> tol <= norm2 v -> let n := norm2 v in
  N_matrix tol v = 1%:M + ((1 - 2%:R * ((1 - cos n) / n ^+ 2)) / n ^+ 2) *: (wedge v *m wedge v)
                   + (2%:R * ((n - sin n) / n ^+ 2) / n) *: wedge v.
Proof.
move=> v0 h n; have n0 : n != 0 by rewrite norm2_eq0.
rewrite /N_matrix ltNge h /= -/n.
have -> : n^-1 *: v *m (n^-1 *: v)^T = 1%:M + n ^- 2 *: (wedge v *m wedge v).
  have -> : (n^-1 *: v)^T = n^-1 *: v^T by rewrite linearZ.
  rewrite wedge_outer scalerBr -scalemxAl -scalemxAr scalerA -expr2 exprVn.
  by rewrite -[(_ ^+ 2)%:M]scalemx1 scalerA mulVf ?expf_neq0 // scale1r addrC subrK.
rewrite wedgeZ; move: (wedge v *m wedge v) (wedge v) (2%:R * (_ / n ^+ 2)) (2%:R * (_ / n ^+ 2)) => X Y c d.
rewrite scalerA; congr (_ + _); apply/matrixP => i j; rewrite !mxE.
by case: (i == j); rewrite ?mulr1n ?mulr0n; rng.
Qed.
Lemma N_line tol (t : R) : t = 0 \/ tol <= norm2 (t *: om) -> (t ^+ 2 / 2%:R) *: N_matrix tol (t *: om) = Nline t.
Proof.
have [->|t0] := eqVneq t 0; first move=> _.
  rewrite /Nline /s4 /s3 /s1 /s2 expr2 !mul0r sin0 cos0 !subrr !mul0r subrr !mul0r !scale0r !addr0 [0%:M]raddf0.
  by [].
case=> [h|h]; first by rewrite h eqxx in t0.
rewrite N_closed //; last by rewrite scaler_eq0 negb_or t0.
have [e -> e1] := norm_line t0.
rewrite /Nline wedgeZ -!scalemxAr -!scalemxAl !scalerDr !scalerA -/W scalemx1 addrAC; congr (_ + _ *: _ + _ *: _).
- rewrite /s3 /s1; case: e1 => ->; rewrite ?mul1r ?mulN1r ?sinN; rfield.
- have -> : cos (e * (t * w)) = cos (t * w) by case: e1 => ->; rewrite ?mul1r ?mulN1r ?cosN.
  have -> : (e * (t * w)) ^+ 2 = (t * w) ^+ 2 by case: e1 => ->; rewrite ?mul1r // mulN1r sqrrN.
  rewrite /s4 /s2; rfield.
Qed.
Lemma Eline_deriv t : is_mderiv (fun h => Eline (t + h)) (Eline t *m W).
Proof.
have := mderivD (mderivD (mderiv_const 1%:M) (mderiv_sc W (s1_deriv w0 t))) (mderiv_sc (W *m W) (s2_deriv w0 t)).
rewrite (_ : 0 + _ + _ = Eline t *m W) //.
rewrite /Eline 2!mulmxDl mul1mx -!scalemxAl wedge_cube -/W -/w add0r scalerBl scale1r scalerA -!addrA; congr (_ + _).
by rewrite addrC mulrN scaleNr [s2 w t * _]mulrC.
Qed.
Lemma Jline_deriv t : is_mderiv (fun h => Jline (t + h)) (Eline t).
Proof.
have := mderivD (mderivD (mderiv_sc 1%:M (shift_deriv t)) (mderiv_sc W (s2_deriv w0 t))) (mderiv_sc (W *m W) (s3_deriv w0 t)).
rewrite scale1r; apply: eq_mderiv => h; by rewrite scalemx1.
Qed.
Lemma Nline_deriv t : is_mderiv (fun h => Nline (t + h)) (Jline t).
Proof.
have := mderivD (mderivD (mderiv_sc 1%:M (sq_deriv t)) (mderiv_sc W (s3_deriv w0 t))) (mderiv_sc (W *m W) (s4_deriv w0 t)).
rewrite (scalemx1 _ t); apply: eq_mderiv => h; by rewrite scalemx1.
Qed.
End Line.

(** *** a function with zero derivative everywhere is constant *)
Lemma lim_of_deriv (f : R -> R) x l : is_deriv (fun h : R => f (x + h)) l -> derivable_pt_lim f x l.
Proof.
move=> H e /RltP e0; have e2 : 0 < e / 2%:R by rewrite divr_gt0 // ltr0n.
have [d /RltP d0 hd] := H _ e2; exists (mkposreal d d0) => h hn /RltP hh.
have := hd h hh; rewrite addr0 => K; apply/RltP.
rewrite -[Rdiv _ _]/(Rmult _ (Rinv h)) -RinvE //.
have h0 : h != 0 by apply/eqP.
have -> : Rminus (Rmult (Rminus (f (Rplus x h)) (f x)) (h^-1)) l = (f (x + h) - f x - h * l) / h.
  by rewrite -[LHS]/((f (x + h) - f x) * h^-1 - l) [RHS]mulrBl [h * l]mulrC mulfK.
rewrite -RnormE normrM normfV ltr_pdivr_mulr ?normr_gt0 //.
by apply: le_lt_trans K _; rewrite ltr_pmul2r ?normr_gt0 // ltr_pdivr_mulr ?ltr0n // ltr_pmulr // ltr1n.
Qed.
Lemma const_of_deriv (f : R -> R) : (forall t, is_deriv (fun h => f (t + h)) 0) -> forall t, f t = f 0.
Proof.
move=> H; have D : derivable f by move=> x; exists 0; apply: lim_of_deriv.
have Z : forall x, derive_pt f x (D x) = R0 by move=> x; apply: derive_pt_eq_0; apply: lim_of_deriv.
by move=> t; apply: (null_derivative_1 f D Z).
Qed.
Lemma mconst_of_deriv m n (F : R -> 'M[R]_(m, n)) : (forall t, is_mderiv (fun h => F (t + h)) 0) -> forall t, F t = F 0.
Proof.
move=> H t; apply/matrixP => i j; apply: (@const_of_deriv (fun t => F t i j)) => {}t.
by have := H t i j; rewrite mxE.
Qed.
Lemma same_deriv m n (F G : R -> 'M[R]_(m, n)) L : (forall t, is_mderiv (fun h => F (t + h)) (L t)) ->
  (forall t, is_mderiv (fun h => G (t + h)) (L t)) -> F 0 = G 0 -> forall t, F t = G t.
Proof.
move=> HF HG e0 t; apply/eqP; rewrite -subr_eq0; apply/eqP.
rewrite -[0](subrr (G 0)) -{1}e0.
rewrite (@mconst_of_deriv _ _ (fun t => F t - G t)) // => {}t.
by have := mderivB (HF t) (HG t); rewrite subrr.
Qed.

(** *** the flow, for any angular velocity *)
Definition flowE (om : 'cV[R]_3) (t : R) := so3Exp (t *: om).
Definition flowJ (om : 'cV[R]_3) (t : R) := t *: so3Jl (t *: om).
Definition flowN (om : 'cV[R]_3) (t : R) := if om == 0 then (t ^+ 2 / 2%:R)%:M else Nline om t.
Lemma norm20 : norm2 (0 : 'cV[R]_3) = 0. Proof. by apply/eqP; rewrite norm2_eq0. Qed.
Lemma so3Exp0 : so3Exp 0 = 1%:M. Proof. by rewrite /so3Exp norm20 eqxx. Qed.
Lemma so3Jl0 : so3Jl 0 = 1%:M. Proof. by rewrite /so3Jl norm20 eqxx. Qed.
Lemma flowE_deriv om t : is_mderiv (fun h => flowE om (t + h)) (flowE om t *m wedge om).
Proof.
rewrite /flowE; have [->|o0] := eqVneq om 0.
  rewrite wedge0 mulmx0; apply: eq_mderiv (mderiv_const 1%:M) => h; by rewrite scaler0 so3Exp0.
rewrite exp_line //; apply: eq_mderiv (Eline_deriv o0 t) => h; by rewrite exp_line.
Qed.
Lemma flowJ_deriv om t : is_mderiv (fun h => flowJ om (t + h)) (flowE om t).
Proof.
rewrite /flowE /flowJ; have [->|o0] := eqVneq om 0.
  rewrite scaler0 so3Exp0 -[1%:M]scale1r; apply: eq_mderiv (mderiv_sc 1%:M (shift_deriv t)) => h.
  by rewrite scaler0 so3Jl0.
rewrite exp_line //; apply: eq_mderiv (Jline_deriv o0 t) => h; by rewrite J_line.
Qed.
Lemma flowN_deriv om t : is_mderiv (fun h => flowN om (t + h)) (flowJ om t).
Proof.
rewrite /flowN /flowJ; have [->|o0] := eqVneq om 0.
  rewrite scaler0 so3Jl0; have := mderiv_sc (1%:M : 'M[R]_3) (sq_deriv t); apply: eq_mderiv => h.
  by rewrite scalemx1.
by rewrite J_line //; apply: eq_mderiv (Nline_deriv o0 t).
Qed.
(** N_matrix agrees with the flow outside the small-angle band *)
Definition no_band (tol : R) (om : 'cV[R]_3) (dt : R) := dt *: om = 0 \/ tol <= norm2 (dt *: om).
Lemma N_flow tol om t : 0 < tol -> no_band tol om t -> (t ^+ 2 / 2%:R) *: N_matrix tol (t *: om) = flowN om t.
Proof.
move=> t0 h; rewrite /flowN; case: ifP => [/eqP ->|/negbT o0].
  by rewrite scaler0 /N_matrix norm20 t0 scalemx1.
apply: N_line => //; case: h => [/eqP|]; last by right.
by rewrite scaler_eq0 (negbTE o0) orbF => /eqP; left.
Qed.
Lemma so3_rot v : rot (so3Exp v).
Proof.
rewrite /so3Exp; case: ifP => [_|/negbT t0]; first exact: rot1.
set t := norm2 v in t0 *; set A := sin t / t; set B := (1 - cos t) / t ^+ 2.
have key : 2%:R * B - A ^+ 2 - t ^+ 2 * B ^+ 2 = 0.
  have cs := cs1 t.
  have -> : 2%:R * B - A ^+ 2 - t ^+ 2 * B ^+ 2 = (1 - (cos t * cos t + sin t * sin t)) / t ^+ 2.
    rewrite /A /B; rfield.
  by rewrite cs subrr mul0r.
move: A B key => A B key; split.
  have WT : (wedge v)^T = - wedge v.
    by apply/matrixP=> i j; rewrite /wedge !mxE; case: i => [[|[|[|//]]] ?]; case: j => [[|[|[|//]]] ?] /=; rewrite ?opprK ?oppr0.
  have -> : (1%:M + A *: wedge v + B *: (wedge v *m wedge v))^T = 1%:M - A *: wedge v + B *: (wedge v *m wedge v).
    rewrite !linearD !linearZ /= trmx_mul trmx1 WT mulmxN mulNmx opprK scalerN //.
  have := wedge_cube v; rewrite -/t; set W := wedge v => W3.
  have -> : (1%:M + A *: W + B *: (W *m W)) *m (1%:M - A *: W + B *: (W *m W)) = 1%:M + (2%:R * B - A ^+ 2 - t ^+ 2 * B ^+ 2) *: (W *m W).
    rewrite !mulmxDl !mulmxDr !mul1mx !mulmx1 -!scalemxAl !mulmxN -!scalemxAr !mulmxA W3 -!scalemxAl.
    move: (W *m W) => X; apply/matrixP => i j; rewrite !mxE; move: (_ *+ (i == j)) => d; rng.
  by rewrite key scale0r addr0.
rewrite det3 /wedge !mxE ?big_ord_recl ?big_ord0 ?mxE /=.
rewrite !(atE v) ord31 ord32 /= /bump /= ?addn0; change (1 + 1)%N with 2%N.
have := norm2_sq v; rewrite !big_ord_recl big_ord0 -/t !(atE v) /= /bump /= ?addn0; change (1 + 1)%N with 2%N.
move: (at_ v 0 0) (at_ v 1 0) (at_ v 2 0) => x y z tE.
transitivity (1 - t ^+ 2 * (2%:R * B - A ^+ 2 - t ^+ 2 * B ^+ 2)); last by rewrite key mulr0 subr0.
rewrite tE; rng.
Qed.
Lemma flowE0 om : flowE om 0 = 1%:M. Proof. by rewrite /flowE scale0r so3Exp0. Qed.
Lemma flowJ0 om : flowJ om 0 = 0. Proof. by rewrite /flowJ scale0r. Qed.
Lemma flowN0 om : flowN om 0 = 0.
Proof.
rewrite /flowN; case: ifP => [_|/negbT o0]; first by rewrite expr2 !mul0r [0%:M]raddf0.
by rewrite -(N_line o0 (tol := 0)) ?expr2 ?mul0r ?scale0r //; left.
Qed.

(** *** the continuous-time model of the class docstring (imu.py:482-493), constant readings *)
Definition imu_ode (g om a : 'cV[R]_3) (C : R -> 'M[R]_3) (v r : R -> 'cV[R]_3) : Prop := forall t,
  [/\ is_mderiv (fun h => C (t + h)) (C t *m wedge om),
      is_mderiv (fun h => v (t + h)) (C t *m a + g) & is_mderiv (fun h => r (t + h)) (v t)].

Lemma wedgeT (v : 'cV[R]_3) : (wedge v)^T = - wedge v.
Proof. by apply/matrixP=> i j; rewrite /wedge !mxE; case: i => [[|[|[|//]]] ?]; case: j => [[|[|[|//]]] ?] /=; rewrite ?opprK ?oppr0. Qed.
Lemma attitude_unique om (C : R -> 'M[R]_3) : (forall t, is_mderiv (fun h => C (t + h)) (C t *m wedge om)) ->
  forall t, C t = C 0 *m flowE om t.
Proof.
move=> H t.
have D : C t *m (flowE om t)^T = C 0.
  rewrite (@mconst_of_deriv _ _ (fun t => C t *m (flowE om t)^T)) ?flowE0 ?trmx1 ?mulmx1 // => {}t.
  have := mderivM (H t) (mderivT (flowE_deriv om t)); rewrite addr0 trmx_mul wedgeT mulNmx mulmxN !mulmxA subrr.
  by [].
by rewrite -D -mulmxA (mulmx1C (proj1 (so3_rot _))) mulmx1.
Qed.
(** the closed form of the flow *)
Definition flow_v g om a C0 v0 (t : R) : 'cV[R]_3 := v0 + t *: g + C0 *m (flowJ om t *m a).
Definition flow_r g om a C0 v0 r0 (t : R) : 'cV[R]_3 := r0 + t *: v0 + (t ^+ 2 / 2%:R) *: g + C0 *m (flowN om t *m a).
Lemma flow_v_deriv g om a C0 v0 t : is_mderiv (fun h => flow_v g om a C0 v0 (t + h)) (C0 *m flowE om t *m a + g).
Proof.
have := mderivD (mderivD (mderiv_const v0) (mderiv_sc g (shift_deriv t))) (mderivMl C0 (mderivMr a (flowJ_deriv om t))).
by rewrite add0r scale1r mulmxA addrC.
Qed.
Lemma flow_r_deriv g om a C0 v0 r0 t : is_mderiv (fun h => flow_r g om a C0 v0 r0 (t + h)) (flow_v g om a C0 v0 t).
Proof.
have := mderivD (mderivD (mderivD (mderiv_const r0) (mderiv_sc v0 (shift_deriv t))) (mderiv_sc g (sq_deriv t))) (mderivMl C0 (mderivMr a (flowN_deriv om t))).
by rewrite add0r scale1r.
Qed.
Lemma flow_ode g om a C0 v0 r0 : imu_ode g om a (fun t => C0 *m flowE om t) (flow_v g om a C0 v0) (flow_r g om a C0 v0 r0).
Proof.
move=> t; split; [|exact: flow_v_deriv|exact: flow_r_deriv].
by rewrite -mulmxA; apply: mderivMl; exact: flowE_deriv.
Qed.
Lemma ode_unique g om a C v r : imu_ode g om a C v r -> forall t,
  [/\ C t = C 0 *m flowE om t, v t = flow_v g om a (C 0) (v 0) t & r t = flow_r g om a (C 0) (v 0) (r 0) t].
Proof.
move=> H; have HC := attitude_unique (fun t => let: And3 h _ _ := H t in h).
have Hv : forall t, v t = flow_v g om a (C 0) (v 0) t.
  apply: (@same_deriv _ _ v _ (fun t => C 0 *m flowE om t *m a + g)).
  - by move=> t; have [_ h _] := H t; rewrite HC in h.
  - by move=> t; exact: flow_v_deriv.
  - by rewrite /flow_v flowJ0 mul0mx mulmx0 scale0r !addr0.
move=> t; split=> //; move: t; apply: (@same_deriv _ _ r _ (fun t => flow_v g om a (C 0) (v 0) t)).
- by move=> t; have [_ _ h] := H t; rewrite Hv in h.
- by move=> t; exact: flow_r_deriv.
- by rewrite /flow_r flowN0 mul0mx mulmx0 expr2 !mul0r !scale0r !addr0.
Qed.

Lemma wedge_eq0 (v : 'cV[R]_3) : wedge v = 0 -> v = 0.
Proof.
move=> /matrixP h; apply/matrixP => i k; rewrite ord1 [RHS]mxE.
have := (h 2%:R 1, h 0 2%:R, h 1 0); rewrite /wedge !mxE /= !(atE v) ord31 ord32 /= => -[[h1 h2] h3].
by case: i => [[|[|[|//]]] ?].
Qed.
Section Kin.
Notation RF := [realFieldType of R].
Variables (tol : R) (g : 'cV[R]_3).
Hypothesis tol0 : 0 < tol.
(** the corrected readings: what get_unbiased_imu returns *)
Definition gyro_of (x : imu_state RF) (u : imu RF) : 'cV[R]_3 := im_gyro u - is_bg x.
Definition accel_of (x : imu_state RF) (u : imu RF) : 'cV[R]_3 := im_accel u - is_ba x.

Lemma eval_flow (x : imu_state RF) (u : imu RF) dt C0 v0 r0 :
  is_pose x = ie3 C0 v0 r0 0 -> no_band tol (gyro_of x u) dt ->
  is_pose (imu_eval tol g x u dt) = ie3 (C0 *m flowE (gyro_of x u) dt) (flow_v g (gyro_of x u) (accel_of x u) C0 v0 dt)
                                        (flow_r g (gyro_of x u) (accel_of x u) C0 v0 r0 dt) 0.
Proof.
move=> hx hb; rewrite /imu_eval /imu_evaluate /= hx /G_matrix /U_matrix -/(gyro_of x u) -/(accel_of x u).
rewrite !ie3M !mul1mx addr0 scale0r addr0 /flow_v /flow_r -(N_flow tol0 hb) /flowJ /flowE; congr ie3.
- by rewrite -scalemxAl addrC.
- rewrite -scalemxAl [dt *: (v0 + _)]scalerDr scaleNr [dt *: (dt *: g)]scalerA; move: (C0 *m _) => X.
  have -> : dt * dt = dt ^+ 2 / 2%:R + dt ^+ 2 / 2%:R by rewrite -mulrDl -mulr2n -[_ *+ 2]mulr_natr mulfK ?pnatr_eq0.
  rewrite scalerDl; move: (_ *: g) (_ *: v0) => y z; zmod.
- by rewrite addNr.
Qed.

(** C81: whatever attitude, velocity and position trajectories solve the documented
    continuous-time equations for readings held constant over the step, starting at the given
    state, evaluate returns their values at dt.  The only exception is a rotation angle that is
    nonzero but below pymlg's small-angle tolerance (see C81_small_angle_refuted). *)
Theorem C81_exact_solution (x : imu_state RF) (u : imu RF) (dt : R) C v r :
  is_pose x = ie3 (C 0) (v 0) (r 0) 0 -> imu_ode g (gyro_of x u) (accel_of x u) C v r ->
  dt *: gyro_of x u = 0 \/ tol <= norm2 (dt *: gyro_of x u) ->
  is_pose (imu_eval tol g x u dt) = ie3 (C dt) (v dt) (r dt) 0.
Proof. by move=> hx H hb; rewrite (eval_flow hx hb); have [-> -> ->] := ode_unique H dt. Qed.
(** attitude and velocity are exact for every dt *)
Theorem C81_attitude_velocity (x : imu_state RF) (u : imu RF) (dt : R) C v r :
  is_pose x = ie3 (C 0) (v 0) (r 0) 0 -> imu_ode g (gyro_of x u) (accel_of x u) C v r ->
  ie3_C (is_pose (imu_eval tol g x u dt)) = C dt /\ ie3_a (is_pose (imu_eval tol g x u dt)) = v dt.
Proof.
move=> hx H; have [-> -> _] := ode_unique H dt.
rewrite /imu_eval /imu_evaluate /= hx /G_matrix /U_matrix -/(gyro_of x u) -/(accel_of x u).
rewrite !ie3M !mul1mx !ie3E; split=> //.
by rewrite /flow_v /flowJ -scalemxAl addrC.
Qed.
(** such trajectories exist, are unique, and keep the attitude a rotation *)
Theorem C81_solution_exists (om a : 'cV[R]_3) (C0 : 'M[R]_3) (v0 r0 : 'cV[R]_3) : exists C v r,
  [/\ imu_ode g om a C v r, [/\ C 0 = C0, v 0 = v0 & r 0 = r0], rot C0 -> forall t, rot (C t) &
      forall C' v' r', imu_ode g om a C' v' r' -> [/\ C' 0 = C0, v' 0 = v0 & r' 0 = r0] ->
        forall t, [/\ C' t = C t, v' t = v t & r' t = r t]].
Proof.
exists (fun t => C0 *m flowE om t), (flow_v g om a C0 v0), (flow_r g om a C0 v0 r0); split.
- exact: flow_ode.
- rewrite flowE0 mulmx1 /flow_v /flow_r flowJ0 flowN0 !mul0mx !mulmx0 expr2 !mul0r !scale0r !addr0.
  by split.
- by move=> h t; apply: rotM => //; exact: so3_rot.
- by move=> C' v' r' H [<- <- <-] t; exact: ode_unique.
Qed.
Lemma ode_shift om a C v r s : imu_ode g om a C v r -> imu_ode g om a (fun t => C (s + t)) (fun t => v (s + t)) (fun t => r (s + t)).
Proof. by move=> H t; have [h1 h2 h3] := H (s + t); split; [move: h1|move: h2|move: h3]; apply: eq_mderiv => h; rewrite addrA. Qed.
(** two steps with the same readings equal one step over the total time *)
Theorem C81_split_step (x : imu_state RF) (u : imu RF) (s t : R) C0 v0 r0 : is_pose x = ie3 C0 v0 r0 0 ->
  (forall d, d \in [:: s; t; s + t] -> no_band tol (gyro_of x u) d) ->
  odflt 0 (im_gwalk u) = 0 -> odflt 0 (im_awalk u) = 0 ->
  imu_eval tol g (imu_eval tol g x u s) u t = imu_eval tol g x u (s + t).
Proof.
move=> hx hb w1 w2.
have [C [v [r [H [e1 e2 e3] _ _]]]] := C81_solution_exists (gyro_of x u) (accel_of x u) C0 v0 r0.
have hx' : is_pose x = ie3 (C 0) (v 0) (r 0) 0 by rewrite e1 e2 e3.
have P d : d \in [:: s; t; s + t] -> is_pose (imu_eval tol g x u d) = ie3 (C d) (v d) (r d) 0.
  by move=> hd; apply: C81_exact_solution hx' H _; exact: hb.
have bg y d : is_bg (imu_eval tol g y u d) = is_bg y by rewrite /= w1 scaler0 addr0.
have ba y d : is_ba (imu_eval tol g y u d) = is_ba y by rewrite /= w2 scaler0 addr0.
set x1 := imu_eval tol g x u s.
have G1 : gyro_of x1 u = gyro_of x u by rewrite /gyro_of /x1 bg.
have A1 : accel_of x1 u = accel_of x u by rewrite /accel_of /x1 ba.
have P2 : is_pose (imu_eval tol g x1 u t) = ie3 (C (s + t)) (v (s + t)) (r (s + t)) 0.
  apply: (C81_exact_solution (C := fun t => C (s + t)) (v := fun t => v (s + t)) (r := fun t => r (s + t))).
  - by rewrite addr0 /x1 P // !inE eqxx.
  - by rewrite G1 A1; exact: ode_shift.
  - by rewrite G1; apply: hb; rewrite !inE eqxx orbT.
have st : s + t \in [:: s; t; s + t] by rewrite !inE eqxx !orbT.
rewrite -(P _ st) in P2.
have eta (y : imu_state RF) : y = ImuState (is_pose y) (is_bg y) (is_ba y) by case: y.
by rewrite [LHS]eta [RHS]eta P2 !bg !ba.
Qed.

(** the small-angle branch of N_matrix returns the identity, its value at angle zero: for every
    gyro reading and step with a nonzero rotation angle below the tolerance, there are
    accelerometer readings for which the position is not the exact one *)
Theorem C81_small_angle_refuted (x : imu_state RF) (u : imu RF) (dt : R) C0 v0 r0 : is_pose x = ie3 C0 v0 r0 0 -> rot C0 ->
  dt *: gyro_of x u != 0 -> norm2 (dt *: gyro_of x u) < tol ->
  exists acc, let u' := Imu (im_gyro u) acc (im_stamp u) (im_gwalk u) (im_awalk u) in
  forall C v r, [/\ C 0 = C0, v 0 = v0 & r 0 = r0] -> imu_ode g (gyro_of x u') (accel_of x u') C v r ->
    ie3_b (is_pose (imu_eval tol g x u' dt)) <> r dt.
Proof.
move=> hx rC0; set om := gyro_of x u; rewrite scaler_eq0 negb_or => /andP[dt0 om0] small.
set w := norm2 om; have w0 : w != 0 by rewrite norm2_eq0.
set W := wedge om; set D := s3 w dt *: W + s4 w dt *: (W *m W).
have s30 : s3 w dt != 0.
  rewrite /s3 mulf_neq0 ?invr_eq0 ?expf_neq0 // subr_eq0 /s1; apply/eqP => h.
  have {}h : dt * w = sin (dt * w) by rewrite {1}h mulfVK.
  move: (dt * w) (mulf_neq0 dt0 w0) h => y /eqP y0 h.
  case: (Rtotal_order y R0) => [h1|[//|h1]]; last by have := sin_lt_x y h1; rewrite -h; exact: Rlt_irrefl.
  have p : Rlt R0 (Ropp y) by apply: Ropp_0_gt_lt_contravar.
  by have := sin_lt_x _ p; rewrite sin_neg -h; exact: Rlt_irrefl.
have W0 : W != 0.
  by apply: contra om0 => /eqP/wedge_eq0 ->.
have D0 : D != 0.
  apply/eqP => h; have /eqP : D - D^T = 0 by rewrite h trmx0 subrr.
  have -> : D - D^T = (s3 w dt *+ 2) *: W.
    rewrite /D linearD /= !linearZ /= trmx_mul wedgeT -/W mulNmx mulmxN opprK scalerN.
    by rewrite opprD opprK addrACA subrr addr0 -scalerDl mulr2n.
  by rewrite scaler_eq0 (negbTE W0) orbF -mulr_natr mulf_eq0 (negbTE s30) pnatr_eq0.
have [i [j Dij]] := matrix0Pn D D0.
exists (is_ba x + delta_mx j 0) => u' C v r [e1 e2 e3] H.
have [_ _ ->] := ode_unique H dt; rewrite e1 e2 e3 {H}/u'.
rewrite /imu_eval /imu_evaluate /= hx /G_matrix /U_matrix /gyro_of /accel_of /= -/(gyro_of x u) -/om.
rewrite !ie3M !mul1mx ie3E /flow_r /N_matrix small /flowN (negbTE om0) mul1mx.
set a := is_ba x + _ - _; have aE : a = delta_mx j 0 by rewrite /a addrC addKr.
rewrite scale0r addr0 [dt *: (v0 + _)]scalerDr [dt *: (dt *: g)]scalerA scaleNr.
have -> : dt * dt = dt ^+ 2 / 2%:R + dt ^+ 2 / 2%:R by rewrite -mulrDl -mulr2n -[_ *+ 2]mulr_natr mulfK ?pnatr_eq0.
have -> : Nline om dt = (dt ^+ 2 / 2%:R)%:M + D by rewrite /Nline /D addrA.
rewrite scalerDl mulmxDl mul_scalar_mx mulmxDr aE.
move: (C0 *m (_ *: delta_mx _ _)) (_ *: v0) (_ *: g) => X y z h.
have : C0 *m (D *m (delta_mx j 0 : 'cV[R]_3)) = 0.
  move: (C0 *m _) h => Z h; apply: (@addrI _ (r0 + y + z + X)); rewrite addr0 -[LHS]addrA -h; zmod.
move/(congr1 (mulmx C0^T)); rewrite mulmxA (mulmx1C (proj1 rC0)) mul1mx mulmx0 => /matrixP /(_ i 0).
rewrite -colE [RHS]mxE [LHS]mxE => e; by rewrite e eqxx in Dij.
Qed.
End Kin.

(** a half turn per second about z while accelerating along body x, from the origin at rest: after
    one second the velocity and the position are those of the exact motion, computed by hand *)
Definition e3 (k : nat) : 'cV[[realFieldType of R]]_3 := \col_i (i == k :> nat)%:R.
Definition turn : imu [realFieldType of R] := Imu (PI *: e3 2) (e3 0) 0 None None.
Definition rest : imu_state [realFieldType of R] := ImuState (ie3 1%:M 0 0 0) 0 0.
Lemma norm_e2 : norm2 (PI *: e3 2) = PI.
Proof.
rewrite norm2Z /norm2 !big_ord_recl big_ord0 !mxE /= expr0n expr1n /= addr0 !add0r sqrtr1 mulr1.
by rewrite ger0_norm //; apply/RleP; left; exact: PI_RGT_0.
Qed.
Lemma half_turn_hyps : no_band 1 (gyro_of rest turn) 1 /\ no_band 1 (gyro_of rest turn) (1 + 1).
Proof.
have p1 : (1 <= PI)%R by apply/RleP; have := PI2_3_2; rewrite R1E; lra.
rewrite /gyro_of /= subr0; split; right.
  by rewrite scale1r norm_e2.
rewrite norm2Z norm_e2 ger0_norm; last by rewrite addr_ge0 ?ler01.
by move/RleP: p1 => p1; apply/RleP; rewrite R1E in p1 *; rewrite RmulE RaddE; lra.
Qed.
Lemma w20 : wedge (e3 2) *m e3 0 = e3 1.
Proof. by apply/matrixP=> i j; rewrite /wedge !mxE !big_ord_recl !big_ord0 !mxE /=; case: i => [[|[|[|//]]] ?] /=; rng. Qed.
Lemma w21 : wedge (e3 2) *m e3 1 = - e3 0.
Proof. by apply/matrixP=> i j; rewrite /wedge !mxE !big_ord_recl !big_ord0 !mxE /=; case: i => [[|[|[|//]]] ?] /=; rng. Qed.
Lemma cosPI : cos PI = -1 :> R. Proof. by rewrite cos_PI. Qed.
Lemma sinPI : sin PI = 0 :> R. Proof. by rewrite sin_PI. Qed.
Example C81_half_turn : let y := is_pose (imu_eval 1 0 rest turn 1) in
  [/\ ie3_C y *m e3 0 = - e3 0, ie3_a y = (2%:R / PI) *: e3 1 & ie3_b y = (2%:R / PI ^+ 2) *: e3 0 + PI^-1 *: e3 1].
Proof.
have [hb _] := half_turn_hyps.
have p0 : PI != 0 :> R by apply/eqP; exact: PI_neq0.
have o0 : PI *: e3 2 != 0 by rewrite -norm2_eq0 norm_e2.
move=> y; rewrite {}/y (@eval_flow 1 0 ltr01 rest turn 1 1%:M 0 0 (erefl _) hb) !ie3E /flow_v /flow_r /gyro_of /accel_of.
rewrite [is_bg rest]/(0) [is_ba rest]/(0) [im_gyro turn]/(PI *: e3 2) [im_accel turn]/(e3 0) !subr0.
rewrite !mul1mx !scaler0 !addr0 !add0r /flowE exp_line // /flowJ J_line // /flowN (negbTE o0) /Eline /Jline /Nline norm_e2.
rewrite /s4 /s3 /s2 /s1 !mul1r sinPI !mul0r subr0.
rewrite !mulmxDl !mul_scalar_mx ?mul1mx -!scalemxAl -!mulmxA !wedgeZ -!scalemxAl !w20 -!scalemxAr !w21 !scale0r !scalerN !scalerA addr0.
have c : (1 - cos PI) = 2%:R :> R by rewrite cosPI opprK.
rewrite !c; set x := e3 0; set y := e3 1.
have -> : 2%:R / PI ^+ 2 * PI * PI = 2%:R :> R by rfield.
have -> : 2%:R / PI ^+ 2 * PI = 2%:R / PI :> R by rfield.
have -> : 1 / PI ^+ 2 * PI = PI^-1 :> R by rfield.
have -> : (1 ^+ 2 / 2%:R - 2%:R / PI ^+ 2) / PI ^+ 2 * PI * PI = 2%:R^-1 - 2%:R / PI ^+ 2 :> R by rfield.
rewrite -[\col__ _]/x mulVf // !scale1r expr1n mul1r; split.
- by rewrite scaler_nat mulr2n opprD addrA subrr add0r.
- by rewrite addrAC subrr add0r.
- rewrite scalerBl; move: (_ *: x) (_ *: x) (_ *: y) => a b d; zmod.
Qed.

Print Assumptions C81_exact_solution.
Print Assumptions C81_small_angle_refuted.
