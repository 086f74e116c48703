(** C82: the Jacobians of the IMU kinematics.  L_matrix is the derivative of the propagated pose
    with respect to the readings in every block but one: position with respect to gyro. *)
From Coq Require Import Reals Lra.
From mathcomp Require Import all_ssreflect all_algebra.
From Verif Require Import Base Tac LinAlg Deriv RealStruct RealTrig RealProps EkfModel PreintModel PreintProps ImuModel ImuProps So3Model So3Props So3Jac.
Set Implicit Arguments.
Unset Strict Implicit.
Unset Printing Implicit Defensive.
Import Order.Theory GRing.Theory Num.Theory.
Local Open Scope ring_scope.
Bind Scope ring_scope with Rdefinitions.R.
Local Notation R := Rdefinitions.R.
Notation M5 := 'M[R]_(3 + (1 + 1)).

(** SE23.Exp: the exponential of SE_2(3), from that of SO(3) and its left Jacobian *)
Definition se23Exp (xi : 'cV[R]_n9) : M5 :=
  let phi := usubmx xi in
  ie3 (so3Exp phi) (so3Jl phi *m usubmx (dsubmx xi)) (so3Jl phi *m dsubmx (dsubmx xi)) 0.
(** J is the right Jacobian of the exponential at xi: Exp (xi + h d) = Exp xi Exp (h J d) to first
    order; SE23.left_jacobian (- xi) is meant to be that *)
Definition right_jac_at (xi : 'cV[R]_n9) (J : 'M[R]_n9) : Prop := forall d : 'cV[R]_n9,
  is_mderiv (fun h => se23Exp (xi + h *: d)) (se23Exp xi *m wedge9 (J *m d)).

Lemma col_split m n (x : 'cV[R]_m) (y : 'cV[R]_n) : col_mx x y = col_mx x 0 + col_mx 0 y.
Proof. by rewrite add_col_mx addr0 add0r. Qed.
Lemma usD m n (x y : 'cV[R]_(m + n)) h : usubmx (x + h *: y) = usubmx x + h *: usubmx y.
Proof. by rewrite linearD linearZ. Qed.
Lemma dsD m n (x y : 'cV[R]_(m + n)) h : dsubmx (x + h *: y) = dsubmx x + h *: dsubmx y.
Proof. by rewrite linearD linearZ. Qed.
Lemma ie3_wedge9 (C : 'M[R]_3) a b c (y : 'cV[R]_n9) :
  ie3 C a b c *m wedge9 y = block_mx (C *m wedge (usubmx y)) (row_mx (C *m usubmx (dsubmx y)) (C *m dsubmx (dsubmx y))) 0 0.
Proof. by rewrite /ie3 /wedge9 mulmx_block !mulmx0 !mul0mx !addr0 mul_mx_row. Qed.
Lemma mderiv_C (F : R -> M5) D : is_mderiv F D -> is_mderiv (fun h => ie3_C (F h)) (ie3_C D).
Proof. exact: mderiv_ul. Qed.
Lemma mderiv_a (F : R -> M5) D : is_mderiv F D -> is_mderiv (fun h => ie3_a (F h)) (ie3_a D).
Proof. by move=> H; apply: mderiv_l; apply: mderiv_ur. Qed.
Lemma mderiv_b (F : R -> M5) D : is_mderiv F D -> is_mderiv (fun h => ie3_b (F h)) (ie3_b D).
Proof. by move=> H; apply: mderiv_r; apply: mderiv_ur. Qed.
Lemma ie3_Cw (C : 'M[R]_3) a b c (y : 'cV[R]_n9) : ie3_C (ie3 C a b c *m wedge9 y) = C *m wedge (usubmx y).
Proof. by rewrite ie3_wedge9 /ie3_C block_mxKul. Qed.
Lemma ie3_aw (C : 'M[R]_3) a b c (y : 'cV[R]_n9) : ie3_a (ie3 C a b c *m wedge9 y) = C *m usubmx (dsubmx y).
Proof. by rewrite ie3_wedge9 /ie3_a block_mxKur row_mxKl. Qed.
Lemma ie3_bw (C : 'M[R]_3) a b c (y : 'cV[R]_n9) : ie3_b (ie3 C a b c *m wedge9 y) = C *m dsubmx (dsubmx y).
Proof. by rewrite ie3_wedge9 /ie3_b block_mxKur row_mxKr. Qed.
Lemma rot_cancel n C (A : 'M[R]_(3, n)) : rot C -> C *m A = 0 -> A = 0.
Proof. by move=> [h _] /(congr1 (mulmx C^T)); rewrite mulmxA (mulmx1C h) mul1mx mulmx0. Qed.
(** a change of the position coordinates leaves attitude and velocity alone *)
Lemma rj_pos x0 J (z : 'cV[R]_3) : right_jac_at x0 J -> usubmx (J *m col_mx 0 (col_mx 0 z)) = 0 /\ usubmx (dsubmx (J *m col_mx 0 (col_mx 0 z))) = 0.
Proof.
move=> H; have := H (col_mx 0 (col_mx 0 z)).
have E h : x0 + h *: col_mx 0 (col_mx 0 z) = col_mx (usubmx x0) (col_mx (usubmx (dsubmx x0)) (dsubmx (dsubmx x0) + h *: z)).
  by rewrite -{1}[x0]vsubmxK -{1}[dsubmx x0]vsubmxK !scale_col_mx !scaler0 !add_col_mx !addr0.
move=> D; split.
  have := mderiv_C D; rewrite ie3_Cw => DC.
  have : is_mderiv (fun h => ie3_C (se23Exp (x0 + h *: col_mx 0 (col_mx 0 z)))) 0.
    by apply: eq_mderiv (mderiv_const (so3Exp (usubmx x0))) => h; rewrite E /se23Exp col_mxKu ie3E.
  by move/(mderiv_uniq DC)/(rot_cancel (so3_rot _))/wedge_eq0.
have := mderiv_a D; rewrite ie3_aw => DC.
have : is_mderiv (fun h => ie3_a (se23Exp (x0 + h *: col_mx 0 (col_mx 0 z)))) 0.
  by apply: eq_mderiv (mderiv_const (so3Jl (usubmx x0) *m usubmx (dsubmx x0))) => h; rewrite E /se23Exp !col_mxKu col_mxKd col_mxKu ie3E.
by move/(mderiv_uniq DC)/(rot_cancel (so3_rot _)).
Qed.

Section L.
Variables (tol : R) (so3Jlinv : 'cV[R]_3 -> 'M[R]_3) (seJl : 'cV[R]_n9 -> 'M[R]_n9).
Notation L := (L_matrix tol so3Jlinv seJl).
Notation U := (U_matrix so3Exp so3Jl (N_matrix tol)).
Notation xi := (L_xi tol so3Jlinv).

Lemma U_exp om a dt : so3Jl (dt *: om) *m so3Jlinv (dt *: om) = 1%:M ->
  U om a dt = delta_matrix dt *m se23Exp (xi om a dt).
Proof.
move=> h; rewrite /delta_matrix /se23Exp /L_xi !col_mxKu !col_mxKd !col_mxKu ie3M !mul1mx scale0r !addr0 /U_matrix.
by rewrite -!scalemxAr !mulmxA h mul1mx.
Qed.
Lemma Up_accel om a dt w h : xi om (a + h *: w) dt = xi om a dt + h *: (L_Up tol so3Jlinv om a dt *m col_mx 0 w).
Proof.
rewrite /L_Up mul_block_col !mulmx0 !add0r mul_col_mx mul0mx mul_scalar_mx /L_xi.
rewrite scale_col_mx scaler0 scale_col_mx add_col_mx addr0 add_col_mx; congr col_mx; congr col_mx.
  by rewrite scalerDr !scalerA [dt * h]mulrC.
by rewrite mulmxDr scalerDr -!scalemxAl -!scalemxAr !scalerA [_ * h]mulrC.
Qed.
(** C82: all rows of the accelerometer columns are exact *)
Theorem C82_accelerometer_columns om a dt (w : 'cV[R]_3) : so3Jl (dt *: om) *m so3Jlinv (dt *: om) = 1%:M ->
  right_jac_at (xi om a dt) (seJl (- xi om a dt)) ->
  is_mderiv (fun h => U om (a + h *: w) dt) (U om a dt *m wedge9 (L om a dt *m col_mx 0 w)).
Proof.
move=> hj hr; have := mderivMl (delta_matrix dt) (hr (L_Up tol so3Jlinv om a dt *m col_mx 0 w)).
have E := U_exp a hj; rewrite E.
rewrite /L_matrix -[in X in _ -> X]mulmxA -[in X in _ -> X]mulmxA.
by apply: eq_mderiv => h; rewrite -Up_accel -(U_exp _ hj).
Qed.
Lemma Up_gyro om a dt (w : 'cV[R]_3) : L_Up tol so3Jlinv om a dt *m col_mx w 0 = col_mx (dt *: w) (col_mx 0 (Up_rg om a dt *m w)).
Proof. by rewrite /L_Up mul_block_col !mulmx0 !addr0 mul_col_mx mul0mx mul_scalar_mx. Qed.
(** C82: attitude and velocity rows of the gyro columns are exact *)
Theorem C82_gyro_attitude_velocity om a dt (w : 'cV[R]_3) :
  right_jac_at (xi om a dt) (seJl (- xi om a dt)) ->
  let D := U om a dt *m wedge9 (L om a dt *m col_mx w 0) in
  is_mderiv (fun h => ie3_C (U (om + h *: w) a dt)) (ie3_C D) /\ is_mderiv (fun h => ie3_a (U (om + h *: w) a dt)) (ie3_a D).
Proof.
move=> hr D; rewrite {}/D /L_matrix -mulmxA Up_gyro.
set x0 := xi om a dt in hr *; set J := seJl _ in hr *.
have hd := hr (col_mx (dt *: w) 0).
have [z1 z2] := rj_pos (Up_rg om a dt *m w) hr.
rewrite (col_split (dt *: w)) mulmxDr.
have E h : x0 + h *: col_mx (dt *: w) 0 = col_mx (dt *: (om + h *: w)) (dsubmx x0).
  by rewrite /x0 /L_xi scale_col_mx scaler0 add_col_mx addr0 col_mxKd scalerDr !scalerA [h * dt]mulrC.
have u0 : usubmx x0 = dt *: om by rewrite /x0 /L_xi col_mxKu.
rewrite /U_matrix !ie3_Cw !ie3_aw !linearD /= z1 z2 ?mulmx0 ?wedge0 ?mulmx0 !addr0; split.
  have := mderiv_C hd; rewrite /se23Exp ie3_Cw u0; apply: eq_mderiv => h.
  by rewrite E !ie3E col_mxKu.
have := mderiv_a hd; rewrite /se23Exp ie3_aw u0; apply: eq_mderiv => h.
by rewrite E !ie3E col_mxKu col_mxKd /x0 /L_xi col_mxKd col_mxKu -scalemxAr.
Qed.

(** at rest (zero angular velocity) the position row of the gyro columns is 5/24 dt^3 (w x a) ... *)
Hypothesis tol0 : 0 < tol.
Lemma N_rest : N_matrix tol 0 = 1%:M. Proof. by rewrite /N_matrix norm20 tol0. Qed.
Lemma L_rest a dt (w : 'cV[R]_3) : so3Jlinv 0 = 1%:M -> right_jac_at (xi 0 a dt) (seJl (- xi 0 a dt)) ->
  ie3_b (U 0 a dt *m wedge9 (L 0 a dt *m col_mx w 0)) = (5%:R / 24%:R * dt ^+ 3) *: (wedge w *m a).
Proof.
move=> hj hr; rewrite /U_matrix ie3_bw /L_matrix -mulmxA Up_gyro (col_split (dt *: w)) mulmxDr !linearD /=.
set x0 := xi 0 a dt in hr *; set J := seJl _ in hr *.
have u0 : usubmx x0 = 0 by rewrite /x0 /L_xi col_mxKu scaler0.
have r0 : dsubmx (dsubmx x0) = (dt ^+ 2 / 2%:R) *: a by rewrite /x0 /L_xi !col_mxKd !scaler0 hj N_rest !mul1mx.
rewrite scaler0 so3Exp0 !mul1mx.
have -> : dsubmx (dsubmx (J *m col_mx (dt *: w) 0)) = (dt / 2%:R) *: (wedge w *m ((dt ^+ 2 / 2%:R) *: a)).
  have := mderiv_b (hr (col_mx (dt *: w) 0)); rewrite /se23Exp ie3_bw u0 so3Exp0 mul1mx => D.
  apply: (mderiv_uniq D); have := mderivMr ((dt ^+ 2 / 2%:R) *: a) (Jl0_deriv (dt *: w)).
  rewrite wedgeZ scalerA -scalemxAl [_ * dt]mulrC; apply: eq_mderiv => h.
  by rewrite ie3E !(usD, dsD) u0 r0 !col_mxKu !col_mxKd !raddf0 addr0 add0r.
have -> : dsubmx (dsubmx (J *m col_mx 0 (col_mx 0 (Up_rg 0 a dt *m w)))) = Up_rg 0 a dt *m w.
  have := mderiv_b (hr (col_mx 0 (col_mx 0 (Up_rg 0 a dt *m w)))); rewrite /se23Exp ie3_bw u0 so3Exp0 mul1mx => D.
  apply: (mderiv_uniq D); have := mderivD (mderiv_const (dsubmx (dsubmx x0))) (mderiv_lin (Up_rg 0 a dt *m w)).
  rewrite add0r; apply: eq_mderiv => h.
  by rewrite ie3E !(usD, dsD) u0 r0 !col_mxKu !col_mxKd !scaler0 addr0 so3Jl0 mul1mx.
rewrite /Up_rg scaler0 wedge0 !mul0mx add0r wedge0 addr0 scaler0 sub0r scalerN -!scalemxAr -scaleNr -!scalemxAl !scalerA (wedge_anti a w) scalerN -scaleNr -scalerDl.
congr (_ *: _); rfield.
Qed.
(** ... while that of the exact kinematics is 1/6 dt^3 (w x a) *)
Lemma exact_rest (a : 'cV[R]_3) dt w :
  is_mderiv (fun h => ie3_b (U_matrix so3Exp so3Jl Nexact (h *: w) a dt)) ((dt ^+ 3 / 6%:R) *: (wedge w *m a)).
Proof.
have := mderivMl ((dt ^+ 2 / 2%:R)%:M) (mderivMr a (N0_deriv (dt *: w))).
rewrite mul_scalar_mx wedgeZ -!scalemxAl !scalerA (_ : _ * _ * dt = dt ^+ 3 / 6%:R); last by rfield.
by apply: eq_mderiv => h; rewrite mul_scalar_mx /U_matrix ie3E !scalerA [h * dt]mulrC.
Qed.
(** the derivative of the coded function: N_matrix is constant near zero *)
Lemma coded_rest (a : 'cV[R]_3) dt w : is_mderiv (fun h => ie3_b (U (h *: w) a dt)) 0.
Proof.
set k := norm2 (dt *: w); have k1 : 0 < k + 1 by rewrite ltr_paddl ?ltr01 // norm2_ge0.
have loc h : `|h| < tol / (k + 1) -> ie3_b (U (h *: w) a dt) = ie3_b (U (0 *: w) a dt).
  move=> hh; have wE : dt *: (h *: w) = h *: (dt *: w) by rewrite !scalerA [dt * h]mulrC.
  have NE : norm2 (dt *: (h *: w)) = `|h| * k by rewrite wE norm2Z.
  rewrite /U_matrix !ie3E scale0r scaler0 N_rest /N_matrix NE; suff -> : `|h| * k < tol by [].
  move: hh; rewrite ltr_pdivl_mulr // => hh; apply: le_lt_trans hh.
  by rewrite ler_wpmul2l // ler_addl ler01.
move=> i j e e0; exists (tol / (k + 1)); first by rewrite divr_gt0.
move=> h /loc ->; have -> : (0 : 'cV[R]_3) i j = 0 by rewrite mxE.
by rewrite mulr0 subr0 subrr normr0 mulr_ge0 // ltW.
Qed.
(** C82: so the position row of the gyro columns is the derivative of neither *)
Theorem C82_gyro_position_refuted (a : 'cV[R]_3) dt w : so3Jlinv 0 = 1%:M -> right_jac_at (xi 0 a dt) (seJl (- xi 0 a dt)) ->
  dt != 0 -> wedge w *m a != 0 ->
  let claimed := ie3_b (U 0 a dt *m wedge9 (L 0 a dt *m col_mx w 0)) in
  [/\ claimed = (5%:R / 24%:R * dt ^+ 3) *: (wedge w *m a),
      is_mderiv (fun h => ie3_b (U_matrix so3Exp so3Jl Nexact (h *: w) a dt)) ((dt ^+ 3 / 6%:R) *: (wedge w *m a)),
      ~ is_mderiv (fun h => ie3_b (U_matrix so3Exp so3Jl Nexact (h *: w) a dt)) claimed &
      ~ is_mderiv (fun h => ie3_b (U (h *: w) a dt)) claimed].
Proof.
move=> hj hr dt0 wa0 c; have cE : c = _ := L_rest w hj hr; rewrite cE.
have d3 : dt ^+ 3 != 0 by rewrite expf_neq0.
split=> //; first exact: exact_rest.
- move/(mderiv_uniq (exact_rest a dt w))/eqP; rewrite -subr_eq0 -scalerBl scaler_eq0 (negbTE wa0) orbF.
  rewrite (_ : _ - _ = - (dt ^+ 3 / 24%:R)); last by rfield.
  by rewrite oppr_eq0 mulf_eq0 invr_eq0 (negbTE d3) pnatr_eq0.
- move/(mderiv_uniq (coded_rest a dt w))/esym/eqP; rewrite scaler_eq0 (negbTE wa0) orbF mulf_eq0 (negbTE d3) orbF.
  by rewrite mulf_eq0 invr_eq0 !pnatr_eq0.
Qed.
End L.

(** the right Jacobian exists: at zero rotation it is 1 - ad / 2 *)
Definition J_rest (nu rho : 'cV[R]_3) : 'M[R]_n9 :=
  block_mx 1%:M 0 (col_mx (- (2%:R^-1 *: wedge nu)) (- (2%:R^-1 *: wedge rho))) 1%:M.
Lemma Exp0_deriv (w : 'cV[R]_3) : is_mderiv (fun h => so3Exp (h *: w)) (wedge w).
Proof.
by have := flowE_deriv w 0; rewrite {2}/flowE scale0r so3Exp0 mul1mx; apply: eq_mderiv => h; rewrite /flowE add0r.
Qed.
Lemma mderiv_row m n1 n2 (A : R -> 'M[R]_(m, n1)) (B : R -> 'M[R]_(m, n2)) A' B' :
  is_mderiv A A' -> is_mderiv B B' -> is_mderiv (fun h => row_mx (A h) (B h)) (row_mx A' B').
Proof.
move=> hA hB i j; rewrite -[j]splitK; case: (split j) => j' /=.
- by rewrite row_mxEl; apply: eq_deriv (hA i j') => h; rewrite row_mxEl.
- by rewrite row_mxEr; apply: eq_deriv (hB i j') => h; rewrite row_mxEr.
Qed.
Lemma Jl_vec_deriv (d1 v d : 'cV[R]_3) : is_mderiv (fun h => so3Jl (h *: d1) *m (v + h *: d)) (- (2%:R^-1 *: wedge v) *m d1 + d).
Proof.
have := mderivM (Jl0_deriv d1) (mderivD (mderiv_const v) (mderiv_lin d)).
by rewrite !scale0r addr0 so3Jl0 mul1mx add0r mulNmx -!scalemxAl (wedge_anti v) scalerN opprK.
Qed.
Lemma J_rest_ok nu rho : right_jac_at (col_mx 0 (col_mx nu rho)) (J_rest nu rho).
Proof.
move=> d; rewrite -[d]vsubmxK -[dsubmx d]vsubmxK; move: (usubmx d) (usubmx (dsubmx d)) (dsubmx (dsubmx d)) => d1 d2 d3.
have E h : se23Exp (col_mx 0 (col_mx nu rho) + h *: col_mx d1 (col_mx d2 d3)) =
    ie3 (so3Exp (h *: d1)) (so3Jl (h *: d1) *m (nu + h *: d2)) (so3Jl (h *: d1) *m (rho + h *: d3)) 0.
  by rewrite !scale_col_mx !add_col_mx add0r /se23Exp !(col_mxKu, col_mxKd).
rewrite /se23Exp in E *; rewrite ie3_wedge9 !col_mxKu so3Exp0 !mul1mx.
rewrite /J_rest mul_block_col !mul1mx mul0mx addr0 mul_col_mx add_col_mx !(col_mxKu, col_mxKd).
apply: eq_mderiv (_ : is_mderiv (fun h => ie3 _ _ _ 0) _) => [h|]; first exact/esym/E.
by rewrite /ie3; apply: mderiv_block; [exact: Exp0_deriv|apply: mderiv_row; exact: Jl_vec_deriv|exact: mderiv_const|exact: mderiv_const].
Qed.

(** the right Jacobian exists at every point *)
Lemma mderivZ' m n (c : R -> R) l (F : R -> 'M[R]_(m, n)) L : is_deriv c l -> is_mderiv F L ->
  is_mderiv (fun t => c t *: F t) (l *: F 0 + c 0 *: L).
Proof. by move=> H H' i j; rewrite !mxE; apply: eq_deriv (derivM H (H' i j)) => t; rewrite mxE. Qed.
Lemma lin_matrix m n (f : 'cV[R]_n -> 'cV[R]_m) : (forall k x y, f (k *: x + y) = k *: f x + f y) ->
  exists J : 'M[R]_(m, n), forall x, J *m x = f x.
Proof.
move=> fL; have gL : linear (fun u : 'rV[R]_n => (f u^T)^T) by move=> k x y; rewrite !linearP /= fL !linearP.
exists (lin1_mx (Linear gL))^T => x; rewrite -[LHS]trmxK trmx_mul trmxK mul_rV_lin1 /= !trmxK //.
Qed.
Definition vee3 (W : 'M[R]_3) : 'cV[R]_3 := \col_i nth 0 [:: W 2%:R 1; W 0 2%:R; W 1 0] i.
Lemma wedge_vee3 (W : 'M[R]_3) : W^T = - W -> wedge (vee3 W) = W.
Proof.
move=> h; have E i j : W i j = - W j i by have /matrixP/(_ j i) := h; rewrite !mxE.
have D i : W i i = 0.
  have /eqP := E i i; rewrite -subr_eq0 opprK -mulr2n -mulr_natl mulf_eq0 pnatr_eq0 /= => /eqP //.
apply/matrixP => i j; rewrite !mxE /=.
have X (i1 j1 i2 j2 : 'I_3) : i1 = i2 -> j1 = j2 -> W i1 j1 = W i2 j2 by move=> -> ->.
by case: i => [[|[|[|//]]] hi]; case: j => [[|[|[|//]]] hj] /=; rewrite -?E; try (by apply: X; apply: val_inj);
  rewrite [RHS](_ : _ = 0) // (_ : Ordinal hi = Ordinal hj) ?D //; apply: val_inj.
Qed.
Lemma vee3_lin k A B : vee3 (k *: A + B) = k *: vee3 A + vee3 B.
Proof. by apply/matrixP => -[[|[|[|//]]] hi] j; rewrite /vee3 ![in LHS]mxE ![in RHS]mxE. Qed.
Section Radial.
Variable phi : 'cV[R]_3.
Hypothesis p0 : phi != 0.
Let t0 := norm2 phi.
Definition rad (d : 'cV[R]_3) : R := ((t0^-1 *: phi)^T *m d) 0 0.
Lemma rad_deriv d : is_deriv (fun h => norm2 (phi + h *: d)) (rad d).
Proof.
have e0 : phi + 0 *: d = phi by rewrite scale0r addr0.
have := @deriv_norm2 _ _ (fun h => phi + h *: d) d; rewrite e0; apply=> //.
by have := mderivD (mderiv_const phi) (mderiv_lin d); rewrite add0r.
Qed.
Lemma rad_comp (c : R -> R) c' d : is_deriv (fun s => c (t0 + s)) c' -> is_deriv (fun h => c (norm2 (phi + h *: d))) (c' * rad d).
Proof.
by move=> H; apply: (deriv_comp (g := c) (rad_deriv d)); rewrite scale0r addr0.
Qed.
End Radial.
Lemma wedge_lin k (x y : 'cV[R]_3) : wedge (k *: x + y) = k *: wedge x + wedge y.
Proof. by rewrite wedgeD wedgeZ. Qed.
(** a radial combination 1 + p(|phi|) W + q(|phi|) W^2 has a derivative linear in the direction *)
Lemma radial_deriv (p q : R -> R) p' q' (phi : 'cV[R]_3) : phi != 0 ->
  is_deriv (fun s => p (norm2 phi + s)) p' -> is_deriv (fun s => q (norm2 phi + s)) q' ->
  exists D : 'cV[R]_3 -> 'M[R]_3, (forall k x y, D (k *: x + y) = k *: D x + D y) /\
    forall d, is_mderiv (fun h => let v := phi + h *: d in 1%:M + p (norm2 v) *: wedge v + q (norm2 v) *: (wedge v *m wedge v)) (D d).
Proof.
move=> p0 hp hq.
exists (fun d => (p' * rad phi d) *: wedge phi + p (norm2 phi) *: wedge d +
  ((q' * rad phi d) *: (wedge phi *m wedge phi) + q (norm2 phi) *: (wedge d *m wedge phi + wedge phi *m wedge d))); split.
  move=> k x y; have -> : rad phi (k *: x + y) = k * rad phi x + rad phi y by rewrite /rad mulmxDr -scalemxAr !mxE.
  rewrite wedge_lin mulmxDl mulmxDr -scalemxAl -scalemxAr.
  move: (wedge phi *m wedge phi) (wedge x *m wedge phi) (wedge phi *m wedge x) (wedge y *m wedge phi) (wedge phi *m wedge y) => ? ? ? ? ?.
  by apply/matrixP => i j; rewrite ![in LHS]mxE ![in RHS]mxE; rng.
move=> d; have W : is_mderiv (fun h => wedge (phi + h *: d)) (wedge d).
  have := mderivD (mderiv_const (wedge phi)) (mderiv_lin (wedge d)); rewrite add0r.
  by apply: eq_mderiv => h; rewrite wedgeD wedgeZ.
have := mderivD (mderivD (mderiv_const 1%:M) (mderivZ' (rad_comp p0 d hp) W)) (mderivZ' (rad_comp p0 d hq) (mderivM W W)).
by rewrite !scale0r !addr0 add0r.
Qed.

Lemma so3Exp_formula v : so3Exp v = 1%:M + (sin (norm2 v) / norm2 v) *: wedge v + ((1 - cos (norm2 v)) / norm2 v ^+ 2) *: (wedge v *m wedge v).
Proof.
rewrite /so3Exp; case: (eqVneq (norm2 v) 0) => // /eqP; rewrite norm2_eq0 => /eqP ->.
by rewrite wedge0 mulmx0 !scaler0 !addr0.
Qed.
Lemma so3Jl_formula v : so3Jl v = 1%:M + ((1 - cos (norm2 v)) / norm2 v ^+ 2) *: wedge v + ((norm2 v - sin (norm2 v)) / norm2 v ^+ 3) *: (wedge v *m wedge v).
Proof.
rewrite /so3Jl; case: (eqVneq (norm2 v) 0) => // /eqP; rewrite norm2_eq0 => /eqP ->.
by rewrite wedge0 mulmx0 !scaler0 !addr0.
Qed.
Lemma pow_deriv (t : R) n : is_deriv (fun s => (t + s) ^+ n) (n%:R * t ^+ n.-1).
Proof.
elim: n => [|n IH]; first by rewrite mul0r; apply: eq_deriv (deriv_const 1) => s; rewrite expr0.
have := derivM (shift_deriv t) IH; rewrite addr0 mul1r => H.
rewrite (_ : n.+1%:R * t ^+ n.+1.-1 = t ^+ n + t * (n%:R * t ^+ n.-1)); last first.
  by case: n {IH H} => [|n] /=; rewrite ?mul0r ?mulr0 ?addr0 ?mul1r // mulrCA -exprS [n.+2%:R]mulrS mulrDl mul1r.
by apply: eq_deriv H => s; rewrite exprS.
Qed.
Lemma quot_pow (f : R -> R) l (t : R) n : t != 0 -> is_deriv (fun s => f (t + s)) l -> exists c, is_deriv (fun s => f (t + s) / (t + s) ^+ n) c.
Proof.
move=> t0 H; have g0 : (t + 0) ^+ n != 0 by rewrite addr0 expf_neq0.
eexists; exact: (deriv_div (g := fun s => (t + s) ^+ n) g0 H (pow_deriv t n)).
Qed.
Lemma sinc_deriv (t : R) : t != 0 -> exists c, is_deriv (fun s => sin (t + s) / (t + s)) c.
Proof. by move=> t0; have [c h] := quot_pow 1 t0 (sin_deriv t); exists c; apply: eq_deriv h => s; rewrite expr1. Qed.
Lemma vers_deriv (t : R) : t != 0 -> exists c, is_deriv (fun s => (1 - cos (t + s)) / (t + s) ^+ 2) c.
Proof. by move=> t0; apply: (@quot_pow (fun x => 1 - cos x) _ t 2 t0 (derivB (deriv_const 1) (cos_deriv t))). Qed.
Lemma tsin_deriv (t : R) : t != 0 -> exists c, is_deriv (fun s => ((t + s) - sin (t + s)) / (t + s) ^+ 3) c.
Proof. by move=> t0; apply: (@quot_pow (fun x => x - sin x) _ t 3 t0 (derivB (shift_deriv t) (sin_deriv t))). Qed.
Lemma so3_derivs (phi : 'cV[R]_3) : phi != 0 -> exists DE DJ : 'cV[R]_3 -> 'M[R]_3,
  [/\ forall k x y, DE (k *: x + y) = k *: DE x + DE y, forall k x y, DJ (k *: x + y) = k *: DJ x + DJ y,
      forall d, is_mderiv (fun h => so3Exp (phi + h *: d)) (DE d) & forall d, is_mderiv (fun h => so3Jl (phi + h *: d)) (DJ d)].
Proof.
move=> p0; have t0 : norm2 phi != 0 by rewrite norm2_eq0.
have [c1 h1] := sinc_deriv t0; have [c2 h2] := vers_deriv t0; have [c3 h3] := tsin_deriv t0.
have [DE [e1 e2]] := radial_deriv (p := fun t => sin t / t) (q := fun t => (1 - cos t) / t ^+ 2) p0 h1 h2.
have [DJ [j1 j2]] := radial_deriv (p := fun t => (1 - cos t) / t ^+ 2) (q := fun t => (t - sin t) / t ^+ 3) p0 h2 h3.
exists DE, DJ; split=> // d; [apply: eq_mderiv (e2 d)|apply: eq_mderiv (j2 d)] => h; by rewrite (so3Exp_formula, so3Jl_formula).
Qed.
(** C82: the right Jacobian the theorems above assume exists at every point *)
Lemma right_jac_exists x0 : exists J, right_jac_at x0 J.
Proof.
have [p0|p0] := eqVneq (usubmx x0) 0.
  by exists (J_rest (usubmx (dsubmx x0)) (dsubmx (dsubmx x0))); have := J_rest_ok (usubmx (dsubmx x0)) (dsubmx (dsubmx x0)); rewrite -p0 !vsubmxK.
have [DE [DJ [eL jL hE hJ]]] := so3_derivs p0; pose C := so3Exp (usubmx x0).
have [CC _] : rot C := so3_rot _; have C'C : C^T *m C = 1%:M := mulmx1C CC.
have skew d : C *m wedge (vee3 (C^T *m DE d)) = DE d.
  rewrite wedge_vee3 ?mulmxA ?CC ?mul1mx //.
  have := mderivM (mderivT (hE d)) (hE d); rewrite scale0r addr0 -/C => H.
  have K : is_mderiv (fun h => (so3Exp (usubmx x0 + h *: d))^T *m so3Exp (usubmx x0 + h *: d)) 0.
    by apply: eq_mderiv (mderiv_const 1%:M) => h; have [h1 _] := so3_rot (usubmx x0 + h *: d); rewrite (mulmx1C h1).
  by have /eqP := mderiv_uniq H K; rewrite addr_eq0 trmx_mul trmxK => /eqP.
pose f (d : 'cV[R]_n9) : 'cV[R]_n9 := let d1 := usubmx d in let d2 := usubmx (dsubmx d) in let d3 := dsubmx (dsubmx d) in
  col_mx (vee3 (C^T *m DE d1)) (col_mx (C^T *m (DJ d1 *m usubmx (dsubmx x0) + so3Jl (usubmx x0) *m d2))
                                       (C^T *m (DJ d1 *m dsubmx (dsubmx x0) + so3Jl (usubmx x0) *m d3))).
have [J hJf] : exists J : 'M[R]_n9, forall x, J *m x = f x.
  apply: lin_matrix => k x y; rewrite /f !linearP /= eL jL !scale_col_mx !add_col_mx.
  congr col_mx; first by rewrite mulmxDr -scalemxAr vee3_lin.
  by congr col_mx; rewrite [k *: (_ *m _)]scalemxAr -mulmxDr; congr (_ *m _); rewrite mulmxDl -scalemxAl scalerDr addrACA.
exists J => d; rewrite hJf {1}/se23Exp.
have V (v e : 'cV[R]_3) : is_mderiv (fun h => so3Jl (usubmx x0 + h *: usubmx d) *m (v + h *: e)) (DJ (usubmx d) *m v + so3Jl (usubmx x0) *m e).
  by have := mderivM (hJ (usubmx d)) (mderivD (mderiv_const v) (mderiv_lin e)); rewrite !scale0r !addr0 add0r.
rewrite /se23Exp ie3_wedge9 /f !(col_mxKu, col_mxKd) -/C skew !mulmxA CC !mul1mx.
apply: eq_mderiv (_ : is_mderiv (fun h => ie3 (so3Exp (usubmx x0 + h *: usubmx d)) (so3Jl (usubmx x0 + h *: usubmx d) *m (usubmx (dsubmx x0) + h *: usubmx (dsubmx d)))
   (so3Jl (usubmx x0 + h *: usubmx d) *m (dsubmx (dsubmx x0) + h *: dsubmx (dsubmx d))) 0) _) => [h|]; first by rewrite !(usD, dsD).
by rewrite /ie3; apply: mderiv_block; [exact: hE|apply: mderiv_row; exact: V|exact: mderiv_const|exact: mderiv_const].
Qed.

(** the inverse of the left Jacobian, in closed form *)
Definition so3Jlinv0 (phi : 'cV[R]_3) : 'M[R]_3 :=
  let t := norm2 phi in
  if t == 0 then 1%:M
  else 1%:M - (2%:R^-1 : R) *: wedge phi + ((t ^+ 2)^-1 - sin t / (2%:R * t * (1 - cos t))) *: (wedge phi *m wedge phi).
Lemma jlinv_alg (W : 'M[R]_3) (t m s : R) : t != 0 -> m != 0 -> s * s = m * (2%:R - m) -> W *m W *m W = - t ^+ 2 *: W ->
  (1%:M + (m / t ^+ 2) *: W + ((t - s) / t ^+ 3) *: (W *m W)) *m
  (1%:M - (2%:R^-1 : R) *: W + ((t ^+ 2)^-1 - s / (2%:R * t * m)) *: (W *m W)) = 1%:M.
Proof.
move=> t0 m0 SC W3; set p := m / _; set q := (t - s) / _; set c := _ - _ / _.
have W4 : W *m W *m (W *m W) = - t ^+ 2 *: (W *m W) by rewrite mulmxA W3 -scalemxAl.
have E2 : q - p / 2%:R + c - t ^+ 2 * (q * c) = 0.
  rewrite (_ : q - _ + c - _ = (m * (2%:R - m) - s * s) * (2%:R * t ^+ 2 * m)^-1); first by rewrite SC subrr mul0r.
  by rewrite /q /p /c; rfield.
have E1 : p - 2%:R^-1 - t ^+ 2 * (p * c - q / 2%:R) = 0 by rewrite /q /p /c; rfield.
have W3' : W *m (W *m W) = - t ^+ 2 *: W by rewrite mulmxA.
rewrite -scaleNr !mulmxDl !mulmxDr !mul1mx !mulmx1 -!scalemxAl -!scalemxAr !scalerA W4 W3 W3' !scalerA.
rewrite [RHS](_ : _ = 1%:M + (p - 2%:R^-1 - t ^+ 2 * (p * c - q / 2%:R)) *: W + (q - p / 2%:R + c - t ^+ 2 * (q * c)) *: (W *m W)); last first.
  by rewrite E1 E2 !scale0r !addr0.
clear E1 E2 W3 W4 W3'; clearbody p q c.
move: (W *m W) (2%:R^-1 : R) (1%:M : 'M[R]_3) => W2 hf I1; apply/matrixP => i j; rewrite ![in LHS]mxE ![in RHS]mxE.
move: (I1 i j) (W i j) (W2 i j) => x y z; rng.
Qed.
Lemma so3Jlinv0_ok phi : phi = 0 \/ cos (norm2 phi) <> 1 -> so3Jl phi *m so3Jlinv0 phi = 1%:M.
Proof.
rewrite /so3Jl /so3Jlinv0; have [t0|t0 h] := eqVneq (norm2 phi) 0; first by rewrite mul1mx.
apply: jlinv_alg (wedge_cube phi) => //.
  by rewrite subr_eq0; apply/eqP => e; case: h => [/eqP|]; [rewrite -norm2_eq0 (negbTE t0)|rewrite e].
have H : sin (norm2 phi) * sin (norm2 phi) + cos (norm2 phi) * cos (norm2 phi) = 1 := sin2_cos2 (norm2 phi).
rewrite -[LHS](addrK (cos (norm2 phi) * cos (norm2 phi))) H; rng.
Qed.

(** C82, instances: with the closed-form inverse the hypotheses are met at every rate whose rotation
    over the step is not a non-zero multiple of a full turn *)
Lemma C82_hyps tol om a dt : dt *: om = 0 \/ cos (norm2 (dt *: om)) <> 1 -> exists seJl : 'cV[R]_n9 -> 'M[R]_n9,
  so3Jl (dt *: om) *m so3Jlinv0 (dt *: om) = 1%:M /\ right_jac_at (L_xi tol so3Jlinv0 om a dt) (seJl (- L_xi tol so3Jlinv0 om a dt)).
Proof.
by move=> h; have [J hJ] := right_jac_exists (L_xi tol so3Jlinv0 om a dt); exists (fun=> J); split=> //; exact: so3Jlinv0_ok.
Qed.
Definition e3 (i : 'I_3) : 'cV[R]_3 := delta_mx i 0.
Example C82_rest_instance (tol : R) : 0 < tol -> exists seJl : 'cV[R]_n9 -> 'M[R]_n9, let claimed := ie3_b (U_matrix so3Exp so3Jl (N_matrix tol) 0 (e3 1) 1 *m wedge9 (L_matrix tol so3Jlinv0 seJl 0 (e3 1) 1 *m col_mx (e3 0) 0)) in
  claimed = (5%:R / 24%:R : R) *: e3 2%:R /\
  ~ is_mderiv (fun h => ie3_b (U_matrix so3Exp so3Jl Nexact (h *: e3 0) (e3 1) 1)) claimed.
Proof.
move=> t0; have [|J [h1 h2]] := @C82_hyps tol 0 (e3 1) 1; first by left; rewrite scaler0.
have cE : wedge (e3 0) *m e3 1 = e3 2%:R.
  apply/matrixP => i j; rewrite ord1 /wedge !mxE !big_ord_recl big_ord0 !mxE /= mulr0n mulr1n.
  by case: i => [[|[|[|//]]] ?] /=; rewrite ?mulr0 ?mul0r ?mulr1 ?addr0 ?oppr0 ?add0r.
have c0 : e3 2%:R != 0 :> 'cV[R]_3 by apply/eqP => /matrixP /(_ 2%:R 0) /eqP; rewrite !mxE !eqxx oner_eq0.
exists J; have := @C82_gyro_position_refuted tol so3Jlinv0 J t0 (e3 1) 1 (e3 0); rewrite cE expr1n mulr1.
have j0 : so3Jlinv0 0 = 1%:M by rewrite /so3Jlinv0 norm20 eqxx.
by case/(_ j0 h2 (oner_neq0 _) c0) => E _ h _.
Qed.
Print Assumptions C82_accelerometer_columns.
Print Assumptions C82_gyro_attitude_velocity.
Print Assumptions C82_gyro_position_refuted.
