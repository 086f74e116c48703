(** C82 (state Jacobian) and C83: the bias Jacobian of a preintegrated IMU increment. *)
From Coq Require Import Reals Lra.
From mathcomp Require Import all_ssreflect all_algebra.
From Verif Require Import Base Tac LinAlg Deriv RealStruct RealTrig RealProps EkfModel PreintModel PreintProps ImuModel ImuProps ImuPreintProps So3Model So3Props So3Jac ImuJacProps.
Set Implicit Arguments.
Unset Strict Implicit.
Unset Printing Implicit Defensive.
Import Order.Theory GRing.Theory Num.Theory.
Local Open Scope ring_scope.
Bind Scope ring_scope with Rdefinitions.R.
Local Notation R := Rdefinitions.R.
Local Notation RF := [realFieldType of R].

Lemma rmi_rcons_gen (F : realFieldType) soExp soJl Nmat Lmat (Q : 'M[F]_((3 + 3) + (3 + 3))) bg ba s (p : imu F * F) :
  let rm := accumulate (irmi_increment soExp soJl Nmat Lmat Q) (irmi0 bg ba) in
  let om := im_gyro p.1 - bg in let a := im_accel p.1 - ba in let Ui := U_matrix soExp soJl Nmat om a p.2 in
  ir_val (rm (rcons s p)) = ir_val (rm s) *m Ui /\
  ir_jac (rm (rcons s p)) = adjoint_IE3 (inverse_IE3 Ui) *m ir_jac (rm s) - Lmat om a p.2.
Proof. by rewrite /= accumulate_rcons /irmi_increment /=; have [-> -> _] := irmi_const soExp soJl Nmat Lmat Q bg ba s. Qed.
Lemma se23Exp0_deriv (d : 'cV[R]_n9) : is_mderiv (fun h => se23Exp (h *: d)) (wedge9 d).
Proof.
have z : col_mx 0 (col_mx 0 0) = 0 :> 'cV[R]_n9 by rewrite !col_mx0.
have := J_rest_ok 0 0 d; rewrite z /J_rest wedge0 scaler0 oppr0 col_mx0 -scalar_mx_block mul1mx.
rewrite {2}/se23Exp !linear0 so3Exp0 ?so3Jl0 ?mulmx0 ie31 mul1mx.
by apply: eq_mderiv => h; rewrite add0r.
Qed.
Lemma conj_wedge9 (U : M5) (y : 'cV[R]_n9) : in_IE3 (R := RF) U ->
  wedge9 y *m U = U *m wedge9 (adjoint_IE3 (inverse_IE3 U) *m y).
Proof.
move=> h; have [h1 [h2 h3]] := C48_inverse h; have [h4 [h5 _]] := C48_inverse h3.
rewrite -(C48_adjoint_relation y h3) !mulmxA h1 mul1mx; congr (_ *m _).
by rewrite -[LHS]mulmx1 -h4 mulmxA h1 mul1mx.
Qed.

Lemma wedge9D (x y : 'cV[R]_n9) : wedge9 (x + y) = wedge9 x + wedge9 y.
Proof. by rewrite /wedge9 !linearD /= wedgeD add_block_mx !addr0 add_row_mx. Qed.
Lemma wedge9N (x : 'cV[R]_n9) : wedge9 (- x) = - wedge9 x.
Proof. by rewrite /wedge9 !linearN /= wedgeN opp_block_mx !oppr0 opp_row_mx. Qed.
Section Steps.
Variables (tol : R) (so3Jlinv : 'cV[R]_3 -> 'M[R]_3) (seJl : 'cV[R]_n9 -> 'M[R]_n9) (seAd : M5 -> 'M[R]_n9).
Variables (g : 'cV[R]_3) (Q : 'M[R]_((3 + 3) + (3 + 3))).
(** what is assumed of SE23.adjoint *)
Hypothesis Ad_SE23 : forall X, in_SE23 (R := RF) X -> seAd X = adjoint_IE3 X.
Notation L := (L_matrix tol so3Jlinv seJl).
Notation U := (U_matrix so3Exp so3Jl (N_matrix tol)).
Notation xi := (L_xi tol so3Jlinv).
Notation jac := (imu_jacobian (R := RF) so3Exp so3Jl (N_matrix tol) L seAd g).
(** left_jacobian_inv is an inverse and left_jacobian the Jacobian of Exp, at the given reading *)
Definition lie_at (om a : 'cV[R]_3) (dt : R) : Prop :=
  so3Jl (dt *: om) *m so3Jlinv (dt *: om) = 1%:M /\ right_jac_at (xi om a dt) (seJl (- xi om a dt)).

(** IMUState.plus: the pose is multiplied by Exp on the side of the direction, the biases added *)
Definition pose_plus (dir : direction) (T : M5) (d : 'cV[R]_n9) : M5 :=
  if dir is DRight then T *m se23Exp d else se23Exp d *m T.
Definition istate_plus (dir : direction) (x : imu_state RF) (d : 'cV[R]_n9) (wg wa : 'cV[R]_3) : imu_state RF :=
  ImuState (pose_plus dir (is_pose x) d) (is_bg x + wg) (is_ba x + wa).
(** the tangent vector of a curve of poses through Y, in the coordinates of the direction *)
Definition tangent (dir : direction) (Y : M5) (y : 'cV[R]_n9) : M5 :=
  if dir is DRight then Y *m wedge9 y else wedge9 y *m Y.

Lemma inU om a dt : in_IE3 (R := RF) (U om a dt).
Proof. by apply: in_IE3_ie3; exact: so3_rot. Qed.
(** C82: the Jacobian reported by IMUKinematics is the derivative of evaluate in the pose and accelerometer-bias directions *)
Theorem C82_state_jacobian dir (x : imu_state RF) (u : imu RF) dt (d : 'cV[R]_n9) (wa : 'cV[R]_3) :
  in_SE23 (R := RF) (is_pose x) -> lie_at (im_gyro u - is_bg x) (im_accel u - is_ba x) dt ->
  let y := jac dir x u dt *m col_mx d (col_mx 0 wa) in
  let x' := fun h => imu_eval tol g (istate_plus dir x (h *: d) 0 (h *: wa)) u dt in
  [/\ is_mderiv (fun h => is_pose (x' h)) (tangent dir (is_pose (imu_eval tol g x u dt)) (usubmx y)),
      is_mderiv (fun h => is_bg (x' h)) (usubmx (dsubmx y)) & is_mderiv (fun h => is_ba (x' h)) (dsubmx (dsubmx y))].
Proof.
move=> hT [hj hr] y x'; rewrite {}/y /imu_jacobian; set om := im_gyro u - _ in hj hr *; set a := im_accel u - _ in hr *.
rewrite mul_block_col mul0mx mul1mx add0r !(col_mxKu, col_mxKd).
have DU : is_mderiv (fun h => U om (a + h *: (- wa)) dt) (U om a dt *m wedge9 (L om a dt *m col_mx 0 (- wa))).
  exact: C82_accelerometer_columns.
have nL : L om a dt *m col_mx 0 (- wa) = - (L om a dt *m col_mx 0 wa) by rewrite -mulmxN opp_col_mx oppr0.
have xE h : is_pose (x' h) = G_matrix (R := RF) g dt *m pose_plus dir (is_pose x) (h *: d) *m U om (a + h *: (- wa)) dt.
  by rewrite /x' /imu_eval /imu_evaluate /= addr0 /om /a scalerN opprD addrA.
split.
- have DT : is_mderiv (fun h => pose_plus dir (is_pose x) (h *: d)) (tangent dir (is_pose x) d).
    by case: dir {x' xE}; [apply: mderivMr|apply: mderivMl]; exact: se23Exp0_deriv.
  have T0 : pose_plus dir (is_pose x) (0 *: d) = is_pose x.
    by rewrite scale0r; case: dir {x' xE DT} => /=; rewrite /se23Exp !linear0 so3Exp0 ?mulmx0 ie31 ?mulmx1 ?mul1mx.
  have := mderivM (mderivMl (G_matrix (R := RF) g dt) DT) DU; rewrite T0 scale0r addr0 nL.
  rewrite (_ : _ + _ = tangent dir (is_pose (imu_eval tol g x u dt))
     ((if dir is DRight then adjoint_IE3 (U_matrix_inv (R := RF) so3Exp so3Jl (N_matrix tol) om a dt) else adjoint_IE3 (G_matrix g dt)) *m d +
      - imu_input_jac (R := RF) so3Exp so3Jl (N_matrix tol) L seAd g dir x u dt *m col_mx 0 wa)).
    by apply: eq_mderiv => h; rewrite xE.
  have YE : is_pose (imu_eval tol g x u dt) = G_matrix (R := RF) g dt *m is_pose x *m U om a dt by [].
  rewrite YE /imu_input_jac -/om -/a; case: dir {x' xE DT T0} => /=.
  + have hY : in_SE23 (R := RF) (G_matrix g dt *m is_pose x *m U om a dt) by apply: step_SE23 hT; exact: so3_rot.
    rewrite (Ad_SE23 hY).
    have hG : in_IE3 (R := RF) (G_matrix g dt) by exact: in_G.
    rewrite wedge9D mulmxDl; congr (_ + _).
      rewrite -(C48_adjoint_relation d hG); have [_ [hG1 _]] := C48_inverse hG.
      by rewrite -!mulmxA; congr (_ *m (_ *m _)); rewrite !mulmxA hG1 mul1mx.
    have hY' : in_IE3 (R := RF) (G_matrix g dt *m is_pose x *m U om a dt) by exact: SE23_IE3.
    have [_ [hY1 _]] := C48_inverse hY'; rewrite [- _ *m col_mx 0 wa]mulNmx -[adjoint_IE3 _ *m _ *m _]mulmxA -[- (adjoint_IE3 _ *m _)]mulmxN -(C48_adjoint_relation _ hY').
    by rewrite -[RHS]mulmxA hY1 mulmx1 mulmxA.
  + rewrite wedge9D mulmxDr; congr (_ + _); last by rewrite mulNmx !mulmxA.
    by rewrite -!mulmxA (conj_wedge9 _ (inU _ _ _)).
- apply: eq_mderiv (mderiv_const (is_bg x + dt *: odflt 0 (im_gwalk u))) => h; by rewrite /x' /imu_eval /imu_evaluate /= addr0.
- have := mderivD (mderiv_const (is_ba x + dt *: odflt 0 (im_awalk u))) (mderiv_lin wa); rewrite add0r.
  by apply: eq_mderiv => h; rewrite /x' /imu_eval /imu_evaluate /= addrAC.
Qed.
Lemma tangentE dir (Y : M5) (l : 'cV[R]_n9) : in_SE23 (R := RF) Y -> tangent dir Y (if dir is DRight then l else seAd Y *m l) = Y *m wedge9 l.
Proof.
move=> hY; case: dir => //=; rewrite (Ad_SE23 hY) -(C48_adjoint_relation _ (SE23_IE3 hY)).
by have [_ [h _]] := C48_inverse (SE23_IE3 hY); rewrite -[LHS]mulmxA h mulmx1.
Qed.
Lemma ie3_CM (C : 'M[R]_3) a b c (y : 'cV[R]_n9) (C' : 'M[R]_3) a' b' c' : 
  ie3_C (ie3 C' a' b' c' *m (ie3 C a b c *m wedge9 y)) = C' *m ie3_C (ie3 C a b c *m wedge9 y).
Proof. by rewrite mulmxA ie3M !ie3_Cw mulmxA. Qed.
Lemma ie3_aM (C : 'M[R]_3) a b c (y : 'cV[R]_n9) (C' : 'M[R]_3) a' b' c' : 
  ie3_a (ie3 C' a' b' c' *m (ie3 C a b c *m wedge9 y)) = C' *m ie3_a (ie3 C a b c *m wedge9 y).
Proof. by rewrite mulmxA ie3M !ie3_aw mulmxA. Qed.
(** C82: in the gyro-bias directions the reported Jacobian is the derivative of attitude and velocity *)
Theorem C82_gyro_bias_columns dir (x : imu_state RF) (u : imu RF) dt (wg : 'cV[R]_3) :
  in_SE23 (R := RF) (is_pose x) -> lie_at (im_gyro u - is_bg x) (im_accel u - is_ba x) dt ->
  let y := jac dir x u dt *m col_mx 0 (col_mx wg 0) in
  let x' := fun h => imu_eval tol g (istate_plus dir x 0 (h *: wg) 0) u dt in
  let Y' := tangent dir (is_pose (imu_eval tol g x u dt)) (usubmx y) in
  [/\ is_mderiv (fun h => ie3_C (is_pose (x' h))) (ie3_C Y'), is_mderiv (fun h => ie3_a (is_pose (x' h))) (ie3_a Y'),
      is_mderiv (fun h => is_bg (x' h)) (usubmx (dsubmx y)) & is_mderiv (fun h => is_ba (x' h)) (dsubmx (dsubmx y))].
Proof.
move=> hT [hj hr] y x' Y'; rewrite {}/Y' {}/y /imu_jacobian; set om := im_gyro u - _ in hj hr *; set a := im_accel u - _ in hr *.
rewrite mul_block_col mul0mx mul1mx mulmx0 !add0r !(col_mxKu, col_mxKd).
have hY : in_SE23 (R := RF) (is_pose (imu_eval tol g x u dt)) by apply: step_SE23 hT; exact: so3_rot.
have -> : - imu_input_jac (R := RF) so3Exp so3Jl (N_matrix tol) L seAd g dir x u dt *m col_mx wg 0 =
    if dir is DRight then L om a dt *m col_mx (- wg) 0 else seAd (is_pose (imu_eval tol g x u dt)) *m (L om a dt *m col_mx (- wg) 0).
  have E : col_mx (- wg) 0 = - col_mx wg 0 :> 'cV[R]_(3 + 3) by rewrite opp_col_mx oppr0.
  by rewrite /imu_input_jac -/om -/a E; case: dir {x'}; rewrite ?mulmxN mulNmx // mulmxA.
rewrite tangentE //.
have [DC Da] := C82_gyro_attitude_velocity (- wg) hr.
have P0 : pose_plus dir (is_pose x) 0 = is_pose x.
  by case: dir {x'} => /=; rewrite /se23Exp !linear0 so3Exp0 ?mulmx0 ie31 ?mulmx1 ?mul1mx.
have xE h : is_pose (x' h) = G_matrix (R := RF) g dt *m is_pose x *m U (om + h *: (- wg)) a dt.
  by rewrite /x' /imu_eval /imu_evaluate /= addr0 P0 /om /a scalerN opprD addrA.
have YE : is_pose (imu_eval tol g x u dt) = G_matrix (R := RF) g dt *m is_pose x *m U om a dt by [].
have [C [v [r [_ TE]]]] := hT.
have [C' [v' [r' [c' GE]]]] : exists C' v' r' c', G_matrix (R := RF) g dt *m is_pose x = ie3 C' v' r' c'.
  by rewrite TE /G_matrix ie3M; do 4 eexists.
split.
- rewrite YE GE -[_ *m _ *m wedge9 _]mulmxA [ie3_C _]ie3_CM; apply: eq_mderiv (mderivMl C' DC) => h; by rewrite xE GE /U_matrix ie3M !ie3E.
- rewrite YE GE -[_ *m _ *m wedge9 _]mulmxA [ie3_a _]ie3_aM; have := mderivD (mderivMl C' Da) (mderiv_const v'); rewrite addr0.
  by apply: eq_mderiv => h; rewrite xE GE /U_matrix ie3M !ie3E.
- have := mderivD (mderiv_const (is_bg x + dt *: odflt 0 (im_gwalk u))) (mderiv_lin wg); rewrite add0r.
  by apply: eq_mderiv => h; rewrite /x' /imu_eval /imu_evaluate /= addrAC.
- apply: eq_mderiv (mderiv_const (is_ba x + dt *: odflt 0 (im_awalk u))) => h; by rewrite /x' /imu_eval /imu_evaluate /= addr0.
Qed.

(** *** C83 *)
Notation rmi bg ba := (accumulate (irmi_increment (R := RF) so3Exp so3Jl (N_matrix tol) L Q) (irmi0 bg ba)).
Definition steps_ok (bg ba : 'cV[R]_3) (steps : seq (imu RF * R)) : Prop :=
  List.Forall (fun p => lie_at (im_gyro p.1 - bg) (im_accel p.1 - ba) p.2) steps.
Lemma steps_rcons bg ba s p : steps_ok bg ba (rcons s p) -> steps_ok bg ba s /\ lie_at (im_gyro p.1 - bg) (im_accel p.1 - ba) p.2.
Proof. by rewrite /steps_ok -cats1 => /List.Forall_app [h1 h2]; split=> //; inversion h2. Qed.
Lemma rmi_rcons bg ba s (p : imu RF * R) : let r := rmi bg ba s in
  let om := im_gyro p.1 - bg in let a := im_accel p.1 - ba in let Ui := U om a p.2 in
  ir_val (rmi bg ba (rcons s p)) = ir_val r *m Ui /\
  ir_jac (rmi bg ba (rcons s p)) = adjoint_IE3 (inverse_IE3 Ui) *m ir_jac r - L om a p.2.
Proof. exact: rmi_rcons_gen. Qed.
(** C83: the bias Jacobian carried by an IMU increment is the derivative of the integrated value with respect to the accelerometer bias *)
Theorem C83_accel_bias_jacobian bg ba steps (w : 'cV[R]_3) : steps_ok bg ba steps ->
  is_mderiv (fun h => ir_val (rmi bg (ba + h *: w) steps))
            (ir_val (rmi bg ba steps) *m wedge9 (ir_jac (rmi bg ba steps) *m col_mx 0 w)).
Proof.
elim/last_ind: steps => [_|s p IH /steps_rcons [/IH {IH} H [hj hr]]].
  rewrite /= mul0mx mul1mx (_ : wedge9 0 = 0); last by rewrite /wedge9 !linear0 wedge0 row_mx0 block_mx0.
  exact: mderiv_const.
have [-> ->] := rmi_rcons bg ba s p; set om := im_gyro p.1 - bg in hj hr *; set a := im_accel p.1 - ba in hr *.
have DU := C82_accelerometer_columns (- w) hj hr.
have := mderivM H DU; rewrite !scale0r !addr0 => D.
have -> : ir_val (rmi bg ba s) *m U om a p.2 *m wedge9 ((adjoint_IE3 (inverse_IE3 (U om a p.2)) *m ir_jac (rmi bg ba s) - L om a p.2) *m col_mx 0 w) =
  ir_val (rmi bg ba s) *m wedge9 (ir_jac (rmi bg ba s) *m col_mx 0 w) *m U om a p.2 + ir_val (rmi bg ba s) *m (U om a p.2 *m wedge9 (L om a p.2 *m col_mx 0 (- w))).
  rewrite mulmxDl wedge9D mulmxDr; congr (_ + _).
    rewrite -[adjoint_IE3 _ *m _ *m _]mulmxA -[LHS]mulmxA -(conj_wedge9 _ (inU _ _ _)).
    by rewrite [LHS]mulmxA.
  rewrite -[LHS]mulmxA; congr (_ *m (_ *m wedge9 _)).
  by rewrite [LHS]mulNmx -[LHS]mulmxN opp_col_mx oppr0.
apply: eq_mderiv D => h; have [-> _] := rmi_rcons bg (ba + h *: w) s p.
by rewrite opprD addrA -scalerN.
Qed.
(** C83: hence the first-order bias correction agrees with integrating again with the new bias, up to second order *)
Theorem C83_accel_bias_correction bg ba steps (w : 'cV[R]_3) : steps_ok bg ba steps ->
  let corrected := fun h => irmi_value (R := RF) se23Exp (irmi_update_bias (rmi bg ba steps) (col_mx bg (ba + h *: w))) in
  let again := fun h => ir_val (rmi bg (ba + h *: w) steps) in
  corrected 0 = again 0 /\ is_mderiv (fun h => corrected h - again h) 0.
Proof.
move=> ok corrected again; have [e1 e2 _] := irmi_const (R := RF) so3Exp so3Jl (N_matrix tol) L Q bg ba steps.
have cE h : corrected h = ir_val (rmi bg ba steps) *m se23Exp (h *: (ir_jac (rmi bg ba steps) *m col_mx 0 w)).
  rewrite /corrected /irmi_value /= /ir_orig /= e1 e2 opp_col_mx add_col_mx subrr [ba + _]addrC addrK.
  by congr (_ *m se23Exp _); rewrite scalemxAr scale_col_mx scaler0.
split.
  by rewrite cE /again !scale0r addr0 /se23Exp !linear0 so3Exp0 ?mulmx0 ie31 mulmx1.
have := mderivB (mderivMl (ir_val (rmi bg ba steps)) (se23Exp0_deriv (ir_jac (rmi bg ba steps) *m col_mx 0 w))) (C83_accel_bias_jacobian w ok).
by rewrite subrr; apply: eq_mderiv => h; rewrite cE.
Qed.
End Steps.
Print Assumptions C82_state_jacobian.
Print Assumptions C82_gyro_bias_columns.
Print Assumptions C83_accel_bias_jacobian.
Print Assumptions C83_accel_bias_correction.
