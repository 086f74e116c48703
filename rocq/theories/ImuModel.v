(** Model of the algebra of navlie/lib/imu.py (IE(3) helpers, IMU input, IMUKinematics) and
    of IMUIncrement / PreintegratedIMUKinematics (navlie/lib/preintegration.py:69-331).

    5 x 5 matrices are kept in blocks 3 + (1 + 1), 9 x 9 ones in blocks 3 + (3 + 3), 15 x 15
    ones in blocks 9 + 6.  pymlg's SO3.Exp, SO3.left_jacobian, SE23.Exp, SE23.adjoint,
    SE23.right_jacobian and navlie's N_matrix and L_matrix (which need trigonometry) are
    parameters.  Exact arithmetic. *)
From mathcomp Require Import all_ssreflect all_algebra.
From Verif Require Import Base EkfModel PreintModel.
Set Implicit Arguments.
Unset Strict Implicit.
Unset Printing Implicit Defensive.
Import Order.Theory GRing.Theory Num.Theory.
Local Open Scope ring_scope.

Section IE3.
Variable R : realFieldType.
Notation M5 := 'M[R]_(3 + (1 + 1)).
Notation n9 := (3 + (3 + 3))%N.

(** SO3.wedge *)
Definition wedge (v : 'cV[R]_3) : 'M[R]_3 :=
  let x := v 0 0 in let y := v 1 0 in let z := v 2%:R 0 in
  \matrix_(i, j) nth 0 (nth [::] [:: [:: 0; - z; y]; [:: z; 0; - x]; [:: - y; x; 0]] i) j.

(** np.identity(5) with the blocks [:3,:3], [:3,3], [:3,4], [3,4] assigned *)
Definition ie3 (C : 'M[R]_3) (a b : 'cV[R]_3) (c : R) : M5 :=
  block_mx C (row_mx a b) 0 (block_mx 1%:M c%:M 0 1%:M).
(** the slices X[:3,:3], X[:3,3], X[:3,4], X[3,4] *)
Definition ie3_C (X : M5) : 'M[R]_3 := ulsubmx X.
Definition ie3_a (X : M5) : 'cV[R]_3 := lsubmx (ursubmx X).
Definition ie3_b (X : M5) : 'cV[R]_3 := rsubmx (ursubmx X).
Definition ie3_c (X : M5) : R := (ursubmx (drsubmx X) : 'M[R]_1) 0 0.

(** adjoint_IE3, imu.py:358-374 *)
Definition adjoint_IE3 (X : M5) : 'M[R]_n9 :=
  let C := ie3_C X in let a := ie3_a X in let b := ie3_b X in let c := ie3_c X in
  block_mx C 0 (col_mx (wedge a *m C) (- (wedge (c *: a - b)) *m C)) (block_mx C 0 (- c *: C) C).

(** inverse_IE3, imu.py:377-391 *)
Definition inverse_IE3 (X : M5) : M5 :=
  let C := ie3_C X in let a := ie3_a X in let b := ie3_b X in let c := ie3_c X in
  ie3 C^T (- C^T *m a) (C^T *m (c *: a - b)) (- c).

(** G_matrix, imu.py:431-436 *)
Definition G_matrix (g : 'cV[R]_3) (dt : R) : M5 :=
  ie3 1%:M (dt *: g) (- (dt ^+ 2 / 2%:R) *: g) (- dt).
(** G_matrix_inv, 439-440 *)
Definition G_matrix_inv (g : 'cV[R]_3) (dt : R) : M5 := inverse_IE3 (G_matrix g dt).

Section Kin.
Variables (soExp soJl Nmat : 'cV[R]_3 -> 'M[R]_3).
(** U_matrix, imu.py:394-405 *)
Definition U_matrix (om acc : 'cV[R]_3) (dt : R) : M5 :=
  ie3 (soExp (dt *: om)) (dt *: (soJl (dt *: om) *m acc)) ((dt ^+ 2 / 2%:R) *: (Nmat (dt *: om) *m acc)) dt.
(** U_tilde_matrix, 408-418; delta_matrix, 421-424; U_matrix_inv, 427-428 *)
Definition U_tilde_matrix (om acc : 'cV[R]_3) (dt : R) : M5 :=
  ie3 (soExp (dt *: om)) (dt *: (soJl (dt *: om) *m acc)) ((dt ^+ 2 / 2%:R) *: (Nmat (dt *: om) *m acc)) 0.
Definition delta_matrix (dt : R) : M5 := ie3 1%:M 0 0 dt.
Definition U_matrix_inv om acc dt : M5 := inverse_IE3 (U_matrix om acc dt).

(** *** IMU readings and the IMU state *)
(** IMU, imu.py:20-105; the bias random walk inputs are None when __init__ leaves the
    attribute unset (imu.py:61-71: the tests are on the other argument). *)
Record imu := Imu { im_gyro : 'cV[R]_3; im_accel : 'cV[R]_3; im_stamp : R;
                    im_gwalk : option 'cV[R]_3; im_awalk : option 'cV[R]_3 }.
Definition imu_new (gyro accel : 'cV[R]_3) (stamp : R) (gw aw : option 'cV[R]_3) : imu :=
  let gw_attr := if aw is None then None else Some (odflt 0 gw) in
  let aw' := if aw is None then 0 else odflt 0 aw in
  let aw_attr := if gw is None then None else Some aw' in
  Imu gyro accel stamp gw_attr aw_attr.
(** IMU.copy reads both attributes, imu.py:92-105 *)
Definition imu_copy (u : imu) : result imu :=
  match im_gwalk u, im_awalk u with
  | Some gw, Some aw => Ok (imu_new (im_gyro u) (im_accel u) (im_stamp u) (Some gw) (Some aw))
  | _, _ => Raise AttributeError
  end.
(** IMU.plus, 73-90: copy, then the four blocks of w *)
Definition imu_plus (u : imu) (w1 w2 w3 w4 : 'cV[R]_3) : result imu :=
  v <~ imu_copy u ;;
  Ok (Imu (im_gyro v + w1) (im_accel v + w2) (im_stamp v)
          (Some (odflt 0 (im_gwalk v) + w3)) (Some (odflt 0 (im_awalk v) + w4))).

(** IMUState: extended pose and biases (imu.py:138-297) *)
Record imu_state := ImuState { is_pose : M5; is_bg : 'cV[R]_3; is_ba : 'cV[R]_3 }.
Definition is_bias (x : imu_state) : 'cV[R]_(3 + 3) := col_mx (is_bg x) (is_ba x).

(** parameters for the Jacobians: L_matrix and SE23.adjoint *)
Variable Lmat : 'cV[R]_3 -> 'cV[R]_3 -> R -> 'M[R]_(n9, 3 + 3).
Variable seAd : M5 -> 'M[R]_n9.
Variable g : 'cV[R]_3.
Variable Q : 'M[R]_((3 + 3) + (3 + 3)).

(** IMUKinematics.evaluate, imu.py:526-564.  A missing walk attribute is skipped (hasattr);
    get_unbiased_imu copies u first (imu.py:300-323), which raises if it is missing. *)
Definition imu_evaluate (x : imu_state) (u : imu) (dt : R) : imu_state :=
  ImuState (G_matrix g dt *m is_pose x *m U_matrix (im_gyro u - is_bg x) (im_accel u - is_ba x) dt)
           (is_bg x + dt *: odflt 0 (im_gwalk u)) (is_ba x + dt *: odflt 0 (im_awalk u)).
(** _get_input_jacobian, imu.py:627-end *)
Definition imu_input_jac (dir : direction) (x : imu_state) (u : imu) (dt : R) : 'M[R]_(n9, 3 + 3) :=
  let gy := im_gyro u - is_bg x in let ac := im_accel u - is_ba x in
  let L := Lmat gy ac dt in
  if dir is DRight then L else seAd (G_matrix g dt *m is_pose x *m U_matrix gy ac dt) *m L.
(** jacobian, imu.py:566-604 *)
Definition imu_jacobian (dir : direction) (x : imu_state) (u : imu) (dt : R) : 'M[R]_(n9 + (3 + 3)) :=
  let gy := im_gyro u - is_bg x in let ac := im_accel u - is_ba x in
  let jp := if dir is DRight then adjoint_IE3 (U_matrix_inv gy ac dt) else adjoint_IE3 (G_matrix g dt) in
  block_mx jp (- imu_input_jac dir x u dt) 0 1%:M.
(** covariance, imu.py:606-625 *)
Definition imu_L (dir : direction) (x : imu_state) (u : imu) (dt : R) : 'M[R]_(n9 + (3 + 3), (3 + 3) + (3 + 3)) :=
  block_mx (imu_input_jac dir x u dt) 0 0 dt%:M.
Definition imu_covariance dir x u dt := let L := imu_L dir x u dt in L *m Q *m L^T.
Definition imu_kinematics (dir : direction) : process_model R imu_state (n9 + (3 + 3)) imu :=
  ProcessModel (fun s u dt => PState (imu_evaluate (sval s) u dt) (sstamp s))
               (fun s u dt => imu_jacobian dir (sval s) u dt)
               (fun s u dt => imu_covariance dir (sval s) u dt).

(** *** IMUIncrement, preintegration.py:69-275 *)
(** the constructor: 12 x 12 covariances are accepted; for 6 x 6 ones super().__init__
    assigns self.value, a read-only property here (preintegration.py:34, 106-110, 136). *)
Definition imu_increment_init (rows : nat) : result unit :=
  if rows == 12%N then Ok tt else if rows == 6%N then Raise AttributeError else Raise ValueError.

Record irmi := IRmi { ir_val : M5; ir_bg : 'cV[R]_3; ir_ba : 'cV[R]_3; ir_new : 'cV[R]_(3 + 3);
  ir_cov : 'M[R]_(n9 + (3 + 3)); ir_jac : 'M[R]_(n9, 3 + 3); ir_stamps : option (R * R) }.
Definition irmi0 (bg ba : 'cV[R]_3) : irmi := IRmi 1%:M bg ba (col_mx bg ba) 0 0 None.
(** increment, 143-179 *)
Definition irmi_increment (r : irmi) (u : imu) (dt : R) : irmi :=
  let gy := im_gyro u - ir_bg r in let ac := im_accel u - ir_ba r in
  let U := U_matrix gy ac dt in
  let A := adjoint_IE3 (inverse_IE3 U) in
  let L := Lmat gy ac dt in
  let Af := block_mx A (- L) 0 1%:M : 'M[R]_(n9 + (3 + 3)) in
  let Lf := block_mx L 0 0 dt%:M : 'M[R]_(n9 + (3 + 3), (3 + 3) + (3 + 3)) in
  IRmi (ir_val r *m U) (ir_bg r) (ir_ba r) (ir_new r)
       (symmetrize (Af *m ir_cov r *m Af^T + Lf *m Q *m Lf^T))
       (A *m ir_jac r - L) (tick (ir_stamps r) (im_stamp u) dt).
(** update_bias, 181-197 *)
Definition irmi_update_bias (r : irmi) (b : 'cV[R]_(3 + 3)) : irmi :=
  IRmi (ir_val r) (ir_bg r) (ir_ba r) b (ir_cov r) (ir_jac r) (ir_stamps r).
Definition ir_orig (r : irmi) : 'cV[R]_(3 + 3) := col_mx (ir_bg r) (ir_ba r).
(** copy, 217-235: new_bias is not copied *)
Definition irmi_copy (r : irmi) : irmi :=
  IRmi (ir_val r) (ir_bg r) (ir_ba r) (ir_orig r) (ir_cov r) (ir_jac r) (ir_stamps r).
(** new, 237-275 *)
Definition irmi_new (r : irmi) (new_bias : option ('cV[R]_3 * 'cV[R]_3)) (gyro_bias accel_bias : option 'cV[R]_3) : irmi :=
  let gyro_bias := Some (ir_bg r) in let accel_bias := Some (ir_ba r) in
  let gyro_bias := if new_bias is Some (b, _) then Some b else gyro_bias in
  let accel_bias := if new_bias is Some (_, b) then Some b else accel_bias in
  let gyro_bias := if gyro_bias is Some _ then ir_bg r else 0 in
  let accel_bias := if accel_bias is Some _ then ir_ba r else 0 in
  irmi0 gyro_bias accel_bias.

Variable seExp : 'cV[R]_n9 -> M5.                   (* SE23.Exp *)
Variable seJr : 'cV[R]_n9 -> 'M[R]_n9.              (* SE23.right_jacobian *)
(** value, 136-141 *)
Definition irmi_value (r : irmi) : M5 := ir_val r *m seExp (ir_jac r *m (ir_new r - ir_orig r)).
(** rmi.stamps[1] - rmi.stamps[0]; raises on a fresh RMI, which is not modelled *)
Definition ir_dt (r : irmi) : R := if ir_stamps r is Some (a, b) then b - a else 0.

(** PreintegratedIMUKinematics, 278-331 *)
Definition preint_imu_evaluate (x : imu_state) (r : irmi) : imu_state :=
  let r' := irmi_update_bias (irmi_copy r) (is_bias x) in
  ImuState (G_matrix g (ir_dt r) *m is_pose x *m irmi_value r') (is_bg x) (is_ba x).
Definition preint_imu_jacobian (dir : direction) (x : imu_state) (r : irmi) : 'M[R]_(n9 + (3 + 3)) :=
  let r' := irmi_update_bias (irmi_copy r) (is_bias x) in
  let DG := G_matrix g (ir_dt r) in let DU := irmi_value r' in
  let J := seJr (ir_jac r *m (is_bias x - ir_orig r)) in
  if dir is DRight then block_mx (adjoint_IE3 (inverse_IE3 DU)) (J *m ir_jac r) 0 1%:M
  else block_mx (adjoint_IE3 DG) (seAd (DG *m is_pose x *m DU) *m J *m ir_jac r) 0 1%:M.
Definition preint_imu_covariance (dir : direction) (x : imu_state) (r : irmi) : 'M[R]_(n9 + (3 + 3)) :=
  let r' := irmi_update_bias (irmi_copy r) (is_bias x) in
  let DG := G_matrix g (ir_dt r) in let DU := irmi_value r' in
  let E := seAd (seExp (- (ir_jac r *m (is_bias x - ir_orig r)))) in
  let L := if dir is DRight then block_mx E 0 0 1%:M
           else block_mx (seAd (DG *m is_pose x *m DU) *m E) 0 0 1%:M : 'M[R]_(n9 + (3 + 3)) in
  L *m ir_cov r *m L^T.
Definition preint_imu (dir : direction) : process_model R imu_state (n9 + (3 + 3)) irmi :=
  ProcessModel (fun s r _ => PState (preint_imu_evaluate (sval s) r) (sstamp s))
               (fun s r _ => preint_imu_jacobian dir (sval s) r)
               (fun s r _ => preint_imu_covariance dir (sval s) r).
End Kin.
End IE3.
