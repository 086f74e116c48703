(** Model of navlie/lib/models.py (process and measurement models), of the state classes of
    navlie/lib/states.py and navlie/lib/imu.py as far as these models use them, and of
    navlie/lib/camera.py.

    Exact arithmetic over an ordered field (real closed where a norm is taken).  pymlg's
    group exponentials are parameters; SO2.wedge, SO3.wedge, SO2.odot and SO3.odot are
    written out.  Array shapes are enforced by types, except where a shape error is the
    behaviour of interest.  1-D arrays are columns. *)
From mathcomp Require Import all_ssreflect all_algebra.
From Verif Require Import Base EkfModel PreintModel ImuModel Deriv.
Set Implicit Arguments.
Unset Strict Implicit.
Unset Printing Implicit Defensive.
Import Order.Theory GRing.Theory Num.Theory.
Local Open Scope ring_scope.

(** *** Linear process models *)
Section Integrators.
Variable R : realFieldType.
Variable n : nat.

(** SingleIntegrator, models.py:23-71 *)
Definition single_eval (x u : 'cV[R]_n) (dt : R) : 'cV[R]_n := x + dt *: u.
Definition single_jac (dt : R) : 'M[R]_n := 1%:M.
Definition single_cov (Q : 'M[R]_n) (dt : R) : 'M[R]_n := dt ^+ 2 *: Q.
Definition single_integrator (Q : 'M[R]_n) : process_model R 'cV[R]_n n 'cV[R]_n :=
  ProcessModel (fun s u dt => PState (single_eval (sval s) u dt) (sstamp s))
               (fun _ _ dt => single_jac dt) (fun _ _ dt => single_cov Q dt).

(** DoubleIntegrator, models.py:74-131; the input may carry [k] further entries (u[:dim]) *)
Definition double_jac (dt : R) : 'M[R]_(n + n) := block_mx 1%:M dt%:M 0 1%:M.
Definition double_ljac (dt : R) : 'M[R]_(n + n, n) := col_mx (dt ^+ 2 / 2%:R)%:M dt%:M.
Definition double_eval k (x : 'cV[R]_(n + n)) (u : 'cV[R]_(n + k)) (dt : R) : 'cV[R]_(n + n) :=
  double_jac dt *m x + double_ljac dt *m usubmx u.
Definition double_cov (Q : 'M[R]_n) (dt : R) : 'M[R]_(n + n) :=
  double_ljac dt *m Q *m (double_ljac dt)^T.
Definition double_integrator k (Q : 'M[R]_n) : process_model R 'cV[R]_(n + n) (n + n) 'cV[R]_(n + k) :=
  ProcessModel (fun s u dt => PState (double_eval (sval s) u dt) (sstamp s))
               (fun _ _ dt => double_jac dt) (fun _ _ dt => double_cov Q dt).

(** DoubleIntegratorWithBias, models.py:134-217; the second half of the input, the random
    walk of the bias, is None when u.value.size <= dim (175-182) *)
Definition bias_eval (x : 'cV[R]_(n + n + n)) (u : 'cV[R]_n) (walk : option 'cV[R]_n) (dt : R) : 'cV[R]_(n + n + n) :=
  let pv := usubmx x in let bias := dsubmx x in let accel := u - bias in
  col_mx (double_jac dt *m pv + double_ljac dt *m accel) (bias + dt *: odflt 0 walk).
Definition bias_jac (dt : R) : 'M[R]_(n + n + n) := block_mx (double_jac dt) (- double_ljac dt) 0 1%:M.
Definition bias_ljac (dt : R) : 'M[R]_(n + n + n, n + n) := block_mx (double_ljac dt) 0 0 dt%:M.
Definition bias_cov (Q : 'M[R]_(n + n)) (dt : R) : 'M[R]_(n + n + n) := bias_ljac dt *m Q *m (bias_ljac dt)^T.
Definition biased_integrator (Q : 'M[R]_(n + n)) :
    process_model R 'cV[R]_(n + n + n) (n + n + n) ('cV[R]_n * option 'cV[R]_n) :=
  ProcessModel (fun s u dt => PState (bias_eval (sval s) u.1 u.2 dt) (sstamp s))
               (fun _ _ dt => bias_jac dt) (fun _ _ dt => bias_cov Q dt).
End Integrators.

(** *** Group process models (BodyFrameVelocity is [body_velocity] of PreintModel) *)
Section Relative.
Variable R : realFieldType.
Variables k d : nat.
Variables (Exp : 'cV[R]_d -> 'M[R]_k) (Ad : 'M[R]_k -> 'M[R]_d) (Jl : 'cV[R]_d -> 'M[R]_d).
(** RelativeBodyFrameVelocity, models.py:264-343; the stacked input is a pair *)
Definition relvel_eval (X : 'M[R]_k) (u1 u2 : 'cV[R]_d) (dt : R) : 'M[R]_k :=
  Exp (- (dt *: u1)) *m X *m Exp (dt *: u2).
Definition relvel_jac (dir : direction) (u1 u2 : 'cV[R]_d) (dt : R) : result 'M[R]_d :=
  if dir is DRight then Ok (Ad (Exp (- (dt *: u2)))) else Raise NotImplementedErr.
Definition relvel_L1 (X : 'M[R]_k) (u1 u2 : 'cV[R]_d) (dt : R) : 'M[R]_d :=
  dt *: Ad (X *m Exp (dt *: u2)) *m Jl (dt *: u1).
Definition relvel_L2 (u1 u2 : 'cV[R]_d) (dt : R) : 'M[R]_d := dt *: Jl (- (dt *: u2)).
Definition relvel_cov (Q1 Q2 : 'M[R]_d) (dir : direction) (X : 'M[R]_k) (u1 u2 : 'cV[R]_d) (dt : R) : result 'M[R]_d :=
  if dir is DRight then
    let L1 := relvel_L1 X u1 u2 dt in let L2 := relvel_L2 u1 u2 dt in
    Ok (L1 *m Q1 *m L1^T + L2 *m Q2 *m L2^T)
  else Raise NotImplementedErr.
End Relative.

(** *** States with an attitude, a position and a velocity *)
Section States.
Variable R : realFieldType.

(** what the measurement models read from a state object: attitude (n x n), position and
    velocity (None: the property raises NotImplementedError, states.py:189-214), direction,
    and jacobian_from_blocks.  [k] is the dimension of the rotation, [d] the dof. *)
Record pose (n k d : nat) := Pose {
  p_att : 'M[R]_n; p_pos : option 'cV[R]_n; p_vel : option 'cV[R]_n; p_dir : direction;
  p_jfb : forall m, option 'M[R]_(m, k) -> option 'M[R]_(m, n) -> option 'M[R]_(m, n) -> result 'M[R]_(m, d) }.
Definition need A (o : option A) : result A := if o is Some a then Ok a else Raise NotImplementedErr.

(** MatrixLieGroupState: value and perturbation direction *)
Record mstate n := MState { m_val : 'M[R]_n; m_dir : direction }.
(** MatrixLieGroupState.plus, states.py:119-127 *)
Definition mplus n d (Exp : 'cV[R]_d -> 'M[R]_n) (x : mstate n) (dx : 'cV[R]_d) : mstate n :=
  MState (if m_dir x is DRight then m_val x *m Exp dx else Exp dx *m m_val x) (m_dir x).

(** SO3State, states.py:250-290: jacobian_from_blocks takes only [attitude] *)
Definition so3_view (x : mstate 3) : pose 3 3 3 :=
  Pose (m_val x) None None (m_dir x)
    (fun m a p v => match a, p, v with
       | Some A, None, None => Ok A
       | _, _, _ => Raise TypeError end).
(** SE2State (n = 2, k = 1) and SE3State (n = 3, k = 3), states.py:336-405, 408-458:
    blocks [attitude, position]; no block at all leaves [dim] unbound *)
Definition se_view n k (x : mstate (n + 1)) : pose n k (k + n) :=
  Pose (ulsubmx (m_val x)) (Some (ursubmx (m_val x))) None (m_dir x)
    (fun m a p v => match a, p, v with
       | _, _, Some _ => Raise TypeError
       | None, None, _ => Raise UnboundLocalError
       | _, _, None => Ok (row_mx (odflt 0 a) (odflt 0 p)) end).
(** SE23State, states.py:545-629: blocks [attitude, velocity, position]; the velocity is
    column 3, the position column 4 *)
Definition se23_view (x : mstate (3 + (1 + 1))) : pose 3 3 (3 + (3 + 3)) :=
  Pose (ulsubmx (m_val x)) (Some (rsubmx (ursubmx (m_val x)))) (Some (lsubmx (ursubmx (m_val x)))) (m_dir x)
    (fun m a p v => match a, p, v with
       | None, None, None => Raise UnboundLocalError
       | _, _, _ => Ok (row_mx (odflt 0 a) (row_mx (odflt 0 v) (odflt 0 p))) end).
(** IMUState, imu.py:138-297: an SE23State and two VectorStates; the perturbation is
    [nav, gyro bias, accel bias] (CompositeState.plus); jacobian_from_blocks 270-297 *)
Record istate := IState { i_nav : mstate (3 + (1 + 1)); i_bg : 'cV[R]_3; i_ba : 'cV[R]_3 }.
Definition iplus (Exp : 'cV[R]_(3 + (3 + 3)) -> 'M[R]_(3 + (1 + 1))) (x : istate) (dx : 'cV[R]_(3 + (3 + 3) + (3 + 3))) : istate :=
  IState (mplus Exp (i_nav x) (usubmx dx)) (i_bg x + usubmx (dsubmx dx)) (i_ba x + dsubmx (dsubmx dx)).
Definition imu_view (x : istate) : pose 3 3 (3 + (3 + 3) + (3 + 3)) :=
  let nav := se23_view (i_nav x) in
  Pose (p_att nav) (p_pos nav) (p_vel nav) (p_dir nav)
    (fun m a p v => J <~ p_jfb nav a p v ;; Ok (row_mx J (row_mx 0 0))).

(** *** SO2 and SO3 as used by the models: wedge and odot (pymlg) *)
Record attgroup (n k : nat) := AttGroup { ag_wedge : 'cV[R]_k -> 'M[R]_n; ag_odot : 'cV[R]_n -> 'M[R]_(n, k) }.
Definition so2 : attgroup 2 1 := AttGroup
  (fun a => \matrix_(i, j) nth 0 (nth [::] [:: [:: 0; - a 0 0]; [:: a 0 0; 0]] i) j)
  (fun b => \matrix_(i, j) nth 0 [:: - b 1 0; b 0 0] i).
Definition so3 : attgroup 3 3 := AttGroup (@wedge R) (fun b => - wedge b).
End States.
Arguments need {A}.

(** *** Measurement models *)
Section Measurements.
Variable R : rcfType.

(** LinearMeasurement, models.py:346-382 *)
Definition linear_eval n m (C : 'M[R]_(m, n)) (x : 'cV[R]_n) : 'cV[R]_m := C *m x.
Definition linear_jac n m (C : 'M[R]_(m, n)) (x : 'cV[R]_n) : 'M[R]_(m, n) := C.

(** RangePointToAnchor, models.py:385-437: the first n entries of the state are the position *)
Definition range_point_eval n k (a : 'cV[R]_n) (x : 'cV[R]_(n + k)) : 'cV[R]_1 := (norm2 (a - usubmx x))%:M.
Definition range_point_jac n k (a : 'cV[R]_n) (x : 'cV[R]_(n + k)) : 'M[R]_(1, n + k) :=
  let r := usubmx x - a in row_mx ((norm2 r)^-1 *: r^T) 0.

Section Pose.
Variables n k d : nat.
Variable G : attgroup R n k.
Notation pose := (pose R n k d).
Notation jfb x := (@p_jfb _ _ _ _ x _).

(** PointRelativePosition, models.py:440-507 *)
Definition relpos_eval (l : 'cV[R]_n) (x : pose) : result 'cV[R]_n :=
  r <~ need (p_pos x) ;; Ok ((p_att x)^T *m (l - r)).
Definition relpos_jac (l : 'cV[R]_n) (x : pose) : result 'M[R]_(n, d) :=
  r <~ need (p_pos x) ;;
  let C := p_att x in let y := C^T *m (l - r) in
  match p_dir x with
  | DRight => jfb x (Some (- ag_odot G y)) (Some (- 1%:M)) None
  | DLeft => jfb x (Some (- C^T *m ag_odot G l)) (Some (- C^T)) None
  end.

(** RangePoseToAnchor, models.py:724-790 *)
Definition range_anchor_eval (a tag : 'cV[R]_n) (x : pose) : result 'cV[R]_1 :=
  r <~ need (p_pos x) ;; Ok (norm2 (p_att x *m tag + r - a))%:M.
Definition range_anchor_jac (a tag : 'cV[R]_n) (x : pose) : result 'M[R]_(1, d) :=
  r <~ need (p_pos x) ;;
  let C := p_att x in let rtc := C *m tag + r - a in
  let rho := (norm2 rtc)^-1 *: rtc in
  match p_dir x with
  | DRight => jfb x (Some (rho^T *m C *m ag_odot G tag)) (Some (rho^T *m C)) None
  | DLeft => jfb x (Some (rho^T *m ag_odot G (C *m tag + r))) (Some (rho^T *m 1%:M)) None
  end.

(** AbsolutePosition, models.py:920-961 *)
Definition abspos_eval (x : pose) : result 'cV[R]_n := need (p_pos x).
Definition abspos_jac (x : pose) : result 'M[R]_(n, d) :=
  match p_dir x with
  | DRight => jfb x None (Some (p_att x)) None
  | DLeft => r <~ need (p_pos x) ;; jfb x (Some (ag_odot G r)) (Some 1%:M) None
  end.
(** AbsoluteVelocity, models.py:972-1013 *)
Definition absvel_eval (x : pose) : result 'cV[R]_n := need (p_vel x).
Definition absvel_jac (x : pose) : result 'M[R]_(n, d) :=
  match p_dir x with
  | DRight => jfb x None None (Some (p_att x))
  | DLeft => v <~ need (p_vel x) ;; jfb x (Some (ag_odot G v)) None (Some 1%:M)
  end.

(** Gravitometer, models.py:1065-1107, and Magnetometer, 1110-1153 (the same code with
    another default vector and an equivalent placement of the minus sign) *)
Definition vector_eval (g : 'cV[R]_n) (x : pose) : result 'cV[R]_n := Ok ((p_att x)^T *m g).
Definition vector_jac (g : 'cV[R]_n) (x : pose) : result 'M[R]_(n, d) :=
  match p_dir x with
  | DRight => jfb x (Some (- ag_odot G ((p_att x)^T *m g))) None None
  | DLeft => jfb x (Some ((p_att x)^T *m - ag_odot G g)) None None
  end.
(** covariance of AbsolutePosition, Gravitometer and Magnetometer (956-961, 1102-1107,
    1148-1153): a scalar R is expanded to the size of the position *)
Definition pos_cov (Rv : R + 'M[R]_n) (x : pose) : result 'M[R]_n :=
  match Rv with
  | inl c => r <~ need (p_pos x) ;; Ok c%:M
  | inr M => Ok M
  end.
(** covariance of AbsoluteVelocity, 1008-1013 *)
Definition vel_cov (Rv : R + 'M[R]_n) (x : pose) : result 'M[R]_n :=
  match Rv with
  | inl c => v <~ need (p_vel x) ;; Ok c%:M
  | inr M => Ok M
  end.

(** _InvariantInnovation, models.py:1156-1212, around a model (ev, jc, cv) *)
Inductive inv_dir := IDir of direction | IAuto | IBad.
Definition inv_direction (id : inv_dir) (x : pose) : result direction :=
  match id with
  | IDir e => Ok e
  | IAuto => Ok (if p_dir x is DLeft then DRight else DLeft)
  | IBad => Raise ValueError
  end.
Definition innov_eval (ev : pose -> result 'cV[R]_n) (y : 'cV[R]_n) (id : inv_dir) (x : pose) : result 'cV[R]_n :=
  yh <~ ev x ;; e <~ inv_direction id x ;;
  Ok (if e is DLeft then (p_att x)^T *m (yh - y) else p_att x *m (yh - y)).
Definition innov_jac (jc : pose -> result 'M[R]_(n, d)) (id : inv_dir) (x : pose) : result 'M[R]_(n, d) :=
  J <~ jc x ;; e <~ inv_direction id x ;;
  Ok (if e is DLeft then (p_att x)^T *m J else p_att x *m J).
Definition innov_cov (cv : pose -> result 'M[R]_n) (id : inv_dir) (x : pose) : result 'M[R]_n :=
  S <~ cv x ;; e <~ inv_direction id x ;;
  let M := if e is DLeft then (p_att x)^T else p_att x in Ok (M *m S *m M^T).
End Pose.

Section Pose3.
Variable d : nat.
Notation pose := (pose R 3 3 d).
Notation jfb x := (@p_jfb _ _ _ _ x _).
(** Altitude, models.py:1016-1062; minimum None is -inf.  The measurement is None when the
    altitude is not above the minimum (1048-1050). *)
Definition altitude_eval (minimum : option R) (bias : R) (x : pose) : result (option 'cV[R]_1) :=
  r <~ need (p_pos x) ;;
  let h := r 2%:R 0 + bias in
  Ok (if (if minimum is Some mn then mn < h else true) then Some h%:M else None).
Definition altitude_jac (x : pose) : result 'M[R]_(1, d) :=
  match p_dir x with
  | DRight => jfb x None (Some (row 2%:R (p_att x))) None
  | DLeft => r <~ need (p_pos x) ;; jfb x (Some (row 2%:R (ag_odot (so3 R) r))) (Some (row 2%:R 1%:M)) None
  end.

(** InvariantPointRelativePosition, models.py:665-721 *)
Definition invrel_eval (l y : 'cV[R]_3) (x : pose) : result 'cV[R]_3 :=
  yh <~ relpos_eval l x ;; Ok (p_att x *m (yh - y)).
Definition invrel_jac (l : 'cV[R]_3) (x : pose) : result 'M[R]_(3, d) :=
  if p_dir x is DLeft then jfb x (Some (wedge l)) (Some (- 1%:M)) None else Raise NotImplementedErr.
End Pose3.

(** *** Models over two substates of a composite state.  [None]: no such id. *)
Section Two.
Variables n k d1 d2 : nat.
Variable G : attgroup R n k.
(** RangePoseToPose, models.py:793-882: value, and the two blocks of the Jacobian *)
Definition range_poses_eval (t1 t2 : 'cV[R]_n) (x1 : pose R n k d1) (x2 : pose R n k d2) : result 'cV[R]_1 :=
  r1 <~ need (p_pos x1) ;; r2 <~ need (p_pos x2) ;;
  Ok (norm2 ((p_att x1 *m t1 + r1) - (p_att x2 *m t2 + r2)))%:M.
Definition range_poses_jac (t1 t2 : 'cV[R]_n) (x1 : pose R n k d1) (x2 : pose R n k d2) :
    result ('M[R]_(1, d1) * 'M[R]_(1, d2)) :=
  r1 <~ need (p_pos x1) ;; r2 <~ need (p_pos x2) ;;
  let C1 := p_att x1 in let C2 := p_att x2 in
  let r := (C1 *m t1 + r1) - (C2 *m t2 + r2) in
  let rho := (norm2 r)^-1 *: r in
  j1 <~ (match p_dir x1 with
         | DRight => p_jfb x1 (Some (rho^T *m C1 *m ag_odot G t1)) (Some (rho^T *m C1)) None
         | DLeft => p_jfb x1 (Some (rho^T *m ag_odot G (C1 *m t1 + r1))) (Some (rho^T *m 1%:M)) None
         end) ;;
  j2 <~ (match p_dir x2 with
         | DRight => p_jfb x2 (Some (- rho^T *m C2 *m ag_odot G t2)) (Some (- rho^T *m C2)) None
         | DLeft => p_jfb x2 (Some (- rho^T *m ag_odot G (C2 *m t2 + r2))) (Some (- rho^T *m 1%:M)) None
         end) ;;
  Ok (j1, j2).
End Two.

Section Landmark.
Variable d : nat.
Notation pose := (pose R 3 3 d).
(** PointRelativePositionSLAM, models.py:510-593: value, and the blocks for the pose and the
    landmark (an SO3 pose only: the code uses SO3.odot) *)
Definition slam_eval (x : pose) (l : 'cV[R]_3) : result 'cV[R]_3 := relpos_eval l x.
Definition slam_jac (x : pose) (l : 'cV[R]_3) : result ('M[R]_(3, d) * 'M[R]_3) :=
  J <~ relpos_jac (so3 R) l x ;; Ok (J, (p_att x)^T).

(** PinholeCamera, camera.py *)
Record camera := Camera { cam_fu : R; cam_fv : R; cam_cu : R; cam_cv : R; cam_w : nat; cam_h : nat;
                          cam_sigma : R; cam_C : 'M[R]_3; cam_r : 'cV[R]_3 }.
(** resolve_landmark_in_cam_frame, camera.py:189-206 *)
Definition cam_resolve (c : camera) (x : pose) (l : 'cV[R]_3) : result 'cV[R]_3 :=
  r <~ need (p_pos x) ;; Ok ((cam_C c)^T *m ((p_att x)^T *m (l - r) - cam_r c)).
Definition col2 (u v : R) : 'cV[R]_2 := \matrix_(i, j) nth 0 [:: u; v] i.
(** project, camera.py:208-228.  Division by zero: numpy returns inf or nan with a warning;
    the model returns whatever x/0 is, and the theorems assume z <> 0. *)
Definition cam_project (c : camera) (p : 'cV[R]_3) : 'cV[R]_2 :=
  col2 (cam_fu c * p 0 0 / p 2%:R 0 + cam_cu c) (cam_fv c * p 1 0 / p 2%:R 0 + cam_cv c).
(** evaluate, camera.py:168-187, and CameraProjection.evaluate, models.py:619-622 *)
Definition cam_eval (c : camera) (x : pose) (l : 'cV[R]_3) : result 'cV[R]_2 := rmap (cam_project c) (cam_resolve c x l).
(** _compute_jac_of_projection_model, models.py:655-662 *)
Definition proj_jac (c : camera) (p : 'cV[R]_3) : 'M[R]_(2, 3) :=
  let x := p 0 0 in let y := p 1 0 in let z := p 2%:R 0 in
  z^-1 *: \matrix_(i, j) nth 0 (nth [::] [:: [:: cam_fu c; 0; - cam_fu c * x / z]; [:: 0; cam_fv c; - cam_fv c * y / z]] i) j.
(** CameraProjection.jacobian, models.py:624-650: blocks for the pose and the landmark *)
Definition cam_jac (c : camera) (x : pose) (l : 'cV[R]_3) : result ('M[R]_(2, d) * 'M[R]_(2, 3)) :=
  match p_dir x with
  | DLeft => Raise NotImplementedErr
  | DRight =>
      p <~ cam_resolve c x l ;; r <~ need (p_pos x) ;;
      let D := proj_jac c p in let Cb := cam_C c in let C := p_att x in
      J <~ p_jfb x (Some (D *m (Cb^T *m wedge (C^T *m (l - r))))) (Some (D *m - Cb^T)) None ;;
      Ok (J, D *m (Cb^T *m C^T))
  end.
(** is_measurement_valid, camera.py:138-160; is_landmark_in_front_of_cam, 162-166 *)
Definition cam_valid (c : camera) (uv : 'cV[R]_2) : bool :=
  [&& 0 < uv 1 0, uv 1 0 < (cam_h c)%:R, 0 < uv 0 0 & uv 0 0 < (cam_w c)%:R].
Definition cam_in_front (c : camera) (x : pose) (l : 'cV[R]_3) : result bool :=
  rmap (fun p : 'cV[R]_3 => 0 < p 2%:R 0) (cam_resolve c x l).
(** to_normalized_coords, camera.py:230-246: three numbers are returned *)
Definition cam_normalize (c : camera) (uv : 'cV[R]_2) : seq R :=
  [:: (uv 0 0 - cam_cu c) / cam_fu c; (uv 1 0 - cam_cv c) / cam_fv c; 1].
(** to_pixel_coors, 248-254: unpacks exactly two *)
Definition cam_pixel (c : camera) (meas : seq R) : result 'cV[R]_2 :=
  if meas is [:: xn; yn] then Ok (col2 (xn * cam_fu c + cam_cu c) (yn * cam_fv c + cam_cv c))
  else Raise ValueError.
(** R_normalized_image_coords, camera.py:111-122 *)
Definition cam_R_normalized (c : camera) : 'M[R]_2 :=
  \matrix_(i, j) (nth 0 (nth [::] [:: [:: cam_sigma c / cam_fu c; 0]; [:: 0; cam_sigma c / cam_fv c]] i) j) ^+ 2.
(** CameraProjection.covariance, models.py:617, 652-653 *)
Definition cam_cov (c : camera) : 'M[R]_2 := (cam_sigma c ^+ 2)%:M.
End Landmark.
End Measurements.
