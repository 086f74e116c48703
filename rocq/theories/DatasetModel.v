(** Model of navlie/lib/datasets.py: generate_landmark_positions and the two simulated inertial
    datasets (SimulatedInertialGPSDataset, SimulatedInertialLandmarkDataset).

    Exact real arithmetic.  Random draws are oracles: [walk t] is the bias random walk drawn by the
    input profile at time t (datasets.py:174-175), [nu]/[ny] are what DataGenerator adds to inputs
    and measurements when noise is requested.  Covariances appear only in these draws. *)
From Coq Require Import Reals.
From mathcomp Require Import all_ssreflect all_algebra.
From Verif Require Import Base RealStruct PreintModel DatagenModel ModelsModel ImuModel So3Model.
Set Implicit Arguments.
Unset Strict Implicit.
Unset Printing Implicit Defensive.
Import Order.Theory GRing.Theory Num.Theory.
Local Open Scope ring_scope.
Bind Scope ring_scope with Rdefinitions.R.
Local Notation R := Rdefinitions.R.
Local Notation RF := [realFieldType of R].

(** np.linspace(a, b, n): a + i * step with step = (b - a) / (n - 1), the last one replaced by b;
    a single value is a *)
Definition linspace (a b : R) (n : nat) : seq R :=
  [seq (if (1 < n)%N && (i.+1 == n) then b else if (1 < n)%N then i%:R * ((b - a) / n.-1%:R) + a else a) | i <- iota 0 n].

Definition vec3 (a b c : R) : 'cV[R]_3 := \col_i nth 0 [:: a; b; c] i.

(** generate_landmark_positions, datasets.py:341-382.  angles[0:-1] drops the last angle (2 pi). *)
Definition landmark_positions (radius height : R) (n_levels per_level : nat) : seq 'cV[R]_3 :=
  let z := linspace 0 height n_levels in
  let angles := linspace 0 (2%:R * PI) per_level.+1 in
  let angles := take (size angles).-1 angles in
  let x := [seq radius * cos a | a <- angles] in
  let y := [seq radius * sin a | a <- angles] in
  flatten [seq [seq vec3 (nth 0 x j) (nth 0 y j) (nth 0 z l) | j <- iota 0 per_level] | l <- iota 0 n_levels].

Section Inertial.
Variable tol : R.                                   (* SO3._small_angle_tol *)
(** IMUKinematics' default gravity, imu.py:515-518, and the one of the input profile,
    datasets.py:163 / 284: 9.80665 *)
Definition standard_g : R := 9%:R + 8%:R / 10%:R + 6%:R / 10%:R ^+ 3 + 6%:R / 10%:R ^+ 4 + 5%:R / 10%:R ^+ 5.
Definition gravity : 'cV[R]_3 := vec3 0 0 (- standard_g).
(** a_a, datasets.py:165-167: the prescribed world acceleration *)
Definition accel_profile (t : R) : 'cV[R]_3 :=
  vec3 (- (3%:R * cos t)) (- (3%:R * sin t)) (- (9%:R * sin (3%:R * t))).
Definition gyro_profile : 'cV[R]_3 := vec3 (1 / 10%:R) 0 (1 / 2%:R).

(** an IMUState with its stamp *)
Definition xstate := (imu_state RF * R)%type.
Definition xs_stamp (x : xstate) : R := x.2.
Definition xs_restamp (x : xstate) (t : R) : xstate := (x.1, t).

(** input_profile, datasets.py:151-178 (= 272-299) *)
Definition input_profile (walk : R -> 'cV[R]_3 * 'cV[R]_3) (t : R) (x : xstate) : imu RF :=
  let C := ie3_C (is_pose x.1) in
  let omega := gyro_profile + is_bg x.1 in
  let accel := C^T *m accel_profile t + is_ba x.1 - C^T *m gravity in
  imu_new omega accel t (Some (walk t).1) (Some (walk t).2).

(** process_model.evaluate; get_unbiased_imu copies the reading, imu.py:300-323 *)
Definition kin_step (x : xstate) (u : imu RF) (dt : R) : result xstate :=
  _ <~ imu_copy u ;; Ok (imu_eval tol gravity x.1 u dt, x.2).

(** the measurement models of the datasets: GlobalPosition (models.py:859-917) and
    PointRelativePosition with a landmark and its id (models.py:440-507) *)
Inductive sensor := Gps | Landmark of 'cV[R]_3 & nat.
Definition view (x : xstate) : pose RF 3 3 (3 + (3 + 3) + (3 + 3)) :=
  imu_view (IState (MState (is_pose x.1) DRight) (is_bg x.1) (is_ba x.1)).
Definition sense (s : sensor) (x : xstate) : option 'cV[R]_3 :=
  match s with
  | Gps => p_pos (view x)
  | Landmark l _ => if @relpos_eval [rcfType of R] 3 3 _ l (view x) is Ok y then Some y else None
  end.

(** u.bias_gyro_walk = 0; u.bias_accel_walk = 0, datasets.py:196-199 *)
Definition zero_walk (u : imu RF) : imu RF := Imu (im_gyro u) (im_accel u) (im_stamp u) (Some 0) (Some 0).
(** IMU.plus with the drawn noise (None: a reading that cannot be copied, never the case here) *)
Definition add_noise (w : nat -> 'cV[R]_3 * 'cV[R]_3 * 'cV[R]_3 * 'cV[R]_3) (k : nat) (u : imu RF) : imu RF :=
  let: (w1, w2, w3, w4) := w k in if imu_plus u w1 w2 w3 w4 is Ok v then v else u.

(** data_gen.generate(x0, t_start, t_end, noise), datasets.py:184-194 and 317-327 *)
Definition inertial_generate (rnd : R -> R) walk wu (wy : nat -> 'cV[R]_3 -> 'cV[R]_3) (noise : bool)
    (infos : seq (sensor * R * R)) (x0 : xstate) (input_freq t_start t_end : R)
  : result (seq xstate * seq (imu RF) * seq (meas [archiFieldType of R] 'cV[R]_3 sensor)) :=
  generate xs_stamp xs_restamp (@im_stamp RF) kin_step (input_profile walk) sense rnd
         (if noise then add_noise wu else fun _ u => u) (if noise then wy else fun _ y => y)
         infos input_freq x0 t_start t_end.
(** the body shared by both constructors, datasets.py:180-206 and 311-335: [sensors] with a single
    measurement frequency and no offsets *)
Definition inertial_dataset (rnd : R -> R) walk wu (wy : nat -> 'cV[R]_3 -> 'cV[R]_3) (sensors : seq sensor)
    (noise : bool) (x0 : xstate) (input_freq meas_freq t_start t_end : R)
  : result (seq xstate * seq (imu RF) * seq (meas [archiFieldType of R] 'cV[R]_3 sensor)) :=
  c <~ datagen_init (0 : R) sensors (FScalar meas_freq) (FNone R) ;;
  o <~ inertial_generate rnd walk wu wy noise c.1 x0 input_freq t_start t_end ;;
  let: (xs, us, ms) := o in
  Ok (xs, if noise then map zero_walk us else us, ms).
(** SimulatedInertialGPSDataset.__init__, datasets.py:115-206 *)
Definition gps_dataset rnd walk wu wy := inertial_dataset rnd walk wu wy [:: Gps].
(** SimulatedInertialLandmarkDataset.__init__, datasets.py:219-336: also returns the landmarks *)
Definition landmark_sensors (lms : seq 'cV[R]_3) : seq sensor := [seq Landmark il.2 il.1 | il <- zip (iota 0 (size lms)) lms].
Definition landmark_dataset rnd walk wu wy (radius height : R) (n_levels per_level : nat) noise x0 fi fm t0 t1 :=
  let lms := landmark_positions radius height n_levels per_level in
  o <~ inertial_dataset rnd walk wu wy (landmark_sensors lms) noise x0 fi fm t0 t1 ;; Ok (o, lms).
End Inertial.
