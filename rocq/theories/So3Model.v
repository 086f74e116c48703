(** Concrete SO(3) maps over Coq's reals: the functions of navlie/lib/imu.py that need
    trigonometry (N_matrix, M_matrix, L_matrix), and the closed forms of pymlg's SO3.Exp and
    SO3.left_jacobian that U_matrix uses.  Exact arithmetic; pymlg's own small-angle series are
    replaced by the exact values they approximate. *)
From Coq Require Import Reals.
From mathcomp Require Import all_ssreflect all_algebra.
From Verif Require Import Base Deriv RealStruct EkfModel ImuModel.
Set Implicit Arguments.
Unset Strict Implicit.
Unset Printing Implicit Defensive.
Import Order.Theory GRing.Theory Num.Theory.
Local Open Scope ring_scope.
Bind Scope ring_scope with Rdefinitions.R.
Local Notation R := Rdefinitions.R.
Notation n9 := (3 + (3 + 3))%N.

(** SO3.Exp (pymlg): Rodrigues' formula *)
Definition so3Exp (phi : 'cV[R]_3) : 'M[R]_3 :=
  let t := norm2 phi in
  if t == 0 then 1%:M
  else 1%:M + (sin t / t) *: wedge phi + ((1 - cos t) / t ^+ 2) *: (wedge phi *m wedge phi).
(** SO3.left_jacobian (pymlg) *)
Definition so3Jl (phi : 'cV[R]_3) : 'M[R]_3 :=
  let t := norm2 phi in
  if t == 0 then 1%:M
  else 1%:M + ((1 - cos t) / t ^+ 2) *: wedge phi + ((t - sin t) / t ^+ 3) *: (wedge phi *m wedge phi).

(** N_matrix, imu.py:326-340; [tol] is SO3._small_angle_tol *)
Definition N_matrix (tol : R) (phi_vec : 'cV[R]_3) : 'M[R]_3 :=
  if norm2 phi_vec < tol then 1%:M else
  let phi := norm2 phi_vec in
  let a := phi^-1 *: phi_vec in
  let c := (1 - cos phi) / phi ^+ 2 in
  let s := (phi - sin phi) / phi ^+ 2 in
  (2%:R * c)%:M + (1 - 2%:R * c) *: (a *m a^T) + (2%:R * s) *: wedge a.

(** M_matrix, imu.py:343-355: the first [n] terms of the series (the code uses n = 100) *)
Definition M_matrix (n : nat) (phi : 'cV[R]_3) : 'M[R]_3 :=
  \sum_(i < n) (2%:R / ((i + 2)`!)%:R) *: (wedge phi ^+ i).

(** L_matrix, imu.py:443-478, with SO3.left_jacobian_inv and SE23.left_jacobian as parameters *)
Section L.
Variables (tol : R) (so3Jlinv : 'cV[R]_3 -> 'M[R]_3) (seJl : 'cV[R]_n9 -> 'M[R]_n9).
Definition L_xi (om a : 'cV[R]_3) (dt : R) : 'cV[R]_n9 :=
  col_mx (dt *: om) (col_mx (dt *: a) ((dt ^+ 2 / 2%:R) *: (so3Jlinv (dt *: om) *m N_matrix tol (dt *: om) *m a))).
(** the block assigned to Up[6:9, 0:3] *)
Definition Up_rg (om a : 'cV[R]_3) (dt : R) : 'M[R]_3 :=
  let Om := wedge (dt *: om) in let OmOm := Om *m Om in let A := wedge a in
  (- (2%:R^-1) * (dt ^+ 2 / 2%:R)) *:
    ((360%:R^-1 * dt ^+ 3) *: (OmOm *m A + Om *m wedge (Om *m a) + wedge (OmOm *m a)) - (6%:R^-1 * dt) *: A).
Definition L_Up (om a : 'cV[R]_3) (dt : R) : 'M[R]_(n9, 3 + 3) :=
  block_mx dt%:M 0 (col_mx 0 (Up_rg om a dt))
                   (col_mx dt%:M ((dt ^+ 2 / 2%:R) *: (so3Jlinv (dt *: om) *m N_matrix tol (dt *: om)))).
Definition L_matrix (om a : 'cV[R]_3) (dt : R) : 'M[R]_(n9, 3 + 3) :=
  seJl (- L_xi om a dt) *m L_Up om a dt.
End L.

(** IMUKinematics.evaluate with the concrete maps *)
Definition imu_eval (tol : R) (g : 'cV[R]_3) : imu_state [realFieldType of R] -> imu [realFieldType of R] -> R -> imu_state [realFieldType of R] :=
  imu_evaluate so3Exp so3Jl (N_matrix tol) g.
