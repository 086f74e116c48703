(** Model of navlie/lib/preintegration.py: LinearIncrement, PreintegratedLinearModel,
    BodyVelocityIncrement, PreintegratedBodyVelocity, and of BodyFrameVelocity
    (navlie/lib/models.py:222-261).  (IMUIncrement is in ImuModel.)

    Exact arithmetic over an ordered field.  An RMI object is a value; methods that
    mutate it return the new value.  Shapes are enforced by types. *)
From mathcomp Require Import all_ssreflect all_algebra.
From Verif Require Import Base EkfModel.
Set Implicit Arguments.
Unset Strict Implicit.
Unset Printing Implicit Defensive.
Import Order.Theory GRing.Theory Num.Theory.
Local Open Scope ring_scope.

Section Stamps.
Variable R : zmodType.
(** the stamps [i, j] of an RMI; None before the first increment.
    preintegration.py:143-149, 378-388, 718-726 *)
Definition tick (st : option (R * R)) (t dt : R) : option (R * R) :=
  if st is Some (a, b) then Some (a, b + dt) else Some (t, t + dt).
(** RelativeMotionIncrement.stamp, preintegration.py:36-41 *)
Definition rmi_stamp (st : option (R * R)) : option R := if st is Some (_, b) then Some b else None.
End Stamps.

(** VectorInput: value and stamp (states.py VectorInput) *)
Record vinput (R : Type) (U : Type) := VIn { vi_val : U; vi_stamp : R }.

Section Linear.
Variable R : realFieldType.
Variables n m : nat.
Notation input := (vinput R 'cV[R]_m).
Variable sm : input -> R -> 'M[R]_n.               (* state_matrix(u, dt) *)
Variable im : input -> R -> 'M[R]_(n, m).          (* input_matrix(u, dt) *)

(** *** LinearIncrement without bias, preintegration.py:657-764 *)
Section NoBias.
Variable Q : 'M[R]_m.
Record lrmi := LRmi { lr_A : 'M[R]_n; lr_u : 'cV[R]_n; lr_cov : 'M[R]_n;
  lr_jac : option 'M[R]_(n, m); lr_stamps : option (R * R) }.
Definition lrmi0 : lrmi := LRmi 1%:M 0 0 None None.
Definition lrmi_increment (r : lrmi) (u : input) (dt : R) : lrmi :=
  let A := sm u dt in let B := im u dt in
  LRmi (A *m lr_A r) (A *m lr_u r + B *m vi_val u) (A *m lr_cov r *m A^T + B *m Q *m B^T)
       (Some (A *m odflt 0 (lr_jac r) - B))
       (tick (lr_stamps r) (vi_stamp u) dt).
(** copy, preintegration.py:816-832: bias_jacobian.copy() on None raises *)
Definition lrmi_copy (r : lrmi) : result lrmi := if lr_jac r is Some _ then Ok r else Raise AttributeError.
(** PreintegratedLinearModel, preintegration.py:855-908, bias None *)
Definition preint_linear : process_model R 'cV[R]_n n lrmi :=
  ProcessModel (fun s r _ => PState (lr_A r *m sval s + lr_u r) (sstamp s))
               (fun _ r _ => lr_A r)
               (fun _ r _ => lr_cov r).
(** the process model being preintegrated: x' = A x + B (u + w), cov(w) = Q *)
Definition linear_model : process_model R 'cV[R]_n n input :=
  ProcessModel (fun s u dt => PState (sm u dt *m sval s + im u dt *m vi_val u) (sstamp s))
               (fun _ u dt => sm u dt)
               (fun _ u dt => im u dt *m Q *m (im u dt)^T).
End NoBias.

(** *** LinearIncrement with an m-dimensional bias; the input covariance is that of the
    input and of the bias random walk. *)
Section Bias.
Variable Q : 'M[R]_(m + m).
Record brmi := BRmi { br_b0 : 'cV[R]_m; br_new : 'cV[R]_m; br_A : 'M[R]_n; br_u : 'cV[R]_n;
  br_cov : 'M[R]_(n + m); br_jac : 'M[R]_(n, m); br_stamps : option (R * R) }.
(** LinearIncrement.__init__, preintegration.py:657-716 *)
Definition brmi0 (b : 'cV[R]_m) : brmi := BRmi b b 1%:M 0 0 0 None.
Definition unbias (b : 'cV[R]_m) (u : input) : input := VIn (vi_val u - b) (vi_stamp u).
Definition A_full (A : 'M[R]_n) (B : 'M[R]_(n, m)) : 'M[R]_(n + m) := block_mx A (- B) 0 1%:M.
Definition B_full (B : 'M[R]_(n, m)) (dt : R) : 'M[R]_(n + m, m + m) := block_mx B 0 0 (dt%:M).
(** increment, preintegration.py:718-764 *)
Definition brmi_increment (r : brmi) (u : input) (dt : R) : brmi :=
  let u' := unbias (br_b0 r) u in
  let A := sm u' dt in let B := im u' dt in
  BRmi (br_b0 r) (br_new r) (A *m br_A r) (A *m br_u r + B *m vi_val u')
       (A_full A B *m br_cov r *m (A_full A B)^T + B_full B dt *m Q *m (B_full B dt)^T)
       (A *m br_jac r - B) (tick (br_stamps r) (vi_stamp u) dt).
(** update_bias, preintegration.py:766-778 *)
Definition brmi_update_bias (r : brmi) (b : 'cV[R]_m) : brmi :=
  BRmi (br_b0 r) b (br_A r) (br_u r) (br_cov r) (br_jac r) (br_stamps r).
(** the [value] property, preintegration.py:780-796: the returned list IS original_value,
    whose second entry is overwritten. *)
Definition brmi_value (r : brmi) : ('M[R]_n * 'cV[R]_n) * brmi :=
  let u' := br_u r + br_jac r *m (br_new r - br_b0 r) in
  ((br_A r, u'), BRmi (br_b0 r) (br_new r) (br_A r) u' (br_cov r) (br_jac r) (br_stamps r)).
(** copy / new, preintegration.py:816-852 *)
Definition brmi_copy (r : brmi) : brmi := r.
Definition brmi_new (r : brmi) (b : option 'cV[R]_m) : brmi := brmi0 (odflt (br_b0 r) b).
(** PreintegratedLinearModel.evaluate, preintegration.py:867-887: reads [value] twice.
    The returned RMI is the caller's object after the call. *)
Definition preint_bias_evaluate (r : brmi) (x : 'cV[R]_(n + m)) : 'cV[R]_(n + m) * brmi :=
  let: (v1, r1) := brmi_value r in
  let: (v2, r2) := brmi_value r1 in
  (col_mx (v1.1 *m usubmx x + v2.2) (dsubmx x), r2).
(** jacobian and covariance, 889-908 *)
Definition preint_bias_jacobian (r : brmi) : 'M[R]_(n + m) := block_mx (br_A r) (br_jac r) 0 1%:M.
Definition preint_bias : process_model R 'cV[R]_(n + m) (n + m) brmi :=
  ProcessModel (fun s r _ => PState (preint_bias_evaluate r (sval s)).1 (sstamp s))
               (fun _ r _ => preint_bias_jacobian r)
               (fun _ r _ => br_cov r).
(** the process model being preintegrated: x' = A x + B (u - b + w), b' = b + dt w_b *)
Definition bias_model : process_model R 'cV[R]_(n + m) (n + m) input :=
  ProcessModel
    (fun s u dt => let u' := unbias (dsubmx (sval s)) u in
       PState (col_mx (sm u' dt *m usubmx (sval s) + im u' dt *m vi_val u') (dsubmx (sval s))) (sstamp s))
    (fun s u dt => let u' := unbias (dsubmx (sval s)) u in A_full (sm u' dt) (im u' dt))
    (fun s u dt => let B := im (unbias (dsubmx (sval s)) u) dt in B_full B dt *m Q *m (B_full B dt)^T).
End Bias.
End Linear.

(** ** Body velocity on a matrix Lie group *)
Section Group.
Variable R : realFieldType.
Variables k d : nat.
(** pymlg's group operations *)
Variable Exp : 'cV[R]_d -> 'M[R]_k.
Variable Ad : 'M[R]_k -> 'M[R]_d.
Variable ginv : 'M[R]_k -> 'M[R]_k.
Variable Jl : 'cV[R]_d -> 'M[R]_d.                  (* left_jacobian *)
Variable Q : 'M[R]_d.
Notation input := (vinput R 'cV[R]_d).
(** state.direction *)
Inductive direction := DLeft | DRight.

(** BodyFrameVelocity, models.py:222-261 *)
Definition body_velocity (dir : direction) : process_model R 'M[R]_k d input :=
  ProcessModel
    (fun s u dt => PState (sval s *m Exp (dt *: vi_val u)) (sstamp s))
    (fun s u dt => if dir is DRight then Ad (Exp (- (dt *: vi_val u))) else 1%:M)
    (fun s u dt =>
       let L := if dir is DRight then dt *: Jl (- (dt *: vi_val u))
                else dt *: (Ad (sval s *m Exp (dt *: vi_val u)) *m Jl (- (dt *: vi_val u))) in
       L *m Q *m L^T).

(** BodyVelocityIncrement, preintegration.py:354-476 *)
Record vrmi := VRmi { vr_bias : 'cV[R]_d; vr_new : 'cV[R]_d; vr_val : 'M[R]_k; vr_cov : 'M[R]_d;
  vr_jac : 'M[R]_d; vr_stamps : option (R * R) }.
Definition vrmi0 (b : 'cV[R]_d) : vrmi := VRmi b b 1%:M 0 0 None.
Definition vrmi_increment (r : vrmi) (u : input) (dt : R) : vrmi :=
  let w := vi_val u - vr_bias r in
  let U := Exp (dt *: w) in
  let A := Ad (ginv U) in
  let L := dt *: Jl (- (dt *: w)) in
  VRmi (vr_bias r) (vr_new r) (vr_val r *m U)
       (symmetrize (A *m vr_cov r *m A^T + L *m Q *m L^T))
       (A *m vr_jac r + L) (tick (vr_stamps r) (vi_stamp u) dt).
Definition vrmi_update_bias (r : vrmi) (b : 'cV[R]_d) : vrmi :=
  VRmi (vr_bias r) b (vr_val r) (vr_cov r) (vr_jac r) (vr_stamps r).
Definition vrmi_value (r : vrmi) : 'M[R]_k := vr_val r *m Exp (vr_jac r *m (vr_new r - vr_bias r)).
(** copy, preintegration.py:451-476: a new object built from the original bias *)
Definition vrmi_copy (r : vrmi) : vrmi :=
  VRmi (vr_bias r) (vr_bias r) (vr_val r) (vr_cov r) (vr_jac r) (vr_stamps r).
(** PreintegratedBodyVelocity, preintegration.py:478-546 (input covariance of size dof) *)
Definition preint_velocity (dir : direction) : process_model R 'M[R]_k d vrmi :=
  ProcessModel
    (fun s r _ => PState (sval s *m vrmi_value r)
                    (if rmi_stamp (vr_stamps r) is Some t then Some t else sstamp s))
    (fun s r _ => if dir is DRight then Ad (ginv (vrmi_value r)) else 1%:M)
    (fun s r _ => let L := if dir is DRight then 1%:M else Ad (sval s *m vrmi_value r) in
                  L *m vr_cov r *m L^T).
End Group.
