(** Model of navlie/bspline.py (SE3Bspline).

    Poses are (3+1)x(3+1) matrices with a stamp; SE3.Exp, SE3.Log, SE3.inverse, SE3.wedge are
    parameters (pymlg).  Stamps are floats, in exact arithmetic. *)
From mathcomp Require Import all_ssreflect all_algebra.
From Verif Require Import Base UtilsModel DatagenModel.
Set Implicit Arguments.
Unset Strict Implicit.
Unset Printing Implicit Defensive.
Import Order.Theory GRing.Theory Num.Theory.
Local Open Scope ring_scope.

Section Basis.
Variable T : fieldType.
(** _compute_basis_functions, bspline.py:311-316 *)
Definition basis0 (u : T) : T := 6%:R^-1 * (5%:R + 3%:R * u - 3%:R * u * u + u * u * u).
Definition basis1 (u : T) : T := 6%:R^-1 * (1 + 3%:R * u + 3%:R * u * u - 2%:R * u * u * u).
Definition basis2 (u : T) : T := 6%:R^-1 * (u * u * u).
(** _compute_basis_functions_dot, bspline.py:318-323 *)
Definition basis0_dot (u dt : T) : T := (6%:R * dt)^-1 * (3%:R - 6%:R * u + 3%:R * u * u).
Definition basis1_dot (u dt : T) : T := (6%:R * dt)^-1 * (3%:R + 6%:R * u - 6%:R * u * u).
Definition basis2_dot (u dt : T) : T := (6%:R * dt)^-1 * (3%:R * u * u).
(** _compute_basis_functions_ddot, bspline.py:325-332 *)
Definition basis0_ddot (u dt : T) : T := (6%:R * dt * dt)^-1 * (- 6%:R + 6%:R * u).
Definition basis1_ddot (u dt : T) : T := (6%:R * dt * dt)^-1 * (6%:R - 12%:R * u).
Definition basis2_ddot (u dt : T) : T := (6%:R * dt * dt)^-1 * (6%:R * u).
End Basis.

Section Spline.
Variable T : archiFieldType.
Variables (p d : nat).
Notation k := (p + 1)%N.
Variables (Exp : 'cV[T]_d -> 'M[T]_k) (Log : 'M[T]_k -> 'cV[T]_d) (ginv : 'M[T]_k -> 'M[T]_k) (wedge : 'cV[T]_d -> 'M[T]_k).
Definition pose := ('M[T]_k * T)%type.

(** _find_bounding_poses, bspline.py:292-309.  None: no bounding poses; in particular the loop falls through, and
    Python returns None, when stamp equals the last stamp *)
Definition find_bounding_poses (stamp : T) (poses : seq pose) : result (option nat) :=
  match poses with
  | [::] => Raise IndexError
  | p0 :: rest =>
      if (stamp < p0.2) || ((last p0 rest).2 < stamp) then Ok None
      else let i := find (fun q : pose => stamp < q.2) rest in
           Ok (if (i < size rest)%N then Some i else None)    (* the pair [i, i + 1] *)
  end.

(** _find_bounding_control_points, bspline.py:266-290: the four control points around the stamp *)
Definition find_control (stamp : T) (cps : seq pose) : result (option (pose * pose * pose * pose)) :=
  o <~ find_bounding_poses stamp cps ;;
  match o with
  | None => Ok None
  | Some i =>
      if i == 0%N then Ok None
      else if i.+1 == (size cps).-1 then Ok None
      else p1 <~ py_nth cps i ;; p2 <~ py_nth cps i.+1 ;; p0 <~ py_nth cps i.-1 ;; p3 <~ py_nth cps i.+2 ;;
           Ok (Some (p0, p1, p2, p3))
  end.

(** state_interp between two SE3State with the right perturbation (states.py:127-141) *)
Definition se3_plus (X : 'M[T]_k) (dx : 'cV[T]_d) : 'M[T]_k := X *m Exp dx.
Definition se3_minus (Y X : 'M[T]_k) : 'cV[T]_d := Log (ginv X *m Y).

(** bspline.py:77-89: the while loop.  [fuel] bounds the number of iterations; out of fuel is
    non-termination (never with the fuel used below, see BsplineProof) *)
Fixpoint control_loop (fuel : nat) (traj : seq pose) (dt cur : T) : result (seq pose) :=
  o <~ find_bounding_poses cur traj ;;
  match o with
  | None => Ok [::]
  | Some i =>
      if fuel is n.+1 then
        a <~ py_nth traj i ;; b <~ py_nth traj i.+1 ;;
        c <~ interp_one se3_plus se3_minus [:: a; b] cur ;;
        r <~ control_loop n traj dt (cur + dt) ;; Ok (c :: r)
      else Raise GenericException
  end.

Record spline := Spline { sp_dt : T; sp_start : T; sp_end : T; sp_ctrl : seq pose }.
(** stamp differences of consecutive points: bspline.py:55-58 *)
Definition dts (traj : seq pose) : seq T := [seq e.2.2 - e.1.2 | e <- zip traj (behead traj)].
Definition mean (s : seq T) : T := (\sum_(x <- s) x) / (size s)%:R.
(** SE3Bspline.__init__, bspline.py:31-98.  np.mean([]) is nan, and nan > max_dt is False *)
Definition init (traj : seq pose) (max_dt : T) : result spline :=
  match traj with
  | [::] => Raise IndexError
  | p0 :: rest =>
      let dt := if ~~ nilp rest && (max_dt < mean (dts traj)) then mean (dts traj) else max_dt in
      let e := (last p0 rest).2 in
      cps <~ control_loop (arange_len p0.2 e dt) traj dt p0.2 ;;
      Ok (Spline dt (p0.2 + 2%:R * dt) e cps)
  end.

(** the segment between pose1 and pose2: bspline.py:129-133, 176-190, 233-258 *)
Section Segment.
Variables (P0 P1 P2 P3 : 'M[T]_k) (u dt : T).
Definition om10 := Log (ginv P0 *m P1).
Definition om21 := Log (ginv P1 *m P2).
Definition om32 := Log (ginv P2 *m P3).
Definition A0 := Exp (basis0 u *: om10).
Definition A1 := Exp (basis1 u *: om21).
Definition A2 := Exp (basis2 u *: om32).
Definition A0d := basis0_dot u dt *: wedge om10 *m A0.
Definition A1d := basis1_dot u dt *: wedge om21 *m A1.
Definition A2d := basis2_dot u dt *: wedge om32 *m A2.
Definition A0dd := basis0_dot u dt *: wedge om10 *m A0d + basis0_ddot u dt *: wedge om10 *m A0.
Definition A1dd := basis1_dot u dt *: wedge om21 *m A1d + basis1_ddot u dt *: wedge om21 *m A1.
Definition A2dd := basis2_dot u dt *: wedge om32 *m A2d + basis2_ddot u dt *: wedge om32 *m A2.
Definition seg_pose := P0 *m A0 *m A1 *m A2.
Definition seg_vel := P0 *m (A0d *m A1 *m A2 + A0 *m A1d *m A2 + A0 *m A1 *m A2d).
Definition seg_acc := P0 *m (A0dd *m A1 *m A2 + A0 *m A1dd *m A2 + A0 *m A1 *m A2dd
  + 2%:R *: A0d *m A1d *m A2 + 2%:R *: A0 *m A1d *m A2d + 2%:R *: A0d *m A1 *m A2d).
End Segment.

(** bspline.py:113-127 *)
Definition query {A} (sp : spline) (stamp : T) (g : 'M[T]_k -> 'M[T]_k -> 'M[T]_k -> 'M[T]_k -> T -> T -> A) : result (option A) :=
  o <~ find_control stamp (sp_ctrl sp) ;;
  match o with
  | None => Ok None
  | Some (p0, p1, p2, p3) =>
      let DT := p2.2 - p1.2 in Ok (Some (g p0.1 p1.1 p2.1 p3.1 ((stamp - p1.2) / DT) DT))
  end.

(** get_pose, bspline.py:100-138 *)
Definition get_pose (sp : spline) (stamp : T) : result (option pose) :=
  query sp stamp (fun P0 P1 P2 P3 u _ => (seg_pose P0 P1 P2 P3 u, stamp)).
End Spline.

Section Velocity.
Variable T : archiFieldType.
Variable d : nat.
Notation k := (3 + 1)%N.
Variables (Exp : 'cV[T]_d -> 'M[T]_k) (Log : 'M[T]_k -> 'cV[T]_d) (ginv : 'M[T]_k -> 'M[T]_k) (wedge : 'cV[T]_d -> 'M[T]_k).
Definition i0 : 'I_3 := ord0.
Definition i1 : 'I_3 := @Ordinal 3 1 isT.
Definition i2 : 'I_3 := @Ordinal 3 2 isT.
(** SO3.vee, pymlg *)
Definition vee (W : 'M[T]_3) : 'cV[T]_3 := \col_i (if i == i0 then W i2 i1 else if i == i1 then W i0 i2 else W i1 i0).
(** get_velocity, bspline.py:140-195.  Outside the domain it returns (None, None), here None *)
Definition get_velocity (sp : spline T 3) (stamp : T) : result (option ('cV[T]_3 * 'cV[T]_3)) :=
  query sp stamp (fun P0 P1 P2 P3 u dt =>
    let C := ulsubmx (seg_pose Exp Log ginv P0 P1 P2 P3 u) in
    let V := seg_vel Exp Log ginv wedge P0 P1 P2 P3 u dt in
    (vee (C^T *m ulsubmx V), ursubmx V)).
(** get_acceleration, bspline.py:197-264; likewise *)
Definition get_acceleration (sp : spline T 3) (stamp : T) : result (option ('cV[T]_3 * 'cV[T]_3)) :=
  query sp stamp (fun P0 P1 P2 P3 u dt =>
    let C := ulsubmx (seg_pose Exp Log ginv P0 P1 P2 P3 u) in
    let V := seg_vel Exp Log ginv wedge P0 P1 P2 P3 u dt in
    let A := seg_acc Exp Log ginv wedge P0 P1 P2 P3 u dt in
    let omega_skew := C^T *m ulsubmx V in
    (vee (C^T *m (ulsubmx A - ulsubmx V *m omega_skew)), ursubmx A)).
End Velocity.
