(** Model of check_outlier, ExtendedKalmanFilter and IteratedKalmanFilter
    (navlie/filters.py:26-38, 75-449), StateWithCovariance (types.py:512-567).

    Scalars (matrix entries, stamps, time steps) are elements of an arbitrary
    ordered field [R]: exact arithmetic, no rounding.  Shapes are enforced by
    the types, so shape-mismatch exceptions are not modelled.  A state is a
    value of an arbitrary type [V] with a stamp; process and measurement models
    are arbitrary total functions (a raising user model is not modelled). *)
From mathcomp Require Import all_ssreflect all_algebra.
From Verif Require Import Base.
Set Implicit Arguments.
Unset Strict Implicit.
Unset Printing Implicit Defensive.
Import Order.Theory GRing.Theory Num.Theory.
Local Open Scope ring_scope.

(** np.linalg.solve(A, B): LinAlgError("Singular matrix") when A is singular. *)
Definition np_solve {R : fieldType} {m k} (A : 'M[R]_m) (B : 'M[R]_(m, k)) : result 'M[R]_(m, k) :=
  if A \in unitmx then Ok (invmx A *m B) else Raise LinAlgError.

(** np.linalg.inv *)
Definition np_inv {R : fieldType} {m} (A : 'M[R]_m) : result 'M[R]_m :=
  if A \in unitmx then Ok (invmx A) else Raise LinAlgError.

Section Ekf.
Variable R : realFieldType.
Variable V : Type.          (* state values *)
Variable n : nat.           (* dof *)

(** A State: value and stamp (None allowed).  types.py State. *)
Record pstate := PState { sval : V; sstamp : option R }.
(** StateWithCovariance: types.py:512-567. *)
Record est := Est { est_state : pstate; est_cov : 'M[R]_n }.

Variable plus : V -> 'cV[R]_n -> V.            (* state.plus *)
(** x.plus(dx) keeps the stamp (states.py: plus works on a copy). *)
Definition pplus (s : pstate) (dx : 'cV[R]_n) : pstate := PState (plus (sval s) dx) (sstamp s).

(** types.py:559-563 symmetrize *)
Definition symmetrize k (P : 'M[R]_k) : 'M[R]_k := 2%:R^-1 *: (P + P^T).

Variable U : Type.
Variable ustamp : U -> option R.

(** types.py ProcessModel: evaluate, jacobian, covariance. *)
Record process_model := ProcessModel {
  pm_eval : pstate -> U -> R -> pstate;
  pm_jac : pstate -> U -> R -> 'M[R]_n;
  pm_cov : pstate -> U -> R -> 'M[R]_n }.

(** types.py Measurement with its MeasurementModel; evaluate may return None. *)
Record measurement := Measurement {
  m_dim : nat;
  m_val : 'cV[R]_m_dim;
  m_stamp : option R;
  m_eval : pstate -> option 'cV[R]_m_dim;
  m_jac : pstate -> 'M[R]_(m_dim, n);
  m_cov : pstate -> 'M[R]_m_dim }.

Variable pm : process_model.
Variable chi2_99 : nat -> R.       (* chi2.ppf(0.99, df) *)

(** filters.py:26-38 *)
Definition check_outlier m (error : 'cV[R]_m) (S : 'M[R]_m) : result bool :=
  w <~ np_solve S error ;;
  Ok (chi2_99 m < (error^T *m w) 0 0).

(** ExtendedKalmanFilter.predict, filters.py:94-169.  [u = None], [dt = None] and
    [x_jac = None] are Python's None; accessing None.stamp is an AttributeError
    and subtracting from None a TypeError. *)
Definition ekf_predict (x : est) (u : option U) (dt : option R) (x_jac : option pstate) : result est :=
  t_km1 <~ match sstamp (est_state x) with
           | Some t => Ok t
           | None => match u with
                     | None => Raise AttributeError
                     | Some u => match ustamp u with
                                 | None => Raise ValueError
                                 | Some t => Ok t
                                 end
                     end
           end ;;
  dt <~ match dt with
        | Some dt => Ok dt
        | None => match u with
                  | None => Raise AttributeError
                  | Some u => match ustamp u with
                              | None => Raise TypeError
                              | Some t => Ok (t - t_km1)
                              end
                  end
        end ;;
  if dt < 0 then Raise RuntimeError else
  let x_jac := if x_jac is Some s then s else est_state x in
  match u with
  | None => Ok x
  | Some u =>
      let Q := pm_cov pm x_jac u dt in
      let s := pm_eval pm (est_state x) u dt in
      let A := pm_jac pm (est_state x) u dt in
      Ok (Est (PState (sval s) (Some (t_km1 + dt)))
              (symmetrize (A *m est_cov x *m A^T + Q)))
  end.

(** filters.py:213-214 (and 326-327): an unstamped state takes the measurement's stamp. *)
Definition load_stamp (x : est) (t : option R) : est :=
  if sstamp (est_state x) is None then Est (PState (sval (est_state x)) t) (est_cov x) else x.

(** 1e10 and 1e-11 *)
Definition e10 : R := 10%:R ^+ 10.
Definition em11 : R := 10%:R ^- 11.

(** filters.py:222-232 *)
Definition ekf_advance (x : est) (y : measurement) (u : option U) : result est :=
  match m_stamp y with
  | None => Ok x
  | Some ty =>
      match sstamp (est_state x) with
      | None => Raise TypeError   (* unreachable: load_stamp ran first *)
      | Some tx =>
          let dt := ty - tx in
          if dt < - e10 then Raise RuntimeError
          else match u with
               | Some _ => if em11 < dt then ekf_predict x u (Some dt) None else Ok x
               | None => Ok x
               end
      end
  end.

(** filters.py:251: K = np.linalg.solve(S.T, (P @ G.T).T).T *)
Definition kalman_gain m (S : 'M[R]_m) (P : 'M[R]_n) (G : 'M[R]_(m, n)) : result 'M[R]_(n, m) :=
  kt <~ np_solve S^T (P *m G^T)^T ;; Ok kt^T.

(** ExtendedKalmanFilter.correct, filters.py:171-260.  [reject] is the
    resolved outlier-rejection option (filters.py:217-218). *)
Definition ekf_correct (x : est) (y : measurement) (u : option U) (x_jac : option pstate)
  (reject : bool) : result est :=
  x <~ ekf_advance (load_stamp x (m_stamp y)) y u ;;
  let xj := if x_jac is Some s then s else est_state x in
  match m_eval y (est_state x) with
  | None => Ok x
  | Some y_check =>
      let P := est_cov x in
      let Rm := m_cov y xj in
      let G := m_jac y (est_state x) in
      let z := m_val y - y_check in
      let S := G *m P *m G^T + Rm in
      outlier <~ (if reject then check_outlier z S else Ok false) ;;
      if outlier then Ok x else
      K <~ kalman_gain S P G ;;
      Ok (Est (pplus (est_state x) (K *m z)) (symmetrize ((1%:M - K *m G) *m P)))
  end.

(** ** IteratedKalmanFilter, filters.py:263-449 *)
Section Iekf.
Variable minus : V -> V -> 'cV[R]_n.              (* x.minus(y) *)
Variable plus_jac : V -> 'cV[R]_n -> 'M[R]_n.     (* x.plus_jacobian(e) *)
Variable norm : 'cV[R]_n -> R.                    (* np.linalg.norm *)
Variables (step_tol : R) (line_search : bool).

(** filters.py:330-337: here the stale check is [dt < 0] and prediction for dt > 0. *)
Definition iekf_advance (x : est) (y : measurement) (u : option U) : result est :=
  match m_stamp y with
  | None => Ok x
  | Some ty =>
      match sstamp (est_state x) with
      | None => Raise TypeError
      | Some tx =>
          let dt := ty - tx in
          if dt < 0 then Raise RuntimeError
          else match u with
               | Some _ => if 0 < dt then ekf_predict x u (Some dt) None else Ok x
               | None => Ok x
               end
      end
  end.

(** y.minus(y_check): AttributeError when y_check is None (None.reshape). *)
Definition innovation (y : measurement) (s : pstate) : result 'cV[R]_(m_dim y) :=
  match m_eval y s with Some yc => Ok (m_val y - yc) | None => Raise AttributeError end.

(** 0.5 (e^T P_inv e + z^T R_inv z), filters.py:362-364 and 394-398 *)
Definition map_cost m (P_inv : 'M[R]_n) (R_inv : 'M[R]_m) (e : 'cV[R]_n) (z : 'cV[R]_m) : R :=
  2%:R^-1 * ((e^T *m P_inv *m e) 0 0 + (z^T *m R_inv *m z) 0 0).

(** filters.py:386-404, the backtracking loop, from step length [alpha].
    [attempt alpha] is the loop body's computation of (x_new, cost_new).  The
    Python loop has no bound: [fuel] bounds it and [None] means exhausted; see
    C22 for termination.  Result: the accepted state, or none accepted. *)
Fixpoint backtrack (fuel : nat) (attempt : R -> result (pstate * R)) (cost_old alpha : R)
  : option (result (option pstate)) :=
  if step_tol < alpha then
    if fuel is fuel'.+1 then
      match attempt alpha with
      | Raise e => Some (Raise e)
      | Ok (x_new, cost_new) =>
          if cost_new < cost_old then Some (Ok (Some x_new))
          else backtrack fuel' attempt cost_old (alpha * (9%:R / 10%:R))
      end
    else None
  else Some (Ok None).

(** Outcome of one pass through the body of the while loop. *)
Inductive iekf_outcome :=
| IOutlier                       (* filters.py:373-375 *)
| ISmall                         (* filters.py:381-382 *)
| IAccepted (x_new : pstate)
| IRejected.                     (* filters.py:416-417 *)

(** filters.py:388-398: trial point and its cost for step length alpha. *)
Definition attempt (x : est) (y : measurement) (P_inv : 'M[R]_n) (R_inv : 'M[R]_(m_dim y))
  (x_op : pstate) (dx : 'cV[R]_n) (alpha : R) : result (pstate * R) :=
  let x_new := pplus x_op (alpha *: dx) in
  z_new <~ innovation y x_new ;;
  let e_new := minus (sval x_new) (sval (est_state x)) in
  Ok (x_new, map_cost P_inv R_inv e_new z_new).

(** filters.py:342-419, one iteration at operating point [x_op]. *)
Definition iekf_iter (fuel : nat) (x : est) (y : measurement) (reject : bool) (x_op : pstate)
  : option (result iekf_outcome) :=
  let Rm := m_cov y x_op in
  let G := m_jac y x_op in
  let e := minus (sval x_op) (sval (est_state x)) in
  let J := plus_jac (sval x_op) e in
  let pre :=
    z <~ innovation y x_op ;;
    P_inv <~ np_inv (est_cov x) ;;
    R_inv <~ np_inv Rm ;;
    let cost_old := map_cost P_inv R_inv e z in
    let P := J *m est_cov x *m J^T in
    let S := symmetrize (G *m P *m G^T + Rm) in
    outlier <~ (if reject then check_outlier z S else Ok false) ;;
    if outlier then Ok (inl IOutlier) else
    K <~ kalman_gain S P G ;;
    let dx := - (J *m e) + K *m (z + G *m J *m e) in
    if norm dx < step_tol then Ok (inl ISmall) else
    Ok (inr (P_inv, R_inv, cost_old, dx)) in
  match pre with
  | Raise ex => Some (Raise ex)
  | Ok (inl o) => Some (Ok o)
  | Ok (inr (P_inv, R_inv, cost_old, dx)) =>
      if line_search then
        match backtrack fuel (attempt x P_inv R_inv x_op dx) cost_old 1 with
        | None => None
        | Some (Raise ex) => Some (Raise ex)
        | Some (Ok (Some x_new)) => Some (Ok (IAccepted x_new))
        | Some (Ok None) => Some (Ok IRejected)
        end
      else Some (Ok (IAccepted (pplus x_op dx)))
  end.

(** filters.py:341-419: the outer loop, [iters] iterations left.  Second
    component of the result: the variable [outlier], unbound ([None]) when the
    body was never entered. *)
Fixpoint iekf_loop (iters fuel : nat) (x : est) (y : measurement) (reject : bool)
  (x_op : pstate) (outlier : option bool) : option (result (pstate * option bool)) :=
  if iters is it.+1 then
    match iekf_iter fuel x y reject x_op with
    | None => None
    | Some (Raise ex) => Some (Raise ex)
    | Some (Ok IOutlier) => Some (Ok (x_op, Some true))
    | Some (Ok ISmall) => Some (Ok (x_op, Some false))
    | Some (Ok (IAccepted x_new)) => iekf_loop it fuel x y reject x_new (Some false)
    | Some (Ok IRejected) => Some (Ok (x_op, Some false))
    end
  else Some (Ok (x_op, outlier)).

(** IteratedKalmanFilter.correct, filters.py:290-449. *)
Definition iekf_correct (max_iters fuel : nat) (x : est) (y : measurement) (u : option U)
  (x_jac : option pstate) (reject : bool) : option (result est) :=
  match iekf_advance (load_stamp x (m_stamp y)) y u with
  | Raise ex => Some (Raise ex)
  | Ok x =>
    match iekf_loop max_iters fuel x y reject (est_state x) None with
    | None => None
    | Some (Raise ex) => Some (Raise ex)
    | Some (Ok (_, None)) => Some (Raise UnboundLocalError)
    | Some (Ok (_, Some true)) => Some (Ok (Est (est_state x) (symmetrize (est_cov x))))
    | Some (Ok (x_op, Some false)) =>
        let xj := if x_jac is Some s then s else x_op in
        let G := m_jac y xj in
        let Rm := m_cov y xj in
        let e := minus (sval x_op) (sval (est_state x)) in
        let J := plus_jac (sval x_op) e in
        let P := J *m est_cov x *m J^T in
        let S := symmetrize (G *m P *m G^T + Rm) in
        Some (K <~ kalman_gain S P G ;;
              Ok (Est x_op (symmetrize ((1%:M - K *m G) *m P))))
    end
  end.
End Iekf.
End Ekf.
