(** Default (finite-difference) Jacobians and covariance: types.py State.plus_jacobian_fd and
    minus_jacobian_fd, MeasurementModel.jacobian_fd, ProcessModel.jacobian_fd, input_jacobian_fd and
    covariance; residuals.py Residual.jacobian_fd.
    Exact arithmetic; the step size (1e-8 for states, 1e-6 for models and residuals by default) is a
    parameter [h].  States are values of an arbitrary type; user functions are total, except that a
    measurement model may return None and a residual may raise. *)
From mathcomp Require Import all_ssreflect all_algebra.
From Verif Require Import Base.
Set Implicit Arguments.
Unset Strict Implicit.
Unset Printing Implicit Defensive.
Import GRing.Theory.
Local Open Scope ring_scope.

Section Fd.
Variable R : fieldType.
(** jac_fd = np.zeros((m, n)); for i in range(n): jac_fd[:, i] = col(i) *)
Definition by_columns m n (col : 'I_n -> result 'cV[R]_m) : result 'M[R]_(m, n) :=
  cols <~ mapM col (enum 'I_n) ;; Ok (\matrix_(r, i) nth 0 cols i r 0).
(** dx = np.zeros(n); dx[i] = step_size *)
Definition step n (h : R) (i : 'I_n) : 'cV[R]_n := h *: delta_mx i 0.

Section States.
Variables (V : Type) (n : nat).
Variable plus : V -> 'cV[R]_n -> V.
Variable minus : V -> V -> 'cV[R]_n.
(** types.py:131-145 *)
Definition plus_jacobian_fd (x : V) (dx_bar : 'cV[R]_n) (h : R) : result 'M[R]_n :=
  let Y_bar := plus x dx_bar in
  by_columns (fun i => Ok (h^-1 *: minus (plus x (dx_bar + step h i)) Y_bar)).
(** types.py:161-175 *)
Definition minus_jacobian_fd (y x_bar : V) (h : R) : result 'M[R]_n :=
  let y_bar := minus y x_bar in
  by_columns (fun i => Ok (h^-1 *: (minus (plus y (step h i)) x_bar - y_bar))).
(** types.py:239-253: None.size is an AttributeError, None - y a TypeError *)
Definition meas_jacobian_fd m (g : V -> option 'cV[R]_m) (x : V) (h : R) : result 'M[R]_(m, n) :=
  match g x with
  | None => Raise AttributeError
  | Some y => by_columns (fun i => match g (plus x (step h i)) with
                                   | None => Raise TypeError
                                   | Some yi => Ok (h^-1 *: (yi - y))
                                   end)
  end.
(** types.py:389-404 *)
Definition pm_jacobian_fd U (f : V -> U -> R -> V) (x : V) (u : U) (dt h : R) : result 'M[R]_n :=
  let Y_bar := f x u dt in
  by_columns (fun i => Ok (h^-1 *: minus (f (plus x (step h i)) u dt) Y_bar)).
(** types.py:406-421; [uplus] is u.plus, [k] is u.dof *)
Definition pm_input_jacobian_fd U k (uplus : U -> 'cV[R]_k -> U) (f : V -> U -> R -> V) (x : V) (u : U) (dt h : R)
    : result 'M[R]_(n, k) :=
  let Y_bar := f x u dt in
  by_columns (fun i => Ok (h^-1 *: minus (f x (uplus u (step h i)) dt) Y_bar)).
(** types.py:351-354 covariance, with input_covariance (429-448: NotImplementedError unless
    overridden).  [input_jacobian] is the override the class documentation (321-323) describes; line 351
    calls input_jacobian_fd. *)
Definition pm_covariance U k (uplus : U -> 'cV[R]_k -> U) (f : V -> U -> R -> V)
    (input_jacobian : option (V -> U -> R -> 'M[R]_(n, k))) (input_covariance : option (V -> U -> R -> 'M[R]_k))
    (x : V) (u : U) (dt h : R) : result 'M[R]_n :=
  L <~ pm_input_jacobian_fd uplus f x u dt h ;;
  Q <~ (if input_covariance is Some q then Ok (q x u dt) else Raise NotImplementedErr) ;;
  Ok (L *m Q *m L^T).
(** residuals.py:63-101.  (All states of the residual have [n] degrees of freedom here.) *)
Definition residual_jacobian_fd m (ev : seq V -> result 'cV[R]_m) (states : seq V) (h : R) : result (seq 'M[R]_(m, n)) :=
  mapM (fun kx => e_bar <~ ev states ;;
          by_columns (fun i => e <~ ev (take kx.1 states ++ plus kx.2 (step h i) :: drop kx.1.+1 states) ;;
                               Ok (h^-1 *: (e - e_bar))))
       (zip (iota 0 (size states)) states).
End States.
End Fd.
