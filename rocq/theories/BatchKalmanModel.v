(** The filter and the batch problem run on the same data (vector states).
    Filter side: calls of ExtendedKalmanFilter.predict and .correct
    (navlie/filters.py:94-260, EkfModel) along a history.  Batch side: the prior,
    process and measurement residuals (navlie/batch/residuals.py, ResidualModel)
    of the same history handed to Problem (navlie/batch/problem.py, ProblemModel),
    one variable per time step, keyed 0, 1, 2, ... as BatchEstimator does
    (navlie/batch/estimator.py:178-214). *)
From mathcomp Require Import all_ssreflect all_algebra.
From Verif Require Import Base EkfModel CholModel ResidualModel ProblemModel.
Set Implicit Arguments.
Unset Strict Implicit.
Unset Printing Implicit Defensive.
Import Order.Theory GRing.Theory Num.Theory.
Local Open Scope ring_scope.

Section BatchKalman.
Variable R : rcfType.
Variable n : nat.
Variable U : Type.
Variable ustamp : U -> option R.
Variable chi2_99 : nat -> R.
Notation cV := 'cV[R]_n.
Notation pstate := (pstate R cV).
Notation measurement := (measurement R cV n).
Variable pm : process_model R cV n U.

(** VectorState.plus / minus / minus_jacobian, lib/states.py:36-55: value + dx,
    value - other, identity.  The state keeps its stamp. *)
Definition vec_add (a b : cV) : cV := a + b.
Definition vec_minus (a b : cV) : cV := a - b.
Definition vec_minus_jac (_ _ : cV) : 'M[R]_n := 1%:M.
(** the same on the solver's side, where a step is a list of entries (problem.py:483-508).
    [plus] leaves the stamp alone, so in the problem a variable is its value and keeps
    the stamp of its key (see [stamp] below). *)
Definition vec_plus (v : cV) (dx : seq R) : cV := v + \col_i nth 0 dx i.
(** VectorState.dof, lib/states.py:26-35 *)
Definition vec_dof (_ : cV) : nat := n.

(** One step of a history: a prediction with an input over dt, or the fusion of a measurement. *)
Inductive event := Predict (u : U) (dt : R) | Correct (y : measurement).

(** filters.py:94-169 and 171-260, called as ekf.predict(x, u, dt) and
    ekf.correct(x, y, None) with outlier rejection off *)
Definition kf_step (x : est R cV n) (ev : event) : result (est R cV n) :=
  match ev with
  | Predict u dt => ekf_predict ustamp pm x (Some u) (Some dt) None
  | Correct y => ekf_correct vec_add ustamp pm chi2_99 x y None None false
  end.
Definition kf_run (x : est R cV n) (evs : seq event) : result (est R cV n) := foldM kf_step x evs.

(** How Problem reads a residual object (problem.py:412-441): residual.evaluate(states)
    for the error, residual.evaluate(states, [True, ...]) for the Jacobians; the states are
    the variables of the residual's keys, each with the stamp it was added with.
    Simplified: a residual that raises reads as zeros (the theorems only use
    residuals that evaluate without error). *)
Variable stamp : nat -> R.      (* the stamp of the k-th state *)
Definition stamped (keys : seq nat) (vs : seq cV) : seq pstate :=
  [seq PState vk.1 (Some (stamp vk.2)) | vk <- zip vs keys].
Definition as_residual (keys : seq nat) m
  (evaluate : seq pstate -> option (seq bool) -> result (evaluated R n m)) : residual R nat_eqType cV :=
  Residual (keys : seq nat_eqType) m
    (fun vs i => if evaluate (stamped keys vs) None is Ok (e, _) then if insub i is Some i' then e i' 0 else 0 else 0)
    (fun vs j a c =>
       if evaluate (stamped keys vs) (Some (nseq (size keys) true)) is Ok (_, Some js) then
         if nth None js j is Some J then
           if insub a is Some a' then if insub c is Some c' then J a' c' else 0 else 0
         else 0
       else 0).

(** estimator.py:193-195: PriorResidual(0, x0, P0); [L] is the factor computed by its constructor *)
Definition prior_residual (L : 'M[R]_n) (x0 : pstate) : residual R nat_eqType cV :=
  as_residual [:: 0%N] (prior_evaluate vec_minus vec_minus_jac L x0).
(** estimator.py:197-214: ProcessResidual([k, k+1], process_model, u) for each prediction and
    MeasurementResidual(k, y) for each measurement, k being the current time step *)
Fixpoint event_residuals (k : nat) (evs : seq event) : seq (residual R nat_eqType cV) :=
  match evs with
  | [::] => [::]
  | Predict u _ :: r => as_residual [:: k; k.+1] (process_evaluate vec_minus vec_minus_jac pm u) :: event_residuals k.+1 r
  | Correct y :: r => as_residual [:: k] (measurement_evaluate y) :: event_residuals k r
  end.
End BatchKalman.
