(** Model of navlie/batch/residuals.py: prior, process and measurement residuals.
    States, process models and measurement models are those of EkfModel.  Shapes are
    enforced by types.  A residual returns its error and, when asked, a list of
    Jacobians (None where not requested). *)
From mathcomp Require Import all_ssreflect all_algebra.
From Verif Require Import Base EkfModel CholModel.
Set Implicit Arguments.
Unset Strict Implicit.
Unset Printing Implicit Defensive.
Import Order.Theory GRing.Theory Num.Theory.
Local Open Scope ring_scope.

Section Residuals.
Variable R : rcfType.
Variable V : Type.
Variable n : nat.
Variable minus : V -> V -> 'cV[R]_n.          (* x.minus(y) *)
Variable minus_jac : V -> V -> 'M[R]_n.       (* x.minus_jacobian(y) *)
Variable U : Type.
Notation pstate := (pstate R V).

Definition evaluated m := ('cV[R]_m * option (seq (option 'M[R]_(m, n))))%type.

(** PriorResidual.__init__, residuals.py:107-118: precomputes the factor *)
Definition prior_init (P0 : 'M[R]_n) : result 'M[R]_n := sqrt_info P0.

(** PriorResidual.evaluate, residuals.py:120-146.  [if compute_jacobians:] is false
    for None and for an empty list. *)
Definition prior_evaluate (L : 'M[R]_n) (x0 : pstate) (states : seq pstate) (flags : option (seq bool)) : result (evaluated n) :=
  x <~ py_nth states 0 ;;
  let e := L^T *m minus (sval x) (sval x0) in
  match flags with
  | Some (f :: _) => Ok (e, Some [:: if f then Some (L^T *m minus_jac (sval x) (sval x0)) else None])
  | _ => Ok (e, None)
  end.

(** x_k.stamp - x_km1.stamp: None is a TypeError *)
Definition stamp_diff (a b : option R) : result R :=
  match a, b with Some t, Some s => Ok (t - s) | _, _ => Raise TypeError end.

(** ProcessResidual.evaluate, residuals.py:171-220 *)
Definition process_evaluate (pm : process_model R V n U) (u : U) (states : seq pstate) (flags : option (seq bool)) : result (evaluated n) :=
  x_km1 <~ py_nth states 0 ;;
  x_k <~ py_nth states 1 ;;
  dt <~ stamp_diff (sstamp x_k) (sstamp x_km1) ;;
  let x_hat := pm_eval pm x_km1 u dt in
  L <~ sqrt_info (pm_cov pm x_km1 u dt) ;;
  let e := L^T *m minus (sval x_k) (sval x_hat) in
  match flags with
  | Some (f :: fs) =>
      f1 <~ py_nth fs 0 ;;
      Ok (e, Some ((if f then Some (- L^T *m pm_jac pm x_km1 u dt) else None)
                :: (if f1 then Some (L^T *m minus_jac (sval x_k) (sval x_hat)) else None)
                :: nseq (size states - 2) None))
  | _ => Ok (e, None)
  end.

(** MeasurementResidual.evaluate, residuals.py:245-284.  None.reshape is an AttributeError. *)
Definition measurement_evaluate (y : measurement R V n) (states : seq pstate) (flags : option (seq bool)) : result (evaluated (m_dim y)) :=
  x <~ py_nth states 0 ;;
  match m_eval y x with
  | None => Raise AttributeError
  | Some yc =>
      L <~ sqrt_info (m_cov y x) ;;
      let e := L^T *m (m_val y - yc) in
      match flags with
      | Some (f :: _) => Ok (e, Some ((if f then Some (- L^T *m m_jac y x) else None) :: nseq (size states - 1) None))
      | _ => Ok (e, None)
      end
  end.
End Residuals.
