(** Model of BatchEstimator.solve up to the call of Problem.solve
    (navlie/batch/estimator.py:131-234): which variables and residuals are created.
    Stamps are exact; [rnd] is round(stamp, 12).  Stamps are Python floats (an int
    stamp makes find_nearest_stamp_idx return a list, C58).  The problem's solution is
    the subject of ProblemModel. *)
From mathcomp Require Import all_ssreflect all_algebra.
From Verif Require Import Base RunFilterModel UtilsModel.
Set Implicit Arguments.
Unset Strict Implicit.
Unset Printing Implicit Defensive.
Import Order.Theory GRing.Theory Num.Theory.
Local Open Scope ring_scope.

Section Batch.
Variable R : realFieldType.
Variables (U Y X : Type).
Variables (ustamp : U -> R) (ystamp : Y -> R) (xstamp : X -> R).
Variable restamp : X -> R -> X.                    (* x.stamp = t *)
Variable evaluate : X -> U -> R -> result X.       (* process_model.evaluate *)
Variable rnd : R -> R.

(** the residuals handed to the problem, with their keys *)
Inductive bresidual :=
| BPrior of nat & X                 (* PriorResidual(key, x0, P0), estimator.py:191 *)
| BProcess of nat & nat & U         (* ProcessResidual([k0, k1], model, u), 204-207 *)
| BMeas of nat & Y.                 (* MeasurementResidual(key, meas), 210-213 *)

(** np.unique: sorted distinct values, estimator.py:149 *)
Definition np_unique (s : seq R) : seq R := sort <=%O (undup s).

(** estimator.py:156-174; [rest] are the stamps after the current one, [x] the state at
    the current one, [idx] is input_idx *)
Fixpoint propagate (inp : seq U) (istamps : seq R) (x : X) (idx : nat) (rest : seq R) : result (seq X) :=
  if rest is t :: rest' then
    u <~ py_nth inp idx ;;
    let dt := t - xstamp x in
    if dt < 0 then Raise RuntimeError else
    x1 <~ evaluate x u dt ;;
    let x2 := restamp x1 (xstamp x1 + dt) in
    nxt <~ py_nth istamps idx.+1 ;;
    xs <~ propagate inp istamps x2 (if t < nxt then idx else idx.+1) rest' ;;
    Ok (x2 :: xs)
  else Ok [::].

(** a variable key looked up by stamp, estimator.py:202-203, 211 *)
Definition key_of (stamps : seq R) (t : R) : result nat :=
  a <~ find_nearest_stamp_idx stamps (QFloat t) ;;
  if a is AIndex i then Ok i else Raise TypeError.

(** estimator.py:131-213: the variables (in key order 0, 1, ...) and the residuals *)
Definition build (x0 : X) (input : seq U) (meas : seq Y) : result (seq X * seq bresidual) :=
  let us := trim ustamp (xstamp x0) (sort_by ustamp input) in
  let ys := trim ystamp (xstamp x0) (sort_by ystamp meas) in
  let istamps := [seq rnd (ustamp u) | u <- us] in
  let stamps := np_unique (istamps ++ [seq rnd (ystamp y) | y <- ys]) in
  if stamps is _ :: rest then
    xs <~ propagate us istamps x0 0 rest ;;
    ps <~ mapM (fun p : U * U => a <~ key_of stamps (ustamp p.1) ;; b <~ key_of stamps (ustamp p.2) ;;
                          Ok (BProcess a b p.1)) (zip us (behead us)) ;;
    ms <~ mapM (fun y => a <~ key_of stamps (ystamp y) ;; Ok (BMeas a y)) ys ;;
    Ok (x0 :: xs, BPrior 0 x0 :: ps ++ ms)
  else Raise IndexError.
End Batch.
