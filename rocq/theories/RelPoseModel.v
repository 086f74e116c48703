(** RangeRelativePose (navlie/lib/models.py:886-925) and CompositeMeasurement
    (navlie/composite.py:570-587). *)
From mathcomp Require Import all_ssreflect all_algebra.
From Verif Require Import Base CompositeModel ModelsModel PairModel.
Set Implicit Arguments.
Unset Strict Implicit.
Unset Printing Implicit Defensive.
Local Open Scope ring_scope.

Section RelPose.
Variable R : rcfType.
Variables (n k d1 : nat) (X1 X2 : Type).
Variable G : attgroup R n k.
Variable view : X1 -> pose R n k d1.
Variables (T : Type) (I : eqType).
Notation state := (state T I (X1 + X2)).

(** a model of one leaf of the first kind, as a model of a substate; an object of another
    class does not have the attributes the model reads *)
Definition one_f m (g : X1 -> result 'cV[R]_m) (s : state) : result (seq R) :=
  if s is Leaf (inl x) _ _ then rmap (@vec_seq R m) (g x) else Raise AttributeError.
Definition one_J m (g : X1 -> result 'M[R]_(m, d1)) (s : state) : result (arr R) :=
  if s is Leaf (inl x) _ _ then rmap (@mat_arr R m d1) (g x) else Raise AttributeError.

(** models.py:894-918: a RangePoseToAnchor(anchor_position = tag_body_position,
    tag_body_position = nb_tag_body_position, R) in a CompositeMeasurementModel for the
    substate nb_state_id *)
Definition range_relative_model (tag_body_position nb_tag_body_position : 'cV[R]_n) (cov : arr R)
  : mmodel R T I (X1 + X2) (seq R) :=
  MModel (one_f (fun x => range_anchor_eval tag_body_position nb_tag_body_position (view x)))
         (one_J (fun x => range_anchor_jac G tag_body_position nb_tag_body_position (view x)))
         (fun=> Ok cov).
End RelPose.

(** *** CompositeMeasurement, composite.py:570-587: value, stamp and the measurement's own
    state_id are kept; the model becomes a CompositeMeasurementModel for [state_id] *)
Section CompositeMeasurement.
Variables (R : ringType) (T : Type) (I : eqType) (L Y V : Type).
Variable ops : leafops R L.
Record meas M := Meas { me_value : V; me_stamp : option T; me_model : M; me_id : option I }.
Record lmodel := LModel { lm_eval : seq (state T I L) -> result Y; lm_jac : seq (state T I L) -> result (arr R);
                          lm_cov : seq (state T I L) -> result (arr R) }.
Definition composite_measurement (y : meas (mmodel R T I L Y)) (state_id : I) : meas lmodel :=
  Meas (me_value y) (me_stamp y)
    (LModel (cmm_eval (me_model y) state_id) (cmm_jac ops (me_model y) state_id) (cmm_cov (me_model y) state_id)) (me_id y).
End CompositeMeasurement.
