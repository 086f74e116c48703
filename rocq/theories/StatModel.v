(** Simulated runs of a filter on a noisy linear system, and what is meant by the mean and the
    covariance of the estimation error.  The filter is ExtendedKalmanFilter (EkfModel); the
    simulation is the one DataGenerator performs (navlie/datagen.py:150-233): the truth moves by
    the process model, the measurements are the measurement models at the truth plus noise. *)
From mathcomp Require Import all_ssreflect all_algebra.
From Verif Require Import Base EkfModel BatchKalmanModel.
Set Implicit Arguments.
Unset Strict Implicit.
Unset Printing Implicit Defensive.
Import Order.Theory GRing.Theory Num.Theory.
Local Open Scope ring_scope.

(** An expectation: a normalised linear functional on the integrable random variables
    ([integrable]), and a space of variables ([square]: those with finite second moment) whose
    products are integrable.  Any probability measure gives one; so does any finite weighted
    sample (see [finite_expectation] in StatProps). *)
Record expectation (R : realFieldType) (Om : Type) := Expectation {
  E :> (Om -> R) -> R;
  integrable : (Om -> R) -> Prop;
  square : (Om -> R) -> Prop;
  E_ext : forall f g, (forall w, f w = g w) -> E f = E g;
  integrable_ext : forall f g, (forall w, f w = g w) -> integrable f -> integrable g;
  integrableD : forall f g, integrable f -> integrable g -> integrable (fun w => f w + g w);
  integrableZ : forall a f, integrable f -> integrable (fun w => a * f w);
  ED : forall f g, integrable f -> integrable g -> E (fun w => f w + g w) = E f + E g;
  EZ : forall a f, integrable f -> E (fun w => a * f w) = a * E f;
  E1 : E (fun=> 1) = 1;
  square1 : square (fun=> 1);
  square_ext : forall f g, (forall w, f w = g w) -> square f -> square g;
  squareD : forall f g, square f -> square g -> square (fun w => f w + g w);
  squareZ : forall a f, square f -> square (fun w => a * f w);
  square_integrable : forall f, square f -> integrable f;
  squareM : forall f g, square f -> square g -> integrable (fun w => f w * g w)
}.

Section Moments.
Variables (R : realFieldType) (Om : Type) (pr : expectation R Om).
(** The mean of a random matrix or vector, entry by entry. *)
Definition mean p q (A : Om -> 'M[R]_(p, q)) : 'M[R]_(p, q) := \matrix_(i, j) pr (fun w => A w i j).
(** E[a b^T] *)
Definition cross p q (a : Om -> 'cV[R]_p) (b : Om -> 'cV[R]_q) : 'M[R]_(p, q) := mean (fun w => a w *m (b w)^T).
Definition square_vector p (a : Om -> 'cV[R]_p) : Prop := forall i, square pr (fun w => a w i 0).
(** zero mean and the given covariance *)
Definition noise p (C : 'M[R]_p) (a : Om -> 'cV[R]_p) : Prop := [/\ square_vector a, mean a = 0 & cross a a = C].
End Moments.

Section Simulation.
Variables (R : rcfType) (n : nat) (U Om : Type).
Notation cV := 'cV[R]_n.
Notation measurement := (measurement R cV n).
Variable pm : process_model R cV n U.

(** One step of a simulation: a prediction over dt, the truth being disturbed by [w];
    or a measurement by the sensor [y], disturbed by [v] (the value stored in [y] is not used) *)
Inductive sim_step :=
  | Move (u : U) (dt : R) (w : Om -> cV)
  | Sense (y : measurement) (v : Om -> 'cV[R]_(m_dim y)).

(** datagen.py:265-296 generate_measurement: y = model(x) + noise *)
Definition observed (y : measurement) (x : pstate R cV) (v : 'cV[R]_(m_dim y)) : measurement :=
  @Measurement R cV n (m_dim y) ((if m_eval y x is Some yc then yc else 0) + v) (m_stamp y) (m_eval y) (m_jac y) (m_cov y).

(** The time after the steps. *)
Fixpoint end_time (t : R) (s : seq sim_step) : R :=
  match s with [::] => t | Move _ dt _ :: r => end_time (t + dt) r | Sense _ _ :: r => end_time t r end.

(** The events the filter sees and the final true state, in outcome [om]. *)
Fixpoint simulate (om : Om) (x : cV) (t : R) (s : seq sim_step) : seq (event R n U) * cV :=
  match s with
  | [::] => ([::], x)
  | Move u dt w :: r =>
      let x' := sval (pm_eval pm (PState x (Some t)) u dt) + w om in
      let o := simulate om x' (t + dt) r in (Predict n u dt :: o.1, o.2)
  | Sense y v :: r =>
      let o := simulate om x t r in (Correct U (observed (PState x (Some t)) (v om)) :: o.1, o.2)
  end.
End Simulation.
