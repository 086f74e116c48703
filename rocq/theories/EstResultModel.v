(** Model of the constructors that turn filter output into error metrics:
    state_interp with its [method] argument (navlie/utils/common.py:45-175),
    GaussianResult and GaussianResultList.from_estimates (common.py:537-575, 795-827),
    MixtureResult and MixtureResultList (common.py:934-1015) and monte_carlo
    (common.py:1018-1062).  A result list is a list of records; the arrays of
    GaussianResultList.__init__ (common.py:625-668) are its columns. *)
From mathcomp Require Import all_ssreflect all_algebra.
From Verif Require Import Base EkfModel MixtureModel ResultModel UtilsModel.
Set Implicit Arguments.
Unset Strict Implicit.
Unset Printing Implicit Defensive.
Import Order.Theory GRing.Theory Num.Theory.
Local Open Scope ring_scope.

Section EstResult.
Variables (R : rcfType) (V : Type) (n : nat).
Variable plus : V -> 'cV[R]_n -> V.
Variable minus : V -> V -> 'cV[R]_n.
Variable plus_jac : V -> 'cV[R]_n -> 'M[R]_n.
Variable minus_jac : V -> V -> 'M[R]_n.
Notation est := (est R V n).
Notation sstate := (sstate R V).

(** the [method] argument; any other string leaves [out] unassigned *)
Inductive imethod := MLinear | MNearest | MOther.

(** common.py:97-106: a stamp of None is neither a number nor a stamped object *)
Definition query_stamps (qs : seq (option R)) : result (seq R) :=
  mapM (fun q => if q is Some t then Ok t else Raise TypeError) qs.

(** common.py:156-166: scipy's nearest-neighbour interpolation of the index over the
    sorted stamps; the index is then used in the list as it was given *)
Definition nearest_one (states : seq sstate) (q : R) : result sstate :=
  k <~ nearest (sort <=%R [seq s.2 | s <- states]) q ;; py_nth states k.

(** common.py:45-175 for a list of stamps *)
Definition interp_by (m : imethod) (qs : seq (option R)) (states : seq sstate) : result (seq sstate) :=
  ts <~ query_stamps qs ;;
  match m with
  | MLinear => state_interp plus minus (SList ts) states
  | MNearest => if states is [::] then Raise ValueError else mapM (nearest_one states) ts
  | MOther => Raise UnboundLocalError
  end.

(** GaussianResult.__init__, common.py:537-575 *)
Record gres := GRes {
  r_stamp : option R; r_state : pstate R V; r_true : sstate; r_cov : 'M[R]_n; r_metrics : gresult R n }.
Definition gaussian_result_of (x : est) (t : sstate) : result gres :=
  g <~ gaussian_result (minus t.1 (sval (est_state x))) (est_cov x) ;;
  Ok (GRes (sstamp (est_state x)) (est_state x) t (est_cov x) g).

(** GaussianResultList.from_estimates, common.py:795-827 *)
Definition from_estimates (m : imethod) (xs : seq est) (truth : seq sstate) : result (seq gres) :=
  ts <~ interp_by m [seq sstamp (est_state x) | x <- xs] truth ;;
  mapM (fun p => gaussian_result_of p.1 p.2) (zip xs ts).

(** MixtureState, lib/states.py:656-676 *)
Record mixture_state := MixState { ms_states : seq est; ms_probs : seq R }.

(** MixtureResult.__init__, common.py:948-956: (the GaussianResult, model_probabilities) *)
Definition mixture_result (x : mixture_state) (t : sstate) : result (gres * seq R) :=
  e <~ gaussian_mixing plus minus plus_jac minus_jac (ms_probs x) (ms_states x) ;;
  g <~ gaussian_result_of e t ;;
  Ok (g, ms_probs x).

(** MixtureState.stamp, lib/states.py:666-668; common.py:1006 *)
Definition mixture_stamp (x : mixture_state) : result (option R) :=
  X <~ py_nth (ms_states x) 0 ;; Ok (sstamp (est_state X)).

(** MixtureResultList.from_estimates, common.py:980-1015 *)
Definition mixture_from_estimates (m : imethod) (xs : seq mixture_state) (truth : seq sstate)
  : result (seq (gres * seq R)) :=
  stamps <~ mapM mixture_stamp xs ;;
  ts <~ interp_by m stamps truth ;;
  mapM (fun p => mixture_result p.1 p.2) (zip xs ts).

(** the columns of a GaussianResultList that MonteCarloResult reads *)
Definition as_trial (rs : seq gres) : trial R :=
  let at_ (T : Type) (d : T) (f : gres -> T) k := nth d [seq f r | r <- rs] k in
  Trial (at_ R 0 (fun r => g_nees (r_metrics r))) (at_ R 0 (fun r => g_ees (r_metrics r)))
        (fun k i => at_ R 0 (fun r => if insub i is Some j then g_error (r_metrics r) j 0 else 0) k)
        (at_ nat 0%N (fun=> n)).

(** monte_carlo, common.py:1018-1062.  joblib's Parallel returns the results in the order
    of the calls, whatever the number of jobs. *)
Definition monte_carlo (trial_fn : nat -> result (seq gres)) (num_trials : nat) : result (mc R) :=
  rs <~ mapM trial_fn (iota 0 num_trials) ;;
  monte_carlo_result [seq as_trial r | r <- rs].
End EstResult.
