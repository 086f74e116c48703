(** Model of run_filter, run_imm_filter, run_gsf_filter (navlie/filters.py:1109-1318).

    The filter is abstract: any [correct] and [predict], which may raise.
    Stamps are elements of an arbitrary ordered integral domain. *)
From mathcomp Require Import all_ssreflect all_algebra.
From Verif Require Import Base.
Set Implicit Arguments.
Unset Strict Implicit.
Unset Printing Implicit Defensive.
Import Order.Theory GRing.Theory Num.Theory.
Local Open Scope ring_scope.

Section RunFilter.
Variable T : realDomainType.
Variables (U Y X : Type).
Variable ustamp : U -> T.       (* u.stamp *)
Variable ystamp : Y -> T.       (* y.stamp *)
Variable xstamp : X -> T.       (* x.stamp (for a mixture: x.model_states[0].stamp) *)

(** list.sort(key=lambda x: x.stamp): stable.  filters.py:1139-1140. *)
Definition sort_by {A} (key : A -> T) (s : seq A) : seq A := sort (relpre key <=%O) s.

(** filters.py:1143-1151: keep the suffix starting at the first element whose
    stamp is >= t0; if there is none the list is left AS IS. *)
Definition trim {A} (key : A -> T) (t0 : T) (s : seq A) : seq A :=
  let idx := find (fun a => t0 <= key a) s in
  if (idx < size s)%N then drop idx s else s.

Section Loop.
Variable fuse : X -> Y -> U -> result X.
Variable predict : X -> U -> T -> result X.

(** filters.py:1162-1168: the inner while loop.  Loop variables: meas_idx and y.
    [fuel] only makes the definition structurally recursive; it is started at
    [size meas + 1], which is never exhausted (see RunFilterProof). *)
Fixpoint while_fuse (fuel : nat) (meas : seq Y) (u : U) (tnext : T)
  (st : X * nat * Y) : result (X * nat * Y) :=
  let: (x, meas_idx, y) := st in
  if (ystamp y < tnext) && (meas_idx < size meas)%N then
    if fuel is n.+1 then
      x' <~ fuse x y u ;;
      let y' := if (meas_idx.+1 < size meas)%N then nth y meas meas_idx.+1 else y in
      while_fuse n meas u tnext (x', meas_idx.+1, y')
    else Raise GenericException
  else Ok st.

(** filters.py:1161-1168: guarded by [len(meas_data) > 0]; y is unbound (None) otherwise. *)
Definition fuse_pending (meas : seq Y) (u : U) (tnext : T) (x : X) (meas_idx : nat) (y : option Y)
  : result (X * nat * option Y) :=
  match y with
  | Some y =>
      st <~ while_fuse (size meas).+1 meas u tnext (x, meas_idx, y) ;;
      let: (x', mi, y') := st in Ok (x', mi, Some y')
  | None => Ok (x, meas_idx, None)
  end.

(** One iteration of the outer loop of run_filter / run_gsf_filter:
    filters.py:1158-1172, 1302-1316 (results appended after fusing). *)
Definition step_filter (inp : seq U) (meas : seq Y)
  (st : seq X * X * nat * option Y) (k : nat) : result (seq X * X * nat * option Y) :=
  let: (res, x, mi, y) := st in
  u <~ py_nth inp k ;;
  un <~ py_nth inp k.+1 ;;
  f <~ fuse_pending meas u (ustamp un) x mi y ;;
  let: (x1, mi1, y1) := f in
  x2 <~ predict x1 u (ustamp un - xstamp x1) ;;
  Ok (rcons res x1, x2, mi1, y1).

(** One iteration of the outer loop of run_imm_filter: filters.py:1237-1251
    (results appended BEFORE fusing). *)
Definition step_imm (inp : seq U) (meas : seq Y)
  (st : seq X * X * nat * option Y) (k : nat) : result (seq X * X * nat * option Y) :=
  let: (res, x, mi, y) := st in
  u <~ py_nth inp k ;;
  un <~ py_nth inp k.+1 ;;
  f <~ fuse_pending meas u (ustamp un) x mi y ;;
  let: (x1, mi1, y1) := f in
  x2 <~ predict x1 u (ustamp un - xstamp x1) ;;
  Ok (rcons res x, x2, mi1, y1).

Definition run_loop step (x : X) (inp : seq U) (meas : seq Y) : result (seq X) :=
  let y := if meas is y :: _ then Some y else None in
  st <~ foldM (step inp meas) ([::], x, 0%N, y) (iota 0 (size inp).-1) ;;
  Ok st.1.1.1.
End Loop.

(** filters.py:1109-1174.  [t0 = None] models x0.stamp is None.  The lists the
    caller passed are sorted in place: the second component of the outcome is
    what the caller's lists contain afterwards. *)
Definition run_filter (correct : X -> Y -> U -> result X) (predict : X -> U -> T -> result X)
  (t0 : option T) (x0 : X) (inp : seq U) (meas : seq Y) : result (seq X) * (seq U * seq Y) :=
  if t0 is Some t0 then
    let inp := sort_by ustamp inp in
    let meas := sort_by ystamp meas in
    (run_loop (step_filter correct predict) x0 (trim ustamp t0 inp) (trim ystamp t0 meas),
     (inp, meas))
  else (Raise ValueError, (inp, meas)).

(** filters.py:1256-1318: same code with a MixtureState. *)
Definition run_gsf_filter := run_filter.

(** filters.py:1180-1253: each measurement triggers interaction, then correct. *)
Definition run_imm_filter (interaction : X -> result X) (correct : X -> Y -> U -> result X)
  (predict : X -> U -> T -> result X)
  (t0 : option T) (x0 : X) (inp : seq U) (meas : seq Y) : result (seq X) * (seq U * seq Y) :=
  if t0 is Some t0 then
    let inp := sort_by ustamp inp in
    let meas := sort_by ystamp meas in
    (run_loop (step_imm (fun x y u => x' <~ interaction x ;; correct x' y u) predict)
       x0 (trim ustamp t0 inp) (trim ystamp t0 meas),
     (inp, meas))
  else (Raise ValueError, (inp, meas)).

End RunFilter.
