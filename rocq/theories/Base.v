(** Shared vocabulary: Python exceptions as values, Python/numpy slices,
    numpy 2-D arrays of dynamic shape. *)
From mathcomp Require Import all_ssreflect all_algebra.
Set Implicit Arguments.
Unset Strict Implicit.
Unset Printing Implicit Defensive.

(** The Python exception classes that the modelled code can raise. *)
Inductive exn : Set :=
| ValueError | RuntimeError | TypeError | KeyError | IndexError
| AttributeError | UnboundLocalError | LinAlgError | NotImplementedErr
| ZeroDivisionError | GenericException.

Definition exn_eqb (a b : exn) : bool :=
  match a, b with
  | ValueError, ValueError | RuntimeError, RuntimeError | TypeError, TypeError
  | KeyError, KeyError | IndexError, IndexError
  | AttributeError, AttributeError | UnboundLocalError, UnboundLocalError
  | LinAlgError, LinAlgError | NotImplementedErr, NotImplementedErr
  | ZeroDivisionError, ZeroDivisionError | GenericException, GenericException => true
  | _, _ => false
  end.

Lemma exn_eqP : Equality.axiom exn_eqb.
Proof. by case; case; constructor. Qed.

Canonical exn_eqMixin := EqMixin exn_eqP.
Canonical exn_eqType := Eval hnf in EqType exn exn_eqMixin.

(** Outcome of a Python call: a value or a raised exception. *)
Inductive result (A : Type) : Type :=
| Ok (a : A)
| Raise (e : exn).
Arguments Ok {A} a.
Arguments Raise {A} e.

Definition bind {A B} (m : result A) (f : A -> result B) : result B :=
  match m with Ok a => f a | Raise e => Raise e end.

Declare Scope py_scope.
Delimit Scope py_scope with py.
Notation "x <~ m ;; k" := (bind m (fun x => k))
  (at level 61, m at next level, right associativity) : py_scope.
Open Scope py_scope.

Definition rmap {A B} (f : A -> B) (m : result A) : result B :=
  match m with Ok a => Ok (f a) | Raise e => Raise e end.

Definition is_ok {A} (m : result A) : bool :=
  match m with Ok _ => true | Raise _ => false end.

(** [for] loop collecting results; the first exception wins. *)
Fixpoint mapM {A B} (f : A -> result B) (s : seq A) : result (seq B) :=
  match s with
  | [::] => Ok [::]
  | a :: r => b <~ f a ;; bs <~ mapM f r ;; Ok (b :: bs)
  end.

(** [for] loop threading an accumulator. *)
Fixpoint foldM {A S} (f : S -> A -> result S) (st : S) (s : seq A) : result S :=
  match s with
  | [::] => Ok st
  | a :: r => st' <~ f st a ;; foldM f st' r
  end.

(** Python list indexing l[i] for i >= 0. *)
Definition py_nth {A} (s : seq A) (i : nat) : result A :=
  match drop i s with a :: _ => Ok a | [::] => Raise IndexError end.

(** Python/numpy slicing v[a:b] for 0 <= a, b: out-of-range bounds clip. *)
Definition pslice {A} (a b : nat) (v : seq A) : seq A := take (b - a) (drop a v).

(** numpy 2-D array: shape plus entries.  Entries outside the shape are
    irrelevant: arrays are compared with [aeq]. *)
Record arr (R : Type) : Type := Arr { nrow : nat; ncol : nat; ent : nat -> nat -> R }.
Arguments Arr {R} nrow ncol ent.

Definition aeq {R} (A B : arr R) : Prop :=
  nrow A = nrow B /\ ncol A = ncol B /\
  forall i j, i < nrow A -> j < ncol A -> ent A i j = ent B i j.

(** v[a:b] clipped to an axis of length n, as (start, stop). *)
Definition clip (n : nat) (s : nat * nat) : nat * nat := (minn s.1 n, minn s.2 n).
Definition slen (s : nat * nat) : nat := s.2 - s.1.
Definition inslice (s : nat * nat) (i : nat) : bool := (s.1 <= i) && (i < s.2).

(** M[s1, s2] (a view; read only here). *)
Definition getblock {R} (M : arr R) (s1 s2 : nat * nat) : arr R :=
  let c1 := clip (nrow M) s1 in
  let c2 := clip (ncol M) s2 in
  Arr (slen c1) (slen c2) (fun i j => ent M (c1.1 + i) (c2.1 + j)).

(** numpy can broadcast axis length [k] of the source to [n] iff equal or 1. *)
Definition bcast_ok (n k : nat) : bool := (k == n) || (k == 1).

(** M[s1, s2] = B for a 2-D array B: numpy broadcasting rule, ValueError
    "could not broadcast" otherwise. *)
Definition setblock {R} (M : arr R) (s1 s2 : nat * nat) (B : arr R) : result (arr R) :=
  let c1 := clip (nrow M) s1 in
  let c2 := clip (ncol M) s2 in
  if bcast_ok (slen c1) (nrow B) && bcast_ok (slen c2) (ncol B) then
    Ok (Arr (nrow M) (ncol M) (fun i j =>
      if inslice c1 i && inslice c2 j
      then ent B (if nrow B == 1 then 0 else i - c1.1) (if ncol B == 1 then 0 else j - c2.1)
      else ent M i j))
  else Raise ValueError.

Section Ring.
Variable R : ringType.
Local Open Scope ring_scope.

(** np.zeros((m, n)) *)
Definition azeros (m n : nat) : arr R := Arr m n (fun _ _ => 0).

(** np.identity(n) *)
Definition aident (n : nat) : arr R := Arr n n (fun i j => (i == j)%:R).

(** [apply A v] : the i-th component of the matrix-vector product A @ v. *)
Definition aapply (A : arr R) (v : seq R) (i : nat) : R :=
  \sum_(j < ncol A) ent A i j * nth 0 v j.

End Ring.
