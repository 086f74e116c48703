(** Model of van_loans (navlie/utils/common.py:202-257). *)
From Coq Require Import Reals.
From mathcomp Require Import all_ssreflect all_algebra.
From Verif Require Import Base RealStruct MatExp.
Set Implicit Arguments.
Unset Strict Implicit.
Unset Printing Implicit Defensive.
Import GRing.Theory.
Local Open Scope ring_scope.
Bind Scope ring_scope with Rdefinitions.R.
Local Notation R := Rdefinitions.R.

Section VanLoan.
Variables n m : nat.
(** common.py:239-254.  The arguments are two-dimensional arrays of matching sizes (np.atleast_2d leaves them as they are);
    scipy.linalg.expm is the exact matrix exponential. *)
Definition van_loans_xi (Ac : 'M[R]_n) (Lc : 'M[R]_(n, m)) (Qc : 'M[R]_m) : 'M[R]_((n + n) + (n + n)) :=
  block_mx (block_mx Ac (Lc *m Qc *m Lc^T) 0 (- Ac^T)) 0 0 (block_mx Ac 0 0 0).
Definition van_loans (Ac : 'M[R]_n) (Lc : 'M[R]_(n, m)) (Qc : 'M[R]_m) (dt : R) : 'M[R]_n * 'M[R]_n :=
  let U := expm (dt *: van_loans_xi Ac Lc Qc) in
  let Ad := ulsubmx (ulsubmx U) in
  (Ad, ursubmx (ulsubmx U) *m Ad^T).
End VanLoan.
