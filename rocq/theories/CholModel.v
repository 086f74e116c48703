(** np.linalg.cholesky, as used by sqrt_information (types.py:256-258, 426-428) and
    PriorResidual (residuals.py:116-118): the textbook column recursion over a real
    closed field (exact square roots).  Like LAPACK potrf('L') it reads the lower
    triangle only and fails (LinAlgError) on a non-positive pivot. *)
From mathcomp Require Import all_ssreflect all_algebra.
From Verif Require Import Base EkfModel.
Set Implicit Arguments.
Unset Strict Implicit.
Unset Printing Implicit Defensive.
Import Order.Theory GRing.Theory Num.Theory.
Local Open Scope ring_scope.

Section Chol.
Variable R : rcfType.
Fixpoint cholesky {n} : 'M[R]_n -> result 'M[R]_n :=
  match n with
  | 0%N => fun A => Ok A
  | n'.+1 => fun A0 =>
      let A : 'M[R]_(1 + n') := A0 in
      let a := ulsubmx A 0 0 in
      if 0 < a then
        let l := Num.sqrt a in
        let v := l^-1 *: dlsubmx A in
        L <~ cholesky (drsubmx A - v *m v^T) ;;
        Ok (block_mx l%:M 0 v L : 'M[R]_(1 + n'))
      else Raise LinAlgError
  end.
(** types.py:256-258 / 426-428: np.linalg.cholesky(np.linalg.inv(np.atleast_2d(P))) *)
Definition sqrt_info n (P : 'M[R]_n) : result 'M[R]_n := Pi <~ np_inv P ;; cholesky Pi.
End Chol.
