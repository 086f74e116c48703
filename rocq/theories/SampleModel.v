(** Model of randvec (navlie/utils/common.py:177-199) and generate_measurement (navlie/datagen.py:244-296).
    np.random.normal is an oracle: the array of draws is an argument. *)
From mathcomp Require Import all_ssreflect all_algebra.
From Verif Require Import Base EkfModel CholModel.
Set Implicit Arguments.
Unset Strict Implicit.
Unset Printing Implicit Defensive.
Import Order.Theory GRing.Theory Num.Theory.
Local Open Scope ring_scope.

Section Sample.
Variable R : rcfType.
(** common.py:198-199: L = cholesky(cov); return L @ normal(0, 1, (n, num_samples)); [z] is what normal returns *)
Definition randvec n k (cov : 'M[R]_n) (z : 'M[R]_(n, k)) : result 'M[R]_(n, k) :=
  L <~ cholesky cov ;; Ok (L *m z).

(** a square array of any size, as returned by np.atleast_2d(model.covariance(x)) *)
Definition sqarr := {n : nat & 'M[R]_n}.
(** a measurement model as generate_measurement uses it: evaluate returns an array (here its entries in order; shapes are
    restored by the final reshape) or None *)
Record mmodel (X : Type) := MModel { mm_eval : X -> result (option (seq R)); mm_cov : X -> result sqarr }.
Record meas (X T Id : Type) := Meas { ms_val : seq R; ms_stamp : T; ms_model : mmodel X; ms_id : Id }.
Definition col_seq n (v : 'cV[R]_n) : seq R := [seq v i 0 | i <- enum 'I_n].
(** y.reshape((-1, 1)) + w with w an (n, 1) array, then reshape to the shape of y *)
Definition add_noise (y w : seq R) : result (seq R) :=
  if size w == size y then Ok [seq p.1 + p.2 | p <- zip y w]
  else if size w == 1%N then Ok [seq a + nth 0 w 0 | a <- y]
  else Raise ValueError.

Variables (X T Id : Type) (stamp : X -> T).
(** datagen.py:280-291, one state; [z n]: the draw if an array of n numbers is asked for *)
Definition generate_one (m : mmodel X) (noise : bool) (sid : Id) (x : X) (z : forall n, 'cV[R]_n) : result (meas X T Id) :=
  S <~ mm_cov m x ;;
  y <~ mm_eval m x ;;
  if y is Some y then
    v <~ (if noise then w <~ randvec (projT2 S) (z (projT1 S)) ;; add_noise y (col_seq w) else Ok y) ;;
    Ok (Meas v (stamp x) m sid)
  else Raise AttributeError.
(** datagen.py:271-296: a State or a list of them; [zs k]: the k-th draw *)
Inductive one_or_list (A : Type) := One of A | Many of seq A.
Fixpoint generate_list (m : mmodel X) noise sid (xs : seq X) (zs : nat -> forall n, 'cV[R]_n) (k : nat) : result (seq (meas X T Id)) :=
  match xs with
  | [::] => Ok [::]
  | x :: r => a <~ generate_one m noise sid x (zs k) ;; b <~ generate_list m noise sid r zs k.+1 ;; Ok (a :: b)
  end.
Definition generate_measurement (st : one_or_list X) (m : mmodel X) (noise : bool) (sid : Id) zs : result (one_or_list (meas X T Id)) :=
  match st with
  | One x => l <~ generate_list m noise sid [:: x] zs 0 ;; a <~ py_nth l 0 ;; Ok (One a)
  | Many xs => l <~ generate_list m noise sid xs zs 0 ;; Ok (Many l)
  end.
End Sample.
