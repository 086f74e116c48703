(** Model of GaussianResult, GaussianResultList.__getitem__ and MonteCarloResult
    (navlie/utils/common.py:518-930).  Exact arithmetic; a negative square root (NaN
    in numpy) and a division by zero (inf/nan) are totalised and excluded by the
    hypotheses of the theorems. *)
From mathcomp Require Import all_ssreflect all_algebra.
From Verif Require Import Base EkfModel.
Set Implicit Arguments.
Unset Strict Implicit.
Unset Printing Implicit Defensive.
Import Order.Theory GRing.Theory Num.Theory.
Local Open Scope ring_scope.

Section Results.
Variable R : rcfType.

(** ** GaussianResult.__init__, common.py:537-576; [e] is state_true.minus(state) *)
Record gresult (d : nat) := GResult {
  g_error : 'cV[R]_d; g_ees : R; g_nees : R; g_rmse : R; g_md : R; g_three_sigma : 'cV[R]_d }.
Definition gaussian_result d (e : 'cV[R]_d) (P : 'M[R]_d) : result (gresult d) :=
  w <~ np_solve P e ;;
  let ees := (e^T *m e) 0 0 in
  let nees := (e^T *m w) 0 0 in
  Ok (GResult e ees nees (Num.sqrt (ees / d%:R)) (Num.sqrt nees) (\col_i (3%:R * Num.sqrt (P i i)))).

(** ** Indexing *)
(** Python's range(start, stop, step), step <> 0 *)
Definition zrange (start stop step : int) : seq int :=
  let len := (if 0 <= step then stop - start else start - stop) in
  let s := absz step in
  if 0 < len then [seq start + step * k%:Z | k <- iota 0 ((absz len + s).-1 %/ s)] else [::].
(** slice(start, stop, step) of an axis of length N: slice.indices *)
Definition clip (lo hi x : int) : int := if x < lo then lo else if hi < x then hi else x.
Definition np_slice (start stop step : option int) (N : nat) : result (seq nat) :=
  let st := odflt 1 step in
  if st == 0 then Raise ValueError else
  let wrap (x : int) := if x < 0 then x + N%:Z else x in
  let '(a, b) := if 0 < st
     then (if start is Some x then clip 0 N%:Z (wrap x) else 0, if stop is Some x then clip 0 N%:Z (wrap x) else N%:Z)
     else (if start is Some x then clip (-1) (N%:Z - 1) (wrap x) else N%:Z - 1, if stop is Some x then clip (-1) (N%:Z - 1) (wrap x) else -1) in
  Ok [seq absz x | x <- zrange a b st].
(** one index of an axis of length N *)
Definition np_index (N : nat) (i : int) : result nat :=
  if (0 <= i) && (i < N%:Z) then Ok (absz i)
  else if (- N%:Z <= i) && (i < 0) then Ok (absz (i + N%:Z)) else Raise IndexError.

Inductive key := KInt of int | KSlice of option int & option int & option int | KList of seq int.

(** common.py:670-682: the explicit index list built for the covariance; a slice is
    turned into range(start or 0, stop or size, step or 1), without wrapping negative
    bounds or clipping to the size. *)
Definition key_list (N : nat) (k : key) : result (seq int) :=
  match k with
  | KInt i => Ok [:: i]
  | KSlice a b s => let st := odflt 1 s in
      if st == 0 then Raise ValueError else Ok (zrange (odflt 0 a) (odflt N%:Z b) st)
  | KList l => Ok l
  end.

(** numpy arrays of rank 0, 1, 2 *)
Inductive nd (T : Type) := A0 of T | A1 of seq T | A2 of seq (seq T).

(** self.error[key1, key2]: basic and advanced indexing on an N x D array *)
Definition index_error (N D : nat) (err : nat -> nat -> R) (k1 k2 : key) : result (nd R) :=
  match k1, k2 with
  | KInt i, KInt j => t <~ np_index N i ;; d <~ np_index D j ;; Ok (A0 (err t d))
  | KInt i, KSlice a b s => t <~ np_index N i ;; ds <~ np_slice a b s D ;; Ok (A1 [seq err t d | d <- ds])
  | KInt i, KList l => t <~ np_index N i ;; ds <~ mapM (np_index D) l ;; Ok (A1 [seq err t d | d <- ds])
  | KSlice a b s, KInt j => ts <~ np_slice a b s N ;; d <~ np_index D j ;; Ok (A1 [seq err t d | t <- ts])
  | KSlice a b s, KSlice a' b' s' =>
      ts <~ np_slice a b s N ;; ds <~ np_slice a' b' s' D ;; Ok (A2 [seq [seq err t d | d <- ds] | t <- ts])
  | KSlice a b s, KList l =>
      ts <~ np_slice a b s N ;; ds <~ mapM (np_index D) l ;; Ok (A2 [seq [seq err t d | d <- ds] | t <- ts])
  | KList l, KInt j => ts <~ mapM (np_index N) l ;; d <~ np_index D j ;; Ok (A1 [seq err t d | t <- ts])
  | KList l, KSlice a b s =>
      ts <~ mapM (np_index N) l ;; ds <~ np_slice a b s D ;; Ok (A2 [seq [seq err t d | d <- ds] | t <- ts])
  | KList l, KList l' =>      (* two index lists select entries pairwise *)
      ts <~ mapM (np_index N) l ;; ds <~ mapM (np_index D) l' ;;
      if size ts == size ds then Ok (A1 [seq err p.1 p.2 | p <- zip ts ds])
      else if size ds == 1%N then Ok (A1 [seq err t (nth 0%N ds 0) | t <- ts])
      else if size ts == 1%N then Ok (A1 [seq err (nth 0%N ts 0) d | d <- ds])
      else Raise IndexError
  end.

(** a sliced result list (before the final squeeze(), which only drops axes of length 1) *)
Record sliced := Sliced {
  o_error : nd R;
  o_cov : seq (seq (seq R));
  o_ees : seq R;
  o_nees : seq R;
  o_dof : nat;
  o_three_sigma : seq (seq R) }.

Definition sumsq (s : seq R) : R := \sum_(x <- s) x ^+ 2.
(** rows of a list as a vector / matrix *)
Definition vec (s : seq R) : 'cV[R]_(size s) := \col_i nth 0 s i.
Definition mat k (c : seq (seq R)) : 'M[R]_k := \matrix_(i, j) nth 0 (nth [::] c i) j.
(** one entry of np.sum(error * np.linalg.solve(cov, error)) *)
Definition nees_of (e : seq R) (c : seq (seq R)) : result R :=
  w <~ np_solve (mat (size e) c) (vec e) ;; Ok (((vec e)^T *m w) 0 0).

(** GaussianResultList.__getitem__, common.py:661-728, for an N x D error array and an
    N x D x D covariance array.  The shape mismatches that numpy refuses are ValueErrors
    (accidental broadcasts between different shapes are also modelled as ValueErrors). *)
Definition getitem (N D : nat) (err : nat -> nat -> R) (cov : nat -> nat -> nat -> R) (k1 k2 : key) : result sliced :=
  l1 <~ key_list N k1 ;;
  l2 <~ key_list D k2 ;;
  ts <~ mapM (np_index N) l1 ;;
  ds <~ mapM (np_index D) l2 ;;
  let c := [seq [seq [seq cov t i j | j <- ds] | i <- ds] | t <- ts] in
  e <~ index_error N D err k1 k2 ;;
  let ees := match e with A0 x => [:: x ^+ 2] | A1 s => [:: sumsq s] | A2 rows => [seq sumsq r | r <- rows] end in
  let ts3 := [seq [seq 3%:R * Num.sqrt (cov t i i) | i <- ds] | t <- ts] in
  match e with
  | A0 _ => Raise IndexError
  | A1 s =>
      let f := flatten (flatten c) in
      if size s == size f then
        Ok (Sliced e c ees [seq p.1 ^+ 2 / p.2 | p <- zip s f] 1 ts3)
      else Raise ValueError
  | A2 rows =>
      if (size rows == size c) && all (fun r => size r == size ds) rows then
        nees <~ mapM (fun p => nees_of p.1 p.2) (zip rows c) ;;
        Ok (Sliced e c ees nees (size ds) ts3)
      else Raise ValueError
  end.

(** ** MonteCarloResult, common.py:830-930.  Trials of N x D errors, as functions. *)
Record trial := Trial { tr_nees : nat -> R; tr_ees : nat -> R; tr_error : nat -> nat -> R; tr_dof : nat -> nat }.
Record mc := MC { mc_nees : nat -> R; mc_ees : nat -> R; mc_rmse : nat -> nat -> R; mc_total_rmse : nat -> R; mc_dof : nat -> nat; mc_trials : nat }.
Definition average (s : seq R) : R := (\sum_(x <- s) x) / (size s)%:R.
Definition monte_carlo_result (trials : seq trial) : result mc :=
  t0 <~ py_nth trials 0 ;;
  Ok (MC (fun k => average [seq tr_nees t k | t <- trials])
         (fun k => average [seq tr_ees t k | t <- trials])
         (fun k i => Num.sqrt (average [seq tr_error t k i ^+ 2 | t <- trials]))
         (fun k => Num.sqrt (average [seq tr_ees t k | t <- trials]))
         (tr_dof t0) (size trials)).

(** nees_lower_bound / nees_upper_bound, common.py:731-790 (num_trials = 1) and 885-930.
    [ppf p df] is scipy's chi2.ppf. *)
Variable ppf : R -> nat -> R.
Definition nees_lower (c : R) (trials dof : nat) : result R :=
  if (1 <= c) || (c <= 0) then Raise ValueError
  else Ok (ppf ((1 - c) / 2%:R) (trials * dof)%N / trials%:R).
Definition nees_upper (c : R) (double_sided : bool) (trials dof : nat) : result R :=
  if (1 <= c) || (c <= 0) then Raise ValueError
  else Ok (ppf (if double_sided then c + (1 - c) / 2%:R else c) (trials * dof)%N / trials%:R).
End Results.
