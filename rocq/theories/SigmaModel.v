(** Model of mean_state, generate_sigmapoints and SigmaPointKalmanFilter
    (navlie/filters.py:40-72, 452-770).  Exact arithmetic over a real closed
    field (for sqrt). *)
From mathcomp Require Import all_ssreflect all_algebra.
From Verif Require Import Base EkfModel.
Set Implicit Arguments.
Unset Strict Implicit.
Unset Printing Implicit Defensive.
Import Order.Theory GRing.Theory Num.Theory.
Local Open Scope ring_scope.

(** ** generate_sigmapoints: a list of (weight, unit sigma point). *)
Section Points.
Variable R : rcfType.

(** filters.py:475-482.  Columns of sqrt(dof+kappa) * [0, I, -I], kappa = 2;
    weights kappa/(dof+kappa) for the first, 1/(2(dof+kappa)) otherwise. *)
Definition unscented (n : nat) : seq (R * 'cV[R]_n) :=
  let kappa : R := 2%:R in
  let r := Num.sqrt (n%:R + kappa) in
  (kappa / (n%:R + kappa), r *: 0)
  :: [seq (1 / (2%:R * (n%:R + kappa)), r *: delta_mx i 0) | i <- enum 'I_n]
  ++ [seq (1 / (2%:R * (n%:R + kappa)), r *: - delta_mx i 0) | i <- enum 'I_n].

(** filters.py:484-487 *)
Definition cubature (n : nat) : seq (R * 'cV[R]_n) :=
  let r := Num.sqrt n%:R in
     [seq (1 / (2%:R * n%:R), r *: delta_mx i 0) | i <- enum 'I_n]
  ++ [seq (1 / (2%:R * n%:R), r *: - delta_mx i 0) | i <- enum 'I_n].

(** filters.py:489-499, p = 3.  [hermeroots] of He_3 = x^3 - 3x, ascending. *)
Definition gh_point (k : nat) : R :=
  match k with 0%N => - Num.sqrt 3%:R | 1%N => 0 | _ => Num.sqrt 3%:R end.
(** eval_hermitenorm(2, x) = x^2 - 1 *)
Definition hermitenorm2 (x : R) : R := x ^+ 2 - 1.
(** factorial(p) / (p * He_{p-1}(x_i))^2 *)
Definition gh_weight (k : nat) : R := (3`!)%:R / (3%:R * hermitenorm2 (gh_point k)) ^+ 2.
(** filters.py:501-508: ind[j, i] = j-th base-3 digit of i *)
Definition digit (i j : nat) : nat := (iter j (fun m => m %/ 3) i %% 3)%N.
(** filters.py:510-518 *)
Definition gauss_hermite (n : nat) : seq (R * 'cV[R]_n) :=
  [seq (\prod_(j < n) gh_weight (digit i j), \col_(j < n) gh_point (digit i j)) | i <- iota 0 (3 ^ n)].

Inductive sp_method := Unscented | Cubature | GaussHermite.
Definition generate_sigmapoints (n : nat) (m : sp_method) : seq (R * 'cV[R]_n) :=
  match m with Unscented => unscented n | Cubature => cubature n | GaussHermite => gauss_hermite n end.
End Points.

Section Filter.
Variable R : realFieldType.

(** 1e-6 *)
Definition em6 : R := 10%:R ^- 6.

(** ** mean_state, filters.py:40-72.  States and their stamps are kept abstract:
    [plus]/[minus] act on whole states.  [iters] = number of passes left (51
    passes: iter = 0..50). *)
Section Mean.
Variables (X : Type) (n : nat).
Variable plus : X -> 'cV[R]_n -> X.
Variable minus : X -> X -> 'cV[R]_n.
Variable norm : 'cV[R]_n -> R.

(** one pass: err = sum_i w_i * (x_i - x_mean) *)
Definition mean_err (xs : seq (R * X)) (x_mean : X) : 'cV[R]_n :=
  foldl (fun err wx => err + wx.1 *: minus wx.2 x_mean) 0 xs.

Fixpoint mean_loop (iters : nat) (xs : seq (R * X)) (x_mean : X) : X :=
  if iters is it.+1 then
    let err := mean_err xs x_mean in
    let x_mean' := plus x_mean err in
    if em6 < norm err then mean_loop it xs x_mean' else x_mean'
  else x_mean.

(** x_array[0] raises IndexError on an empty list.  The loop is entered at
    least once because err starts as 1. *)
Definition mean_state (xs : seq (R * X)) : result X :=
  if xs is (_, x0) :: _ then Ok (mean_loop 51 xs x0) else Raise IndexError.
End Mean.

(** ** SigmaPointKalmanFilter.  [V] state values, [W] input values. *)
Section Spkf.
Variables (V W : Type) (n nu : nat).
Variable plus : V -> 'cV[R]_n -> V.
Variable minus : V -> V -> 'cV[R]_n.
Variable uplus : W -> 'cV[R]_nu -> W.                  (* u.plus *)
Variable norm : 'cV[R]_n -> R.
Variable evaluate : pstate R V -> W -> R -> pstate R V.   (* process_model.evaluate *)
Variable cholesky : forall k, 'M[R]_k -> result 'M[R]_k.   (* np.linalg.cholesky *)
Variable points : forall k, seq (R * 'cV[R]_k).            (* generate_sigmapoints *)
Variable chi2_99 : nat -> R.
Variable iterate_mean : bool.

Record input := Input { u_val : W; u_stamp : option R; u_cov : option 'M[R]_nu }.

Let est := est R V n.
Let pminus (a b : pstate R V) := minus (sval a) (sval b).

(** filters.py:564-654 (sigma point cache: same value as recomputing). *)
Definition spkf_predict (x : est) (u : option input) (dt : option R) (ucov : option 'M[R]_nu) : result est :=
  x <~ (if sstamp (est_state x) is None then
          if u is Some u then Ok (Est (PState (sval (est_state x)) (u_stamp u)) (est_cov x))
          else Raise AttributeError
        else Ok x) ;;
  Qu <~ (match ucov with
         | Some Q => Ok Q
         | None => match u with
                   | None => Raise AttributeError
                   | Some u => if u_cov u is Some Q then Ok Q else Raise ValueError
                   end
         end) ;;
  dt <~ (match dt with
         | Some dt => Ok dt
         | None => match u with
                   | None => Raise AttributeError
                   | Some u => match u_stamp u, sstamp (est_state x) with
                               | Some tu, Some tx => Ok (tu - tx)
                               | _, _ => Raise TypeError
                               end
                   end
         end) ;;
  if dt < 0 then Raise RuntimeError else
  match u with
  | None => Ok x
  | Some u =>
      L <~ cholesky (block_mx (est_cov x) 0 0 Qu) ;;
      let prop := [seq (p.1, evaluate (pplus plus (est_state x) (usubmx (L *m p.2)))
                               (uplus (u_val u) (dsubmx (L *m p.2))) dt) | p <- points (n + nu)] in
      x_mean <~ (if iterate_mean then mean_state (pplus plus) pminus norm prop
                 else Ok (evaluate (est_state x) (u_val u) dt)) ;;
      let P_new := foldl (fun P wx => let err := pminus x_mean wx.2 in P + wx.1 *: (err *m err^T)) 0 prop in
      match sstamp x_mean with
      | None => Raise TypeError                          (* None += dt *)
      | Some t => Ok (Est (PState (sval x_mean) (Some (t + dt))) (symmetrize P_new))
      end
  end.

(** filters.py:656-770.  A None prediction at the estimate leaves the estimate
    unchanged; at a sigma point it is None.ravel(): AttributeError. *)
Definition spkf_correct (x : est) (y : measurement R V n) (u : option input) (reject : bool) : result est :=
  let x := load_stamp x (m_stamp y) in
  x <~ (match m_stamp y, sstamp (est_state x) with
        | None, _ => Ok x
        | Some _, None => Raise TypeError
        | Some ty, Some tx =>
            if ty - tx < 0 then Raise RuntimeError
            else if u is Some _ then spkf_predict x u (Some (ty - tx)) None else Ok x
        end) ;;
  let P_xx := est_cov x in
  let Rm := m_cov y (est_state x) in
  L <~ cholesky P_xx ;;
  let sig := [seq (p.1, L *m p.2) | p <- points n] in
  match m_eval y (est_state x) with
  | None => Ok x
  | Some _ =>
      prop <~ mapM (fun p => match m_eval y (pplus plus (est_state x) p.2) with
                             | Some yp => Ok (p.1, p.2, yp)
                             | None => Raise AttributeError
                             end) sig ;;
      let y_mean := foldl (fun a p => a + p.1.1 *: p.2) 0 prop in
      let Pyy := foldl (fun a p => a + p.1.1 *: ((p.2 - y_mean) *m (p.2 - y_mean)^T)) 0 prop + Rm in
      let Pxy := foldl (fun a p => a + p.1.1 *: (p.1.2 *m (p.2 - y_mean)^T)) 0 prop in
      let z := m_val y - y_mean in
      outlier <~ (if reject then check_outlier chi2_99 z Pyy else Ok false) ;;
      if outlier then Ok x else
      Kt <~ np_solve Pyy^T Pxy^T ;;
      let K := Kt^T in
      Ok (Est (pplus plus (est_state x) (K *m z)) (symmetrize (P_xx - K *m Pxy^T)))
  end.
End Spkf.
End Filter.
