(** Model of the nonlinear least-squares solver (navlie/batch/problem.py).
    Exact arithmetic over a real closed field (for sqrt).  Dictionaries are
    insertion-ordered association lists.  Residuals and losses are arbitrary.
    Shapes returned by user residuals are part of the residual record: an error
    of size [r_dim] and Jacobians of shape r_dim x dof, so numpy shape errors and
    broadcasting are not modelled. *)
From mathcomp Require Import all_ssreflect all_algebra.
From Verif Require Import Base.
Set Implicit Arguments.
Unset Strict Implicit.
Unset Printing Implicit Defensive.
Import Order.Theory GRing.Theory Num.Theory.
Local Open Scope ring_scope.

(** ** Python dictionaries *)
Section Dict.
Variables (K : eqType) (T : Type).
Fixpoint dget (d : seq (K * T)) (k : K) : option T :=
  if d is (k', v) :: r then if k' == k then Some v else dget r k else None.
(** d[k] *)
Definition dindex (d : seq (K * T)) (k : K) : result T :=
  if dget d k is Some v then Ok v else Raise KeyError.
(** d[k] = v : replaces in place, or appends *)
Fixpoint dset (d : seq (K * T)) (k : K) (v : T) : seq (K * T) :=
  if d is (k', v') :: r then if k' == k then (k', v) :: r else (k', v') :: dset r k v else [:: (k, v)].
End Dict.

Section Problem.
Variable R : rcfType.
Variable K : eqType.       (* keys *)
Variable V : Type.         (* states *)
Variable dof : V -> nat.
Variable plus : V -> seq R -> V.

(** residuals.py Residual.  [r_err vs] lists the error entries; [r_jac vs j] the
    Jacobian with respect to the j-th key.  By contract (residuals.py) a Jacobian
    is None exactly when it was not requested. *)
Record residual := Residual {
  r_keys : seq K;
  r_dim : nat;
  r_err : seq V -> nat -> R;
  r_jac : seq V -> nat -> nat -> nat -> R }.

(** losses.py LossFunction *)
Record loss := Loss { l_loss : R -> R; l_weight : R -> R }.
(** losses.py:35-48 L2Loss *)
Definition l2_loss : loss := Loss (fun e => 2%:R^-1 * e * e) (fun _ => 1).

Inductive solver := GN | LM.

(** Problem attributes, problem.py:56-96.  Information and covariance matrices
    are stored with their size. *)
Record problem := Problem {
  p_solver : solver; p_max_iters : nat;
  p_step_tol : option R; p_ftol : option R; p_gradient_tol : option R; p_tau : R;
  p_init : seq (K * V);
  p_vars : seq (K * V);
  p_slices : seq (K * (nat * nat));
  p_const : seq K;
  p_resids : seq residual;
  p_losses : seq loss;
  p_info : option {n : nat & 'M[R]_n};
  p_cov : option {n : nat & 'M[R]_n};
  p_history : seq R }.

(** problem.py:142-144 *)
Definition add_variable (p : problem) (k : K) (v : V) : problem :=
  Problem (p_solver p) (p_max_iters p) (p_step_tol p) (p_ftol p) (p_gradient_tol p) (p_tau p)
    (dset (p_init p) k v) (p_vars p) (p_slices p) (p_const p) (p_resids p) (p_losses p)
    (p_info p) (p_cov p) (p_history p).

(** problem.py:146-159.  (A str key is Hashable and is wrapped in a list.) *)
Definition set_variables_constant (p : problem) (ks : seq K) : problem :=
  Problem (p_solver p) (p_max_iters p) (p_step_tol p) (p_ftol p) (p_gradient_tol p) (p_tau p)
    (p_init p) (p_vars p) (p_slices p)
    (foldl (fun c k => if k \in c then c else rcons c k) (p_const p) ks)
    (p_resids p) (p_losses p) (p_info p) (p_cov p) (p_history p).

(** problem.py:119-140: a list of residuals with one loss or a list of losses. *)
Definition add_residual (p : problem) (rs : seq residual) (ls : loss + seq loss) : problem :=
  Problem (p_solver p) (p_max_iters p) (p_step_tol p) (p_ftol p) (p_gradient_tol p) (p_tau p)
    (p_init p) (p_vars p) (p_slices p) (p_const p)
    (p_resids p ++ rs)
    (p_losses p ++ match ls with inl l => nseq (size rs) l | inr l => l end)
    (p_info p) (p_cov p) (p_history p).

(** problem.py:463-469: column ranges for the non-constant variables, written
    into the existing dictionary (which is never cleared); returns it with the
    number of columns. *)
Fixpoint variable_slices (consts : seq K) (vars : seq (K * V)) (slices : seq (K * (nat * nat))) (idx : nat)
  : seq (K * (nat * nat)) * nat :=
  if vars is (k, v) :: r then
    if k \in consts then variable_slices consts r slices idx
    else variable_slices consts r (dset slices k (idx, (idx + dof v)%N)) (idx + dof v)%N
  else (slices, idx).

(** problem.py:471-481: row ranges for all residuals; KeyError for an unknown key. *)
Fixpoint residual_slices (vars : seq (K * V)) (rs : seq residual) (idx : nat)
  : result (seq (nat * nat) * nat) :=
  if rs is r :: rest then
    _ <~ mapM (dindex vars) (r_keys r) ;;
    sl <~ residual_slices vars rest (idx + r_dim r)%N ;;
    Ok ((idx, (idx + r_dim r)%N) :: sl.1, sl.2)
  else Ok ([::], idx).

(** np.linalg.norm *)
Definition vnorm (d : nat) (e : nat -> R) : R := Num.sqrt (\sum_(i < d) e i ^+ 2).
Definition cnorm n (v : 'cV[R]_n) : R := Num.sqrt (\sum_i v i 0 ^+ 2).

Definition in_range (s : nat * nat) (i : nat) : bool := (s.1 <= i < s.2)%N.

(** problem.py:412-441, one residual: write its weighted error and Jacobian
    blocks into e and H; constant keys get no Jacobian. *)
Definition place_jacobian (slices : seq (K * (nat * nat))) (consts : seq K) (rs : nat * nat) (w : R)
  (jac : nat -> nat -> nat -> R) (H : nat -> nat -> R) (jk : nat * K) : result (nat -> nat -> R) :=
  if jk.2 \in consts then Ok H else
  cs <~ dindex slices jk.2 ;;
  Ok (fun i j => if in_range rs i && in_range cs j then w * jac jk.1 (i - rs.1)%N (j - cs.1)%N else H i j).

Definition place_residual (vars : seq (K * V)) (slices : seq (K * (nat * nat))) (consts : seq K)
  (acc : (nat -> R) * (nat -> nat -> R) * seq R) (rl : (residual * loss) * (nat * nat))
  : result ((nat -> R) * (nat -> nat -> R) * seq R) :=
  let r := rl.1.1 in let l := rl.1.2 in let rs := rl.2 in
  vs <~ mapM (dindex vars) (r_keys r) ;;
  let err := r_err r vs in
  let u := vnorm (r_dim r) err in
  let w := Num.sqrt (l_weight l u) in
  let e := fun i => if in_range rs i then w * err (i - rs.1)%N else acc.1.1 i in
  H <~ foldM (place_jacobian slices consts rs w (r_jac r vs)) acc.1.2 (zip (iota 0 (size (r_keys r))) (r_keys r)) ;;
  Ok (e, H, rcons acc.2 (l_loss l u)).

(** problem.py:377-449 compute_error_jac_cost, sizes m x n already computed.
    residual_slices[i] for the i-th (residual, loss) pair of the zip. *)
Definition compute_error_jac_cost (resids : seq residual) (losses : seq loss) (consts : seq K)
  (slices : seq (K * (nat * nat))) (rsl : seq (nat * nat)) (m n : nat) (vars : seq (K * V))
  : result ('cV[R]_m * 'M[R]_(m, n) * R) :=
  acc <~ foldM (place_residual vars slices consts) (fun _ => 0, fun _ _ => 0, [::])
           (zip (zip resids losses) rsl) ;;
  Ok (\col_i acc.1.1 i, \matrix_(i, j) acc.1.2 i j, \sum_(c <- acc.2) c).

(** problem.py:483-508 _correct_states *)
Definition correct_states (consts : seq K) (slices : seq (K * (nat * nat))) n (dx : 'cV[R]_n)
  (vars : seq (K * V)) : result (seq (K * V)) :=
  mapM (fun kv => if kv.1 \in consts then Ok kv else
          s <~ dindex slices kv.1 ;;
          Ok (kv.1, plus kv.2 (pslice s.1 s.2 [seq dx i 0 | i <- enum 'I_n]))) vars.

(** problem.py:98-117.  [dx], [grad] = None stands for NaN (and, for grad, None):
    every comparison is then false. *)
Definition is_converged (step_tol ftol gtol : option R) (delta_cost : option R) (cost : R) (dx grad : option R) : bool :=
  if delta_cost is Some dc then
    let rel := if cost != 0 then dc / cost else 0 in
    [|| (if step_tol is Some t then if dx is Some d then d < t else false else false),
        (if ftol is Some t then rel < t else false),
        cost == 0,
        (if dx is Some d then d == 0 else false) |
        (if gtol is Some t then if grad is Some g then g < t else false else false)]
  else false.

(** scipy.sparse.linalg.spsolve: NaNs (here None) when the matrix is singular. *)
Definition spsolve n (A : 'M[R]_n) (b : 'cV[R]_n) : option 'cV[R]_n :=
  if A \in unitmx then Some (invmx A *m b) else None.

(** np.max(np.abs(e.T @ H)): ValueError on an empty array. *)
Definition maxabs n (v : 'rV[R]_n) : result R :=
  if n == 0%N then Raise ValueError else Ok (\big[Num.max/0]_j `|v 0 j|).

(** np.abs(cost_list[-1] - cost_list[-2]); costs are kept newest first. *)
Definition delta_of (costs : seq R) : option R :=
  if costs is a :: b :: _ then Some `|a - b| else None.

Section Solve.
Variable p : problem.
Variables (slices : seq (K * (nat * nat))) (rsl : seq (nat * nat)) (m n : nat).
Let compute := compute_error_jac_cost (p_resids p) (p_losses p) (p_const p) slices rsl m n.
Let correct := correct_states (p_const p) slices (n := n).
Let converged := is_converged (p_step_tol p) (p_ftol p) (p_gradient_tol p).

(** problem.py:225-262, the Gauss-Newton loop.  [costs] newest first; [A] is the
    local variable A, unbound before the first pass. *)
Fixpoint gn_loop (iters : nat) (vars : seq (K * V)) (costs : seq R) (e : 'cV[R]_m) (H : 'M[R]_(m, n))
  (dc dx grad : option R) (A : option 'M[R]_n) : result (seq (K * V) * seq R * option 'M[R]_n) :=
  if iters is it.+1 then
    if converged dc (head 0 costs) dx grad then Ok (vars, costs, A) else
    let A := H^T *m H in
    let b := H^T *m e in
    match spsolve A (- b) with
    | None => Raise LinAlgError      (* all variables become NaN *)
    | Some delta_x =>
        vars' <~ correct delta_x vars ;;
        ehc <~ compute vars' ;;
        let e := ehc.1.1 in let H := ehc.1.2 in
        let costs := ehc.2 :: costs in
        g <~ maxabs (e^T *m H) ;;
        gn_loop it vars' costs e H (delta_of costs) (Some (cnorm delta_x)) (Some g) (Some A)
    end
  else Ok (vars, costs, A).

(** problem.py:200-271; result: variables, cost history, information matrix. *)
Definition solve_gn (vars : seq (K * V)) : result (seq (K * V) * seq R * 'M[R]_n) :=
  ehc <~ compute vars ;;
  r <~ gn_loop (p_max_iters p) vars [:: ehc.2] ehc.1.1 ehc.1.2 None (Some 10%:R) None None ;;
  ehc' <~ compute r.1.1 ;;
  if r.2 is Some A then Ok (r.1.1, rev (ehc'.2 :: r.1.2), A) else Raise UnboundLocalError.

(** problem.py:306-340: numpy semantics of gain_ratio > 0 and of the damping
    factor, including division by zero. *)
Definition gain_accepts (num den : R) : bool :=
  if den == 0 then 0 < num else 0 < num / den.
Definition damping_factor (num den : R) : R :=
  if den == 0 then 1 / 3%:R else Num.max (1 / 3%:R) (1 - (2%:R * (num / den) - 1) ^+ 3).

(** problem.py:304-367, the Levenberg-Marquardt loop.  [e], [H]: linearisation at
    the last evaluated point (possibly rejected); [A], [b]: at the current
    variables. *)
Fixpoint lm_loop (iters : nat) (vars : seq (K * V)) (costs : seq R) (A : 'M[R]_n) (b : 'cV[R]_n)
  (mu nu prev_cost : R) (dc grad : option R) : result (seq (K * V) * seq R * 'M[R]_n) :=
  if iters is it.+1 then
    let delta := spsolve (A + mu%:M) (- b) in
    let dx := omap (@cnorm n) delta in
    if converged dc (head 0 costs) dx grad then Ok (vars, costs, A) else
    match delta with
    | None =>       (* NaN step: NaN cost, rejected *)
        lm_loop it vars costs A b (mu * nu) (2%:R * nu) prev_cost (if delta_of costs is Some d then Some d else dc) None
    | Some delta_x =>
        vars_test <~ correct delta_x vars ;;
        ehc <~ compute vars_test ;;
        let cost := ehc.2 in
        let num := prev_cost - cost in
        let den := (2%:R^-1 *: (delta_x^T *m (mu *: delta_x - b))) 0 0 in
        g <~ maxabs (ehc.1.1^T *m ehc.1.2) ;;
        if gain_accepts num den then
          let costs := cost :: costs in
          let e := ehc.1.1 in let H := ehc.1.2 in
          lm_loop it vars_test costs (H^T *m H) (H^T *m e) (mu * damping_factor num den) 2%:R cost
            (if delta_of costs is Some d then Some d else dc) (Some g)
        else
          lm_loop it vars costs A b (mu * nu) (2%:R * nu) prev_cost
            (if delta_of costs is Some d then Some d else dc) (Some g)
    end
  else Ok (vars, costs, A).

(** np.amax(A.diagonal()) *)
Definition amax_diag (A : 'M[R]_n) : result R :=
  if n == 0%N then Raise ValueError
  else Ok (\big[Num.max/(if insub 0%N is Some i0 then A i0 i0 else 0)]_(i < n) A i i).

(** problem.py:273-375 *)
Definition solve_lm (vars : seq (K * V)) : result (seq (K * V) * seq R * 'M[R]_n) :=
  ehc <~ compute vars ;;
  let e := ehc.1.1 in let H := ehc.1.2 in
  let A := H^T *m H in let b := H^T *m e in
  d <~ amax_diag A ;;
  r <~ lm_loop (p_max_iters p) vars [:: ehc.2] A b (p_tau p * d) 2%:R ehc.2 None None ;;
  ehc' <~ compute r.1.1 ;;
  Ok (r.1.1, rev (ehc'.2 :: r.1.2), r.2).
End Solve.

(** problem.py:161-198 solve.  On an exception the object keeps the attributes it
    had (the partial updates made before the exception are not modelled).  The
    cached covariance is not reset. *)
Definition solve (p : problem) : result problem :=
  let vars := p_init p in
  let sl := variable_slices (p_const p) vars (p_slices p) 0 in
  rsl <~ residual_slices vars (p_resids p) 0 ;;
  r <~ (match p_solver p with
        | GN => solve_gn p sl.1 rsl.1 rsl.2 sl.2 vars
        | LM => solve_lm p sl.1 rsl.1 rsl.2 sl.2 vars
        end) ;;
  Ok (Problem (p_solver p) (p_max_iters p) (p_step_tol p) (p_ftol p) (p_gradient_tol p) (p_tau p)
        (p_init p) r.1.1 sl.1 (p_const p) (p_resids p) (p_losses p)
        (Some (existT _ sl.2 r.2)) (p_cov p) r.1.2).

(** problem.py:541-550: inverse of the information matrix; any failure leaves
    the cached covariance as it was. *)
Definition compute_covariance (p : problem) : problem :=
  if p_info p is Some (existT n A) then
    if A \in unitmx then
      Problem (p_solver p) (p_max_iters p) (p_step_tol p) (p_ftol p) (p_gradient_tol p) (p_tau p)
        (p_init p) (p_vars p) (p_slices p) (p_const p) (p_resids p) (p_losses p)
        (p_info p) (Some (existT _ n (invmx A))) (p_history p)
    else p
  else p.

(** entry (i, j) of a matrix, 0 outside its shape *)
Definition ment n (A : 'M[R]_n) (i j : nat) : R :=
  if insub i is Some i' then if insub j is Some j' then A i' j' else 0 else 0.

(** problem.py:510-539: returns None for an unknown key; subscripting a missing
    covariance is a TypeError.  Slices are clipped to the matrix. *)
Definition get_covariance_block (p : problem) (k1 k2 : K) : result (option (arr R)) * problem :=
  let p := if p_cov p is None then compute_covariance p else p in
  (match dget (p_slices p) k1, dget (p_slices p) k2 with
   | Some s1, Some s2 =>
       match p_cov p with
       | Some (existT n C) =>
           Ok (Some (Arr (minn s1.2 n - minn s1.1 n) (minn s2.2 n - minn s2.1 n)
                         (fun i j => ment C (s1.1 + i) (s2.1 + j))))
       | None => Raise TypeError
       end
   | _, _ => Ok None
   end, p).
End Problem.
