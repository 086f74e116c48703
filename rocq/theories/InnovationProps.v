(** C50: the noise of an invariant innovation, its direction, and what it changes in the filter. *)
From mathcomp Require Import all_ssreflect all_algebra.
From Verif Require Import Base Tac LinAlg EkfModel EkfProps PreintModel ImuModel ImuProps Deriv ModelsModel MeasureProps MeasureProps2.
Set Implicit Arguments.
Unset Strict Implicit.
Unset Printing Implicit Defensive.
Import Order.Theory GRing.Theory Num.Theory.
Local Open Scope ring_scope.

Section Noise.
Variable R : rcfType.
Variables (n k d : nat).
Notation pose := (pose R n k d).
Implicit Types (ev : pose -> result 'cV[R]_n) (jc : pose -> result 'M[R]_(n, d)) (cv : pose -> result 'M[R]_n).

(** The matrix the documentation multiplies the innovation by: X^-1 = X^T for a left-invariant
    innovation, X for a right-invariant one; "auto" is the opposite of the state's direction. *)
Definition innovation_matrix (id : inv_dir) (x : pose) : option 'M[R]_n :=
  match id with
  | IDir DLeft => Some (p_att x)^T
  | IDir DRight => Some (p_att x)
  | IAuto => Some (match p_dir x with DLeft => p_att x | DRight => (p_att x)^T end)
  | IBad => None
  end.

(** C50: z = M (g(x) - y), and noise on the measurement enters z with the covariance returned *)
Theorem C50_innovation_noise ev jc cv y id x yh J S M :
  ev x = Ok yh -> jc x = Ok J -> cv x = Ok S -> innovation_matrix id x = Some M ->
  [/\ innov_eval ev y id x = Ok (M *m (yh - y)),
      forall v, innov_eval ev (y + v) id x = Ok (M *m (yh - y) - M *m v),
      innov_jac jc id x = Ok (M *m J) &
      innov_cov cv id x = Ok (M *m S *m M^T)].
Proof.
move=> e1 e2 e3 eM.
have [e ee eMM] : exists2 e, inv_direction id x = Ok e & M = if e is DLeft then (p_att x)^T else p_att x.
  by case: id eM => [[]||] //= [<-]; [exists DLeft|exists DRight|case: (p_dir x); [exists DRight|exists DLeft]].
rewrite /innov_eval /innov_jac /innov_cov e1 e2 e3 /= ee /=.
split=> [|v||]; try by rewrite eMM; case: (e).
by rewrite -mulmxBr opprD addrA eMM; case: (e).
Qed.
Theorem C50_innovation_bad_direction ev jc cv y x yh J S : ev x = Ok yh -> jc x = Ok J -> cv x = Ok S ->
  [/\ innov_eval ev y IBad x = Raise ValueError, innov_jac jc IBad x = Raise ValueError &
      innov_cov cv IBad x = Raise ValueError].
Proof. by move=> e1 e2 e3; rewrite /innov_eval /innov_jac /innov_cov e1 e2 e3. Qed.

(** *** The EKF *)
Variables (V U : Type) (view : V -> pose) (plus : V -> 'cV[R]_d -> V) (ustamp : U -> option R).
Variables (pm : process_model R V d U) (chi2_99 : nat -> R).
Definition ok_opt T (r : result T) : option T := if r is Ok v then Some v else None.
(** a measurement y of the model (ev, jc, cv), and the InvariantMeasurement made of it
    (models.py:1264-1278: value zero, same stamp) *)
Definition plain_meas ev jc cv (y : 'cV[R]_n) (t : option R) : measurement R V d :=
  Measurement y t (fun s => ok_opt (ev (view (sval s)))) (fun s => odflt 0 (ok_opt (jc (view (sval s)))))
    (fun s => odflt 0 (ok_opt (cv (view (sval s))))).
Definition invariant_meas ev jc cv y id t : measurement R V d :=
  plain_meas (innov_eval ev y id) (innov_jac jc id) (innov_cov cv id) 0 t.

Lemma solve_congr p m (S M : 'M[R]_m) (B : 'M[R]_(m, p)) : M \in unitmx ->
  np_solve (M *m S *m M^T) (M *m B) = rmap (fun X => invmx M^T *m X) (np_solve S B).
Proof.
move=> uM; have uT : M^T \in unitmx by rewrite unitmx_tr.
rewrite /np_solve !unitmx_mul uM uT andbT /=; case: ifP => //= uS.
have u1 : M *m S \in unitmx by rewrite unitmx_mul uM.
congr Ok; apply: (can_inj (mulKmx uT)); rewrite mulKVmx //.
apply: (can_inj (mulKmx u1)); rewrite [in LHS]mulmxA mulKVmx ?unitmx_mul ?uM ?uS //.
by rewrite -mulmxA mulKVmx.
Qed.

(** C50: correcting with the invariant measurement is correcting with the measurement itself: same
    outcome of the outlier test, same mean, same covariance. *)
Theorem C50_invariant_same_correction ev jc cv y id t (x : est R V d) u rej :
  (forall x', ekf_advance ustamp pm (load_stamp x t) (plain_meas ev jc cv y t) u = Ok x' ->
     let p := view (sval (est_state x')) in
     [/\ (p_att p)^T *m p_att p = 1%:M, id <> IBad, exists J, jc p = Ok J, exists S, cv p = Ok S & exists yh, ev p = Ok yh]) ->
  ekf_correct plus ustamp pm chi2_99 x (invariant_meas ev jc cv y id t) u None rej =
  ekf_correct plus ustamp pm chi2_99 x (plain_meas ev jc cv y t) u None rej.
Proof.
move=> H; rewrite /ekf_correct.
have eA : ekf_advance ustamp pm (load_stamp x (m_stamp (invariant_meas ev jc cv y id t))) (invariant_meas ev jc cv y id t) u
   = ekf_advance ustamp pm (load_stamp x t) (plain_meas ev jc cv y t) u by [].
rewrite eA; case E : (ekf_advance _ _ _ _ _) => [x'|] //=.
have {H} [o hid [J eJ] [S eS] [yh eY]] := H _ E; set p := view _ in o eJ eS eY *.
have [M eM oM] : exists2 M, innovation_matrix id p = Some M & M \in unitmx.
  have o2 := mulmx1C o; have [u1 u2] := mulmx1_unit o.
  by case: (id) hid => [[]||] //= _; [exists (p_att p)^T|exists (p_att p)|case: (p_dir p); [exists (p_att p)|exists (p_att p)^T]].
have [-> _ -> ->] := C50_innovation_noise y eY eJ eS eM; rewrite eJ eS eY /=.
set P := est_cov x'; set T := J *m P *m J^T + S.
have -> : M *m J *m P *m (M *m J)^T + M *m S *m M^T = M *m T *m M^T.
  by rewrite /T mulmxDr mulmxDl trmx_mul !mulmxA.
have eZ : 0 - M *m (yh - y) = M *m (y - yh) by rewrite sub0r -mulmxN opprB.
have -> : check_outlier chi2_99 (0 - M *m (yh - y)) (M *m T *m M^T) = check_outlier chi2_99 (y - yh) T.
  rewrite /check_outlier eZ solve_congr //; case: (np_solve T _) => //= w.
  by rewrite trmx_mul -!mulmxA mulKVmx // unitmx_tr.
case: (if rej then _ else _) => //= -[] //.
have -> : kalman_gain (M *m T *m M^T) P (M *m J) = rmap (fun K => K *m invmx M) (kalman_gain T P J).
  rewrite /kalman_gain !trmx_mul !trmxK.
  have -> : M *m (T^T *m M^T) = M *m T^T *m M^T by rewrite mulmxA.
  have -> : M *m J *m P^T = M *m (J *m P^T) by rewrite mulmxA.
  rewrite solve_congr //; case: (np_solve _ _) => //= kt.
  by rewrite trmx_mul trmx_inv trmxK.
case: (kalman_gain T P J) => //= K.
by rewrite eZ -!mulmxA !mulKmx.
Qed.
End Noise.

(** Witness: a rotation state measuring a known direction *)
Example C50_witness_invariant (R : rcfType) (g y : 'cV[R]_3) : let K := so3_kind (fun v : 'cV[R]_3 => 1%:M + wedge v) in
  let x := Est (PState (MState 1%:M DLeft : k_X K) None) 1%:M : est R (k_X K) 3 in
  let pm := ProcessModel (fun s (_ : unit) _ => s) (fun _ _ _ => 1%:M) (fun _ _ _ => 1%:M) in
  let cv := fun _ => Ok 1%:M in
  forall x', ekf_advance (fun=> None) pm (load_stamp x None)
    (plain_meas (@k_view _ K) (vector_eval g) (vector_jac (k_G K) g) cv y None) None = Ok x' ->
  let p := k_view (sval (est_state x')) in
  [/\ (p_att p)^T *m p_att p = 1%:M, IAuto <> IBad, exists J, vector_jac (k_G K) g p = Ok J, exists S, cv p = Ok S &
      exists yh, vector_eval g p = Ok yh].
Proof.
move=> K x pm cv x' [<-] p; split=> //; first by rewrite /p /= mulmx1 trmx1.
- by eexists; rewrite /p /vector_jac /=.
- by eexists.
- by eexists.
Qed.

Print Assumptions C50_innovation_noise.
Print Assumptions C50_innovation_bad_direction.
Print Assumptions C50_invariant_same_correction.
