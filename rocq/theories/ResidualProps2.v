(** C75 on arbitrary states: the Jacobians of the residuals as derivatives. *)
From mathcomp Require Import all_ssreflect all_algebra.
From Verif Require Import Base Tac LinAlg Deriv EkfModel CholModel CholProof ResidualModel ResidualProps PreintModel PreintProps ProcessProps LieProps.
Set Implicit Arguments.
Unset Strict Implicit.
Unset Printing Implicit Defensive.
Import Order.Theory GRing.Theory Num.Theory.
Local Open Scope ring_scope.

(** the error returned when no Jacobian is requested *)
Definition error_of (R : ringType) m n (r : result ('cV[R]_m * option (seq (option 'M[R]_(m, n))))) : 'cV[R]_m :=
  if r is Ok (e, None) then e else 0.

Section General.
Variables (R : rcfType) (V : Type) (n : nat).
Variable plus : V -> 'cV[R]_n -> V.
Variable minus : V -> V -> 'cV[R]_n.
Variable minus_jac : V -> V -> 'M[R]_n.
Variable U : Type.
Notation pstate := (pstate R V).
Notation pplus := (pplus plus).

(** [J] is the Jacobian at 0 of a function of a perturbation *)
Definition jacobian_of m (f : 'cV[R]_n -> 'cV[R]_m) (J : 'M[R]_(m, n)) : Prop :=
  forall w, is_mderiv (fun h => f (h *: w)) (J *m w).

(** C75: prior residual *)
Theorem C75_prior_derivative (L : 'M[R]_n) (x0 x : pstate) rest fs :
  jacobian_of (fun d => minus (plus (sval x) d) (sval x0)) (minus_jac (sval x) (sval x0)) ->
  exists e J, prior_evaluate minus minus_jac L x0 (x :: rest) (Some (true :: fs)) = Ok (e, Some [:: Some J]) /\
    jacobian_of (fun d => error_of (prior_evaluate minus minus_jac L x0 (pplus x d :: rest) None)) J.
Proof.
move=> hj; eexists _, _; split; first by reflexivity.
by move=> w; rewrite /= -mulmxA; apply: mderivMl; exact: hj.
Qed.

(** C75: process residual, second state.  (Model values do not depend on the stamp moved along.) *)
Theorem C75_process_derivative_second (pm : process_model R V n U) u (x1 x2 : pstate) t1 t2 :
  sstamp x1 = Some t1 -> sstamp x2 = Some t2 -> pd (pm_cov pm x1 u (t2 - t1)) ->
  jacobian_of (fun d => minus (plus (sval x2) d) (sval (pm_eval pm x1 u (t2 - t1))))
              (minus_jac (sval x2) (sval (pm_eval pm x1 u (t2 - t1)))) ->
  exists e J, process_evaluate minus minus_jac pm u [:: x1; x2] (Some [:: false; true]) = Ok (e, Some [:: None; Some J]) /\
    jacobian_of (fun d => error_of (process_evaluate minus minus_jac pm u [:: x1; pplus x2 d] None)) J.
Proof.
move=> e1 e2 pP hj; have [L [eL h _ _]] := C37_sqrt_information pP.
rewrite /process_evaluate /= e1 e2 /= eL /=; eexists _, _; split; first by reflexivity.
by move=> w; rewrite -mulmxA; apply: mderivMl; exact: hj.
Qed.

(** C75: process residual, first state: what is returned is exact whenever minus A is the derivative
    of the unweighted error, and the covariance does not depend on the state. *)
Theorem C75_process_derivative_first (pm : process_model R V n U) u (x1 x2 : pstate) t1 t2 :
  sstamp x1 = Some t1 -> sstamp x2 = Some t2 -> pd (pm_cov pm x1 u (t2 - t1)) ->
  (forall d, pm_cov pm (pplus x1 d) u (t2 - t1) = pm_cov pm x1 u (t2 - t1)) ->
  jacobian_of (fun d => minus (sval x2) (sval (pm_eval pm (pplus x1 d) u (t2 - t1)))) (- pm_jac pm x1 u (t2 - t1)) ->
  exists e J, process_evaluate minus minus_jac pm u [:: x1; x2] (Some [:: true; false]) = Ok (e, Some [:: Some J; None]) /\
    jacobian_of (fun d => error_of (process_evaluate minus minus_jac pm u [:: pplus x1 d; x2] None)) J.
Proof.
move=> e1 e2 pP hc hj; have [L [eL h _ _]] := C37_sqrt_information pP.
rewrite /process_evaluate /= e1 e2 /= eL /=; eexists _, _; split; first by reflexivity.
move=> w; rewrite mulNmx -mulmxN -mulmxA.
apply: (@eq_mderiv _ _ _ (fun h => L^T *m minus (sval x2) (sval (pm_eval pm (pplus x1 (h *: w)) u (t2 - t1))))).
  by move=> h'; rewrite hc eL.
by apply: mderivMl; exact: hj.
Qed.

(** C75: measurement residual *)
Theorem C75_measurement_derivative (y : measurement R V n) (x : pstate) yc : pd (m_cov y x) ->
  m_eval y x = Some yc -> (forall d, m_cov y (pplus x d) = m_cov y x) ->
  (forall d, m_eval y (pplus x d) <> None) ->
  jacobian_of (fun d => odflt 0 (m_eval y (pplus x d))) (m_jac y x) ->
  exists e J, measurement_evaluate y [:: x] (Some [:: true]) = Ok (e, Some [:: Some J]) /\
    jacobian_of (fun d => error_of (measurement_evaluate y [:: pplus x d] None)) J.
Proof.
move=> pP ey hc hn hj; have [L [eL h _ _]] := C37_sqrt_information pP.
rewrite /measurement_evaluate /= ey eL /=; eexists _, _; split; first by reflexivity.
move=> w; rewrite mulNmx -mulmxN -mulmxA.
apply: (@eq_mderiv _ _ _ (fun h => L^T *m (m_val y - odflt 0 (m_eval y (pplus x (h *: w)))))).
  by move=> h'; case E : (m_eval y _) (hn (h' *: w)) => [yn|] // _; rewrite hc eL.
apply: mderivMl; rewrite mulNmx -[- _]add0r; apply: mderivB; first exact: mderiv_const.
exact: hj.
Qed.
End General.

(** *** Matrix Lie groups *)
Section Group.
Variable R : rcfType.
Variables k d : nat.
Variables (Exp : 'cV[R]_d -> 'M[R]_k) (Ad : 'M[R]_k -> 'M[R]_d) (ginv : 'M[R]_k -> 'M[R]_k).
Variables (Jl : 'cV[R]_d -> 'M[R]_d) (hat : 'cV[R]_d -> 'M[R]_k) (G : 'M[R]_k -> Prop).
Hypothesis laws : lie_laws Exp Ad ginv Jl hat G.
Notation gl := (ll_group laws).
Variables (Log : 'M[R]_k -> 'cV[R]_d) (Jlinv Jrinv : 'cV[R]_d -> 'M[R]_d).
(** where Log is differentiable *)
Variable LD : 'M[R]_k -> Prop.
Hypothesis Jlinv_spec : forall F w, (forall h, G (F h)) -> LD (F 0) ->
  is_mderiv F (hat w *m F 0) -> is_mderiv (fun h => Log (F h)) (Jlinv (Log (F 0)) *m w).
Variable Q : 'M[R]_d.
(** right-perturbed states: plus, minus and the Jacobian of minus (states.py:117-171) *)
Definition rplus (X : 'M[R]_k) (dx : 'cV[R]_d) := X *m Exp dx.
Definition rminus (Y X : 'M[R]_k) := Log (ginv X *m Y).
Definition rminus_jac (Y X : 'M[R]_k) := Jrinv (rminus Y X).
Notation pm := (body_velocity Exp Ad Jl Q DRight).

Lemma ginvM X Y : G X -> G Y -> ginv (X *m Y) = ginv Y *m ginv X.
Proof.
move=> gX gY; have gXY := gl_M gl gX gY.
have h1 : ginv Y *m ginv X *m (X *m Y) = 1%:M.
  by rewrite -mulmxA (mulmxA (ginv X)) (mulmx1C (gl_mulV gl gX)) mul1mx (mulmx1C (gl_mulV gl gY)).
by rewrite -[LHS]mul1mx -h1 -mulmxA (gl_mulV gl gXY) mulmx1.
Qed.

(** C75: on group states the derivative of the process residual with respect to the first state is
    -L^T Jl(e)^-1 A, and the code returns -L^T A: e is the unweighted error. *)
Theorem C75_group_process_first (X1 X2 : 'M[R]_k) t1 t2 u :
  G X1 -> G X2 -> pd (pm_cov pm (PState X1 (Some t1)) u (t2 - t1)) ->
  let e := rminus X2 (X1 *m Exp ((t2 - t1) *: vi_val u)) in
  let A := pm_jac pm (PState X1 (Some t1)) u (t2 - t1) in
  LD (ginv (X1 *m Exp ((t2 - t1) *: vi_val u)) *m X2) ->
  exists L ew, [/\ L *m L^T = invmx (pm_cov pm (PState X1 (Some t1)) u (t2 - t1)),
    process_evaluate rminus rminus_jac pm u [:: PState X1 (Some t1); PState X2 (Some t2)] (Some [:: true; false])
      = Ok (ew, Some [:: Some (- L^T *m A); None]) &
    jacobian_of (fun w => error_of (process_evaluate rminus rminus_jac pm u
                            [:: PState (rplus X1 w) (Some t1); PState X2 (Some t2)] None)) (- L^T *m (Jlinv e *m A))].
Proof.
move=> gX1 gX2 pP e A hLD; have [L [eL h _ _]] := C37_sqrt_information pP.
exists L; rewrite /process_evaluate /= in eL *; rewrite eL /=.
eexists; split; [exact: h|by reflexivity|].
set v := (t2 - t1) *: vi_val u in e hLD *.
have gv : G (Exp v) by apply: (gl_E gl).
have gXv : G (X1 *m Exp v) by apply: (gl_M gl).
have D0 z : is_mderiv (fun s => Exp (s *: z)) (hat z).
  have := ll_deriv laws 0 z; rewrite (gl_E0 gl) oppr0 (ll_J0 laws) !mul1mx.
  by apply: eq_mderiv => s; rewrite add0r.
move=> w; have -> : - L^T *m (Jlinv e *m A) *m w = L^T *m (Jlinv e *m - (A *m w)).
  by rewrite mulmxN mulNmx mulmxN mulNmx !mulmxA.
apply: mderivMl.
pose F h := Exp (h *: - (A *m w)) *m (ginv (X1 *m Exp v) *m X2).
have F0 : F 0 = ginv (X1 *m Exp v) *m X2 by rewrite /F scale0r (gl_E0 gl) mul1mx.
apply: (@eq_mderiv _ _ _ (fun h => Log (F h))).
  move=> s; rewrite /F /rminus mulmxA; congr (Log (_ *m _)).
  have gS : G (Exp (s *: (A *m w))) by apply: (gl_E gl).
  rewrite scalerN (gl_EN gl) -ginvM //; congr ginv.
  have := C76_jacobian laws Q DRight X1 (Some t1) u (t2 - t1) (s *: w).
  by rewrite /= -/v => ->; rewrite scalemxAr.
have -> : e = Log (F 0) by rewrite F0.
apply: Jlinv_spec => [s||]; rewrite ?F0 //.
  by apply: (gl_M gl); [exact: (gl_E gl)|apply: (gl_M gl) => //; apply: (gl_V gl)].
by apply: mderivMr; exact: D0.
Qed.

(** so it is exact where the two states agree with the process model (zero error) *)
Theorem C75_group_process_first_zero_error (X1 X2 : 'M[R]_k) t1 t2 u :
  G X1 -> Log 1%:M = 0 -> Jlinv 0 = 1%:M -> LD 1%:M ->
  X2 = X1 *m Exp ((t2 - t1) *: vi_val u) ->
  pd (pm_cov pm (PState X1 (Some t1)) u (t2 - t1)) ->
  exists e J, 
    process_evaluate rminus rminus_jac pm u [:: PState X1 (Some t1); PState X2 (Some t2)] (Some [:: true; false])
      = Ok (e, Some [:: Some J; None]) /\
    jacobian_of (fun w => error_of (process_evaluate rminus rminus_jac pm u
                            [:: PState (rplus X1 w) (Some t1); PState X2 (Some t2)] None)) J.
Proof.
move=> gX1 l1 j0 hLD eX2 pP; set v := _ *: _ in eX2.
have gv : G (X1 *m Exp v) by apply: (gl_M gl) => //; apply: (gl_E gl).
have e1 : ginv (X1 *m Exp v) *m X2 = 1%:M by rewrite eX2; apply: mulmx1C; apply: (gl_mulV gl).
have gX2 : G X2 by rewrite eX2.
have := C75_group_process_first gX1 gX2 pP; rewrite -/v /rminus /= e1 l1 j0 mul1mx => /(_ hLD).
by move=> [L [ew [_ h1 h2]]]; exists ew; eexists; split; first exact: h1.
Qed.
End Group.

(** C75: the promise "Jacobian of the residual" fails for group states with a non-zero error. *)
Theorem C75_group_process_first_refuted (R : rcfType) :
  exists (X1 X2 : 'M[R]_3) u e J1 J,
   [/\ hG X1 /\ hG X2,
    process_evaluate (rminus (@hinv R) (@hLog R)) (rminus_jac (@hinv R) (@hLog R) (@hJl R)) (body_velocity (@hExp R) (@hAd R) (@hJl R) 1%:M DRight) u
      [:: PState X1 (Some 0); PState X2 (Some 1)] (Some [:: true; false]) = Ok (e, Some [:: Some J1; None]),
    jacobian_of (fun w => error_of (process_evaluate (rminus (@hinv R) (@hLog R)) (rminus_jac (@hinv R) (@hLog R) (@hJl R))
       (body_velocity (@hExp R) (@hAd R) (@hJl R) 1%:M DRight) u [:: PState (rplus (@hExp R) X1 w) (Some 0); PState X2 (Some 1)] None)) J
    & J <> J1].
Proof.
pose X2 := hExp (delta_mx (inord 0) 0 : 'cV[R]_3); pose u : vinput R 'cV[R]_3 := VIn 0 0.
have laws := heisenberg_lie R; have gl := ll_group laws.
have g1 : hG (1%:M : 'M[R]_3) by apply: (gl_1 gl).
have g2 : hG X2 by apply: (gl_E gl).
have ec : pm_cov (body_velocity (@hExp R) (@hAd R) (@hJl R) 1%:M DRight) (PState 1%:M (Some 0)) u (1 - 0) = 1%:M.
  by rewrite /= subr0 scaler0 oppr0 (ll_J0 laws) scale1r !mul1mx trmx1.
have hp : pd (pm_cov (body_velocity (@hExp R) (@hAd R) (@hJl R) 1%:M DRight) (PState 1%:M (Some 0)) u (1 - 0)) by rewrite ec; exact: pd1.
have := @C75_group_process_first R 3 3 _ _ _ _ _ _ laws (@hLog R) (fun v => hJl (- v)) (@hJl R) (fun=> True) (@hJlinv_spec R) 1%:M 1%:M X2 0 1 u g1 g2 hp I.
move=> [L [ew [hL h1 h2]]].
exists 1%:M, X2, u, ew; eexists; eexists; split; [by []|exact: h1|exact: h2|].
rewrite ec invmx1 in hL; move=> /eqP.
have uL : L^T \in unitmx by rewrite unitmx_tr; case/mulmx1_unit: hL.
rewrite !mulNmx eqr_opp => /eqP /(congr1 (mulmx (invmx L^T))).
rewrite !mulmxA mulVmx // mul1mx /=.
have -> : hAd (hExp (- ((1 - 0) *: (0 : 'cV[R]_3)))) = 1%:M.
  by rewrite scaler0 oppr0 (gl_E0 gl) (gl_Ad1 gl).
rewrite mulmx1.
have -> : rminus (@hinv R) (@hLog R) X2 (1%:M *m hExp ((1 - 0) *: (0 : 'cV[R]_3))) = delta_mx (inord 0) 0.
  have ginv1 : hinv (1%:M : 'M[R]_3) = 1%:M by rewrite -(gl_E0 gl) -(gl_EN gl) oppr0.
  by rewrite /rminus scaler0 (gl_E0 gl) mulmx1 ginv1 mul1mx hlog_exp.
move=> /(congr1 (fun M => (M *m (delta_mx (inord 1) 0 : 'cV[R]_3)) (inord 2) 0)) /=.
rewrite hJ2 !mul1mx !mxE -!val_eqE /= !inordK //= !mulr1n !mulr0n oppr0 mul0r subr0 add0r mulr1 => /eqP.
by rewrite mulNr mul1r oppr_eq0 invr_eq0 pnatr_eq0.
Qed.

(** Witness of the hypotheses of the general theorems: group states and their minus. *)
Example C75_group_prior (R : rcfType) (L : 'M[R]_3) (X0 X : 'M[R]_3) t : hG X0 -> hG X ->
  exists e J, prior_evaluate (rminus (@hinv R) (@hLog R)) (rminus_jac (@hinv R) (@hLog R) (@hJl R)) L (PState X0 t) [:: PState X t] (Some [:: true])
    = Ok (e, Some [:: Some J]) /\
  jacobian_of (fun d => error_of (prior_evaluate (rminus (@hinv R) (@hLog R)) (rminus_jac (@hinv R) (@hLog R) (@hJl R)) L (PState X0 t)
     [:: pplus (rplus (@hExp R)) (PState X t) d] None)) J.
Proof.
move=> g0 gX; apply: C75_prior_derivative => w /=; rewrite /rminus /rminus_jac /rminus /rplus.
have laws := heisenberg_lie R; have gl := ll_group laws.
pose F h := hinv X0 *m (X *m hExp (h *: w)).
have F0 : F 0 = hinv X0 *m X by rewrite /F scale0r (gl_E0 gl) mulmx1.
rewrite -F0; apply: (hJrinv_spec (F := F)) => [h||]; rewrite ?F0 //.
  by apply: (gl_M gl); [exact: (gl_V gl)|apply: (gl_M gl) => //; exact: (gl_E gl)].
rewrite /F -mulmxA; apply: mderivMl; apply: mderivMl.
have := ll_deriv laws 0 w; rewrite (gl_E0 gl) oppr0 (ll_J0 laws) !mul1mx.
by apply: eq_mderiv => s; rewrite add0r.
Qed.

Print Assumptions C75_prior_derivative.
Print Assumptions C75_process_derivative_second.
Print Assumptions C75_process_derivative_first.
Print Assumptions C75_measurement_derivative.
Print Assumptions C75_group_process_first.
Print Assumptions C75_group_process_first_zero_error.
Print Assumptions C75_group_process_first_refuted.
