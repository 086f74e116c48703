(** C37, C75: prior, process and measurement residuals. *)
From mathcomp Require Import all_ssreflect all_algebra.
From Verif Require Import Base LinAlg EkfModel CholModel CholProof ResidualModel.
Set Implicit Arguments.
Unset Strict Implicit.
Unset Printing Implicit Defensive.
Import Order.Theory GRing.Theory Num.Theory.
Local Open Scope ring_scope.

Section Sqrt.
Variable R : rcfType.
(** squared Euclidean norm *)
Definition sqnorm m (e : 'cV[R]_m) : R := \sum_i e i 0 ^+ 2.
(** squared Mahalanobis norm of [e] for covariance [P] *)
Definition mahalanobis m (P : 'M[R]_m) (e : 'cV[R]_m) : R := (e^T *m invmx P *m e) 0 0.

(** The square-root information of a positive definite covariance exists, is lower
    triangular with positive diagonal and squares to the inverse; any other symmetric
    matrix is refused. *)
Theorem C37_sqrt_information m (P : 'M[R]_m) : pd P ->
  exists L, [/\ sqrt_info P = Ok L, L *m L^T = invmx P, (forall i j : 'I_m, (i < j)%N -> L i j = 0) & forall i, 0 < L i i].
Proof.
move=> pP; have pi := pd_inv pP; have [L eL] := proj1 (cholesky_pd (pd_sym pi)) pi.
have [h1 h2 h3] := cholesky_ok (pd_sym pi) eL.
by exists L; rewrite /sqrt_info /np_inv (pd_unit pP) /= eL.
Qed.
Lemma cholesky_raise k (A : 'M[R]_k) ex : cholesky A = Raise ex -> ex = LinAlgError.
Proof.
elim: k A ex => [|k IH] A ex //=; case: ifP => _; last by case.
by case e : (cholesky _) => [|ex'] //= [<-]; exact: IH e.
Qed.
Theorem C37_not_positive_definite m (P : 'M[R]_m) : P^T = P -> ~ pd P -> sqrt_info P = Raise LinAlgError.
Proof.
move=> sP np; rewrite /sqrt_info /np_inv; case: ifP => uP //=.
case e : (cholesky _) => [L|ex]; last by rewrite (cholesky_raise e).
case: np; have : pd (invmx P) by apply/cholesky_pd; [exact: inv_sym|exists L].
by move/pd_inv; rewrite invmxK.
Qed.
Lemma sqnorm_whiten m (P L : 'M[R]_m) e : L *m L^T = invmx P -> sqnorm (L^T *m e) = mahalanobis P e.
Proof. by move=> h; rewrite /sqnorm -qf1 /qf /mahalanobis -h mulmx1 trmx_mul trmxK !mulmxA. Qed.
End Sqrt.

Section Props.
Variable R : rcfType.
Variable V : Type.
Variable n : nat.
Variable minus : V -> V -> 'cV[R]_n.
Variable minus_jac : V -> V -> 'M[R]_n.
Variable U : Type.
Notation pstate := (pstate R V).

Theorem C37_prior x0 P0 L (x : pstate) rest flags : pd P0 -> prior_init P0 = Ok L ->
  exists e js, prior_evaluate minus minus_jac L x0 (x :: rest) flags = Ok (e, js) /\
    sqnorm e = mahalanobis P0 (minus (sval x) (sval x0)).
Proof.
move=> pP eL; have [L' [eL' h _ _]] := C37_sqrt_information pP; move: eL; rewrite /prior_init eL' => -[<-].
rewrite /prior_evaluate /=; case: flags => [[|f fs]|]; eexists _, _; split; try reflexivity; exact: sqnorm_whiten.
Qed.
Theorem C37_process (pm : process_model R V n U) u (x1 x2 : pstate) rest t1 t2 flags :
  sstamp x1 = Some t1 -> sstamp x2 = Some t2 -> pd (pm_cov pm x1 u (t2 - t1)) ->
  (forall fs, flags = Some fs -> size fs <> 1%N) ->
  exists e js, process_evaluate minus minus_jac pm u (x1 :: x2 :: rest) flags = Ok (e, js) /\
    sqnorm e = mahalanobis (pm_cov pm x1 u (t2 - t1)) (minus (sval x2) (sval (pm_eval pm x1 u (t2 - t1)))).
Proof.
move=> e1 e2 pP nf; have [L [eL h _ _]] := C37_sqrt_information pP.
rewrite /process_evaluate /= e1 e2 /= eL /=.
case: flags nf => [[|f [|f1 fs]]|] nf; last 1 first.
- by eexists _, _; split; [reflexivity|exact: sqnorm_whiten].
- by eexists _, _; split; [reflexivity|exact: sqnorm_whiten].
- by case: (nf [:: f]).
- by eexists _, _; split; [reflexivity|exact: sqnorm_whiten].
Qed.
Theorem C37_measurement (y : measurement R V n) (x : pstate) rest flags yc : m_eval y x = Some yc -> pd (m_cov y x) ->
  exists e js, measurement_evaluate y (x :: rest) flags = Ok (e, js) /\
    sqnorm e = mahalanobis (m_cov y x) (m_val y - yc).
Proof.
move=> ey pP; have [L [eL h _ _]] := C37_sqrt_information pP.
rewrite /measurement_evaluate /= ey eL /=; case: flags => [[|f fs]|]; eexists _, _; split; try reflexivity; exact: sqnorm_whiten.
Qed.
(** a model returning None ("do not fuse this measurement") makes the residual raise *)
Theorem C37_unavailable_refuted (y : measurement R V n) (x : pstate) rest flags : m_eval y x = None ->
  measurement_evaluate y (x :: rest) flags = Raise AttributeError.
Proof. by move=> ey; rewrite /measurement_evaluate /= ey. Qed.
End Props.

(** *** C75: the Jacobians are exact on vector states with affine models *)
Section Exact.
Variable R : rcfType.
Variable n : nat.
Variable U : Type.
Notation pstate := (pstate R 'cV[R]_n).
Definition vminus (a b : 'cV[R]_n) := a - b.
Definition vminus_jac (_ _ : 'cV[R]_n) : 'M[R]_n := 1%:M.
(** the state moved by d, same stamp *)
Definition moved (x : pstate) (d : 'cV[R]_n) : pstate := PState (sval x + d) (sstamp x).

Theorem C75_prior_jacobian (L : 'M[R]_n) (x0 x : pstate) rest d fs : 
  exists e J e', [/\ prior_evaluate vminus vminus_jac L x0 (x :: rest) (Some (true :: fs)) = Ok (e, Some [:: Some J]),
    prior_evaluate vminus vminus_jac L x0 (moved x d :: rest) None = Ok (e', None) & e' = e + J *m d].
Proof.
eexists _, _, _; split; try reflexivity; rewrite /= /vminus mulmx1 -mulmxDr; congr (_ *m _); by rewrite addrAC.
Qed.
Theorem C75_process_jacobians (pm : process_model R 'cV[R]_n n U) u (x1 x2 : pstate) t1 t2 d1 d2 :
  sstamp x1 = Some t1 -> sstamp x2 = Some t2 -> pd (pm_cov pm x1 u (t2 - t1)) ->
  (* covariance independent of the state, affine prediction with the model's Jacobian *)
  pm_cov pm (moved x1 d1) u (t2 - t1) = pm_cov pm x1 u (t2 - t1) ->
  sval (pm_eval pm (moved x1 d1) u (t2 - t1)) = sval (pm_eval pm x1 u (t2 - t1)) + pm_jac pm x1 u (t2 - t1) *m d1 ->
  exists e J1 J2 e', [/\ process_evaluate vminus vminus_jac pm u [:: x1; x2] (Some [:: true; true]) = Ok (e, Some [:: Some J1; Some J2]),
    process_evaluate vminus vminus_jac pm u [:: moved x1 d1; moved x2 d2] None = Ok (e', None) &
    e' = e + J1 *m d1 + J2 *m d2].
Proof.
move=> e1 e2 pP ec ef; have [L [eL h _ _]] := C37_sqrt_information pP.
rewrite /process_evaluate /= e1 e2 /= ec eL /= /vminus_jac mulmx1; eexists _, _, _, _; split; try reflexivity.
rewrite /vminus ef -mulmxA mulNmx -mulmxN -!mulmxDr; congr (_ *m _).
by rewrite opprD addrACA [d2 - _]addrC addrA.
Qed.
Theorem C75_measurement_jacobian (y : measurement R 'cV[R]_n n) (x : pstate) d yc : pd (m_cov y x) ->
  m_eval y x = Some yc -> m_eval y (moved x d) = Some (yc + m_jac y x *m d) -> m_cov y (moved x d) = m_cov y x ->
  exists e J e', [/\ measurement_evaluate y [:: x] (Some [:: true]) = Ok (e, Some [:: Some J]),
    measurement_evaluate y [:: moved x d] None = Ok (e', None) & e' = e + J *m d].
Proof.
move=> pP ey ey' ec; have [L [eL h _ _]] := C37_sqrt_information pP.
rewrite /measurement_evaluate /= ey ey' ec eL /=; eexists _, _, _; split; try reflexivity.
by rewrite -mulmxA mulNmx -mulmxN -mulmxDr opprD addrA.
Qed.
End Exact.

(** A Jacobian is returned exactly where it was requested; without a request no list is returned. *)
Section Requested.
Variables (R : rcfType) (V : Type) (n : nat) (minus : V -> V -> 'cV[R]_n) (minus_jac : V -> V -> 'M[R]_n) (U : Type).
Theorem C75_requested (pm : process_model R V n U) u L (x0 x1 x2 : pstate R V) (y : measurement R V n) f1 f2 a b c :
  prior_evaluate minus minus_jac L x0 [:: x1] (Some [:: f1]) = Ok a ->
  process_evaluate minus minus_jac pm u [:: x1; x2] (Some [:: f1; f2]) = Ok b ->
  measurement_evaluate y [:: x1] (Some [:: f1]) = Ok c ->
  [/\ omap (map isSome) a.2 = Some [:: f1], omap (map isSome) b.2 = Some [:: f1; f2] & omap (map isSome) c.2 = Some [:: f1]].
Proof.
rewrite /prior_evaluate /process_evaluate /measurement_evaluate /=.
move=> [<-]; case: (stamp_diff _ _) => //= dt; case: (sqrt_info _) => //= L1 [<-].
case: (m_eval y x1) => // yc; case: (sqrt_info _) => //= L2 [<-] /=.
by split; case: f1; case: f2.
Qed.
End Requested.

(** ** Non-vacuity: a correlated 2x2 covariance *)
Section Witness.
Variable R : rcfType.
Definition wit_P : 'M[R]_2 := (const_mx 1 : 'cV[R]_2) *m (const_mx 1 : 'cV[R]_2)^T + 1%:M.
Example wit_pd : pd wit_P. Proof. by apply: pdD_psd; [exact: (@psd_outer _ 2 (const_mx 1))|exact: pd1]. Qed.
Example wit_P_correlated : wit_P ord0 (lift ord0 ord0) = 1.
Proof. by rewrite !mxE big_ord1 !mxE mulr1 addr0. Qed.
Definition wit_pm : process_model R 'cV[R]_2 2 'cV[R]_2 :=
  ProcessModel (fun x u dt => PState (sval x + dt *: u) (sstamp x)) (fun _ _ _ => 1%:M) (fun _ _ _ => wit_P).
Definition wit_meas : measurement R 'cV[R]_2 2 :=
  @EkfModel.Measurement _ _ _ 2 0 None (fun x => Some (sval x)) (fun _ => 1%:M) (fun _ => wit_P).
Example wit_process (x1 x2 : pstate R 'cV[R]_2) t1 t2 u d1 d2 : sstamp x1 = Some t1 -> sstamp x2 = Some t2 ->
  exists e J1 J2 e', [/\ process_evaluate (@vminus R 2) (@vminus_jac R 2) wit_pm u [:: x1; x2] (Some [:: true; true]) = Ok (e, Some [:: Some J1; Some J2]),
    process_evaluate (@vminus R 2) (@vminus_jac R 2) wit_pm u [:: moved x1 d1; moved x2 d2] None = Ok (e', None) &
    e' = e + J1 *m d1 + J2 *m d2].
Proof. by move=> e1 e2; apply: (@C75_process_jacobians _ _ _ wit_pm u x1 x2 t1 t2) => //=; [exact: wit_pd|rewrite mul1mx addrAC]. Qed.
Example wit_measurement x : exists e js, measurement_evaluate wit_meas [:: x] None = Ok (e, js) /\
   sqnorm e = mahalanobis wit_P (0 - sval x).
Proof. exact: (@C37_measurement _ _ _ wit_meas x [::] None (sval x)) (erefl _) wit_pd. Qed.
Example wit_not_pd : ~ pd (- 1%:M : 'M[R]_1).
Proof.
move=> [_ h]; have := h 1%:M; rewrite /qf mulmxN mulNmx !mulmx1 trmx1 mxE mxE eqxx mulr1n oppr_gt0 ltNge ler01.
by move=> /(_ (oner_neq0 _)).
Qed.
End Witness.

Print Assumptions C37_sqrt_information.
Print Assumptions C37_not_positive_definite.
Print Assumptions C37_prior.
Print Assumptions C37_process.
Print Assumptions C37_measurement.
Print Assumptions C37_unavailable_refuted.
Print Assumptions C75_prior_jacobian.
Print Assumptions C75_process_jacobians.
Print Assumptions C75_measurement_jacobian.
Print Assumptions C75_requested.
