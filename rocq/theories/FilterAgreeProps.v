(** C93: on linear-Gaussian histories the filters of the package are interchangeable. *)
From mathcomp Require Import all_ssreflect all_algebra.
From Verif Require Import Base LinAlg Tac EkfModel EkfProps CholModel CholProof SigmaModel SigmaProps IekfProps ResidualModel ProblemModel BatchKalmanModel BatchKalmanProof BatchKalmanProps.
Set Implicit Arguments.
Unset Strict Implicit.
Unset Printing Implicit Defensive.
Import Order.Theory GRing.Theory Num.Theory.
Local Open Scope ring_scope.

Lemma pd_block_diag (R : realFieldType) p q (A : 'M[R]_p) (D : 'M[R]_q) : pd A -> pd D -> pd (block_mx A 0 0 D).
Proof.
move=> hA hD; split; first by rewrite /symmx tr_block_mx (pd_sym hA) (pd_sym hD) !trmx0.
move=> v ne; have -> : qf (block_mx A 0 0 D) v = qf A (usubmx v) + qf D (dsubmx v).
  rewrite /qf -{1 2}[v]vsubmxK tr_col_mx -mulmxA mul_block_col !mul0mx addr0 add0r mul_row_col mxE.
  by rewrite !mulmxA.
have := pd_psd hA; have := pd_psd hD; case=> _ nD [_ nA].
case: (eqVneq (usubmx v) 0) => [u0|une]; last by apply: ltr_paddr; [exact: nD|case: hA => _; apply].
apply: ltr_paddl; [exact: nA|case: hD => _; apply]; apply: contra ne => /eqP d0.
by rewrite -[v]vsubmxK u0 d0 col_mx0.
Qed.

Section Agree.
Variable R : rcfType.
Variables n nu : nat.
Notation cV := 'cV[R]_n.
Notation uinput := (input R 'cV[R]_nu nu).
Notation event := (event R n uinput).
Notation est := (est R cV n).
Variable chi2_99 : nat -> R.
Variable rej : bool.            (* reject_outliers *)

(** x_k = F(dt) x + B(dt) u + c(dt), the input having the covariance it carries *)
Variables (F : R -> 'M[R]_n) (B : R -> 'M[R]_(n, nu)) (c : R -> cV).
Definition input_pm : process_model R cV n uinput :=
  ProcessModel (fun s u dt => lin_eval F B c s (u_val u) dt) (fun _ _ dt => F dt)
    (fun _ u dt => B dt *m odflt 0 (u_cov u) *m (B dt)^T).

(** The calls made along a history starting at time t: predictions over dt >= 0 with an
    invertible transition matrix and inputs of positive definite covariance; affine
    measurements with positive definite noise, taken at the current time (or unstamped). *)
Fixpoint gaussian_history (t : R) (evs : seq event) : Prop :=
  match evs with
  | [::] => True
  | Predict u dt :: r =>
      [/\ 0 <= dt, F dt \in unitmx, exists2 Q, u_cov u = Some Q & pd Q & gaussian_history (t + dt) r]
  | Correct y :: r =>
      [/\ exists H h Rm, @linear_measurement R n y H h Rm /\ pd Rm,
          m_stamp y = None \/ m_stamp y = Some t & gaussian_history t r]
  end.

(** ekf.predict(x, u, dt), ekf.correct(x, y, None) *)
Definition ekf_step (x : est) (ev : event) : result est :=
  match ev with
  | Predict u dt => ekf_predict (@u_stamp R _ nu) input_pm x (Some u) (Some dt) None
  | Correct y => ekf_correct (@vec_add R n) (@u_stamp R _ nu) input_pm chi2_99 x y None None rej
  end.
Definition ekf_run := foldM ekf_step.
Lemma ekf_runS x ev r x' : ekf_step x ev = Ok x' -> ekf_run x (ev :: r) = ekf_run x' r.
Proof. by move=> e; rewrite /ekf_run /= e. Qed.

Lemma step_ok t x0 (P : 'M[R]_n) ev r : pd P -> gaussian_history t (ev :: r) ->
  exists x1 P1 t1, [/\ ekf_step (Est (PState x0 (Some t)) P) ev = Ok (Est (PState x1 (Some t1)) P1),
    pd P1 & gaussian_history t1 r].
Proof.
move=> hP; case: ev => [u dt|y].
  case=> dt0 uF [Q eQ hQ] hr.
  set P1 := F dt *m P *m (F dt)^T + B dt *m Q *m (B dt)^T.
  have hP1 : pd P1 by rewrite /P1 addrC; apply: pdD_psd; [exact: psd_congr (pd_psd hQ)|exact: pd_congr].
  exists (F dt *m x0 + B dt *m u_val u + c dt), P1, (t + dt); split=> //.
  by rewrite /= /ekf_predict /= ltNge dt0 /= eQ /= /symmetrize (symmetrize_id (pd_sym hP1)).
case=> [[H [h [Rm [ly hR]]]] st hr].
pose x : est := Est (PState x0 (Some t)) P.
have sync : in_sync (U := uinput) x y None by rewrite /in_sync /=; case: st => -> //; left.
have := ekf_linear (@u_stamp R _ nu) input_pm chi2_99 (x := x) ly hP hR None rej sync; rewrite /= -/(@vec_add R n).
case: ifP => _ e; first by exists x0, P, t.
have E : ekf_correct (@vec_add R n) (@u_stamp R _ nu) input_pm chi2_99 x y None None false = _ :=
  ekf_linear (@u_stamp R _ nu) input_pm chi2_99 (x := x) ly hP hR None false sync.
have [ev _ _] := ly (est_state x); have hR' : pd (m_cov y (jac_point x None)) by have [_ _ ->] := ly (jac_point x None).
have [pd1 _ _] := C17_information_form sync ev hP hR' E.
by do 3 eexists; split; [exact: e|exact: pd1|exact: hr].
Qed.

(** ** SigmaPointKalmanFilter with any of the three point rules, iterating the mean or not *)
Variables (method : sp_method) (iterate_mean : bool) (norm : cV -> R).
Hypothesis norm0 : norm 0 = 0.
Definition spkf_step (x : est) (ev : event) : result est :=
  match ev with
  | Predict u dt => spkf_predict (@vec_add R n) (@vec_minus R n) (fun v d : 'cV[R]_nu => v + d) norm (lin_eval F B c)
      (fun k => @cholesky R k) (fun k => generate_sigmapoints R k method) iterate_mean x (Some u) (Some dt) None
  | Correct y => spkf_correct (@vec_add R n) (@vec_minus R n) (fun v d : 'cV[R]_nu => v + d) norm (lin_eval F B c)
      (fun k => @cholesky R k) (fun k => generate_sigmapoints R k method) chi2_99 iterate_mean x y None rej
  end.
Definition spkf_run := foldM spkf_step.

Lemma rule_moments k : (0 < k)%N -> standard_moments (generate_sigmapoints R k method).
Proof. case: method => k0; [exact: C23_unscented|exact: C23_cubature|exact: C23_gauss_hermite]. Qed.

Lemma spkf_eq t x0 (P : 'M[R]_n) ev r : (0 < n)%N -> pd P -> gaussian_history t (ev :: r) ->
  spkf_step (Est (PState x0 (Some t)) P) ev = ekf_step (Est (PState x0 (Some t)) P) ev.
Proof.
move=> n0 hP; have cP k (A L : 'M[R]_k) : A^T = A -> cholesky A = Ok L -> L *m L^T = A by move=> sA /(cholesky_ok sA) [].
case: ev => [u dt|y].
  case=> dt0 uF [Q eQ hQ] _.
  have sD : (block_mx P 0 0 Q)^T = block_mx P 0 0 Q by rewrite tr_block_mx (pd_sym hP) (pd_sym hQ) !trmx0.
  have hD : pd (block_mx P 0 0 Q) by exact: pd_block_diag.
  have [L eL] := (cholesky_pd sD).1 hD.
  have nn : (0 < n + nu)%N by rewrite addn_gt0 n0.
  have := C24_predict_eq_ekf norm0 cP rule_moments iterate_mean F B c (x := Est (PState x0 (Some t)) P) u nn dt0 (erefl _) (pd_sym hP) (pd_sym hQ) eL.
  by rewrite /= /spkf_predict /ekf_predict /= eQ.
case=> [[H [h [Rm [ly hR]]]] st hr].
have [L eL] := (cholesky_pd (pd_sym hP)).1 hP.
have lm : @linear_meas R n y H h by split=> s; case: (ly s).
have := C24_correct_eq_ekf norm cP rule_moments chi2_99 iterate_mean F B c (x := Est (PState x0 (Some t)) P) 0 rej n0 lm _ (pd_sym hP) eL.
rewrite /= => ->; last by move=> ty tx; case: st => -> // [<-] [<-].
by rewrite /ekf_correct /ekf_advance; case: st => -> /=.
Qed.

(** C93: along every linear-Gaussian history, from every positive definite initial estimate,
    the sigma-point filter and the extended Kalman filter return the same estimate: the
    same state, stamp and covariance; neither of them fails. *)
Theorem C93_sigma_point_equals_ekf t x0 (P0 : 'M[R]_n) (evs : seq event) :
  (0 < n)%N -> pd P0 -> gaussian_history t evs ->
  exists xf, [/\ ekf_run (Est (PState x0 (Some t)) P0) evs = Ok xf,
    spkf_run (Est (PState x0 (Some t)) P0) evs = Ok xf & pd (est_cov xf)].
Proof.
move=> n0; elim: evs t x0 P0 => [|ev r IH] t x0 P0 hP hh.
  by exists (Est (PState x0 (Some t)) P0).
have [x1 [P1 [t1 [e1 hp1 hr]]]] := step_ok x0 hP hh.
have [xf [h1 h2 h3]] := IH t1 x1 P1 hp1 hr.
by exists xf; rewrite /ekf_run /spkf_run /= (spkf_eq x0 n0 hP hh) e1 /=.
Qed.
End Agree.

(** ** IteratedKalmanFilter *)
Section Iterated.
Variable R : rcfType.
Variables n nu : nat.
Notation cV := 'cV[R]_n.
Notation uinput := (input R 'cV[R]_nu nu).
Notation event := (event R n uinput).
Notation est := (est R cV n).
Variable chi2_99 : nat -> R.
Variable rej : bool.
Variables (F : R -> 'M[R]_n) (B : R -> 'M[R]_(n, nu)) (c : R -> cV).
Notation pm := (input_pm F B c).
Variables (norm : cV -> R) (step_tol : R) (line_search : bool) (max_iters fuel : nat).
Hypothesis norm0 : norm 0 = 0.
Hypothesis tol01 : 0 < step_tol < 1.

(** IteratedKalmanFilter inherits predict; correct iterates at most max_iters + 1 times
    ([fuel] bounds the line search, whose termination is C22) *)
Definition iekf_step (x : est) (ev : event) : option (result est) :=
  match ev with
  | Predict u dt => Some (ekf_predict (@u_stamp R _ nu) pm x (Some u) (Some dt) None)
  | Correct y => iekf_correct (@vec_add R n) (@u_stamp R _ nu) pm chi2_99 (@vec_minus R n) (fun _ _ => 1%:M) norm step_tol
      line_search max_iters.+1 fuel.+1 x y None None rej
  end.
Fixpoint iekf_run (x : est) (evs : seq event) : option (result est) :=
  match evs with
  | [::] => Some (Ok x)
  | ev :: r => match iekf_step x ev with
               | Some (Ok x') => iekf_run x' r
               | e => e
               end
  end.

Lemma iekf_runS x ev r x' : iekf_step x ev = Some (Ok x') -> iekf_run x (ev :: r) = iekf_run x' r.
Proof. by move=> e; rewrite /= -/(iekf_step x ev) e. Qed.

(** No measurement of the history moves the Kalman estimate by less than the tolerance of
    the iterated filter (other than not at all). *)
Fixpoint no_tiny_step (x : est) (evs : seq event) : Prop :=
  if evs is ev :: r then
    match ekf_step chi2_99 rej F B c x ev with
    | Ok x' =>
        (if ev is Correct _ then sval (est_state x') = sval (est_state x) \/
            step_tol <= norm (sval (est_state x') - sval (est_state x)) else True) /\ no_tiny_step x' r
    | Raise _ => True
    end
  else True.
Lemma no_tiny_stepS x ev r x' : ekf_step chi2_99 rej F B c x ev = Ok x' ->
  (if ev is Correct _ then sval (est_state x') = sval (est_state x) \/
     step_tol <= norm (sval (est_state x') - sval (est_state x)) else True) -> no_tiny_step x' r ->
  no_tiny_step x (ev :: r).
Proof. by move=> e; rewrite /= e. Qed.

Lemma iekf_step_linear t x0 (P : 'M[R]_n) y r : pd P -> gaussian_history F t (Correct uinput y :: r) ->
  exists2 xe, ekf_step chi2_99 rej F B c (Est (PState x0 (Some t)) P) (Correct _ y) = Ok xe &
  iekf_step (Est (PState x0 (Some t)) P) (Correct _ y) =
  Some (Ok (Est (if norm (sval (est_state xe) - x0) < step_tol then PState x0 (Some t) else est_state xe) (est_cov xe))).
Proof.
move=> hP [[H [h [Rm [ly hR]]]] st hr].
pose x : est := Est (PState x0 (Some t)) P.
have sync : in_sync (U := uinput) x y None by rewrite /in_sync /=; case: st => -> //; left.
have [xe [e1 e2]] := C78_linear_equals_kalman (@u_stamp R _ nu) pm chi2_99 (x := x) ly hP hR tol01 norm0 line_search max_iters fuel None rej sync.
by exists xe.
Qed.

(** C93: the iterated filter agrees with the extended one along every linear-Gaussian history
    without tiny corrections, whatever its number of iterations, with or without line search,
    rejecting outliers or not. *)
Theorem C93_iterated_equals_ekf t x0 (P0 : 'M[R]_n) (evs : seq event) :
  pd P0 -> gaussian_history F t evs -> no_tiny_step (Est (PState x0 (Some t)) P0) evs ->
  exists2 xf, ekf_run chi2_99 rej F B c (Est (PState x0 (Some t)) P0) evs = Ok xf &
              iekf_run (Est (PState x0 (Some t)) P0) evs = Some (Ok xf).
Proof.
elim: evs t x0 P0 => [|ev r IH] t x0 P0 hP hh; first by exists (Est (PState x0 (Some t)) P0).
have [x1 [P1 [t1 [e1 hp1 hr]]]] := step_ok chi2_99 rej B c x0 hP hh.
rewrite /= e1 => -[h1 h2]; have [xf h3 h4] := IH t1 x1 P1 hp1 hr h2.
exists xf; first by rewrite /ekf_run /= e1.
case: ev hh h1 e1 => [u dt|y] hh h1 e1; first by move: e1; rewrite /= => ->.
have [xe] := iekf_step_linear x0 hP hh; rewrite e1 => -[<-] /= ->.
have et : t1 = t.
  case: hh => [[H [h [Rm [ly hR]]]] st _]; pose x : est := Est (PState x0 (Some t)) P0.
  have sync : in_sync (U := uinput) x y None by rewrite /in_sync /=; case: st => -> //; left.
  move: e1; rewrite /= (ekf_linear (@u_stamp R _ nu) pm chi2_99 (x := x) ly hP hR None rej sync).
  by case: ifP => _ [_ ->].
case: h1 => /= [e|le]; last by rewrite ltNge le.
by rewrite e subrr norm0; case/andP: tol01 => -> _; rewrite -et -e.
Qed.

(** C93: whatever the steps, its covariance and stamp are those of the extended filter
    (without outlier rejection, which looks at the innovation). *)
Theorem C93_iterated_same_covariance t x0 x1 (P0 : 'M[R]_n) (evs : seq event) : rej = false ->
  pd P0 -> gaussian_history F t evs ->
  exists xf xi, [/\ ekf_run chi2_99 rej F B c (Est (PState x0 (Some t)) P0) evs = Ok xf,
    iekf_run (Est (PState x1 (Some t)) P0) evs = Some (Ok xi),
    est_cov xi = est_cov xf & sstamp (est_state xi) = sstamp (est_state xf)].
Proof.
move=> rj; elim: evs t x0 x1 P0 => [|ev r IH] t x0 x1 P0 hP hh.
  by exists (Est (PState x0 (Some t)) P0), (Est (PState x1 (Some t)) P0).
case: ev hh => [u dt|y] hh.
  have [x2 [P2 [t2 [e1 hp2 hr]]]] := step_ok chi2_99 rej B c x0 hP hh.
  case: (hh) => dt0 _ _ hr'.
  have e2 : iekf_step (Est (PState x1 (Some t)) P0) (Predict _ u dt) =
     Some (Ok (Est (PState (F dt *m x1 + B dt *m u_val u + c dt) (Some t2)) P2)).
    move: e1; rewrite /= /ekf_predict /= ltNge dt0 /= => -[_ <- <-].
    by rewrite /lin_eval.
  have [xf [xi [h1 h2 h3 h4]]] := IH t2 x2 (F dt *m x1 + B dt *m u_val u + c dt) P2 hp2 hr.
  by exists xf, xi; rewrite (ekf_runS _ e1) (iekf_runS _ e2).
have [x2 [P2 [t2 [e1 hp2 hr]]]] := step_ok chi2_99 rej B c x0 hP hh.
have [xe e2 e3] := iekf_step_linear x1 hP hh.
have [et [ec es]] : t2 = t /\ (est_cov xe = P2 /\ sstamp (est_state xe) = Some t).
  case: hh => [[H [h [Rm [ly hR]]]] st _].
  pose xa : est := Est (PState x0 (Some t)) P0; pose xb : est := Est (PState x1 (Some t)) P0.
  have sa : in_sync (U := uinput) xa y None by rewrite /in_sync /=; case: st => -> //; left.
  have sb : in_sync (U := uinput) xb y None by rewrite /in_sync /=; case: st => -> //; left.
  move: e1 e2; rewrite /= rj (ekf_linear (@u_stamp R _ nu) pm chi2_99 (x := xa) ly hP hR None false sa).
  rewrite (ekf_linear (@u_stamp R _ nu) pm chi2_99 (x := xb) ly hP hR None false sb) /=.
  by case=> _ <- <- [<-].
rewrite et in hr e1.
pose xm := if norm (sval (est_state xe) - x1) < step_tol then x1 else sval (est_state xe).
have em : Est (if norm (sval (est_state xe) - x1) < step_tol then PState x1 (Some t) else est_state xe) (est_cov xe) =
   Est (PState xm (Some t)) P2.
  by rewrite ec /xm; case: ifP => // _; rewrite -es; case: (est_state xe).
rewrite em in e3.
have [xf [xi [h1 h2 h3 h4]]] := IH t x2 xm P2 hp2 hr.
by exists xf, xi; rewrite (ekf_runS _ e1) (iekf_runS _ e3).
Qed.
End Iterated.

(** ** ... and with the batch solution (C90) *)
Section Batch.
Variable R : rcfType.
Variables n nu : nat.
Notation cV := 'cV[R]_n.
Notation uinput := (input R 'cV[R]_nu nu).
Notation event := (event R n uinput).
Variable chi2_99 : nat -> R.
Variables (F : R -> 'M[R]_n) (B : R -> 'M[R]_(n, nu)) (c : R -> cV).
Variables (method : sp_method) (iterate_mean : bool) (norm : cV -> R).
Hypothesis norm0 : norm 0 = 0.

(** C93: with, in addition, process noise of full rank, Gauss-Newton on the batch problem of the
    history (any initial guess, residuals in any order) gives the last state the value, and
    reports for it the covariance, that the sigma-point filter ends with. *)
Theorem C93_sigma_point_equals_batch (p : problem R nat_eqType cV) x0 (P0 : 'M[R]_n) t0 (evs : seq event) :
  (0 < n)%N -> pd P0 -> gaussian_history F t0 evs ->
  (forall u dt, List.In (Predict n u dt) evs -> pd (B dt *m odflt 0 (u_cov u) *m (B dt)^T)) ->
  batch_problem (input_pm F B c) p x0 P0 t0 evs -> p_solver p = GN -> (0 < p_max_iters p)%N -> p_cov p = None ->
  exists xf p' C,
  [/\ spkf_run chi2_99 false F B c method iterate_mean norm (Est (PState x0 (Some t0)) P0) evs = Ok xf,
      solve (@vec_dof R n) (@vec_plus R n) p = Ok p',
      dget (p_vars p') (steps evs : nat_eqType) = Some (sval (est_state xf)),
      (get_covariance_block p' (steps evs) (steps evs)).1 = Ok (Some C) &
      forall i j : 'I_n, ent C i j = est_cov xf i j].
Proof.
move=> n0 hP gh full bp gn it0 pc.
pose Q (u : uinput) dt := B dt *m odflt 0 (u_cov u) *m (B dt)^T.
have lin : linear_process (input_pm F B c) (fun _ dt => F dt) Q (fun u dt => B dt *m u_val u + c dt).
  by move=> s u dt; split=> //=; rewrite addrA.
have lh : linear_history Q t0 evs.
  move: gh full; elim: (evs) (t0) => [|[u dt|y] r IH] t //=.
    case=> dt0 _ _ hr full; split=> //; first by apply: full; left.
    by apply: IH => // v d hin; apply: full; right.
  by case=> h1 h2 hr full; split=> //; apply: IH => // v d hin; apply: full; right.
have [xf [e1 e2 _]] := C93_sigma_point_equals_ekf chi2_99 false B c method iterate_mean norm0 x0 n0 hP gh.
have [xk [p' [h1 h2 h3 _ h5]]] := C90_batch_equals_filter (@u_stamp R _ nu) chi2_99 n0 lin hP lh bp gn it0.
have [C [g1 _ _ g4]] := h5 pc.
have ex : xk = xf by move: e1; rewrite -[ekf_run _ _ _ _ _ _ _]/(kf_run (@u_stamp R _ nu) chi2_99 (input_pm F B c) _ evs) h1 => -[].
by exists xf, p', C; rewrite -ex; split=> //; rewrite ex.
Qed.
End Batch.

(** Witness: a point on a line, one prediction over a second and one position measurement. *)
Section Witness.
Variable R : rcfType.
Notation V := 'cV[R]_1.
Definition unit_input : input R V 1 := Input (1%:M : V) (Some 0) (Some 1%:M).
Definition pos_y : measurement R V 1 :=
  @Measurement R V 1 1 (3%:R)%:M (Some 1) (fun s => Some (sval s)) (fun _ => 1%:M) (fun _ => 1%:M).
Definition two_evs : seq (event R 1 (input R V 1)) := [:: Predict _ unit_input 1; Correct _ pos_y].
Definition F1 (_ : R) : 'M[R]_1 := 1%:M.
Definition B1 (dt : R) : 'M[R]_1 := dt%:M.
Definition absn (v : V) : R := `|v 0 0|.

Example C93_witness (chi : nat -> R) :
  [/\ pd (1%:M : 'M[R]_1), gaussian_history F1 0 two_evs, absn 0 = 0,
      no_tiny_step chi false F1 B1 (fun=> 0) absn (1 / 10%:R) (Est (PState 0 (Some 0)) 1%:M) two_evs &
      ekf_run chi false F1 B1 (fun=> 0) (Est (PState 0 (Some 0)) 1%:M) two_evs =
        Ok (Est (PState (7%:R / 3%:R)%:M (Some 1)) (2%:R / 3%:R)%:M)].
Proof.
have h3 : (3%:R : R) != 0 by rewrite pnatr_eq0.
have gh : gaussian_history F1 0 two_evs.
  split; rewrite ?ler01 ?unitmx1 //; first by exists 1%:M => //; exact: pd1.
  split=> //; last by right; rewrite /= add0r.
  by exists 1%:M, 0, 1%:M; split; [move=> s; split=> //=; rewrite mul1mx addr0|exact: pd1].
have e2 : symmetrize (1%:M + 1%:M : 'M[R]_1) = (2%:R)%:M.
  by rewrite /symmetrize symmetrize_id; [rewrite -raddfD|rewrite linearD /= trmx1].
have e3 : (2%:R + 1 : R) = 3%:R by rewrite -[X in _ + X]/(1%:R) -natrD.
have s1 : ekf_step chi false F1 B1 (fun=> 0) (Est (PState 0 (Some 0)) 1%:M) (Predict _ unit_input 1) = Ok (Est (PState 1%:M (Some 1)) (2%:R)%:M).
  by rewrite /= /ekf_predict /= ltr10 /= /lin_eval /F1 /B1 /= !add0r ?mul1mx ?trmx1 ?mulmx1 ?add0r ?addr0 e2.
have sync : in_sync (U := input R V 1) (Est (PState (1%:M : V) (Some 1)) (2%:R)%:M) pos_y None by left.
have h2 : pd ((2%:R)%:M : 'M[R]_1) by rewrite -[2%:R]mulr1 -scale_scalar_mx; apply: pdZ; [rewrite ltr0n|exact: pd1].
have s2 : ekf_step chi false F1 B1 (fun=> 0) (Est (PState 1%:M (Some 1)) (2%:R)%:M) (Correct _ pos_y) =
   Ok (Est (PState (7%:R / 3%:R)%:M (Some 1)) (2%:R / 3%:R)%:M).
  have := correct_ok (@vec_add R 1) (@u_stamp R _ 1) (input_pm F1 B1 (fun=> 0)) chi sync (erefl _) (pd_psd h2) (@pd1 R 1).
  rewrite /= => ->.
  rewrite /jac_point /= trmx1 mul1mx !mulmx1 -raddfD /= e3 invmx_scalar -!scalar_mxM.
  have e31 : (3%:R - 1 : R) = 2%:R by rewrite -e3 addrK.
  rewrite -!raddfB /= -!scalar_mxM e31 /pplus /= /vec_add -raddfD /=; congr (Ok (Est (PState _%:M _) _%:M)).
    by apply: (mulIf h3); rewrite mulrDl mul1r mulrAC !divfK // -!natrM -natrD.
  by apply: (mulIf h3); rewrite mulrAC mulrBl mul1r !divfK //; rewrite -e3 [2%:R + 1]addrC addrK mul1r.
split=> //; first exact: pd1; first by rewrite /absn mxE normr0.
  apply: (no_tiny_stepS s1) => //; apply: (no_tiny_stepS s2) => //; right.
  rewrite /absn /= !mxE /= !mulr1n; apply: le_trans (ler_norm _).
  have -> : (7%:R / 3%:R - 1 : R) = 4%:R / 3%:R.
    by apply: (mulIf h3); rewrite mulrBl mul1r !divfK // -natrB.
  by rewrite ler_pdivl_mulr ?ltr0n // mulrAC ler_pdivr_mulr ?ltr0n // mul1r -natrM ler_nat.
by rewrite (ekf_runS _ s1) (ekf_runS _ s2).
Qed.
End Witness.

Print Assumptions C93_sigma_point_equals_ekf.
Print Assumptions C93_iterated_equals_ekf.
Print Assumptions C93_iterated_same_covariance.
Print Assumptions C93_sigma_point_equals_batch.
