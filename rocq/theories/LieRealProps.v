(** C46, C50, C76, C82 on the real groups: what the theorems about group states, process models and preintegration assume of pymlg
    holds for SO(2), SO(3), SE(2), SE(3) and SE_2(3) with the matrix exponential. *)
From Coq Require Import Reals.
From mathcomp Require Import all_ssreflect all_algebra.
From Verif Require Import Base Tac LinAlg Deriv RealStruct RealProps PSer MatExp LieExp EkfModel PreintModel ImuModel ImuProps So3Model So3Props ImuJacProps PreintProps
  ModelsModel ProcessProps MeasureProps LieLaws LieReal.
Set Implicit Arguments.
Unset Strict Implicit.
Unset Printing Implicit Defensive.
Import Order.Theory GRing.Theory Num.Theory.
Local Open Scope ring_scope.
Bind Scope ring_scope with Rdefinitions.R.
Local Notation R := Rdefinitions.R.

(** *** The groups: coordinates (hat), their inverse (vee), elements *)
Definition rigid n (rotation : 'M[R]_n -> Prop) (X : 'M[R]_(n + 1)) : Prop := exists C r, rotation C /\ X = block_mx C r 0 1%:M.
Definition orthogonal n (C : 'M[R]_n) : Prop := C *m C^T = 1%:M.
Inductive lib_group : forall k d, ('cV[R]_d -> 'M[R]_k) -> ('M[R]_k -> 'cV[R]_d) -> ('M[R]_k -> Prop) -> Prop :=
| L_SO2 : lib_group (ag_wedge so2R) vee2 (@orthogonal 2)
| L_SO3 : lib_group wedgeR vee3 (@rot [realFieldType of R])
| L_SE2 : lib_group (se_hat so2R) (se_vee vee2) (rigid (@orthogonal 2))
| L_SE3 : lib_group (se_hat so3R) (se_vee vee3) (rigid (@rot [realFieldType of R]))
| L_SE23 : lib_group wedge9R vee9 (@in_SE23 [realFieldType of R]).

Lemma invmx_unique n (A B : 'M[R]_n) : A *m B = 1%:M -> invmx A = B /\ A \in unitmx.
Proof.
move=> h; have u : A \in unitmx by case: (mulmx1_unit h).
by split=> //; rewrite -[LHS]mulmx1 -h mulmxA mulVmx // mul1mx.
Qed.
Lemma so2_conj (F : realFieldType) (C : 'M[F]_2) (a : 'cV[F]_1) :
  let J (x : F) : 'M[F]_2 := \matrix_(i, j) nth 0 (nth [::] [:: [:: 0; - x]; [:: x; 0]] i) j in
  C *m J (a 0 0) *m C^T = J ((C 0 0 * C 1 1 - C 0 1 * C 1 0) * a 0 0).
Proof.
move=> J; rewrite /J; apply/matrixP => i j; rewrite !mxE !big_ord_recl !big_ord0 !mxE !big_ord_recl !big_ord0 !mxE /=.
rewrite !(atE C) /= /bump /=; change (1 %% 2)%N with 1%N; rewrite ?addn0.
by case: i => [[|[|//]] ?]; case: j => [[|[|//]] ?] /=; rng.
Qed.
Lemma so2_conjR (C : 'M[R]_2) (a : 'cV[R]_1) : exists z, C *m ag_wedge so2R a *m C^T = ag_wedge so2R z.
Proof.
exists ((C 0 0 * C 1 1 - C 0 1 * C 1 0) * a 0 0)%:M; have := @so2_conj [realFieldType of R] C a; rewrite /= mxE eqxx mulr1n; exact.
Qed.
Lemma so2_in_group C : orthogonal C -> inG (ag_wedge so2R) C.
Proof.
move=> h; have [e u] := invmx_unique h; split=> // w; rewrite e; first exact: so2_conjR.
by have := so2_conjR C^T w; rewrite trmxK.
Qed.
Lemma se_in_group n k (G : attgroup [rcfType of R] n k) C r : inG (ag_wedge G) C -> inG (se_hat G) (block_mx C r 0 1%:M).
Proof.
move=> [u a b].
have h : block_mx C r 0 1%:M *m block_mx (invmx C) (- (invmx C *m r)) 0 1%:M = 1%:M :> 'M[R]_(n + 1).
  by rewrite mulmx_block !mulmx0 !mul0mx !mulmx1 !add0r !addr0 mulmxV // mulmxN mulmxA mulmxV // mul1mx addNr -scalar_mx_block.
have [e u'] := invmx_unique h; split=> // w; rewrite e /se_hat !mulmx_block !mulmx0 !mul0mx !mulmx1 !addr0 ?add0r.
  have [z ez] := a (usubmx w); exists (col_mx z (- (C *m ag_wedge G (usubmx w) *m (invmx C *m r)) + C *m dsubmx w)).
  by rewrite col_mxKu col_mxKd ez mulmxN !mul0mx.
have [z ez] := b (usubmx w); exists (col_mx z (invmx C *m ag_wedge G (usubmx w) *m r + invmx C *m dsubmx w)).
by rewrite col_mxKu col_mxKd ez !mul0mx.
Qed.
Lemma sc0 : (0 : R)%:M = 0 :> 'M[R]_1. Proof. by apply/matrixP => i j; rewrite !mxE mul0rn. Qed.
Lemma se23_in_group X : @in_SE23 [realFieldType of R] X -> inG wedge9R X.
Proof.
move=> [C [x [y [rC ->]]]]; have [u a b] := rot_in_group rC; have [eC _] := rot_inv rC.
have h : ie3 C x y 0 *m ie3 (invmx C) (- (invmx C *m x)) (- (invmx C *m y)) 0 = 1%:M :> M5.
  by rewrite ie3M mulmxV // !mulmxN !mulmxA !mulmxV // !mul1mx !scale0r !addr0 !addNr; exact: ie31.
have [e u'] := invmx_unique h; split=> // w; rewrite e ie3_wedge9 /ie3 mulmx_block !mulmx0 !mul0mx !addr0 mul_mx_row.
  have [z ez] := a (usubmx w).
  exists (col_mx z (col_mx (- (C *m wedgeR (usubmx w) *m (invmx C *m x)) + C *m usubmx (dsubmx w)) (- (C *m wedgeR (usubmx w) *m (invmx C *m y)) + C *m dsubmx (dsubmx w)))).
  rewrite /wedge9 !col_mxKu !col_mxKd ?col_mxKu ez; congr block_mx; rewrite mul_row_block !mulmxN !mulmx1 !mulmx0 addr0 add_row_mx //.
  by rewrite sc0 mulmx0 add0r.
have [z ez] := b (usubmx w).
exists (col_mx z (col_mx (invmx C *m wedgeR (usubmx w) *m x + invmx C *m usubmx (dsubmx w)) (invmx C *m wedgeR (usubmx w) *m y + invmx C *m dsubmx (dsubmx w)))).
rewrite /wedge9 !col_mxKu !col_mxKd ?col_mxKu ez; congr block_mx; by rewrite mul_row_block !mulmx1 !mulmx0 addr0 sc0 mulmx0 add0r add_row_mx.
Qed.

(** C76: the hypotheses of the theorems about group process models hold for every group of the library, at each of its elements *)
Theorem C76_real_groups k d (hat : 'cV[R]_d -> 'M[R]_k) vee (G : 'M[R]_k -> Prop) : lib_group hat vee G ->
  lie_laws (gExp hat) (gAd hat vee) (@invmx _ k) (ljac hat vee) hat (inG hat) /\ forall X, G X -> inG hat X.
Proof.
case; (split; first by apply: real_lie_laws; auto using so2_algebra, so3_algebra, se_algebra, se23_algebra).
- exact: so2_in_group.
- exact: rot_in_group.
- by move=> X [C [r [h ->]]]; apply: se_in_group; exact: so2_in_group.
- by move=> X [C [r [h ->]]]; apply: se_in_group; exact: rot_in_group.
- exact: se23_in_group.
Qed.
(** C76, for these groups outright: BodyFrameVelocity has an exact state Jacobian, and its covariance is L Q L^T with L the derivative of
    the result, as a perturbation in the direction of the state, with respect to the input *)
Theorem C76_real_body_velocity k d (hat : 'cV[R]_d -> 'M[R]_k) vee (G : 'M[R]_k -> Prop) (Q : 'M[R]_d) dir X t (u : vinput [realFieldType of R] 'cV[R]_d) dt :
  lib_group hat vee G -> G X -> let m := body_velocity (gExp hat) (gAd hat vee) (ljac hat vee) Q dir in
  [/\ forall dx, sval (pm_eval m (PState (gplus (gExp hat) dir X dx) t) u dt) =
        gplus (gExp hat) dir (sval (pm_eval m (PState X t) u dt)) (pm_jac m (PState X t) u dt *m dx) &
      exists L : 'M[R]_d, pm_cov m (PState X t) u dt = L *m Q *m L^T /\
      forall w, exists D,
        is_mderiv (fun s => sval (pm_eval m (PState X t) (VIn (vi_val u + s *: w) (vi_stamp u)) dt)) D /\
        is_mderiv (fun s => gplus (gExp hat) dir (sval (pm_eval m (PState X t) u dt)) (s *: (L *m w))) D].
Proof.
move=> /C76_real_groups [ll sub] /sub gX m; split=> [dx|]; first exact: (C76_jacobian ll).
exact: (C76_noise ll).
Qed.
(** C46 on these groups: predicting once with a preintegrated BodyVelocityIncrement is predicting with each input *)
Theorem C46_real_groups k d (hat : 'cV[R]_d -> 'M[R]_k) vee (G : 'M[R]_k -> Prop) : lib_group hat vee G ->
  forall (Q : 'M[R]_d), Q^T = Q -> forall dir X b P p steps, G X -> P^T = P -> forward (p :: steps) ->
  let x0 := Est (PState X (Some (vi_stamp p.1))) P in
  let Exp := gExp hat in let Ad := gAd hat vee in let Jl := ljac hat vee in
  ekf_predict (fun r => rmi_stamp (vr_stamps r)) (preint_velocity Exp Ad (@invmx _ k) dir) x0
     (Some (accumulate (vrmi_increment Exp Ad (@invmx _ k) Jl Q) (vrmi0 k b) (p :: steps))) None None
  = predict_all (fun u : vinput _ 'cV[R]_d => Some (vi_stamp u)) (body_velocity Exp Ad Jl Q dir) x0 (debias b (p :: steps)).
Proof.
move=> /C76_real_groups [ll sub] Q Qs dir X b P p steps /sub gX Ps fw; move=> x0 Exp Ad Jl; exact: (C46_velocity Jl (ll_group ll) Qs dir b gX Ps fw).
Qed.
(** C50: every kind of state has an exponential as the Jacobian theorems require *)
Lemma gExp_exponential k d (hat : 'cV[R]_d -> 'M[R]_k) : lin hat -> @exponential [rcfType of R] k d hat (gExp hat).
Proof.
move=> hl; split; first by rewrite /gExp (lin0 hl) expm0.
move=> v; have := expm_deriv (hat v) 0; rewrite scale0r expm0 mulmx1; apply: eq_mderiv => t.
by rewrite /gExp hl.2 add0r.
Qed.
Theorem C50_real_groups :
  [/\ @att_state [rcfType of R] (so3_kind (gExp wedgeR)),
      @pose_state [rcfType of R] (se2_kind (gExp (se_hat so2R))) & @pose_state [rcfType of R] (se3_kind (gExp (se_hat so3R)))] /\
  @vel_state [rcfType of R] (se23_kind (gExp wedge9R)) /\ @vel_state [rcfType of R] (imu_kind (gExp wedge9R)).
Proof.
split; [split|split]; constructor; apply: gExp_exponential.
- exact: (la_hat so3_algebra).
- exact: (la_hat (@se_algebra _ _ so2R vee2 so2_algebra)).
- exact: (la_hat (@se_algebra _ _ so3R vee3 so3_algebra)).
- exact: (la_hat se23_algebra).
- exact: (la_hat se23_algebra).
Qed.
(** C82: the left Jacobian of SE_2(3), that is the integral over [0,1] of exp(t ad xi), is what C82 and C83 assume of SE23.left_jacobian *)
Theorem C82_real_left_jacobian xi : right_jac_at xi (ljac wedge9R vee9 (- xi)).
Proof.
move=> d; rewrite se23Exp_expm; apply: eq_mderiv (exp_deriv se23_algebra xi d) => h.
by rewrite se23Exp_expm.
Qed.
Print Assumptions C76_real_body_velocity.
Print Assumptions C46_real_groups.
Print Assumptions C50_real_groups.
Print Assumptions C82_real_left_jacobian.
