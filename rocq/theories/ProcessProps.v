(** C49, C76, C77: the process models of navlie/lib/models.py. *)
From mathcomp Require Import all_ssreflect all_algebra.
From Verif Require Import Base Tac LinAlg EkfModel PreintModel PreintProps Deriv ModelsModel.
Set Implicit Arguments.
Unset Strict Implicit.
Unset Printing Implicit Defensive.
Import Order.Theory GRing.Theory Num.Theory.
Local Open Scope ring_scope.

(** *** C49: linear process models *)
Section Linear.
Variable R : realFieldType.
Variable n : nat.

(** two steps with the same input are one step of the total duration *)
Theorem C49_single_flow (Q : 'M[R]_n) x u a b :
  let f := pm_eval (single_integrator Q) in f (f x u a) u b = f x u (a + b).
Proof. by rewrite /= /single_eval scalerDl addrA. Qed.
Lemma double_jacM (a b : R) : double_jac n b *m double_jac n a = double_jac n (a + b).
Proof.
by rewrite /double_jac mulmx_block !mulmx0 !mul0mx !mulmx1 !mul1mx !addr0 !add0r raddfD.
Qed.
Lemma half_sq (a b : R) : (a + b) ^+ 2 / 2%:R = a ^+ 2 / 2%:R + b * a + b ^+ 2 / 2%:R.
Proof.
have two : 2%:R != 0 :> R by rewrite pnatr_eq0.
by apply: (mulIf two); rewrite !mulrDl !divfK //; rng.
Qed.
Lemma double_ljacD (a b : R) :
  double_jac n b *m double_ljac n a + double_ljac n b = double_ljac n (a + b).
Proof.
rewrite /double_jac /double_ljac mul_block_col !mul1mx mul0mx add0r add_col_mx half_sq -scalar_mxM.
by rewrite -!raddfD.
Qed.
Theorem C49_double_flow k (Q : 'M[R]_n) x (u : 'cV[R]_(n + k)) a b :
  let f := pm_eval (double_integrator k Q) in f (f x u a) u b = f x u (a + b).
Proof.
rewrite /= /double_eval; congr PState.
by rewrite mulmxDr !mulmxA double_jacM -addrA -mulmxDl double_ljacD.
Qed.
Theorem C49_bias_flow (Q : 'M[R]_(n + n)) x u walk a b : odflt 0 walk = 0 ->
  let f := pm_eval (biased_integrator Q) in f (f x (u, walk) a) (u, walk) b = f x (u, walk) (a + b).
Proof.
move=> w0; rewrite /= /bias_eval; congr PState; rewrite !col_mxKu !col_mxKd w0 !scaler0 !addr0.
by rewrite mulmxDr !mulmxA double_jacM -addrA -mulmxDl double_ljacD.
Qed.

(** the Jacobian is exact: no linearisation error *)
Theorem C49_single_jacobian (Q : 'M[R]_n) x t u dt dx : let m := single_integrator Q in
  sval (pm_eval m (PState (x + dx) t) u dt) - sval (pm_eval m (PState x t) u dt) = pm_jac m (PState x t) u dt *m dx.
Proof. by rewrite /= /single_eval /single_jac mul1mx; zmod. Qed.
Theorem C49_double_jacobian k (Q : 'M[R]_n) x t u dt dx : let m := double_integrator k Q in
  sval (pm_eval m (PState (x + dx) t) u dt) - sval (pm_eval m (PState x t) u dt) = pm_jac m (PState x t) u dt *m dx.
Proof. by rewrite /= /double_eval mulmxDr; zmod. Qed.
Theorem C49_bias_jacobian (Q : 'M[R]_(n + n)) x t u dt dx : let m := biased_integrator Q in
  sval (pm_eval m (PState (x + dx) t) u dt) - sval (pm_eval m (PState x t) u dt) = pm_jac m (PState x t) u dt *m dx.
Proof.
rewrite /= /bias_eval /bias_jac -{4}[dx]vsubmxK mul_block_col mul0mx mul1mx add0r opp_col_mx add_col_mx.
rewrite ![usubmx (x + dx)]linearD ![dsubmx (x + dx)]linearD /= mulNmx !mulmxDr !mulmxN !mulmxDr.
by congr col_mx; zmod.
Qed.

(** the covariance is that of the input noise carried through the model: a perturbation [w]
    of the input moves the result by exactly [L w], and covariance = L Q L^T *)
Theorem C49_single_noise (Q : 'M[R]_n) : let m := single_integrator Q in
  forall x t u dt, exists L : 'M[R]_n, pm_cov m (PState x t) u dt = L *m Q *m L^T /\
  forall w, sval (pm_eval m (PState x t) (u + w) dt) - sval (pm_eval m (PState x t) u dt) = L *m w.
Proof.
move=> m x t u dt; exists dt%:M; split=> [|w].
  by rewrite /= /single_cov tr_scalar_mx mul_scalar_mx mul_mx_scalar scalerA expr2.
by rewrite /= /single_eval mul_scalar_mx scalerDr; zmod.
Qed.
Theorem C49_double_noise k (Q : 'M[R]_n) : let m := double_integrator k Q in
  forall x t u dt, exists L : 'M[R]_(n + n, n), pm_cov m (PState x t) u dt = L *m Q *m L^T /\
  forall w : 'cV[R]_(n + k), sval (pm_eval m (PState x t) (u + w) dt) - sval (pm_eval m (PState x t) u dt) = L *m usubmx w.
Proof.
move=> m x t u dt; exists (double_ljac n dt); split=> [//|w].
by rewrite /= /double_eval [usubmx (u + w)]linearD /= mulmxDr; zmod.
Qed.
Theorem C49_bias_noise (Q : 'M[R]_(n + n)) : let m := biased_integrator Q in
  forall x t u walk dt, exists L : 'M[R]_(n + n + n, n + n), pm_cov m (PState x t) (u, Some walk) dt = L *m Q *m L^T /\
  forall w wb, sval (pm_eval m (PState x t) (u + w, Some (walk + wb)) dt) - sval (pm_eval m (PState x t) (u, Some walk) dt)
     = L *m col_mx w wb.
Proof.
move=> m x t u walk dt; exists (bias_ljac n dt); split=> [//|w wb].
rewrite /= /bias_eval /bias_ljac /= mul_block_col !mul0mx addr0 add0r opp_col_mx add_col_mx mul_scalar_mx.
by rewrite !mulmxDr scalerDr; congr col_mx; zmod.
Qed.
(** the process noise covariance is symmetric positive semi-definite when Q is *)
Theorem C49_psd : (forall (Q : 'M[R]_n) x u dt, psd Q -> psd (pm_cov (single_integrator Q) x u dt)) /\
  (forall k (Q : 'M[R]_n) x (u : 'cV[R]_(n + k)) dt, psd Q -> psd (pm_cov (double_integrator k Q) x u dt)) /\
  (forall (Q : 'M[R]_(n + n)) x u dt, psd Q -> psd (pm_cov (biased_integrator Q) x u dt)).
Proof.
split=> [Q [x t] u dt pQ|]; last by split=> *; apply: psd_congr.
by have [L [-> _]] := C49_single_noise Q x t u dt; apply: psd_congr.
Qed.
End Linear.

(** with a random-walk input the bias ramps during a step but is held constant in the position
    update, so two half steps differ from one full step *)
Theorem C49_bias_walk_refuted : ~ (forall (R : realFieldType) n (Q : 'M[R]_(n + n)) x u walk a b,
  let f := pm_eval (biased_integrator Q) in f (f x (u, walk) a) (u, walk) b = f x (u, walk) (a + b)).
Proof.
move=> H; have := H [realFieldType of rat] 1%N 0 (PState 0 None) 0 (Some 1%:M) 1 1.
rewrite /= /bias_eval /=; case; rewrite !col_mxKu !col_mxKd => /eq_col_mx [h _].
move: h; rewrite ![usubmx 0]linear0 ![dsubmx 0]linear0 subrr !mulmx0 addr0 mulmx0 !add0r scale1r mulmxN mulmx1.
move/(congr1 dsubmx); rewrite [dsubmx (- _)]linearN /= linear0 /double_ljac col_mxKd.
by move/matrixP => /(_ 0 0); rewrite !mxE eqxx.
Qed.
(** ... while the hypotheses of the flow theorem hold for every reading without a walk input *)
Example C49_bias_flow_instance : odflt 0 (None : option 'cV[rat]_2) = 0. Proof. by []. Qed.

(** *** C76: BodyFrameVelocity on any matrix Lie group *)
(** what is assumed of pymlg's Exp, adjoint, inverse and left_jacobian: besides the group
    laws, the adjoint represents conjugation, Exp is additive along a line, and
    left_jacobian(-v) is the derivative of Exp at v, pulled back to the identity *)
Record lie_laws (R : realFieldType) k d (Exp : 'cV[R]_d -> 'M[R]_k) (Ad : 'M[R]_k -> 'M[R]_d)
  (ginv : 'M[R]_k -> 'M[R]_k) (Jl : 'cV[R]_d -> 'M[R]_d) (hat : 'cV[R]_d -> 'M[R]_k) (G : 'M[R]_k -> Prop) : Prop := LieLaws {
  ll_group : group_laws Exp Ad ginv G;
  ll_conj : forall X v, G X -> Exp (Ad X *m v) = X *m Exp v *m ginv X;
  ll_hat : forall X v, G X -> hat (Ad X *m v) = X *m hat v *m ginv X;
  ll_line : forall (a b : R) v, Exp (a *: v) *m Exp (b *: v) = Exp ((a + b) *: v);
  ll_J0 : Jl 0 = 1%:M;
  ll_deriv : forall v w, is_mderiv (fun t => Exp (v + t *: w)) (Exp v *m hat (Jl (- v) *m w)) }.

Section Group.
Variable R : realFieldType.
Variables k d : nat.
Variables (Exp : 'cV[R]_d -> 'M[R]_k) (Ad : 'M[R]_k -> 'M[R]_d) (ginv : 'M[R]_k -> 'M[R]_k).
Variables (Jl : 'cV[R]_d -> 'M[R]_d) (hat : 'cV[R]_d -> 'M[R]_k) (G : 'M[R]_k -> Prop).
Hypothesis laws : lie_laws Exp Ad ginv Jl hat G.
Notation gl := (ll_group laws).
Variable Q : 'M[R]_d.
Notation input := (vinput R 'cV[R]_d).

(** the value of x.plus(dx), in the direction of the state *)
Definition gplus (dir : direction) (X : 'M[R]_k) (dx : 'cV[R]_d) : 'M[R]_k :=
  if dir is DRight then X *m Exp dx else Exp dx *m X.

Theorem C76_flow dir s (u : input) a b : let f := pm_eval (body_velocity Exp Ad Jl Q dir) in
  f (f s u a) u b = f s u (a + b).
Proof. by rewrite /= -mulmxA (ll_line laws). Qed.

Lemma ExpVr v : Exp v *m Exp (- v) = 1%:M.
Proof. by rewrite (gl_EN gl) (gl_mulV gl) //; apply: (gl_E gl). Qed.
Lemma ExpVl v : Exp (- v) *m Exp v = 1%:M.
Proof. by rewrite -{2}[v]opprK ExpVr. Qed.
Lemma ginv_EN v : ginv (Exp (- v)) = Exp v.
Proof. by rewrite -(gl_EN gl) opprK. Qed.

(** the Jacobian is exact for every perturbation, however large: perturbing the state and
    propagating is propagating and then perturbing by [jacobian * dx] *)
Theorem C76_jacobian dir X t (u : input) dt dx : let m := body_velocity Exp Ad Jl Q dir in
  sval (pm_eval m (PState (gplus dir X dx) t) u dt) =
  gplus dir (sval (pm_eval m (PState X t) u dt)) (pm_jac m (PState X t) u dt *m dx).
Proof.
case: dir => /=; first by rewrite mul1mx mulmxA.
rewrite (ll_conj laws); last exact: (gl_E gl).
by rewrite ginv_EN !mulmxA -[X *m _ *m Exp (- _)]mulmxA ExpVr mulmx1.
Qed.

(** the covariance is L Q L^T where L is the derivative of the result, as a perturbation in
    the direction of the state, with respect to the input *)
Theorem C76_noise dir X t (u : input) dt : G X -> let m := body_velocity Exp Ad Jl Q dir in
  exists L : 'M[R]_d, pm_cov m (PState X t) u dt = L *m Q *m L^T /\
  forall w, exists D,
    is_mderiv (fun s => sval (pm_eval m (PState X t) (VIn (vi_val u + s *: w) (vi_stamp u)) dt)) D /\
    is_mderiv (fun s => gplus dir (sval (pm_eval m (PState X t) u dt)) (s *: (L *m w))) D.
Proof.
move=> gX m.
exists (if dir is DRight then dt *: Jl (- (dt *: vi_val u))
        else dt *: (Ad (X *m Exp (dt *: vi_val u)) *m Jl (- (dt *: vi_val u)))).
split=> [|w]; first by rewrite /m; case: (dir).
set v := dt *: vi_val u; set Y := X *m Exp v.
have gY : G Y by apply: (gl_M gl) => //; apply: (gl_E gl).
exists (Y *m hat (Jl (- v) *m (dt *: w))); split.
  rewrite /m /=; apply: (@eq_mderiv _ _ _ (fun s => X *m Exp (v + s *: (dt *: w)))).
    by move=> s; rewrite scalerDr !scalerA [s * dt]mulrC.
  by rewrite /Y -mulmxA; apply: mderivMl; exact: (ll_deriv laws).
have D0 z : is_mderiv (fun s => Exp (s *: z)) (hat z).
  have := ll_deriv laws 0 z; rewrite (gl_E0 gl) oppr0 (ll_J0 laws) !mul1mx.
  by apply: eq_mderiv => s; rewrite add0r.
rewrite /m /= -/v -/Y -scalemxAr; case: (dir); last by rewrite -scalemxAl; apply: mderivMl.
rewrite -[(dt *: _) *m w]scalemxAl -mulmxA [dt *: (Ad Y *m _)]scalemxAr.
have <- : hat (Ad Y *m (dt *: (Jl (- v) *m w))) *m Y = Y *m hat (dt *: (Jl (- v) *m w)).
  by rewrite (ll_hat laws) // -mulmxA (mulmx1C (gl_mulV gl gY)) mulmx1.
exact: mderivMr.
Qed.

(** RelativeBodyFrameVelocity: the state Jacobian is exact too (right perturbations; left ones
    raise NotImplementedError) *)
Theorem C77_jacobian X u1 u2 dt dx J : relvel_jac Exp Ad DRight u1 u2 dt = Ok J ->
  relvel_eval Exp (gplus DRight X dx) u1 u2 dt = gplus DRight (relvel_eval Exp X u1 u2 dt) (J *m dx).
Proof.
case=> <-; rewrite /relvel_eval /= (ll_conj laws); last exact: (gl_E gl).
by rewrite ginv_EN !mulmxA -[_ *m Exp (dt *: u2) *m Exp (- _)]mulmxA ExpVr mulmx1.
Qed.
Theorem C77_left u1 u2 dt X Q1 Q2 : relvel_jac Exp Ad DLeft u1 u2 dt = Raise NotImplementedErr /\
  relvel_cov Exp Ad Jl Q1 Q2 DLeft X u1 u2 dt = Raise NotImplementedErr.
Proof. by []. Qed.
Theorem C77_flow X u1 u2 a b :
  relvel_eval Exp (relvel_eval Exp X u1 u2 a) u1 u2 b = relvel_eval Exp X u1 u2 (a + b).
Proof.
rewrite /relvel_eval -!mulmxA (ll_line laws) !mulmxA -!scalerN (ll_line laws).
by rewrite [b + a]addrC.
Qed.
(** the second noise Jacobian is right; the first is right for the adjoint of the INVERSE *)
Theorem C77_noise2 X u1 u2 dt w : exists D,
    is_mderiv (fun s => relvel_eval Exp X u1 (u2 + s *: w) dt) D /\
    is_mderiv (fun s => gplus DRight (relvel_eval Exp X u1 u2 dt) (s *: (relvel_L2 Jl u1 u2 dt *m w))) D.
Proof.
have D0 z : is_mderiv (fun s => Exp (s *: z)) (hat z).
  have := ll_deriv laws 0 z; rewrite (gl_E0 gl) oppr0 (ll_J0 laws) !mul1mx.
  by apply: eq_mderiv => s; rewrite add0r.
set v := dt *: u2; set Y := Exp (- (dt *: u1)) *m X.
exists (Y *m (Exp v *m hat (Jl (- v) *m (dt *: w)))); split.
  apply: (@eq_mderiv _ _ _ (fun s => Y *m Exp (v + s *: (dt *: w)))).
    by move=> s; rewrite /relvel_eval scalerDr !scalerA [s * dt]mulrC.
  by apply: mderivMl; exact: (ll_deriv laws).
rewrite /relvel_eval /relvel_L2 /= -/v -/Y -scalemxAr -scalemxAl mulmxA; apply: mderivMl; exact: D0.
Qed.
Theorem C77_noise1 X u1 u2 dt w : G X ->
  let L1 := - (dt *: Ad (ginv (X *m Exp (dt *: u2))) *m Jl (dt *: u1)) in exists D,
    is_mderiv (fun s => relvel_eval Exp X (u1 + s *: w) u2 dt) D /\
    is_mderiv (fun s => gplus DRight (relvel_eval Exp X u1 u2 dt) (s *: (L1 *m w))) D.
Proof.
move=> gX L1.
have D0 z : is_mderiv (fun s => Exp (s *: z)) (hat z).
  have := ll_deriv laws 0 z; rewrite (gl_E0 gl) oppr0 (ll_J0 laws) !mul1mx.
  by apply: eq_mderiv => s; rewrite add0r.
set v := dt *: u1; set Y := X *m Exp (dt *: u2).
have gY : G Y by apply: (gl_M gl) => //; apply: (gl_E gl).
have YV := gl_mulV gl gY; have VY := mulmx1C YV.
have gV := gl_V gl gY.
have VV : ginv (ginv Y) = Y by rewrite -[LHS]mul1mx -YV -mulmxA (gl_mulV gl gV) mulmx1.
exists (Exp (- v) *m hat (Jl v *m - (dt *: w)) *m Y); split.
  apply: (@eq_mderiv _ _ _ (fun s => Exp (- v + s *: - (dt *: w)) *m Y)).
    move=> s; rewrite /relvel_eval -mulmxA -/Y; congr (Exp _ *m _).
    by rewrite scalerDr opprD scalerN !scalerA [s * dt]mulrC.
  by apply: mderivMr; have := ll_deriv laws (- v) (- (dt *: w)); rewrite opprK.
have -> : relvel_eval Exp X u1 u2 dt = Exp (- v) *m Y by rewrite /relvel_eval -mulmxA.
have -> : Exp (- v) *m hat (Jl v *m - (dt *: w)) *m Y = Exp (- v) *m Y *m hat (L1 *m w).
  have -> : L1 *m w = Ad (ginv Y) *m (Jl v *m - (dt *: w)).
    by rewrite /L1 -/Y -/v mulNmx !mulmxN -scalemxAl -scalemxAl -!scalemxAr mulmxA.
  by rewrite (ll_hat laws) // VV; move: YV; clear -Y; generalize Y => {}Y YV; rewrite !mulmxA -[_ *m Y *m ginv Y]mulmxA YV mulmx1.
rewrite /=; apply: mderivMl; exact: D0.
Qed.
End Group.

(** *** Instances: the Heisenberg group satisfies all the laws (over any ordered field) *)
Section Heisenberg.
Variable R : realFieldType.
Notation "'i0'" := (inord 0 : 'I_3). Notation "'i1'" := (inord 1 : 'I_3). Notation "'i2'" := (inord 2 : 'I_3).
(** the Lie algebra: strictly upper triangular matrices *)
Definition hhat (v : 'cV[R]_3) : 'M[R]_3 := \matrix_(i, j)
  nth 0 (nth [::] [:: [:: 0; v i0 0; v i2 0]; [:: 0; 0; v i1 0]; [:: 0; 0; 0]] i) j.
(** left Jacobian: w + [v, w] / 2 *)
Definition hJl (v : 'cV[R]_3) : 'M[R]_3 := \matrix_(i, j)
  nth 0 (nth [::] [:: [:: 1; 0; 0]; [:: 0; 1; 0]; [:: - (v i1 0) / 2%:R; v i0 0 / 2%:R; 1]] i) j.
Lemma mul3 (A : 'M[R]_3) (w : 'cV[R]_3) i : (A *m w) i 0 = A i i0 * w i0 0 + A i i1 * w i1 0 + A i i2 * w i2 0.
Proof.
rewrite mxE !big_ord_recl big_ord0 addr0 addrA.
have -> : i0 = ord0 by apply: val_inj; rewrite /= inordK.
have -> : i1 = lift ord0 ord0 by apply: val_inj; rewrite /= inordK.
by have -> : i2 = lift ord0 (lift ord0 ord0) by apply: val_inj; rewrite /= inordK.
Qed.
Lemma hAd0 a b c (v : 'cV[R]_3) : (hAd (hmx a b c) *m v) i0 0 = v i0 0.
Proof. by rewrite mul3 !mxE !inordK //= mul1r !mul0r !addr0. Qed.
Lemma hAd1 a b c (v : 'cV[R]_3) : (hAd (hmx a b c) *m v) i1 0 = v i1 0.
Proof. by rewrite mul3 !mxE !inordK //= mul1r !mul0r addr0 add0r. Qed.
Lemma hAd2 a b c (v : 'cV[R]_3) : (hAd (hmx a b c) *m v) i2 0 = v i2 0 + a * v i1 0 - b * v i0 0.
Proof. by rewrite mul3 !mxE !inordK //= h01E h12E; rng. Qed.
Lemma hJ0 (v w : 'cV[R]_3) : (hJl v *m w) i0 0 = w i0 0.
Proof. by rewrite mul3 !mxE !inordK //= mul1r !mul0r !addr0. Qed.
Lemma hJ1 (v w : 'cV[R]_3) : (hJl v *m w) i1 0 = w i1 0.
Proof. by rewrite mul3 !mxE !inordK //= mul1r !mul0r addr0 add0r. Qed.
Lemma hJ2 (v w : 'cV[R]_3) : (hJl v *m w) i2 0 = w i2 0 + (v i0 0 * w i1 0 - v i1 0 * w i0 0) / 2%:R.
Proof. by rewrite mul3 !mxE !inordK //=; rng. Qed.
Lemma heisenberg_lie : lie_laws (@hExp R) (@hAd R) (@hinv R) hJl hhat (@hG R).
Proof.
have two : 2%:R != 0 :> R by rewrite pnatr_eq0.
split; first exact: heisenberg_laws.
- move=> _ v [a [b [c ->]]]; rewrite /hinv h01E h12E h02E /hExp !hmxM hAd0 hAd1 hAd2.
  by congr hmx; rng.
- move=> _ v [a [b [c ->]]]; rewrite /hinv h01E h12E h02E /hhat hAd0 hAd1 hAd2.
  apply/matrixP=> i j; rewrite !mxE !big_ord_recl big_ord0 !mxE !big_ord_recl !big_ord0 !mxE.
  by case: i => [[|[|[|//]]] ?]; case: j => [[|[|[|//]]] ?] /=; rng.
- move=> a b v; rewrite /hExp hmxM !mxE; congr hmx; rewrite ?mulrDl //.
  by apply: (mulIf two); rewrite !mulrDl !divfK //; rng.
- apply/matrixP=> i j; rewrite !mxE oppr0 mul0r.
  by case: i => [[|[|[|//]]] ?]; case: j => [[|[|[|//]]] ?].
move=> v w; rewrite /hExp /hhat hJ0 hJ1 hJ2 !mxE.
set a := v i0 0; set b := v i1 0; set c := v i2 0; set p := w i0 0; set q := w i1 0; set r := w i2 0.
move=> i j; apply: (@eq_deriv _ (fun t => nth 0 (nth [::]
   [:: [:: 1; a + t * p; c + t * r + (a + t * p) * (b + t * q) / 2%:R]; [:: 0; 1; b + t * q]; [:: 0; 0; 1]] i) j)).
  by move=> t; rewrite !mxE.
have L (x y : R) : is_deriv (fun t => x + t * y) y.
  by have := derivD (deriv_const x) (derivZ y (@deriv_id R)); rewrite add0r mulr1; apply: eq_deriv => t; rewrite [t * y]mulrC.
have C x y : y = 0 -> is_deriv (fun=> x : R) y by move=> ->; exact: deriv_const.
have F x y f : y = x -> is_deriv f x -> is_deriv f (y : R) by move=> ->.
rewrite !mxE !big_ord_recl big_ord0 !mxE.
case: i => [[|[|[|//]]] ?]; case: j => [[|[|[|//]]] ?] /=;
 try (by apply: C; rng); try (by apply: (F _ _ _ _ (L _ _)); rng).
apply: (F (r + (p * (b + 0 * q) + (a + 0 * p) * q) / 2%:R)).
  have hh : 2%:R^-1 + 2%:R^-1 = 1 :> R by have := splitr (1 : R); rewrite !mul1r => <-.
  move: hh; set h := 2%:R^-1 => hh.
  transitivity (r + (- (a * q) + b * p) * h + a * q * (h + h)); first by rewrite hh; rng.
  rng.
apply: derivD; first exact: L.
have := derivZ (2%:R^-1) (derivM (L a p) (L b q)); rewrite [_^-1 * (_ + _)]mulrC.
by apply: eq_deriv => t; rewrite mulrC.
Qed.
Lemma hhat_inj (v w : 'cV[R]_3) : hhat v = hhat w -> v = w.
Proof.
move=> e; apply/matrixP => z k; rewrite ord1 -[z]inord_val.
have := congr1 (fun M : 'M[R]_3 => M i0 i1) e; have := congr1 (fun M : 'M[R]_3 => M i1 i2) e.
have := congr1 (fun M : 'M[R]_3 => M i0 i2) e; rewrite !mxE !inordK //=.
by case: z => [[|[|[|//]]] ?].
Qed.
End Heisenberg.

Example C76_instance dir (Q : 'M[rat]_3) : let m := body_velocity (@hExp _) (@hAd _) (@hJl _) Q dir in
  let s := PState (hmx 1 2%:R 3%:R) None in let u := VIn (const_mx 1) 0 in
  (exists L : 'M[rat]_3, pm_cov m s u 2%:R = L *m Q *m L^T) /\
  forall dx, sval (pm_eval m (PState (gplus (@hExp _) dir (hmx 1 2%:R 3%:R) dx) None) u 2%:R) =
      gplus (@hExp _) dir (sval (pm_eval m s u 2%:R)) (pm_jac m s u 2%:R *m dx).
Proof.
split=> [|dx]; last exact: C76_jacobian (heisenberg_lie _) _ _ _ _ _ _ _.
have gX : hG (hmx 1 2%:R 3%:R : 'M[rat]_3) by do 3 eexists.
by have [L [h _]] := C76_noise (heisenberg_lie _) Q dir None (VIn (const_mx 1) 0) 2%:R gX; exists L.
Qed.

(** the documented motion T_k = exp(dt u1) T exp(dt u2) is not what is computed: the sign of
    the first input is reversed *)
Theorem C77_formula_refuted : ~ (forall (R : realFieldType) k d (Exp : 'cV[R]_d -> 'M[R]_k) Ad ginv Jl hat G,
  lie_laws Exp Ad ginv Jl hat G -> forall X u1 u2 dt, G X ->
  relvel_eval Exp X u1 u2 dt = Exp (dt *: u1) *m X *m Exp (dt *: u2)).
Proof.
move=> /(_ _ _ _ _ _ _ _ _ _ (heisenberg_lie [realFieldType of rat])) H.
have gX : hG (hmx 0 0 0 : 'M[rat]_3) by do 3 eexists.
have := H _ (const_mx 1) 0 1 gX; rewrite /relvel_eval !scale1r /hExp !hmxM => /(congr1 (@h01 _)).
by rewrite !h01E !mxE !addr0.
Qed.

(** the covariance is not the one of the two input noises: no pair of noise Jacobians that are
    right to first order gives it *)
Theorem C77_covariance_refuted : ~ (forall (R : realFieldType) k d (Exp : 'cV[R]_d -> 'M[R]_k) Ad ginv Jl hat G,
  lie_laws Exp Ad ginv Jl hat G -> forall X u1 u2 dt Q1 Q2, G X -> exists L1 L2 : 'M[R]_d,
  relvel_cov Exp Ad Jl Q1 Q2 DRight X u1 u2 dt = Ok (L1 *m Q1 *m L1^T + L2 *m Q2 *m L2^T) /\
  (forall w, exists D,
    is_mderiv (fun s => relvel_eval Exp X (u1 + s *: w) u2 dt) D /\
    is_mderiv (fun s => gplus Exp DRight (relvel_eval Exp X u1 u2 dt) (s *: (L1 *m w))) D) /\
  (forall w, exists D,
    is_mderiv (fun s => relvel_eval Exp X u1 (u2 + s *: w) dt) D /\
    is_mderiv (fun s => gplus Exp DRight (relvel_eval Exp X u1 u2 dt) (s *: (L2 *m w))) D)).
Proof.
move=> /(_ _ _ _ _ _ _ _ _ _ (heisenberg_lie [realFieldType of rat])) H.
have lw := heisenberg_lie [realFieldType of rat].
have gX : hG (hmx 1 0 0 : 'M[rat]_3) by do 3 eexists.
have [L1 [L2 [E [N1 _]]]] := H _ 0 0 1 1%:M 0 gX.
have L1E : L1 = - (1 *: hAd (hinv (hmx 1 0 0 *m hExp (1 *: 0))) *m hJl (1 *: 0)).
  apply/matrixP => i j.
  have [D [h1 h2]] := N1 (delta_mx j 0).
  have [D' [h1' h2']] := C77_noise1 lw 0 0 1 (delta_mx j 0) gX.
  have e := mderiv_uniq h1 h1'; rewrite -{}e in h2'.
  have Z (z : 'cV[[realFieldType of rat]]_3) : is_mderiv (fun s => gplus (@hExp _) DRight (relvel_eval (@hExp _) (hmx 1 0 0) 0 0 1) (s *: z))
                       (relvel_eval (@hExp _) (hmx 1 0 0) 0 0 1 *m hhat z).
    apply: mderivMl; have := ll_deriv lw 0 z; rewrite (gl_E0 (ll_group lw)) oppr0 (ll_J0 lw) !mul1mx.
    by apply: eq_mderiv => s; rewrite add0r.
  have /(congr1 (mulmx (hinv (hmx 1 0 0)))) := etrans (mderiv_uniq (Z _) h2) (esym (mderiv_uniq (Z _) h2')).
  have -> : relvel_eval (@hExp _) (hmx 1 0 0) 0 0 1 = hmx 1 0 0 :> 'M[rat]_3.
    by rewrite /relvel_eval !scaler0 oppr0 (gl_E0 (ll_group lw)) mulmx1 mul1mx.
  rewrite !mulmxA (mulmx1C (gl_mulV (ll_group lw) gX)) !mul1mx => e.
  by move/hhat_inj: e => /matrixP /(_ i 0); rewrite -!colE !mxE.
case: E; rewrite /relvel_L1 /relvel_L2 L1E !scaler0 !scale1r (gl_E0 (ll_group lw)) !mulmx1 (ll_J0 lw) !mulmx0 !mulmx1 !mul0mx !addr0.
rewrite linearN /= mulmxN mulNmx opprK => /matrixP /(_ (inord 1) (inord 2)).
rewrite /hinv h01E h12E h02E /hAd !h01E !h12E !mxE !big_ord_recl !big_ord0 !mxE /= !inordK //=.
Qed.
Print Assumptions C49_bias_flow.
Print Assumptions C76_noise.
Print Assumptions C77_covariance_refuted.
