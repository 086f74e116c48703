(** C95, instances: vector states in other coordinates, and the choice of the world frame for states on SO(2), SO(3), SE(2), SE(3), SE_2(3). *)
From Coq Require Import Reals.
From mathcomp Require Import all_ssreflect all_algebra.
From Verif Require Import Base Tac LinAlg Deriv RealStruct RealProps PSer MatExp LieExp PreintModel ImuModel ImuProps So3Model So3Props ImuJacProps PreintProps
  ModelsModel ProcessProps MeasureProps LieLaws LieReal LieRealProps EkfModel BatchKalmanModel RunFilterModel EquivarianceProps.
Set Implicit Arguments.
Unset Strict Implicit.
Unset Printing Implicit Defensive.
Import Order.Theory GRing.Theory Num.Theory.
Local Open Scope ring_scope.

Lemma related_weaken A B (S S' : A -> B -> Prop) r r' : (forall a b, S a b -> S' a b) -> related S r r' -> related S' r r'.
Proof. by move=> h; case=> [a b /h|e]; [left|right]. Qed.

Lemma orelated_weaken A B (S S' : A -> B -> Prop) r r' : (forall a b, S a b -> S' a b) -> orelated S r r' -> orelated S' r r'.
Proof. by move=> h; case=> [a b /h|]; [left|right]. Qed.

(** *** Vector states: x' = T x + b *)
Section Vector.
Variables (R : realFieldType) (n : nat) (U : Type).
Variables (T : 'M[R]_n) (b : 'cV[R]_n).
Hypothesis uT : T \in unitmx.
Notation V := 'cV[R]_n.
Definition affine (x x' : V) : Prop := x' = T *m x + b.
Definition original (s : pstate R V) : pstate R V := PState (invmx T *m (sval s - b)) (sstamp s).
(** any process model and any measurement, written for the new coordinates (and, for the
    measurement, for other coordinates W y + w of the measured quantity) *)
Definition rewritten_process (pm : process_model R V n U) : process_model R V n U :=
  ProcessModel (fun s u dt => let s' := pm_eval pm (original s) u dt in PState (T *m sval s' + b) (sstamp s'))
    (fun s u dt => T *m pm_jac pm (original s) u dt *m invmx T)
    (fun s u dt => T *m pm_cov pm (original s) u dt *m T^T).
Definition rewritten_measurement (y : measurement R V n) (W : 'M[R]_(m_dim y)) (w : 'cV[R]_(m_dim y)) : measurement R V n :=
  Measurement (W *m m_val y + w) (m_stamp y) (fun s => omap (fun a => W *m a + w) (m_eval y (original s)))
    (fun s => W *m m_jac y (original s) *m invmx T) (fun s => W *m m_cov y (original s) *m W^T).
Lemma affine_plus (v v' d : V) : affine v v' -> affine (v + d) (v' + T *m d).
Proof. by move=> ->; rewrite /affine mulmxDr addrAC. Qed.
Lemma shift0 (F : realFieldType) (t : option F) : shift 0 t = t.
Proof. by case: t => [t|] //=; rewrite addr0. Qed.
Lemma original_affine s s' : same_state 0 affine s s' -> original s' = s.
Proof. by case: s s' => [v t] [v' t'] [/= -> ->]; rewrite shift0 /original /= addrK mulKmx. Qed.
Lemma C95_rewritten_process pm : same_process 0 (@eq U) affine T pm (rewritten_process pm).
Proof. by move=> s s' u _ dt /original_affine e <-; split; rewrite /= ?e // -mulmxA mulVmx // mulmx1. Qed.
Lemma C95_rewritten_measurement y (W : 'M[R]_(m_dim y)) w : W \in unitmx -> same_measurement 0 affine T y (rewritten_measurement W w).
Proof.
case: y W w => m z t e j c /= W w uW; have := @SameMeasurement _ _ _ n 0 affine T m W w z t e j c.
by rewrite shift0; apply=> // s s' /original_affine /= ->; split=> //; rewrite -mulmxA mulVmx ?mulmx1.
Qed.
(** A run in any coordinates is the run in the original ones. *)
Theorem C95_vector_run (ustamp : U -> option R) chi2 (pm : process_model R V n U) rej (x0 : est R V n) inputs (ys : seq (measurement R V n)) ys' :
  all (fun u => ustamp u : bool) inputs -> all (fun y => m_stamp y : bool) ys ->
  List.Forall2 (fun y y' => exists (W : 'M[R]_(m_dim y)) w, W \in unitmx /\ y' = rewritten_measurement W w) ys ys' ->
  related (List.Forall2 (fun x x' : est R V n => [/\ sval (est_state x') = T *m sval (est_state x) + b,
                                       sstamp (est_state x') = sstamp (est_state x) & est_cov x' = T *m est_cov x *m T^T]))
    (run_ekf chi2 ustamp (fun v d : V => v + d) pm rej x0 inputs ys)
    (run_ekf chi2 ustamp (fun v d : V => v + d) (rewritten_process pm) rej
       (@Est R V n (PState (T *m sval (est_state x0) + b : V) (sstamp (est_state x0))) (T *m est_cov x0 *m T^T)) inputs ys').
Proof.
move=> iu iy h; set x0' : est R V n := Est _ _.
have hx : same_est 0 affine T x0 x0' by split=> //; split=> //=; rewrite shift0.
have hy : List.Forall2 (same_measurement 0 affine T) ys ys'.
  by elim: h {iy} => [|y y' l l' [W [w [uW ->]]] _ IH]; constructor=> //; exact: C95_rewritten_measurement.
have hi : List.Forall2 (@eq U) inputs inputs by elim: (inputs) => [|u l IH]; constructor.
have hs (u u' : U) : u = u' -> ustamp u' = shift 0 (ustamp u) by move=> ->; rewrite shift0.
apply: related_weaken (C95_run_filter chi2 hs affine_plus (@C95_rewritten_process pm) rej hx hi iu hy iy) => r r'.
by elim=> [|x x' l l' [[h1 h2] h3] _ IH]; constructor=> //; split=> //; rewrite h2 shift0.
Qed.
End Vector.

(** *** Matrix groups: the world frame is moved by the group element A, X' = A X *)
Section Frame.
Variable R : realFieldType.
Variables k d : nat.
Variables (Exp : 'cV[R]_d -> 'M[R]_k) (Ad : 'M[R]_k -> 'M[R]_d) (ginv : 'M[R]_k -> 'M[R]_k).
Variables (Jl : 'cV[R]_d -> 'M[R]_d) (hat : 'cV[R]_d -> 'M[R]_k) (G : 'M[R]_k -> Prop).
Hypothesis laws : lie_laws Exp Ad ginv Jl hat G.
Notation gl := (ll_group laws).
(** the states considered: those of the group with a further property kept by increments *)
Variable ok : 'M[R]_k -> Prop.
Hypothesis ok_Exp : forall X v, ok X -> ok (X *m Exp v) /\ ok (Exp v *m X).
Variable dir : direction.
Variable A : 'M[R]_k.
Hypothesis gA : G A.
Variable clk : R.
(** the same body-frame input, on a clock that is ahead by clk *)
Definition same_input (u u' : vinput R 'cV[R]_d) : Prop := vi_val u' = vi_val u /\ vi_stamp u' = vi_stamp u + clk.

Definition moved (X X' : 'M[R]_k) : Prop := [/\ G X, ok X & X' = A *m X].
(** increments in the body frame do not change, increments in the world frame turn with it *)
Definition turn : 'M[R]_d := if dir is DRight then 1%:M else Ad A.
Notation ldir := dir.

Lemma turn_unit : turn \in unitmx.
Proof.
rewrite /turn; case: (ldir); last exact: unitmx1.
have h : Ad A *m Ad (ginv A) = 1%:M by rewrite -(gl_AdM gl) // ?(gl_mulV gl) ?(gl_Ad1 gl) //; exact: (gl_V gl).
by case: (mulmx1_unit h).
Qed.
Lemma moved_plus X X' v : moved X X' -> moved (gplus Exp dir X v) (gplus Exp dir X' (turn *m v)).
Proof.
move=> [gX oX ->]; have [o1 o2] := ok_Exp v oX; rewrite /gplus /turn; case: (ldir); split=> //.
- by apply: (gl_M gl) => //; exact: (gl_E gl).
- rewrite (ll_conj laws) // !mulmxA; congr (_ *m X).
  by rewrite -mulmxA (mulmx1C (gl_mulV gl gA)) mulmx1.
- by apply: (gl_M gl) => //; exact: (gl_E gl).
by rewrite mul1mx mulmxA.
Qed.
(** BodyFrameVelocity does not see the world frame. *)
Theorem C95_body_velocity (Q : 'M[R]_d) : same_process clk same_input moved turn (body_velocity Exp Ad Jl Q dir) (body_velocity Exp Ad Jl Q dir).
Proof.
move=> [X t] [X' t'] u u' dt [[/= gX oX ->] _] [eu _]; rewrite /= eu; split=> /=.
- split; [by apply: (gl_M gl) => //; exact: (gl_E gl)|by case: (ok_Exp (dt *: vi_val u) oX)|by rewrite mulmxA].
- by rewrite /turn; case: (ldir); rewrite ?mulmx1 ?mul1mx.
have gXE : G (X *m Exp (dt *: vi_val u)) by apply: (gl_M gl) => //; exact: (gl_E gl).
rewrite /turn; case: (ldir); last by rewrite mul1mx trmx1 mulmx1.
have -> : Ad (A *m X *m Exp (dt *: vi_val u)) = Ad A *m Ad (X *m Exp (dt *: vi_val u)) by rewrite -mulmxA (gl_AdM gl).
set L := Ad (X *m _); set J := Jl _; have -> : dt *: (Ad A *m L *m J) = Ad A *m (dt *: (L *m J)) by rewrite -scalemxAr mulmxA.
by rewrite trmx_mul !mulmxA.
Qed.

(** Measurements: where the value follows the frame, so does a correct Jacobian. *)
Section Jacobian.
Variables (m : nat) (e e' : pstate R 'M[R]_k -> option 'cV[R]_m) (j j' : pstate R 'M[R]_k -> 'M[R]_(m, d)).
Variables (W : 'M[R]_m) (w : 'cV[R]_m).
Hypothesis value : forall s s', same_state clk moved s s' -> e' s' = omap (fun a => W *m a + w) (e s).
Definition derivative_at (e : pstate R 'M[R]_k -> option 'cV[R]_m) (j : pstate R 'M[R]_k -> 'M[R]_(m, d)) s := forall v,
  exists F, (forall t, e (PState (gplus Exp dir (sval s) (t *: v)) (sstamp s)) = Some (F t)) /\ is_mderiv F (j s *m v).
Theorem C95_jacobian_follows s s' : same_state clk moved s s' -> derivative_at e j s -> derivative_at e' j' s' -> j' s' *m turn = W *m j s.
Proof.
move=> hs D D'; suff E (v : 'cV[R]_d) : j' s' *m turn *m v = W *m j s *m v.
  by apply/matrixP => a c; have /matrixP /(_ a 0) := E (delta_mx c 0); rewrite -!colE !mxE.
have [F [hF dF]] := D v; have [F' [hF' dF']] := D' (turn *m v).
rewrite -!mulmxA; apply: (mderiv_uniq dF').
have := mderivD (mderivMl W dF) (mderiv_const w); rewrite addr0; apply: eq_mderiv => t.
have := hF' t; rewrite (value (s := PState (gplus Exp dir (sval s) (t *: v)) (sstamp s))) ?hF; first by case=> <-.
by case: hs => h1 h2; split=> //=; rewrite scalemxAr; exact: moved_plus.
Qed.
End Jacobian.
End Frame.

(** *** Sensors: a measurement model of navlie.lib.models, its measured value and its noise *)
Bind Scope ring_scope with Rdefinitions.R.
Local Notation Re := Rdefinitions.R.
Local Notation Rf := [realFieldType of Re].
Local Notation Rc := [rcfType of Re].
Section Sensors.
Variables (N n kk d : nat) (Gr : attgroup Rc n kk) (view : mstate Rc N -> pose Rc n kk d).
Variables (hat : 'cV[Re]_d -> 'M[Re]_N) (vee : 'M[Re]_N -> 'cV[Re]_d) (valid : mstate Rc N -> Prop).
Definition sensor m (ev : pose Rc n kk d -> result 'cV[Re]_m) (jc : pose Rc n kk d -> result 'M[Re]_(m, d)) (S : 'M[Re]_m)
    dir (z : 'cV[Re]_m) (t : option Re) : measurement Rf 'M[Re]_N d :=
  @Measurement Rf 'M[Re]_N d m z t (fun s => if ev (view (MState (sval s : 'M[Rc]_N) dir)) is Ok y then Some y else None)
    (fun s => if jc (view (MState (sval s : 'M[Rc]_N) dir)) is Ok J then J else 0) (fun _ => S).

(** The same sensor and reading when the world frame is moved by (C0, r0), v0 the velocity of the origin, and the clock is ahead by clk. *)
Inductive moved_sensor dir (clk : Re) (vel : bool) (C0 : 'M[Re]_n) (r0 v0 : 'cV[Re]_n) : measurement Rf 'M[Re]_N d -> measurement Rf 'M[Re]_N d -> Prop :=
  | MovedRelpos l S z t : (* landmark *)
      moved_sensor dir clk vel C0 r0 v0 (sensor (relpos_eval l) (relpos_jac Gr l) S dir z t)
        (sensor (relpos_eval (C0 *m l + r0)) (relpos_jac Gr (C0 *m l + r0)) S dir z (shift clk t))
  | MovedRange a tag S z t : (* anchor *)
      moved_sensor dir clk vel C0 r0 v0 (sensor (range_anchor_eval a tag) (range_anchor_jac Gr a tag) S dir z t)
        (sensor (range_anchor_eval (C0 *m a + r0) tag) (range_anchor_jac Gr (C0 *m a + r0) tag) S dir z (shift clk t))
  | MovedAbspos S z t : (* position in the world frame *)
      moved_sensor dir clk vel C0 r0 v0 (sensor (@abspos_eval Rc n kk d) (abspos_jac Gr) S dir z t)
        (sensor (@abspos_eval Rc n kk d) (abspos_jac Gr) (C0 *m S *m C0^T) dir (C0 *m z + r0) (shift clk t))
  | MovedAbsvel S z t : vel -> (* velocity in the world frame *)
      moved_sensor dir clk vel C0 r0 v0 (sensor (@absvel_eval Rc n kk d) (absvel_jac Gr) S dir z t)
        (sensor (@absvel_eval Rc n kk d) (absvel_jac Gr) (C0 *m S *m C0^T) dir (C0 *m z + v0) (shift clk t))
  | MovedField g S z t : (* gravity, magnetic field *)
      moved_sensor dir clk vel C0 r0 v0 (sensor (vector_eval g) (vector_jac Gr g) S dir z t)
        (sensor (vector_eval (C0 *m g)) (vector_jac Gr (C0 *m g)) S dir z (shift clk t)).

Hypothesis la : lie_algebra hat vee.
Notation Exp := (gExp hat). Notation Ad := (gAd hat vee).
Notation laws := (real_lie_laws la).
Notation K := (@Kind Rc (mstate Rc N) n kk d Gr view (mplus (gExp hat)) valid).
Hypothesis hK : pose_state K.
Variable dir : direction.
Definition vok (X : 'M[Re]_N) : Prop := valid (MState (X : 'M[Rc]_N) dir).
Hypothesis vok_Exp : forall X v, vok X -> vok (X *m Exp v) /\ vok (Exp v *m X).
Variable clk : Re.
Variables (A : 'M[Re]_N) (C0 : 'M[Re]_n) (r0 v0 : 'cV[Re]_n).
Hypothesis gA : inG hat A.
Hypothesis oC0 : C0^T *m C0 = 1%:M.
Hypothesis vA : forall X, vok X -> vok (A *m X).
Notation vw X := (view (MState (X : 'M[Rc]_N) dir)).
Hypothesis f_att : forall X, vok X -> p_att (vw (A *m X)) = C0 *m p_att (vw X).
Hypothesis f_pos : forall X, vok X -> exists r, p_pos (vw X) = Some r /\ p_pos (vw (A *m X)) = Some (C0 *m r + r0).
Hypothesis f_dir : forall X, p_dir (vw X) = dir.
Hypothesis f_jfb : forall X, @p_jfb _ _ _ _ (view X) 1 (Some 0) (Some 0) None = Ok 0.
Variable vel : bool.
Hypothesis hvel : vel -> vel_state K.
Hypothesis f_vel : vel -> forall X, vok X -> exists v, p_vel (vw X) = Some v /\ p_vel (vw (A *m X)) = Some (C0 *m v + v0).
Notation mv := (moved (inG hat) vok A).
Notation tn := (turn Ad dir A).

Lemma uC0 : C0 \in unitmx. Proof. by case: (mulmx1_unit oC0). Qed.
Lemma mvV X X' : mv X X' -> vok X /\ vok X'. Proof. by move=> [_ o ->]; split=> //; exact: vA. Qed.

Lemma sensor_same m (ev ev' : pose Rc n kk d -> result 'cV[Re]_m) jc jc' S z t (W : 'M[Re]_m) w : W \in unitmx ->
  (forall X X', mv X X' -> exists a, ev (vw X) = Ok a /\ ev' (vw X') = Ok (W *m a + w)) ->
  (forall X X', mv X X' -> (@jacobian_correct Rc K m ev jc (MState (X : 'M[Rc]_N) dir) /\ @jacobian_correct Rc K m ev' jc' (MState (X' : 'M[Rc]_N) dir))
     \/ (jc (vw X) = Ok 0 /\ jc' (vw X') = Ok 0)) ->
  @same_measurement Rf _ _ _ clk mv tn (sensor ev jc S dir z t) (sensor ev' jc' (W *m S *m W^T) dir (W *m z + w) (shift clk t)).
Proof.
move=> uW hv hj.
have E (s s' : pstate Rf 'M[Re]_N) : @same_state Rf _ _ clk mv s s' -> (if ev' (vw (sval s')) is Ok y then Some y else None) =
   omap (fun a => W *m a + w) (if ev (vw (sval s)) is Ok y then Some y else None).
  by move=> [/hv [a [-> ->]] _].
split=> // s s' hs; split=> //; first exact: E.
have [[D D']|[-> ->]] := hj _ _ hs.1; last by rewrite mul0mx mulmx0.
have C ev0 jc0 (s0 : pstate Rf 'M[Re]_N) : @jacobian_correct Rc K m ev0 jc0 (MState (sval s0 : 'M[Rc]_N) dir) ->
   @derivative_at Rf N d Exp dir m (fun s => if ev0 (vw (sval s)) is Ok y then Some y else None) (fun s => if jc0 (vw (sval s)) is Ok J then J else 0) s0.
  move=> [J [/= eJ H]] v; have [F [/= hF dF]] := H v; exists F; rewrite eJ; split=> // u.
  by have := hF u; rewrite /gplus /mplus /=; case: (dir) => ->.
exact: (C95_jacobian_follows laws vok_Exp gA E hs (C _ _ _ D) (C _ _ _ D')).
Qed.

Lemma sensor_same1 m (ev ev' : pose Rc n kk d -> result 'cV[Re]_m) jc jc' S z t :
  (forall X X', mv X X' -> exists a, ev (vw X) = Ok a /\ ev' (vw X') = Ok a) ->
  (forall X X', mv X X' -> (@jacobian_correct Rc K m ev jc (MState (X : 'M[Rc]_N) dir) /\ @jacobian_correct Rc K m ev' jc' (MState (X' : 'M[Rc]_N) dir))
     \/ (jc (vw X) = Ok 0 /\ jc' (vw X') = Ok 0)) ->
  @same_measurement Rf _ _ _ clk mv tn (sensor ev jc S dir z t) (sensor ev' jc' S dir z (shift clk t)).
Proof.
move=> hv hj; have := @sensor_same m ev ev' jc jc' S z t 1%:M 0 (unitmx1 _ _) _ hj.
rewrite trmx1 mulmx1 !mul1mx addr0; apply=> X X' /hv [a [e e']]; exists a; by rewrite e e' mul1mx addr0.
Qed.
Lemma attC X : vok X -> (p_att (vw (A *m X)))^T *m C0 = (p_att (vw X))^T.
Proof. by move=> o; rewrite f_att // trmx_mul -mulmxA oC0 mulmx1. Qed.
Lemma norm2_C0 (v : 'cV[Re]_n) : @norm2 Rc n (C0 *m v) = @norm2 Rc n v.
Proof.
have E (u : 'cV[Re]_n) : @norm2 Rc n u = Num.sqrt ((u^T *m u) 0 0) by congr Num.sqrt; rewrite mxE; apply: eq_bigr => i _; rewrite !mxE expr2.
by rewrite !E trmx_mul -!mulmxA [C0^T *m _]mulmxA oC0 mul1mx.
Qed.
Lemma sensor_moved y y' : moved_sensor dir clk vel C0 r0 v0 y y' -> @same_measurement Rf _ _ _ clk mv tn y y'.
Proof.
case=> [l S z t|a tag S z t|S z t|S z t hv|g S z t].
- apply: sensor_same1.
    move=> X X' [gX oX ->]; have [r [e e']] := f_pos oX; rewrite /relpos_eval e e' /=; eexists; split; first by [].
    congr Ok; rewrite -(attC oX) -mulmxA; congr (_ *m _).
    by rewrite mulmxBr; zmod.
  by move=> X X' /mvV [o o']; left; split; exact: C50_relative_position.
- apply: sensor_same1.
    move=> X X' [gX oX ->]; have [r [e e']] := f_pos oX; rewrite /range_anchor_eval e e' /=; eexists; split; first by [].
    congr Ok; congr (_%:M); rewrite f_att //.
    have -> : C0 *m p_att (vw X) *m tag + (C0 *m r + r0) - (C0 *m a + r0) = C0 *m (p_att (vw X) *m tag + r - a).
      by rewrite mulmxBr mulmxDr !mulmxA; zmod.
    exact: norm2_C0.
  move=> X X' h; have [o o'] := mvV h; case: h => gX _ eX; have [r [e e']] := f_pos o.
  have mE : C0 *m p_att (vw X) *m tag + (C0 *m r + r0) - (C0 *m a + r0) = C0 *m (p_att (vw X) *m tag + r - a).
    by rewrite mulmxBr mulmxDr !mulmxA; zmod.
  have [q0|q0] := eqVneq (p_att (vw X) *m tag + r) a.
    right; split.
      rewrite /range_anchor_jac e /= q0 subrr scaler0 trmx0 f_dir; case: (dir); rewrite !mul0mx; exact: f_jfb.
    rewrite eX /range_anchor_jac e' /= f_att // mE q0 subrr mulmx0 scaler0 trmx0 f_dir; case: (dir); rewrite !mul0mx; exact: f_jfb.
  left; split; first by apply: (@C50_range_to_anchor Rc K a tag (MState (X : 'M[Rc]_N) dir) r).
  apply: (@C50_range_to_anchor Rc K _ tag (MState (X' : 'M[Rc]_N) dir) (C0 *m r + r0)) => //; first by rewrite eX.
  rewrite eX /= f_att // -subr_eq0 mE; apply: contraNneq q0 => /(congr1 (mulmx C0^T)).
  by rewrite mulmxA oC0 mul1mx mulmx0 => /eqP; rewrite subr_eq0 => /eqP ->.
- apply: sensor_same; first exact: uC0.
    by move=> X X' [gX oX ->]; have [r [e e']] := f_pos oX; rewrite /abspos_eval e e'; exists r.
  by move=> X X' /mvV [o o']; left; split; exact: C50_absolute_position.
- apply: sensor_same; first exact: uC0.
    by move=> X X' [gX oX ->]; have [r [e e']] := f_vel hv oX; rewrite /absvel_eval e e'; exists r.
  by move=> X X' /mvV [o o']; left; split; apply: C50_absolute_velocity => //; exact: hvel.
apply: sensor_same1.
  move=> X X' [gX oX ->]; rewrite /vector_eval; eexists; split; first by [].
  by rewrite mulmxA attC.
by move=> X X' /mvV [o o']; left; split; apply: C50_field_vector => //; exact: (PK_pose hK).
Qed.

End Sensors.

(** *** The groups: increments stay in the group *)
Lemma expm_skew n (W : 'M[Re]_n) : W^T = - W -> expm W *m (expm W)^T = 1%:M.
Proof. by move=> h; rewrite -expm_tr h expmVr. Qed.
Lemma expm_last n (W : 'M[Re]_n) (b : 'cV[Re]_n) : exists r, expm (block_mx W b 0 0 : 'M[Re]_(n + 1)) = block_mx (expm W) r 0 1%:M.
Proof.
set X := block_mx _ _ _ _; exists (ursubmx (expm X)); rewrite -[LHS]submxK; congr block_mx.
- have := @ode_unique_r n n W (fun t => ulsubmx (expm (t *: X))).
  move=> /(_ _ 1); rewrite scale0r expm0 scalar_mx_block block_mxKul mul1mx !scale1r; apply=> {}t.
  have := mderiv_ul (expm_deriv_r X t).
  by rewrite -{1}(submxK (expm (t *: _))) mulmx_block block_mxKul mulmx0 addr0.
- have D (t : Re) : is_mderiv (fun h => (row_mx 0 1%:M : 'M[Re]_(1, n + 1)) *m expm ((t + h) *: X)) 0.
    have := mderivMl (row_mx 0 1%:M : 'M[Re]_(1, n + 1)) (expm_deriv X t).
    by rewrite mulmxA mul_row_block !mul0mx !mulmx0 !addr0 row_mx0 mul0mx.
  have := mconst_of_deriv (F := fun t => (row_mx 0 1%:M : 'M[Re]_(1, n + 1)) *m expm (t *: X)) D 1.
  rewrite scale1r scale0r expm0 mulmx1 -{1}[expm X]submxK mul_row_block !mul0mx !mul1mx !add0r.
  by case/eq_row_mx.
have D (t : Re) : is_mderiv (fun h => (row_mx 0 1%:M : 'M[Re]_(1, n + 1)) *m expm ((t + h) *: X)) 0.
  have := mderivMl (row_mx 0 1%:M : 'M[Re]_(1, n + 1)) (expm_deriv X t).
  by rewrite mulmxA mul_row_block !mul0mx !mulmx0 !addr0 row_mx0 mul0mx.
have := mconst_of_deriv (F := fun t => (row_mx 0 1%:M : 'M[Re]_(1, n + 1)) *m expm (t *: X)) D 1.
rewrite scale1r scale0r expm0 mulmx1 -{1}[expm X]submxK mul_row_block !mul0mx !mul1mx !add0r.
by case/eq_row_mx.
Qed.
Lemma se_exp_valid n k (Gr : attgroup Rc n k) dir v : (forall a, (ag_wedge Gr a)^T = - ag_wedge Gr a) ->
  @se_valid Rc n (MState (gExp (se_hat Gr) v : 'M[Rc]_(n + 1)) dir).
Proof.
move=> sk; have [r e] := expm_last (ag_wedge Gr (usubmx v)) (dsubmx v).
exists (expm (ag_wedge Gr (usubmx v))), r; split; last exact: e.
by apply: mulmx1C; apply: expm_skew; exact: sk.
Qed.
Lemma se_valid_mul n dir (X Y : 'M[Rc]_(n + 1)) : se_valid (MState X dir) -> se_valid (MState Y dir) -> se_valid (MState (X *m Y) dir).
Proof.
move=> [C [r [h /= ->]]] [S [q [h' /= ->]]]; exists (C *m S), (C *m q + r); split.
  by rewrite trmx_mul -mulmxA [C^T *m _]mulmxA h mul1mx h'.
by rewrite mulmx_block !mulmx0 !mul0mx !mulmx1 !addr0 !add0r.
Qed.
Lemma se23_exp_valid dir v : @se23_valid Rc (MState (gExp wedge9R v : 'M[Rc]_(3 + (1 + 1))) dir).
Proof.
rewrite -se23Exp_expm; eexists; eexists; eexists; split; last by rewrite /= /se23Exp; reflexivity.
by apply: mulmx1C; case: (so3_rot (usubmx v)).
Qed.
Lemma se23_valid_mul dir (X Y : 'M[Rc]_(3 + (1 + 1))) : se23_valid (MState X dir) -> se23_valid (MState Y dir) -> se23_valid (MState (X *m Y) dir).
Proof.
move=> [C [a [b [h /= ->]]]] [S [c [e [h' /= ->]]]]; exists (C *m S), (C *m c + a), (C *m e + b); split.
  by rewrite trmx_mul -mulmxA [C^T *m _]mulmxA h mul1mx h'.
by rewrite ie3M !scale0r !addr0.
Qed.

(** *** Moving the world frame by (C0, r0) (by (C0, v0, r0) for extended poses) *)
Inductive nav_frame : forall N n kk d (Gr : attgroup Rc n kk), (mstate Rc N -> pose Rc n kk d) ->
    ('cV[Re]_d -> 'M[Re]_N) -> ('M[Re]_N -> 'cV[Re]_d) -> ('M[Re]_N -> Prop) -> bool -> 'M[Re]_n -> 'cV[Re]_n -> 'cV[Re]_n -> 'M[Re]_N -> Prop :=
  | NF_SE2 C0 r0 v0 : orthogonal C0 -> nav_frame so2R (@se_view Rc 2 1) (se_hat so2R) (se_vee vee2) (rigid (@orthogonal 2)) false C0 r0 v0 (block_mx C0 r0 0 1%:M)
  | NF_SE3 C0 r0 v0 : @rot Rf C0 -> nav_frame so3R (@se_view Rc 3 3) (se_hat so3R) (se_vee vee3) (rigid (@rot Rf)) false C0 r0 v0 (block_mx C0 r0 0 1%:M)
  | NF_SE23 C0 v0 r0 : @rot Rf C0 -> nav_frame so3R (@se23_view Rc) wedge9R vee9 (@in_SE23 Rf) true C0 r0 v0 (@ie3 Rf C0 v0 r0 0).

Lemma so2_skew (a : 'cV[Re]_1) : (ag_wedge so2R a)^T = - ag_wedge so2R a.
Proof.
by apply/matrixP => i j; rewrite !mxE; case: i => [[|[|//]] ?]; case: j => [[|[|//]] ?]; rewrite /= ?opprK ?oppr0.
Qed.

Lemma nav_frame_sensors N n kk d (Gr : attgroup Rc n kk) (view : mstate Rc N -> pose Rc n kk d) (hat : 'cV[Re]_d -> 'M[Re]_N) vee group vel C0 r0 v0 (A : 'M[Re]_N) clk dir :
  nav_frame Gr view hat vee group vel C0 r0 v0 A -> exists ok : 'M[Re]_N -> Prop,
  [/\ lie_algebra hat vee, inG hat A, forall X, group X -> inG hat X /\ ok X,
      forall X v, ok X -> ok (X *m gExp hat v) /\ ok (gExp hat v *m X) &
      forall y y', moved_sensor Gr view dir clk vel C0 r0 v0 y y' ->
        @same_measurement Rf _ _ _ clk (moved (inG hat) ok A) (turn (gAd hat vee) dir A) y y'].
Proof.
have jfb0 (n' k' : nat) (X : mstate Rc (n' + 1)) : @p_jfb Rc n' k' (k' + n') (se_view k' X) 1 (Some 0) (Some 0) None = Ok 0 by rewrite /= row_mx0.
have [[_ k2 k3] [k23 _]] := C50_real_groups.
case=> {N n kk d Gr view hat vee group vel C0 r0 v0 A} [C0 r0 v0 h|C0 r0 v0 h|C0 v0 r0 h].
- have [ll sub] := C76_real_groups L_SE2.
  have oC : C0^T *m C0 = 1%:M by exact: mulmx1C.
  have vA : @se_valid Rc 2 (MState (block_mx C0 r0 0 1%:M : 'M[Rc]_(2 + 1)) dir) by exists C0, r0.
  have cl X w (hX : vok (@se_valid Rc 2) dir X) : vok (@se_valid Rc 2) dir (X *m gExp (se_hat so2R) w) /\ vok (@se_valid Rc 2) dir (gExp (se_hat so2R) w *m X).
    by have hE := se_exp_valid dir w so2_skew; split; exact: se_valid_mul.
  exists (vok (@se_valid Rc 2) dir); split=> //.
  + exact: (se_algebra so2_algebra).
  + by apply: sub; exists C0, r0.
  + move=> X gX; split; first exact: sub.
    by case: gX => [C [r [hC ->]]]; exists C, r; split=> //; exact: mulmx1C.
  move=> y y'; apply: (@sensor_moved _ _ _ _ so2R (@se_view Rc 2 1) (se_hat so2R) (se_vee vee2) (@se_valid Rc 2) (se_algebra so2_algebra) k2 dir cl clk _ C0 r0 v0 _ oC _ _ _ _ _ false) => //.
  + by apply: sub; exists C0, r0.
  + by move=> X hX; exact: se_valid_mul.
  + by move=> X [C [r [_ /= ->]]]; rewrite mulmx_block /= !block_mxKul mulmx0 addr0.
  by move=> X [C [r [_ /= ->]]]; exists r; rewrite mulmx_block /= !block_mxKur mulmx1.
- have [ll sub] := C76_real_groups L_SE3.
  have oC : C0^T *m C0 = 1%:M by apply: mulmx1C; case: h.
  have vA : @se_valid Rc 3 (MState (block_mx C0 r0 0 1%:M : 'M[Rc]_(3 + 1)) dir) by exists C0, r0.
  have cl X w (hX : vok (@se_valid Rc 3) dir X) : vok (@se_valid Rc 3) dir (X *m gExp (se_hat so3R) w) /\ vok (@se_valid Rc 3) dir (gExp (se_hat so3R) w *m X).
    by have hE := se_exp_valid (Gr := so3R) dir w wedgeTR; split; exact: se_valid_mul.
  exists (vok (@se_valid Rc 3) dir); split=> //.
  + exact: (@se_algebra _ _ so3R vee3 so3_algebra).
  + by apply: sub; exists C0, r0.
  + move=> X gX; split; first exact: sub.
    by case: gX => [C [r [[hC _] ->]]]; exists C, r; split=> //; exact: mulmx1C.
  move=> y y'; apply: (@sensor_moved _ _ _ _ so3R (@se_view Rc 3 3) (se_hat so3R) (se_vee vee3) (@se_valid Rc 3) (@se_algebra _ _ so3R vee3 so3_algebra) k3 dir cl clk _ C0 r0 v0 _ oC _ _ _ _ _ false) => //.
  + by apply: sub; exists C0, r0.
  + by move=> X hX; exact: se_valid_mul.
  + by move=> X [C [r [_ /= ->]]]; rewrite mulmx_block /= !block_mxKul mulmx0 addr0.
  by move=> X [C [r [_ /= ->]]]; exists r; rewrite mulmx_block /= !block_mxKur mulmx1.
have [ll sub] := C76_real_groups L_SE23.
have oC : C0^T *m C0 = 1%:M by apply: mulmx1C; case: h.
have vA : @se23_valid Rc (MState (ie3 C0 v0 r0 0 : 'M[Rc]_(3 + (1 + 1))) dir) by exists C0, v0, r0.
have cl X w (hX : vok (@se23_valid Rc) dir X) : vok (@se23_valid Rc) dir (X *m gExp wedge9R w) /\ vok (@se23_valid Rc) dir (gExp wedge9R w *m X).
  by have hE := se23_exp_valid dir w; split; exact: se23_valid_mul.
exists (vok (@se23_valid Rc) dir); split=> //.
+ exact: se23_algebra.
+ by apply: sub; exists C0, v0, r0.
+ move=> X gX; split; first exact: sub.
  by case: gX => [C [a [b [[hC _] ->]]]]; exists C, a, b; split=> //; exact: mulmx1C.
move=> y y'; apply: (@sensor_moved _ _ _ _ so3R (@se23_view Rc) wedge9R vee9 (@se23_valid Rc) se23_algebra (PK_vel k23) dir cl clk _ C0 r0 v0 _ oC _ _ _ _ _ true) => //.
+ by apply: sub; exists C0, v0, r0.
+ by move=> X hX; exact: se23_valid_mul.
+ by move=> X [C [a [b [_ /= ->]]]]; rewrite ie3M /= /ie3 !block_mxKul.
+ by move=> X [C [a [b [_ /= ->]]]]; exists b; rewrite ie3M /= /ie3 !block_mxKur !row_mxKr scale0r addr0.
+ by move=> X; rewrite /= !row_mx0.
by move=> _ X [C [a [b [_ /= ->]]]]; exists a; rewrite ie3M /= /ie3 !block_mxKur !row_mxKl.
Qed.

(** C95: the same filter, on the same odometry and the same sensor readings, in a world frame
    moved by A and on a clock that is ahead by clk: the estimates are those of the first run moved by A, and the covariance is the
    same for states perturbed on the right, and turned by the adjoint of A for states
    perturbed on the left; if one run raises, so does the other. *)
Theorem C95_world_frame N n kk d (Gr : attgroup Rc n kk) (view : mstate Rc N -> pose Rc n kk d) (hat : 'cV[Re]_d -> 'M[Re]_N) vee group vel C0 r0 v0 (A : 'M[Re]_N) :
  nav_frame Gr view hat vee group vel C0 r0 v0 A ->
  forall dir clk chi2 (Q : 'M[Re]_d) rej X0 P0 t0 inputs ys ys', group X0 -> all (fun y => m_stamp y : bool) ys ->
  List.Forall2 (moved_sensor Gr view dir clk vel C0 r0 v0) ys ys' ->
  let T := if dir is DRight then 1%:M else gAd hat vee A in
  let run := run_ekf chi2 (fun u : vinput Rf 'cV[Re]_d => Some (vi_stamp u)) (gplus (gExp hat) dir)
               (body_velocity (gExp hat) (gAd hat vee) (ljac hat vee) Q dir) rej in
  related (List.Forall2 (fun x x' => [/\ sval (est_state x') = A *m sval (est_state x),
                                       sstamp (est_state x') = shift clk (sstamp (est_state x)) & est_cov x' = T *m est_cov x *m T^T]))
    (run (Est (PState X0 t0) P0) inputs ys)
    (run (Est (PState (A *m X0) (shift clk t0)) (T *m P0 *m T^T)) [seq VIn (vi_val u) (vi_stamp u + clk) | u <- inputs] ys').
Proof.
move=> nf dir clk chi2 Q rej X0 P0 t0 inputs ys ys' g0 iy h T run.
have [ok [la gA hg cl hs]] := nav_frame_sensors clk dir nf; have [G0 o0] := hg _ g0.
set x' := Est (PState (A *m X0) _) _; pose mv := moved (inG hat) ok A.
have hx : @same_est Rf _ _ _ clk mv T (Est (PState X0 t0) P0) x' by split; [split|].
have hy : List.Forall2 (@same_measurement Rf _ _ _ clk mv T) ys ys'.
  by elim: h {iy} => [|y y' l l' h _ IH]; constructor=> //; exact: hs.
have hi : List.Forall2 (@same_input Rf d clk) inputs [seq VIn (vi_val u) (vi_stamp u + clk) | u <- inputs].
  by elim: (inputs) => [|u l IH]; constructor.
have iu : all (fun u : vinput Rf 'cV[Re]_d => Some (vi_stamp u) : bool) inputs by elim: (inputs).
have hst (u u' : vinput Rf 'cV[Re]_d) : same_input clk u u' -> Some (vi_stamp u') = shift clk (Some (vi_stamp u)) by move=> [_ ->].
have hp := C95_body_velocity (real_lie_laws la) cl dir gA (clk := clk) Q.
apply: related_weaken (C95_run_filter chi2 hst (moved_plus (real_lie_laws la) cl dir gA) hp rej hx hi iu hy iy) => r r'.
by elim=> [|x x1 l l' [[[_ _ h1] h2] h3] _ IH]; constructor.
Qed.

(** One correction of the iterated filter, for states perturbed on the right. *)
Theorem C95_world_frame_iekf N n kk d (Gr : attgroup Rc n kk) (view : mstate Rc N -> pose Rc n kk d) (hat : 'cV[Re]_d -> 'M[Re]_N) vee group vel C0 r0 v0 (A : 'M[Re]_N) :
  nav_frame Gr view hat vee group vel C0 r0 v0 A ->
  forall (Log : 'M[Re]_N -> 'cV[Re]_d) (J : 'cV[Re]_d -> 'M[Re]_d) norm chi2 (Q : 'M[Re]_d) step_tol line_search iters fuel rej clk X P t u y y', group X ->
  moved_sensor Gr view DRight clk vel C0 r0 v0 y y' ->
  let ahead (u : vinput Rf 'cV[Re]_d) := VIn (vi_val u) (vi_stamp u + clk) in
  let correct := iekf_correct (gplus (gExp hat) DRight) (fun u : vinput Rf 'cV[Re]_d => Some (vi_stamp u))
       (body_velocity (gExp hat) (gAd hat vee) (ljac hat vee) Q DRight) chi2
       (fun X Y => Log (invmx Y *m X)) (fun _ d => J d) norm step_tol line_search iters fuel in
  orelated (related (fun x x' => [/\ sval (est_state x') = A *m sval (est_state x),
                                    sstamp (est_state x') = shift clk (sstamp (est_state x)) & est_cov x' = est_cov x]))
    (correct (Est (PState X t) P) y u None rej) (correct (Est (PState (A *m X) (shift clk t)) P) y' (omap ahead u) None rej).
Proof.
move=> nf Log J norm chi2 Q step_tol line_search iters fuel rej clk X P t u y y' g0 h ahead correct.
have [ok [la gA hg cl hs]] := nav_frame_sensors clk DRight nf; have [G0 o0] := hg _ g0.
pose mv := moved (inG hat) ok A.
have hx : @same_est Rf _ _ _ clk mv 1%:M (Est (PState X t) P) (Est (PState (A *m X) (shift clk t)) P) by split; [split|rewrite /= mul1mx trmx1 mulmx1].
have hp := C95_body_velocity (real_lie_laws la) cl DRight gA (clk := clk) Q.
have hst (p q : vinput Rf 'cV[Re]_d) : same_input clk p q -> Some (vi_stamp q) = shift clk (Some (vi_stamp p)) by move=> [_ ->].
have hu : orelated (same_input clk) u (omap ahead u) by case: (u) => [v|]; [left|right].
have hmi a a' b b' : mv a a' -> mv b b' -> Log (invmx b' *m a') = 1%:M *m Log (invmx b *m a).
  move=> [_ _ ->] [[ub _ _] _ ->]; case: gA => uA _ _; rewrite mul1mx; congr Log.
  have -> : invmx (A *m b) = invmx b *m invmx A.
    have uAb : A *m b \in unitmx by rewrite unitmx_mul uA.
    by rewrite -[LHS]mulmx1 -(mulmxV uA) -{2}[A]mulmx1 -(mulmxV ub) !mulmxA -(mulmxA _ A b) mulVmx // mul1mx.
  by rewrite mulmxA -(mulmxA _ (invmx A)) mulVmx // mulmx1.
have := C95_iekf_correct chi2 hst (unitmx1 _ d)
  (moved_plus (real_lie_laws la) cl DRight gA) hp step_tol line_search hmi
  (plus_jac := fun _ d => J d) (plus_jac' := fun _ d => J d) _ (norm := norm) _ iters fuel rej hx (hs _ _ h) hu (RelNone _).
have hj (v v' : 'M[Re]_N) (d0 : 'cV[Re]_d) : mv v v' -> J (1%:M *m d0) *m 1%:M = 1%:M *m J d0 by rewrite !mul1mx mulmx1.
have hn (d0 : 'cV[Re]_d) : norm (1%:M *m d0) = norm d0 by rewrite mul1mx.
move=> /(_ hj hn); apply: orelated_weaken => r r'; apply: related_weaken => x x' [[[_ _ h1] h2] h3].
by split=> //; rewrite h3 /turn mul1mx trmx1 mulmx1.
Qed.

(** The hypotheses are met: any pose on SE(3), seen from a frame moved by any rotation and translation, with a landmark and a position sensor. *)
Example C95_world_frame_witness (phi : 'cV[Re]_3) r0 psi r l z S t clk : let C0 := so3Exp phi : 'M[Re]_3 in
  [/\ nav_frame so3R (@se_view Rc 3 3) (se_hat so3R) (se_vee vee3) (rigid (@rot Rf)) false C0 r0 0 (block_mx C0 r0 0 1%:M),
      rigid (@rot Rf) (block_mx (so3Exp psi : 'M[Re]_3) r 0 1%:M) &
      List.Forall2 (moved_sensor so3R (@se_view Rc 3 3) DLeft clk false C0 r0 0)
        [:: sensor (@se_view Rc 3 3) (relpos_eval l) (relpos_jac so3R l) S DLeft z t; sensor (@se_view Rc 3 3) (@abspos_eval Rc 3 3 _) (abspos_jac so3R) S DLeft z t]
        [:: sensor (@se_view Rc 3 3) (relpos_eval (C0 *m l + r0)) (relpos_jac so3R (C0 *m l + r0)) S DLeft z (shift clk t);
            sensor (@se_view Rc 3 3) (@abspos_eval Rc 3 3 _) (abspos_jac so3R) (C0 *m S *m C0^T) DLeft (C0 *m z + r0) (shift clk t)]].
Proof.
move=> C0; split; first by constructor; exact: so3_rot.
- by exists (so3Exp psi), r; split=> //; exact: so3_rot.
by constructor; [constructor|constructor; [constructor|constructor]].
Qed.
(** Vector states: metres to centimetres. *)
Example C95_vector_witness (R : realFieldType) (z t : R) : (100%:R%:M : 'M[R]_1) \in unitmx /\
  let y := @Measurement R 'cV[R]_1 1 1 z%:M (Some t) (fun s => Some (sval s)) (fun _ => 1%:M) (fun _ => 1%:M) in
  List.Forall2 (fun y y' => exists (W : 'M[R]_(m_dim y)) w, W \in unitmx /\ y' = rewritten_measurement 100%:R%:M 0 W w)
    [:: y] [:: @rewritten_measurement R 1 100%:R%:M 0 y 100%:R%:M 0].
Proof.
have u : (100%:R%:M : 'M[R]_1) \in unitmx by rewrite unitmxE det_scalar1 unitfE pnatr_eq0.
by split=> // y; constructor=> //; exists 100%:R%:M, 0.
Qed.
Print Assumptions C95_ekf_predict.
Print Assumptions C95_ekf_correct.
Print Assumptions C95_run_filter.
Print Assumptions C95_iekf_correct.
Print Assumptions C95_vector_run.
Print Assumptions C95_body_velocity.
Print Assumptions C95_jacobian_follows.
Print Assumptions C95_world_frame.
Print Assumptions C95_world_frame_iekf.
