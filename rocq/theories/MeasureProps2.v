(** C50, C52, C63: vector states, altitude, innovations, two-state models and the camera. *)
From mathcomp Require Import all_ssreflect all_algebra.
From Verif Require Import Base Tac LinAlg EkfModel PreintModel ImuModel ImuProps Deriv ModelsModel MeasureProps.
Set Implicit Arguments.
Unset Strict Implicit.
Unset Printing Implicit Defensive.
Import Order.Theory GRing.Theory Num.Theory.
Local Open Scope ring_scope.

(** *** Vector states *)
Section Vector.
Variable R : rcfType.
Theorem C50_linear n m (C : 'M[R]_(m, n)) x dx :
  is_mderiv (fun t => linear_eval C (x + t *: dx)) (linear_jac C x *m dx).
Proof.
rewrite /linear_eval /linear_jac; have := mderivD (mderiv_const (C *m x)) (mderivMl C (mderiv_lin dx)).
by rewrite add0r; apply: eq_mderiv => t; rewrite mulmxDr.
Qed.
Lemma norm2N n (v : 'cV[R]_n) : norm2 (- v) = norm2 v.
Proof. by congr Num.sqrt; apply: eq_bigr => i _; rewrite mxE sqrrN. Qed.
Theorem C50_range_point n k (a : 'cV[R]_n) (x dx : 'cV[R]_(n + k)) : usubmx x != a ->
  is_mderiv (fun t => range_point_eval a (x + t *: dx)) (range_point_jac a x *m dx).
Proof.
move=> ne; rewrite /range_point_jac -[dx]vsubmxK mul_row_col mul0mx addr0; set dr := usubmx dx; set dq := dsubmx dx.
have D : is_mderiv (fun t => usubmx x + t *: dr - a) dr.
  by have := mderivB (mderivD (mderiv_const (usubmx x)) (mderiv_lin dr)) (mderiv_const a); rewrite add0r subr0.
move=> i j; have q0 : usubmx x + 0 *: dr - a != 0 by rewrite scale0r addr0 subr_eq0.
have := deriv_norm2 q0 D; rewrite scale0r addr0 linearZ /= !ord1.
apply: eq_deriv => t; rewrite /range_point_eval mxE eqxx mulr1n -norm2N opprB; congr norm2.
by rewrite [usubmx (x + _)]linearD /= scale_col_mx col_mxKu.
Qed.
Example C50_range_point_instance : usubmx (const_mx 1 : 'cV[R]_(2 + 1)) != 0.
Proof. by apply/eqP => /matrixP /(_ 0 0); rewrite !mxE => /eqP; rewrite oner_eq0. Qed.
End Vector.

(** *** Altitude *)
Section Altitude.
Variable R : rcfType.
(** [jacobian_correct] for a model that may return None: a measurement is available on a
    neighbourhood of x *)
Definition jacobian_correct_opt (K : kind R) m (ev : pose R (k_n K) (k_k K) (k_d K) -> result (option 'cV[R]_m))
    (jc : pose R (k_n K) (k_k K) (k_d K) -> result 'M[R]_(m, k_d K)) (x : k_X K) : Prop :=
  exists J, jc (k_view x) = Ok J /\
    forall dx, exists F del, 0 < del /\
      (forall t, `|t| < del -> ev (k_view (k_plus x (t *: dx))) = Ok (Some (F t))) /\ is_mderiv F (J *m dx).
Variables (d : nat) (X : Type) (view : X -> pose R 3 3 d) (plus : X -> 'cV[R]_d -> X) (valid : X -> Prop).
Notation K := (@Kind R X 3 3 d (so3 R) view plus valid).

(** Altitude: SE3State, SE23State and IMUState, wherever a measurement is available *)
Theorem C50_altitude minimum bias (x : X) y : pose_state K -> valid x ->
  altitude_eval minimum bias (view x) = Ok (Some y) ->
  @jacobian_correct_opt K 1 (altitude_eval minimum bias) (@altitude_jac R d) x.
Proof.
move=> /pose_facts f xv; have [[/= wo wT] orth pos _ _] := f; have [/= r rE] := pos isT x xv.
rewrite /altitude_eval rE /= => yE.
have hm : (if minimum is Some mn then mn < r 2%:R 0 + bias else true) by case: (minimum) yE => [mn|//]; case: ifP.
have M dx phi rho nu : @moves R true false K x dx phi rho nu -> exists F del, 0 < del /\
    (forall t, `|t| < del -> altitude_eval minimum bias (view (plus x (t *: dx))) = Ok (Some (F t))) /\
    is_mderiv F (row 2%:R (drift (p_dir (view x)) (p_att (view x)) (wedge phi) r rho)).
  move=> [/= h1 h1' _ h3 _]; have [P [p1 p2 p3]] := h3 isT r rE.
  have Dh : is_deriv (fun t => P t 2%:R 0 + bias) (drift (p_dir (view x)) (p_att (view x)) (wedge phi) r rho 2%:R 0).
    by rewrite -[X in is_deriv _ X]addr0; apply: derivD; [exact: p3|exact: deriv_const].
  have [del d0 H] : exists2 del, 0 < del & forall t, `|t| < del ->
      (if minimum is Some mn then mn < P t 2%:R 0 + bias else true).
    case: (minimum) hm => [mn|] hm; last by exists 1.
    by apply: (deriv_above Dh); rewrite p2.
  exists (fun t => (P t 2%:R 0 + bias)%:M), del; split=> //; split=> [t /H ht|i j].
    by rewrite /altitude_eval p1 /= ht.
  by rewrite !ord1 mxE; apply: eq_deriv Dh => t; rewrite mxE eqxx mulr1n.
have C A P : [|| A != None, P != None | false] -> altitude_jac (view x) = p_jfb (view x) A P None ->
   (forall phi rho, row 2%:R (drift (p_dir (view x)) (p_att (view x)) (wedge phi) r rho) = blk A phi + blk P rho) ->
   @jacobian_correct_opt K 1 (altitude_eval minimum bias) (@altitude_jac R d) x.
  move=> c1 c2 c3; have [J [E hJ]] := @jfb_facts R true false K x 1 A P None f xv (fun=> isT) (fun h => h) c1.
  exists J; split; first by rewrite -E -c2.
  move=> dx; have [phi [rho [nu [mv ->]]]] := hJ dx.
  have [F [del [h1 [h2 h3]]]] := M _ _ _ _ mv; exists F, del; split=> //; split=> //.
  by rewrite [blk None nu]mul0mx addr0 -c3.
case dE: (p_dir (view x)) C => C.
- apply: (C (Some (row 2%:R (- wedge r))) (Some (row 2%:R 1%:M))) => //; first by rewrite /altitude_jac dE rE.
  by move=> phi rho; rewrite /drift /blk /= -!row_mul mul1mx -(wo phi r) linearD.
- apply: (C None (Some (row 2%:R (p_att (view x))))) => //; first by rewrite /altitude_jac dE.
  by move=> phi rho; rewrite /drift /blk /= mul0mx add0r -row_mul.
Qed.

(** C52: a measurement is produced exactly above the minimum, and it is the biased altitude *)
Theorem C52_altitude_gate minimum bias (x : X) r : p_pos (view x) = Some r ->
  (forall y, altitude_eval minimum bias (view x) = Ok (Some y) <->
     y = (r 2%:R 0 + bias)%:M /\ (forall mn, minimum = Some mn -> mn < r 2%:R 0 + bias)) /\
  (altitude_eval minimum bias (view x) = Ok None <->
     exists2 mn, minimum = Some mn & r 2%:R 0 + bias <= mn).
Proof.
move=> rE; rewrite /altitude_eval rE /=; case: minimum => [mn|]; last first.
  split=> [y|]; last by split=> // -[].
  by split=> [[<-]|[-> _]].
case: ltP => h; split=> [y|].
- by split=> [[<-]|[-> _]] //; split=> // _ [<-].
- by split=> // -[_ [<-]]; rewrite leNgt h.
- by split=> // -[_ /(_ mn erefl)]; rewrite ltNge h.
- by split=> // _; exists mn.
Qed.
End Altitude.

(** *** Invariant innovations *)
Section Innovation.
Variable R : rcfType.
(** z = C^T (g(x) - y) or C (g(x) - y).  The Jacobian returned (C^T G or C G) is the derivative
    of z at every state whose innovation is zero ... *)
Theorem C50_innovation (K : kind R) ev jc (y : 'cV[R]_(k_n K)) e id (x : k_X K) :
  att_state K -> k_valid x -> inv_direction id (k_view x) = Ok e ->
  @jacobian_correct R K _ ev jc x -> ev (k_view x) = Ok y ->
  (forall dx, k_view (k_plus x (0 *: dx)) = k_view x) ->
  @jacobian_correct R K _ (innov_eval ev y id) (innov_jac jc id) x.
Proof.
move=> /att_facts f xv hid [J [jE H]] yE p0.
exists (if e is DLeft then (p_att (k_view x))^T *m J else p_att (k_view x) *m J); split.
  by rewrite /innov_jac jE /= hid.
move=> dx; have [F [F1 F2]] := H dx.
have F0 : F 0 = y by have := F1 0; rewrite p0 yE => -[->].
have [phi [rho [nu [[A A0] dir _ _ _]]]] := fc_curve f xv dx.
have hid' t : inv_direction id (k_view (k_plus x (t *: dx))) = Ok e by rewrite -hid; case: (id) => //=; rewrite dir.
have D := mderivB F2 (mderiv_const y); rewrite subr0 in D.
case: e {hid} hid' => hid'.
- exists (fun t => (p_att (k_view (k_plus x (t *: dx))))^T *m (F t - y)); split=> [t|].
    by rewrite /innov_eval F1 /= hid'.
  by have := mderivM (mderivT A) D; rewrite F0 subrr mulmx0 add0r A0 mulmxA.
- exists (fun t => p_att (k_view (k_plus x (t *: dx))) *m (F t - y)); split=> [t|].
    by rewrite /innov_eval F1 /= hid'.
  by have := mderivM A D; rewrite F0 subrr mulmx0 add0r A0 mulmxA.
Qed.

Variables (d : nat) (X : Type) (view : X -> pose R 3 3 d) (plus : X -> 'cV[R]_d -> X) (valid : X -> Prop).
Notation K := (@Kind R X 3 3 d (so3 R) view plus valid).
(** InvariantPointRelativePosition (left perturbations only) *)
Theorem C50_invariant_relative_position (l y : 'cV[R]_3) (x : X) : pose_state K -> valid x ->
  p_dir (view x) = DLeft -> relpos_eval l (view x) = Ok y ->
  @jacobian_correct R K _ (invrel_eval l y) (@invrel_jac R d l) x.
Proof.
move=> pK xv dE yE; have f := pose_facts pK; have [[/= wo wT] orth pos _ _] := f; have [/= r rE] := pos isT x xv.
have o := orth x xv; have oC := mulmx1C o.
have z0 : l - r = p_att (view x) *m y.
  by move: yE; rewrite /relpos_eval rE /= => -[<-]; rewrite mulmxA oC mul1mx.
apply: (@correct_by R true false K 3 _ _ x (Some (wedge l)) (Some (- 1%:M)) None f xv) => //.
  by rewrite /invrel_jac /= dE.
move=> dx phi rho nu [/= h1 h1' _ h3 _]; have [P [p1 p2 p3]] := h3 isT r rE.
set A := fun t => p_att (view (plus x (t *: dx))) in h1 *.
exists (fun t => A t *m ((A t)^T *m (l - P t) - y)); split=> [t|]; first by rewrite /invrel_eval /relpos_eval p1.
have A0 : A 0 = p_att (view x) by exact: h1'.
have := mderivM h1 (mderivB (mderivM (mderivT h1) (mderivB (mderiv_const l) p3)) (mderiv_const y)).
congr is_mderiv; rewrite -/(A 0) A0 p2 z0 !mulmxA o mul1mx subrr mulmx0 add0r subr0 sub0r /blk /= mul0mx addr0.
rewrite dE /motion /drift trmx_mul wT mulmxDr !mulmxA oC mul1mx.
rewrite !mulmxN !mulNmx !mul1mx -[wedge phi *m _ *m y]mulmxA -z0 mulmxBr.
have := wo phi l; rewrite /= mulNmx => ->; zmod.
Qed.
End Innovation.

Section InnovationRefuted.
Variable R : rcfType.
Lemma first_order n d (hat : 'cV[R]_d -> 'M[R]_n) : (forall t v, hat (t *: v) = t *: hat v) ->
  exponential hat (fun v => 1%:M + hat v).
Proof.
move=> hZ; split=> [|v]; first by rewrite -(scale0r (0 : 'cV[R]_d)) hZ scale0r addr0.
have := mderivD (mderiv_const (1%:M : 'M[R]_n)) (mderiv_lin (hat v)); rewrite add0r.
by apply: eq_mderiv => t; rewrite hZ.
Qed.
Lemma wedge_exp : exponential (@wedge R) (fun v => 1%:M + wedge v).
Proof. by apply: first_order => t v; rewrite wedgeZ. Qed.
(** ... and not, in general, elsewhere: the attitude that multiplies the innovation depends on
    the state too *)
Theorem C50_innovation_refuted : ~ (forall (K : kind R) (g y : 'cV[R]_(k_n K)) id (x : k_X K),
  att_state K -> k_valid x ->
  @jacobian_correct R K _ (innov_eval (vector_eval g) y id) (innov_jac (vector_jac (k_G K) g) id) x).
Proof.
move=> H; pose K := so3_kind (fun v : 'cV[R]_3 => 1%:M + wedge v).
pose x : k_X K := MState 1%:M DRight; pose y : 'cV[R]_3 := delta_mx 1 0.
have xv : k_valid x by rewrite /= trmx1 mulmx1.
have [J [/= jE hJ]] := H K 0 y (IDir DRight) x (PK_SO3 wedge_exp) xv.
move: jE; rewrite /innov_jac /vector_jac /= mul1mx trmx1 mulmx0 -[0 : 'cV[R]_3](scale0r 0) wedgeZ scale0r !oppr0 => -[J0].
have [F [F1 F2]] := hJ (delta_mx 0 0); rewrite -{}J0 mul0mx in F2.
have FE t : F t = - ((1%:M + wedge (t *: delta_mx 0 0)) *m y).
  by have := F1 t; rewrite /innov_eval /vector_eval /= mul1mx mulmx0 sub0r mulmxN => -[->].
have D : is_mderiv F (- (wedge (delta_mx 0 0) *m y)).
  apply: (@eq_mderiv _ _ _ (fun t => - ((1%:M + wedge (t *: delta_mx 0 0)) *m y))) => [t|]; first by rewrite FE.
  by apply: mderivN; apply: mderivMr; have := (proj2 wedge_exp) (delta_mx 0 0).
have /matrixP /(_ 2%:R 0) := mderiv_uniq F2 D.
rewrite !mxE !big_ord_recl big_ord0 !mxE /=; rewrite !mulr0 ?mul0r ?add0r ?addr0 ?mulr1 ?mul1r.
by move/eqP; rewrite eq_sym oppr_eq0 oner_eq0.
Qed.
End InnovationRefuted.

(** *** Models of two substates.  A perturbation moves both. *)
Section Two.
Variable R : rcfType.
Variables n k : nat.
Variable G : attgroup R n k.
Variables (d1 d2 : nat) (X1 X2 : Type).
Variables (view1 : X1 -> pose R n k d1) (plus1 : X1 -> 'cV[R]_d1 -> X1) (valid1 : X1 -> Prop).
Variables (view2 : X2 -> pose R n k d2) (plus2 : X2 -> 'cV[R]_d2 -> X2) (valid2 : X2 -> Prop).
Notation K1 := (@Kind R X1 n k d1 G view1 plus1 valid1).
Notation K2 := (@Kind R X2 n k d2 G view2 plus2 valid2).

(** RangePoseToPose: the blocks for the two poses give the derivative of the range, for any
    mix of state kinds and perturbation directions *)
Theorem C50_range_pose_to_pose (t1 t2 : 'cV[R]_n) x1 x2 r1 r2 : pose_state K1 -> pose_state K2 ->
  valid1 x1 -> valid2 x2 -> p_pos (view1 x1) = Some r1 -> p_pos (view2 x2) = Some r2 ->
  p_att (view1 x1) *m t1 + r1 != p_att (view2 x2) *m t2 + r2 ->
  exists J1 J2, range_poses_jac G t1 t2 (view1 x1) (view2 x2) = Ok (J1, J2) /\
  forall dx1 dx2, exists F,
    (forall t, range_poses_eval t1 t2 (view1 (plus1 x1 (t *: dx1))) (view2 (plus2 x2 (t *: dx2))) = Ok (F t)) /\
    is_mderiv F (J1 *m dx1 + J2 *m dx2).
Proof.
move=> /pose_facts f1 /pose_facts f2 xv1 xv2 e1 e2 ne.
have lw : ag_law G := fc_law f1.
rewrite /range_poses_jac e1 e2 /=; set q := _ - _; set rho := _ *: q.
have q0 : q != 0 by rewrite subr_eq0.
have B1 : exists J1, (match p_dir (view1 x1) with
         | DRight => p_jfb (view1 x1) (Some (rho^T *m p_att (view1 x1) *m ag_odot G t1)) (Some (rho^T *m p_att (view1 x1))) None
         | DLeft => p_jfb (view1 x1) (Some (rho^T *m ag_odot G (p_att (view1 x1) *m t1 + r1))) (Some (rho^T *m 1%:M)) None
         end) = Ok J1 /\ forall dx, exists phi r nu, @moves R true false K1 x1 dx phi r nu /\
     J1 *m dx = rho^T *m (match p_dir (view1 x1) with
      | DRight => p_att (view1 x1) *m ag_odot G t1 *m phi + p_att (view1 x1) *m r
      | DLeft => ag_odot G (p_att (view1 x1) *m t1 + r1) *m phi + r end).
  case: (p_dir (view1 x1)); [have [J [E hJ]] := @jfb_facts R true false K1 x1 1 (Some (rho^T *m ag_odot G (p_att (view1 x1) *m t1 + r1))) (Some (rho^T *m 1%:M)) None f1 xv1 (fun=> isT) (fun h => h) isT|
    have [J [E hJ]] := @jfb_facts R true false K1 x1 1 (Some (rho^T *m p_att (view1 x1) *m ag_odot G t1)) (Some (rho^T *m p_att (view1 x1))) None f1 xv1 (fun=> isT) (fun h => h) isT];
    exists J; (split; first exact: E) => dx; have [phi [r [nu [mv ->]]]] := hJ dx; exists phi, r, nu; split=> //;
    by rewrite /blk /= mul0mx addr0 mulmxDr ?mulmx1 !mulmxA.
have B2 : exists J2, (match p_dir (view2 x2) with
         | DRight => p_jfb (view2 x2) (Some (- rho^T *m p_att (view2 x2) *m ag_odot G t2)) (Some (- rho^T *m p_att (view2 x2))) None
         | DLeft => p_jfb (view2 x2) (Some (- rho^T *m ag_odot G (p_att (view2 x2) *m t2 + r2))) (Some (- rho^T *m 1%:M)) None
         end) = Ok J2 /\ forall dx, exists phi r nu, @moves R true false K2 x2 dx phi r nu /\
     J2 *m dx = - rho^T *m (match p_dir (view2 x2) with
      | DRight => p_att (view2 x2) *m ag_odot G t2 *m phi + p_att (view2 x2) *m r
      | DLeft => ag_odot G (p_att (view2 x2) *m t2 + r2) *m phi + r end).
  case: (p_dir (view2 x2)); [have [J [E hJ]] := @jfb_facts R true false K2 x2 1 (Some (- rho^T *m ag_odot G (p_att (view2 x2) *m t2 + r2))) (Some (- rho^T *m 1%:M)) None f2 xv2 (fun=> isT) (fun h => h) isT|
    have [J [E hJ]] := @jfb_facts R true false K2 x2 1 (Some (- rho^T *m p_att (view2 x2) *m ag_odot G t2)) (Some (- rho^T *m p_att (view2 x2))) None f2 xv2 (fun=> isT) (fun h => h) isT];
    exists J; (split; first exact: E) => dx; have [phi [r [nu [mv ->]]]] := hJ dx; exists phi, r, nu; split=> //;
    by rewrite /blk /= mul0mx addr0 mulmxDr ?mulmx1 !mulmxA.
have [J1 [-> h1]] := B1; have [J2 [-> h2]] := B2 => /=; exists J1, J2; split=> // dx1 dx2.
have [phi [r [nu [mv ->]]]] := h1 dx1; have [phi' [r' [nu' [mv' ->]]]] := h2 dx2.
have [P [p1 [p2 p3]]] := @tag_curve R true false K1 t1 r1 x1 dx1 phi r nu isT e1 lw mv.
have [P' [p1' [p2' p3']]] := @tag_curve R true false K2 t2 r2 x2 dx2 phi' r' nu' isT e2 lw mv'.
exists (fun t => (norm2 (p_att (view1 (plus1 x1 (t *: dx1))) *m t1 + P t - (p_att (view2 (plus2 x2 (t *: dx2))) *m t2 + P' t)))%:M).
split=> [t|i j]; first by rewrite /range_poses_eval p1 p1'.
have := deriv_norm2 _ (mderivB p3 p3'); rewrite /= p2 p2' => /(_ q0).
rewrite mulNmx -mulmxBr !ord1; apply: eq_deriv => t; by rewrite mxE eqxx mulr1n.
Qed.
End Two.

Section Landmarks.
Variable R : rcfType.
Variables (d : nat) (X : Type) (view : X -> pose R 3 3 d) (plus : X -> 'cV[R]_d -> X) (valid : X -> Prop).
Notation K := (@Kind R X 3 3 d (so3 R) view plus valid).

(** PointRelativePositionSLAM: pose and landmark *)
Theorem C50_slam (x : X) (l : 'cV[R]_3) : pose_state K -> valid x ->
  exists Jx Jl, slam_jac (view x) l = Ok (Jx, Jl) /\
  forall dx dl, exists F, (forall t, slam_eval (view (plus x (t *: dx))) (l + t *: dl) = Ok (F t)) /\
    is_mderiv F (Jx *m dx + Jl *m dl).
Proof.
move=> pK xv; have f := pose_facts pK; have [/= r rE] := fc_pos f isT xv.
have [J [/= jE hJ]] := @C50_relative_position R K l x pK xv.
exists J, (p_att (view x))^T; split; first by rewrite /slam_jac jE.
move=> dx dl; have [F [F1 F2]] := hJ dx.
have [phi [rho [nu [[/= A A0] _ h3 _ _]]]] := fc_curve f xv dx; have [P [p1 _ _]] := h3 isT r rE.
exists (fun t => F t + (p_att (view (plus x (t *: dx))))^T *m (t *: dl)); split=> [t|].
  by have := F1 t; rewrite /slam_eval /relpos_eval /= p1 /= => -[<-]; rewrite -mulmxDr addrAC.
apply: mderivD => //; have := mderivM (mderivT A) (mderiv_lin dl).
by rewrite scale0r mulmx0 add0r A0.
Qed.

(** CameraProjection (right perturbations; left ones raise): wherever the landmark is not in
    the focal plane *)
Lemma deriv_project (c : camera R) (P : R -> 'cV[R]_3) D : P 0 2%:R 0 != 0 -> is_mderiv P D ->
  is_mderiv (fun t => cam_project c (P t)) (proj_jac c (P 0) *m D).
Proof.
move=> z0 H; set z := P 0 2%:R 0 in z0.
have key (f b : R) i : is_deriv (fun t => f * P t i 0 / P t 2%:R 0 + b)
    (z^-1 * (f * D i 0 + - f * P 0 i 0 / z * D 2%:R 0)).
  have := derivD (deriv_div z0 (derivZ f (H i 0)) (H 2%:R 0)) (deriv_const b).
  by congr is_deriv; rewrite addr0 -/z expr2 invfM; rng.
have l1 : lift ord0 ord0 = 1 :> 'I_3 by apply: val_inj.
have l2 : lift ord0 (lift ord0 ord0) = 2%:R :> 'I_3 by apply: val_inj.
move=> i j; rewrite !ord1 /proj_jac -scalemxAl !mxE !big_ord_recl big_ord0 !mxE /=.
case: i => [[|[|//]] ?] /=.
  apply: (@eq_deriv _ (fun t => cam_fu c * P t 0 0 / P t 2%:R 0 + cam_cu c)); first by move=> t; rewrite mxE.
  have := key (cam_fu c) (cam_cu c) 0.
  by congr is_deriv; congr (_ * _); rewrite -/z l1 l2; rng.
apply: (@eq_deriv _ (fun t => cam_fv c * P t 1 0 / P t 2%:R 0 + cam_cv c)); first by move=> t; rewrite mxE.
have := key (cam_fv c) (cam_cv c) 1.
by congr is_deriv; congr (_ * _); rewrite -/z l1 l2; rng.
Qed.
Theorem C50_camera (c : camera R) (x : X) (l : 'cV[R]_3) p : pose_state K -> valid x ->
  p_dir (view x) = DRight -> cam_resolve c (view x) l = Ok p -> p 2%:R 0 != 0 ->
  exists Jx Jl, cam_jac c (view x) l = Ok (Jx, Jl) /\
  forall dx dl, exists F, (forall t, cam_eval c (view (plus x (t *: dx))) (l + t *: dl) = Ok (F t)) /\
    is_mderiv F (Jx *m dx + Jl *m dl).
Proof.
move=> pK xv dE pE z0; have f := pose_facts pK; have [[/= wo wT] orth _ _ _] := f.
have /= o := orth x xv; have [/= r rE] := fc_pos f isT xv.
have pV : p = (cam_C c)^T *m ((p_att (view x))^T *m (l - r) - cam_r c) by move: pE; rewrite /cam_resolve rE /= => -[].
set D := proj_jac c p; set y := (p_att (view x))^T *m (l - r) in pV *.
have [J [/= jE hJ]] := @jfb_facts R true false K x 2 (Some (D *m ((cam_C c)^T *m wedge y))) (Some (D *m - (cam_C c)^T)) None f xv (fun=> isT) (fun h => h) isT.
exists J, (D *m ((cam_C c)^T *m (p_att (view x))^T)); split; first by rewrite /cam_jac dE pE rE /= -/D -/y jE.
move=> dx dl; have [phi [rho [nu [mv ->]]]] := hJ dx; have [/= h1 h1' _ h3 _] := mv; have [P [p1 p2 p3]] := h3 isT r rE.
pose Q t := (cam_C c)^T *m ((p_att (view (plus x (t *: dx))))^T *m (l + t *: dl - P t) - cam_r c).
have Q0 : Q 0 = p by rewrite /Q h1' p2 scale0r addr0 -/y.
exists (fun t => cam_project c (Q t)); split=> [t|]; first by rewrite /cam_eval /cam_resolve p1.
have q0 : Q 0 2%:R 0 != 0 by rewrite Q0.
have dQ : is_mderiv Q ((cam_C c)^T *m (wedge y *m phi - rho + (p_att (view x))^T *m dl)).
  apply: mderivMl; have := mderivB (mderivM (mderivT h1) (mderivB (mderivD (mderiv_const l) (mderiv_lin dl)) p3)) (mderiv_const (cam_r c)).
  rewrite /motion /drift dE; congr is_mderiv.
  rewrite p2 h1' scale0r addr0 subr0 add0r trmx_mul -mulmxA -/y wT mulmxBr [_ *m (_ *m rho)]mulmxA o mul1mx.
  by have := wo phi y; rewrite !mulNmx => ->; rewrite opprK addrA addrAC.
have := deriv_project c q0 dQ; rewrite Q0 -/D; congr is_mderiv.
by rewrite /blk /= mul0mx addr0 !mulmxDr !mulmxA !mulmxN !mulNmx.
Qed.
End Landmarks.
