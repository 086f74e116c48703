(** Property theorems C63 and the camera part of C52 (navlie/lib/camera.py), the covariance gate
    of the field-vector sensors (navlie/lib/models.py), and instances of the hypotheses of
    C50/C51. *)
From mathcomp Require Import all_ssreflect all_algebra.
From Verif Require Import Base Tac LinAlg Deriv CompositeModel CompositeProof PreintModel ImuModel ImuProps ModelsModel MeasureProps MeasureProps2 PairModel PairProps.
Set Implicit Arguments.
Unset Strict Implicit.
Unset Printing Implicit Defensive.
Local Open Scope ring_scope.
Import GRing.Theory Num.Theory Order.POrderTheory.

Section Camera.
Variable R : rcfType.
Variable d : nat.
Notation pose := (pose R 3 3 d).
Implicit Types (c : camera R) (p : 'cV[R]_3) (uv : 'cV[R]_2) (x : pose).
Definition col3 (a b c : R) : 'cV[R]_3 := \matrix_(i, j) nth 0 [:: a; b; c] i.
Lemma col3P p : p = col3 (p 0 0) (p 1 0) (p 2%:R 0).
Proof.
apply/colP => i; rewrite mxE; case: i => [[|[|[|//]]] ?] /=; congr (p _ _); exact: val_inj.
Qed.

(** pixels -> normalized coordinates -> pixels, and back *)
Theorem C63_pixel_round_trip c uv : cam_fu c != 0 -> cam_fv c != 0 ->
  cam_pixel c (take 2 (cam_normalize c uv)) = Ok uv.
Proof.
move=> f0 g0; rewrite /cam_pixel /= !divfK // !subrK; congr Ok; apply/colP => i; rewrite mxE.
by case: i => [[|[|//]] ?] /=; congr (uv _ _); exact: val_inj.
Qed.
Theorem C63_normalized_round_trip c (a b : R) uv : cam_fu c != 0 -> cam_fv c != 0 ->
  cam_pixel c [:: a; b] = Ok uv -> cam_normalize c uv = [:: a; b; 1].
Proof. by move=> f0 g0 [<-]; rewrite /cam_normalize !mxE /= !addrK !mulfK. Qed.
(** ... but the result of to_normalized_coords itself cannot be handed to to_pixel_coors: it has
    a third component *)
Theorem C63_round_trip_refuted c uv : cam_pixel c (cam_normalize c uv) = Raise ValueError.
Proof. by []. Qed.

(** projecting a landmark and normalising gives its direction; with its depth, the landmark *)
Theorem C63_normalized_direction c p : cam_fu c != 0 -> cam_fv c != 0 -> p 2%:R 0 != 0 ->
  cam_normalize c (cam_project c p) = [:: p 0 0 / p 2%:R 0; p 1 0 / p 2%:R 0; 1].
Proof.
have key (f a z : R) : f != 0 -> f * a / z / f = a / z by move=> f0; rewrite -[f * a / z]mulrA [f * _]mulrC mulfK.
by move=> f0 g0 z0; rewrite /cam_normalize !mxE /= !addrK !key.
Qed.
Theorem C63_depth_recovers_landmark c p : cam_fu c != 0 -> cam_fv c != 0 -> p 2%:R 0 != 0 ->
  p = p 2%:R 0 *: \col_i nth 0 (cam_normalize c (cam_project c p)) i.
Proof.
move=> f0 g0 z0; rewrite C63_normalized_direction // [LHS]col3P; apply/colP => i; rewrite !mxE.
by case: i => [[|[|[|//]]] ?] /=; rewrite ?mulr1 // mulrC divfK.
Qed.
Theorem C63_ray c p s : s != 0 -> cam_project c (s *: p) = cam_project c p.
Proof.
have key (f a z : R) : s != 0 -> f * (s * a) / (s * z) = f * a / z.
  by move=> s0; rewrite invfM [f * _]mulrCA -[s * _]mulrC mulrA mulfK.
by move=> s0; apply/colP => i; rewrite !mxE !key.
Qed.
(** R_normalized_image_coords is the pixel covariance carried through to_normalized_coords *)
Theorem C63_normalized_covariance c : let N := \matrix_(i < 2, j < 2) (if i == j then (if (i : nat) == 0%N then (cam_fu c)^-1 else (cam_fv c)^-1) else 0) in
  cam_R_normalized c = N *m cam_cov c *m N^T /\
  (forall uv uv' (i : 'I_2), nth 0 (cam_normalize c uv) i - nth 0 (cam_normalize c uv') i = (N *m (uv - uv')) i 0).
Proof.
move=> N; split.
  apply/matrixP => i j; rewrite /cam_cov -scalemx1 -scalemxAr mulmx1 -scalemxAl !mxE !big_ord_recl big_ord0 !mxE /=.
  by case: i => [[|[|//]] ?]; case: j => [[|[|//]] ?] /=; rewrite ?expr2; rng.
move=> uv uv' i; rewrite !mxE !big_ord_recl big_ord0 !mxE.
have l1 : lift ord0 ord0 = 1 :> 'I_2 by apply: val_inj.
by rewrite l1; case: i => [[|[|//]] ?] /=; rng.
Qed.

(** the landmark in the camera frame: a rigid transformation of the landmark *)
Theorem C63_resolve_rigid c x l l' p p' : (cam_C c)^T *m cam_C c = 1%:M -> (p_att x)^T *m p_att x = 1%:M ->
  cam_resolve c x l = Ok p -> cam_resolve c x l' = Ok p' -> norm2 (p - p') = norm2 (l - l').
Proof.
move=> oC oA; rewrite /cam_resolve; case: (p_pos x) => //= r [<-] [<-].
rewrite -mulmxBr -[(p_att x)^T *m (l - r) - _](addrK 0) subr0 addr0.
have -> : (p_att x)^T *m (l - r) - cam_r c - ((p_att x)^T *m (l' - r) - cam_r c) = (p_att x)^T *m (l - l').
  rewrite !mulmxBr; zmod.
rewrite /norm2 !norm2E !trmx_mul !trmxK -!mulmxA [cam_C c *m (_ *m _)]mulmxA (mulmx1C oC) mul1mx.
by rewrite [p_att x *m (_ *m _)]mulmxA (mulmx1C oA) mul1mx.
Qed.

(** C52 *)
Theorem C52_camera_gate c uv : cam_valid c uv <->
  (0 < uv 0 0 < (cam_w c)%:R) /\ (0 < uv 1 0 < (cam_h c)%:R).
Proof.
rewrite /cam_valid; split; first by case/and4P=> -> -> -> ->.
by case=> /andP[-> ->] /andP[-> ->].
Qed.
Theorem C52_in_front c x l r : p_pos x = Some r ->
  (cam_in_front c x l = Ok true <-> 0 < ((cam_C c)^T *m ((p_att x)^T *m (l - r) - cam_r c)) 2%:R 0).
Proof. by move=> rE; rewrite /cam_in_front /cam_resolve rE /=; split=> [[->]|->]. Qed.
(** the validity of a measurement does not imply that the landmark is in front of the camera: a
    landmark and its mirror image behind the camera project to the same pixel *)
Theorem C52_camera_valid_refuted c p : p 2%:R 0 != 0 -> cam_project c (- p) = cam_project c p.
Proof. by move=> _; rewrite -scaleN1r C63_ray // oppr_eq0 oner_eq0. Qed.
(** Gravitometer and Magnetometer: a scalar covariance needs a position, which an SO3State (a
    documented state) does not have *)
Theorem C52_field_covariance (s : R) (M : 'M[R]_3) x : 
  (forall r, p_pos x = Some r -> pos_cov (inl s) x = Ok (s%:M : 'M_3)) /\ pos_cov (inr M) x = Ok M.
Proof. by split=> [r|]; rewrite /pos_cov ?/= => // ->. Qed.
End Camera.
Theorem C52_field_covariance_refuted (R : rcfType) (s : R) (x : mstate R 3) : is_ok (vector_eval 0 (so3_view x)) /\
  exists e, pos_cov (inl s) (so3_view x) = Raise e.
Proof. by split=> //; eexists. Qed.

(** *** The hypotheses are met *)
Section Examples.
Variable R : rcfType.
Lemma se_hatZ n k (G : attgroup R n k) (t : R) v : (forall t v, ag_wedge G (t *: v) = t *: ag_wedge G v) ->
  se_hat G (t *: v) = t *: se_hat G v.
Proof. by move=> H; rewrite /se_hat !linearZ /= H scale_block_mx !scaler0. Qed.
Lemma so2Z t v : ag_wedge (so2 R) (t *: v) = t *: ag_wedge (so2 R) v.
Proof.
apply/matrixP => i j; rewrite !mxE.
by case: i => [[|[|//]] ?]; case: j => [[|[|//]] ?] /=; rewrite ?mulr0 ?mulrN.
Qed.
Definition Exp_se2 v : 'M[R]_(2 + 1) := 1%:M + se_hat (so2 R) v.
Definition Exp_se3 v : 'M[R]_(3 + 1) := 1%:M + se_hat (so3 R) v.
Example ex_se2 : pose_state (se2_kind Exp_se2).
Proof. by apply: PK_SE2; apply: first_order => t v; apply: se_hatZ so2Z. Qed.
Example ex_se3 : pose_state (se3_kind Exp_se3).
Proof. by apply: PK_SE3; apply: first_order => t v; apply: se_hatZ => ? ?; exact: wedgeZ. Qed.
Lemma wedge9Z t v : wedge9 (t *: v) = t *: wedge9 v :> 'M[R]_(3 + (1 + 1)).
Proof. by rewrite /wedge9 !linearZ /= wedgeZ scale_block_mx scale_row_mx ?scaler0. Qed.
Example ex_se23 : pose_state (se23_kind (fun v : 'cV[R]_(3 + (3 + 3)) => 1%:M + wedge9 v)).
Proof. by apply: PK_vel; apply: PK_SE23; apply: first_order => t v; exact: wedge9Z. Qed.
Example ex_imu : pose_state (imu_kind (fun v : 'cV[R]_(3 + (3 + 3)) => 1%:M + wedge9 v)).
Proof. by apply: PK_vel; apply: PK_IMU; apply: first_order => t v; exact: wedge9Z. Qed.

(** a camera at the origin looking at (0, 0, 1) *)
Definition ex_cam : camera R := Camera 2%:R 3%:R 4%:R 5%:R 10 12 1 1%:M 0.
Definition ex_pose : mstate R (3 + 1) := MState (block_mx 1%:M 0 0 1%:M) DRight.
Example ex_pose_valid : se_valid ex_pose.
Proof. by exists 1%:M, 0; rewrite trmx1 mulmx1. Qed.
Example ex_resolve : exists p, cam_resolve ex_cam (se_view 3 ex_pose) (delta_mx 2%:R 0) = Ok p /\ p 2%:R 0 != 0.
Proof.
rewrite /cam_resolve /=; eexists; split; first by [].
by rewrite block_mxKur block_mxKul !trmx1 !mul1mx !subr0 mxE !eqxx oner_eq0.
Qed.
(** composite [other landmark; pose; landmark] *)
Definition ex_comp : seq (state nat [eqType of nat] (mstate R (3 + 1) + 'cV[R]_3)) :=
  [:: Leaf (inr (0 : 'cV[R]_3)) None 9%N; Leaf (inl ex_pose) None 1%N; Leaf (inr (delta_mx 2%:R 0 : 'cV[R]_3)) None 2%N].
Example ex_C51_camera : exists2 A, pair_jac (two_ops (mplus Exp_se3) (fun v dv : 'cV[R]_3 => v + dv))
    (two_J (fun x v => cam_jac ex_cam (se_view 3 x) v)) 1%N 2%N ex_comp = Ok A &
  composite_jacobian_correct (two_ops (mplus Exp_se3) (fun v dv : 'cV[R]_3 => v + dv))
    (pair_eval (two_f (fun x v => cam_eval ex_cam (se_view 3 x) v)) 1%N 2%N) ex_comp None 0%N 2 A.
Proof.
have [p [pE p0]] := ex_resolve.
apply: (@C51_camera R _ _ (@se_view R 3 3) (mplus Exp_se3) (@se_valid R 3) _ _ ex_cam ex_comp None 0%N 1%N 2%N ex_pose None (delta_mx 2%:R 0) None p) => //.
- exact: ex_se3.
- exact: ex_pose_valid.
- by move=> s [<-|[<-|[<-|//]]].
Qed.
End Examples.
Print Assumptions C51_camera.
Print Assumptions C51_slam_refuted.
Print Assumptions C63_depth_recovers_landmark.
Print Assumptions ex_C51_camera.
