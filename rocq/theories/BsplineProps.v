(** Property theorems C64-C65 (navlie/bspline.py).
    Reading guide: [init traj max_dt] is SE3Bspline(traj, max_dt=max_dt); [get_pose],
    [get_velocity], [get_acceleration] are its methods (Ok None: the method returns None).
    [is_mderiv F L]: the curve of matrices F has derivative L at 0 (epsilon-delta, Deriv.v);
    [is_mcont F]: it is continuous at 0. *)
From mathcomp Require Import all_ssreflect all_algebra.
From Verif Require Import Base Tac UtilsModel UtilsProps2 DatagenModel DatagenProof BsplineModel BsplineProof BsplineCalc Deriv.
Set Implicit Arguments.
Unset Strict Implicit.
Unset Printing Implicit Defensive.
Import Order.Theory GRing.Theory Num.Theory.
Local Open Scope ring_scope.

(** *** The basis functions *)
Section Basis.
Variable T : archiFieldType.
Theorem C64_basis_range (u : T) : 0 <= u -> u <= 1 ->
  [/\ 0 <= basis2 u, basis2 u <= basis1 u, basis1 u <= basis0 u & basis0 u <= 1].
Proof.
move=> u0 u1; have v0 : 0 <= 1 - u by rewrite subr_ge0.
have s0 : 0 <= 6%:R^-1 :> T by rewrite invr_ge0 ler0n.
have six : 6%:R != 0 :> T by rewrite pnatr_eq0.
split.
- by rewrite /basis2 !mulr_ge0.
- rewrite -subr_ge0 (_ : _ - _ = 6%:R^-1 * (1 + 3%:R * u + 3%:R * u * u * (1 - u))); last by rewrite /basis1 /basis2; rng.
  by rewrite mulr_ge0 // !addr_ge0 ?ler01 ?mulr_ge0 ?ler0n.
- rewrite -subr_ge0 (_ : _ - _ = 6%:R^-1 * (1 + 3%:R * (1 - u) + 3%:R * (1 - u) * (1 - u) * u)); last by rewrite /basis0 /basis1; rng.
  by rewrite mulr_ge0 // !addr_ge0 ?ler01 ?mulr_ge0 ?ler0n.
- rewrite -subr_ge0 (_ : _ - _ = 6%:R^-1 * ((1 - u) * (1 - u) * (1 - u))) ?mulr_ge0 //.
  rewrite -[X in X - _](mulVf six) /basis0; rng.
Qed.
(** the coded derivatives are the derivatives in time, u = (t - t1) / dt *)
Theorem C64_basis_derivatives (u dt : T) : dt != 0 ->
  [/\ is_deriv (fun h => basis0 (u + h / dt)) (basis0_dot u dt), is_deriv (fun h => basis1 (u + h / dt)) (basis1_dot u dt),
      is_deriv (fun h => basis2 (u + h / dt)) (basis2_dot u dt) &
   [/\ is_deriv (fun h => basis0_dot (u + h / dt) dt) (basis0_ddot u dt), is_deriv (fun h => basis1_dot (u + h / dt) dt) (basis1_ddot u dt) &
      is_deriv (fun h => basis2_dot (u + h / dt) dt) (basis2_ddot u dt)]].
Proof.
by move=> dt0; split; [exact: b0_deriv|exact: b1_deriv|exact: b2_deriv|split; [exact: b0d_deriv|exact: b1d_deriv|exact: b2d_deriv]].
Qed.
End Basis.

Section Spline.
Variable T : archiFieldType.
Variables (p d : nat).
Notation k := (p + 1)%N.
Notation pose := (pose T p).
Variables (Exp : 'cV[T]_d -> 'M[T]_k) (Log : 'M[T]_k -> 'cV[T]_d) (ginv : 'M[T]_k -> 'M[T]_k) (wedge : 'cV[T]_d -> 'M[T]_k) (G : 'M[T]_k -> Prop).
Hypothesis laws : spline_laws Exp Log ginv wedge G.
Notation init := (init Exp Log ginv).
Notation get_pose := (get_pose Exp Log ginv).
Notation interp := (interp_one (se3_plus Exp) (se3_minus Log ginv)).

(** *** Construction: uniform control points on the interpolated trajectory *)
Theorem C65_construction p0 rest max_dt : let traj := p0 :: rest in let t0 := p0.2 in let te := (last p0 rest).2 in
  increasing_stamps traj -> rest <> [::] -> 0 < max_dt ->
  exists sp, [/\ init traj max_dt = Ok sp, sp_dt sp = Num.max max_dt ((te - t0) / (size rest)%:R) /\ 0 < sp_dt sp,
    sp_start sp = t0 + 2%:R * sp_dt sp /\ sp_end sp = te,
    map snd (sp_ctrl sp) = arange t0 te (sp_dt sp) &
    forall c, List.In c (sp_ctrl sp) -> interp traj c.2 = Ok c].
Proof.
move=> traj t0 te incr rn md; set dt := Num.max _ _.
have szE : size (dts traj) = size rest by rewrite /dts size_map size_zip size_behead; apply/minn_idPr; exact: leq_pred.
have dtE : (if ~~ nilp rest && (max_dt < mean (dts traj)) then mean (dts traj) else max_dt) = dt.
  rewrite /dt /mean szE sum_dts -/te -/t0 /Num.max; case: (rest) rn => //= q r _.
have dt0 : 0 < dt by rewrite /dt lt_maxr md.
have [cps [c1 c2 c3]] := control_loop_spec Exp Log ginv (q0 := p0) incr isT dt0 (lexx _).
have lE : (nth p0 traj (size traj).-1).2 = te by rewrite /traj /te /= (last_nth p0).
rewrite lE -/t0 in c1 c2.
exists (Spline dt (t0 + 2%:R * dt) te cps).
have -> : init traj max_dt = Ok (Spline dt (t0 + 2%:R * dt) te cps).
  by rewrite /BsplineModel.init /traj -dtE in c1 *; rewrite -/traj -/te -/t0 c1.
by split.
Qed.

(** the interval between control points is never below max_dt, which is documented as their
    maximum: with trajectory points less than max_dt apart it IS max_dt, and otherwise above *)
Theorem C65_max_dt_refuted traj max_dt sp : init traj max_dt = Ok sp -> max_dt <= sp_dt sp.
Proof.
case: traj => // p0 rest; rewrite /BsplineModel.init; set dt := if _ then _ else _.
case: (control_loop _ _ _ _ _ _ _) => //= cps [<-] /=; rewrite /dt.
by case: ifP => // /andP [_ /ltW].
Qed.


(** *** Where the trajectory can be queried: from the second control point to the last but two.
    [knot j] is the stamp of control point j *)
Theorem C65_domain p0 rest max_dt sp t : let traj := p0 :: rest in
  increasing_stamps traj -> rest <> [::] -> 0 < max_dt -> init traj max_dt = Ok sp ->
  let n := size (sp_ctrl sp) in let knot j := p0.2 + j%:R * sp_dt sp in
  (exists X, get_pose sp t = Ok (Some (X, t))) /\ knot 1%N <= t /\ t < knot (n - 2)%N \/
  get_pose sp t = Ok None /\ ~ (knot 1%N <= t /\ t < knot (n - 2)%N).
Proof.
move=> traj incr rn md E n kn; have [sp' [E' [dtE dt0] _ cE _]] := C65_construction incr rn md.
move: E'; rewrite E => -[spE]; rewrite -spE in dtE dt0 cE.
have n0 : (0 < size (sp_ctrl sp))%N.
  rewrite (sz cE); case L: (arange_len _ _ _) => //; exfalso.
  have := arange_lenP p0.2 (last p0 rest).2 0 dt0; rewrite L mul0r addr0 ltn0 => /esym; move/negP; apply.
  exact: first_last.
have [/andP[lo hi]|out] := boolP ((kn 1%N <= t) && (t < kn (n - 2)%N)); [left|right].
  have [i [i0 i2 l u]] := find_knot dt0 lo hi.
  by rewrite /BsplineModel.get_pose (query_in dt0 cE _ p0 erefl i0 i2 l u); split; [eexists|].
by split; [exact: (query_out dt0 cE _ erefl n0 out)|case=> lo hi; rewrite lo hi in out].
Qed.

(** end_time itself, and in fact every stamp after the last control point, is never answered *)
Theorem C65_end_refuted p0 rest max_dt sp : let traj := p0 :: rest in
  increasing_stamps traj -> rest <> [::] -> 0 < max_dt -> init traj max_dt = Ok sp ->
  get_pose sp (sp_end sp) = Ok None.
Proof.
move=> traj incr rn md E; have [sp' [E' [_ dt0] [_ eE] cE _]] := C65_construction incr rn md.
move: E'; rewrite E => -[spE]; rewrite -spE in dt0 cE eE.
have [[_ [lo hi]]|[]//] := C65_domain (sp_end sp) incr rn md E.
exfalso; move: hi; rewrite (sz cE) eE ltNge; move/negP; apply.
set m := arange_len _ _ _; have := arange_lenP p0.2 (last p0 rest).2 (m - 2) dt0.
have [m0|m0] := posnP m.
  by rewrite m0 mul0r addr0 => _; apply/ltW/first_last.
have ml : (m - 2 < m)%N by rewrite ltn_subrL m0.
by rewrite -/m ml => /esym/ltW.
Qed.
End Spline.

(** *** The curve is C2, and the velocities and accelerations returned are its derivatives.
    Angular velocity and linear acceleration are as documented: the angular velocity is resolved
    in the body frame (C' = C w^), the velocity is that of the position in the world frame *)
Section Kinematics.
Variable T : archiFieldType.
Variable d : nat.
Notation k := (3 + 1)%N.
Variables (Exp : 'cV[T]_d -> 'M[T]_k) (Log : 'M[T]_k -> 'cV[T]_d) (ginv : 'M[T]_k -> 'M[T]_k) (wedge : 'cV[T]_d -> 'M[T]_k) (G : 'M[T]_k -> Prop).
(** what the methods return at a stamp, 0 where they return None *)
Definition attitude_at sp t : 'M[T]_3 := if get_pose Exp Log ginv sp t is Ok (Some X) then @ulsubmx T 3 1 3 1 X.1 else 0.
Definition position_at sp t : 'cV[T]_3 := if get_pose Exp Log ginv sp t is Ok (Some X) then @ursubmx T 3 1 3 1 X.1 else 0.
Definition omega_at sp t : 'cV[T]_3 := if get_velocity Exp Log ginv wedge sp t is Ok (Some v) then v.1 else 0.
Definition velocity_at sp t : 'cV[T]_3 := if get_velocity Exp Log ginv wedge sp t is Ok (Some v) then v.2 else 0.
Definition alpha_at sp t : 'cV[T]_3 := if get_acceleration Exp Log ginv wedge sp t is Ok (Some v) then v.1 else 0.
Definition accel_at sp t : 'cV[T]_3 := if get_acceleration Exp Log ginv wedge sp t is Ok (Some v) then v.2 else 0.
Theorem C64_kinematics p0 rest max_dt sp t :
  spline_laws Exp Log ginv wedge G -> (forall X : 'M[T]_k, G X -> (@ulsubmx T 3 1 3 1 X)^T *m @ulsubmx T 3 1 3 1 X = 1%:M) ->
  let traj := p0 :: rest in (forall q, List.In q traj -> G q.1) ->
  increasing_stamps traj -> rest <> [::] -> 0 < max_dt -> init Exp Log ginv traj max_dt = Ok sp ->
  let n := size (sp_ctrl sp) in let knot j := p0.2 + j%:R * sp_dt sp in
  knot 1%N < t -> t < knot (n - 2)%N ->
  exists X w v al a,
  [/\ get_pose Exp Log ginv sp t = Ok (Some (X, t)), get_velocity Exp Log ginv wedge sp t = Ok (Some (w, v)),
      get_acceleration Exp Log ginv wedge sp t = Ok (Some (al, a)) &
  [/\ is_mderiv (fun h => position_at sp (t + h)) v,
      is_mderiv (fun h => attitude_at sp (t + h)) (@ulsubmx T 3 1 3 1 X *m skew w),
      is_mderiv (fun h => velocity_at sp (t + h)) a,
      is_mderiv (fun h => omega_at sp (t + h)) al &
      is_mcont (fun h => accel_at sp (t + h)) /\ is_mcont (fun h => alpha_at sp (t + h))]].
Proof.
move=> laws ortho traj tG incr rn md E n kn lo hi.
have [sp' [E' [_ dt0] _ cE cI]] := C65_construction Exp Log ginv incr rn md.
move: E'; rewrite E => -[spE]; rewrite -spE in dt0 cE cI.
set dt := sp_dt sp in dt0 cE kn lo hi.
have cG j : (j < size (sp_ctrl sp))%N -> G (nth p0 (sp_ctrl sp) j).1.
  move=> jl; apply: (interp_group laws tG); apply: cI; exact: (py_nth_In (py_nthE p0 jl)).
have [i [i0 i2 l u]] := find_knot dt0 (ltW lo) hi.
have q (A : Type) (g : 'M[T]_k -> 'M[T]_k -> 'M[T]_k -> 'M[T]_k -> T -> T -> A) := query_in dt0 cE g p0 erefl i0 i2 l u.
rewrite /get_pose /get_velocity /get_acceleration !q /=.
do 5 eexists; split; [reflexivity|reflexivity|reflexivity|].
have D m m' (g g' : segfn T 3 m m') := @curve_deriv T 3 _ p0.2 _ dt sp G p0 dt0 cE erefl cG m m' g g'.
have C m m' (g : segfn T 3 m m') := @curve_cont T 3 _ p0.2 _ dt sp G p0 dt0 cE erefl cG m m' g.
have cv m m' (g : segfn T 3 m m') : curve sp g t = g (nth p0 (sp_ctrl sp) i.-1).1 (nth p0 (sp_ctrl sp) i).1
    (nth p0 (sp_ctrl sp) i.+1).1 (nth p0 (sp_ctrl sp) i.+2).1 ((t - knot p0.2 dt i) / dt) dt by rewrite /curve q.
pose gp : segfn T 3 _ _ := fun P0 P1 P2 P3 u _ => seg_pose Exp Log ginv P0 P1 P2 P3 u.
pose gv : segfn T 3 _ _ := seg_vel Exp Log ginv wedge.
pose ga : segfn T 3 _ _ := seg_acc Exp Log ginv wedge.
pose gw : segfn T 3 _ _ := fun P0 P1 P2 P3 u dt => seg_w Exp Log ginv wedge P0 P1 P2 P3 dt u.
pose gal : segfn T 3 _ _ := fun P0 P1 P2 P3 u dt => seg_al Exp Log ginv wedge P0 P1 P2 P3 dt u.
pose ur m1 m2 (g : segfn T 3 (3 + 1) (m1 + m2)) : segfn T 3 3 m2 := fun P0 P1 P2 P3 u dt => @ursubmx T 3 1 m1 m2 (g P0 P1 P2 P3 u dt).
pose ul m1 m2 (g : segfn T 3 (3 + 1) (m1 + m2)) : segfn T 3 3 m1 := fun P0 P1 P2 P3 u dt => @ulsubmx T 3 1 m1 m2 (g P0 P1 P2 P3 u dt).
have kp P0 P1 P2 P3 P4 : G P0 -> G P1 -> gp P0 P1 P2 P3 1 dt = gp P1 P2 P3 P4 0 dt by move=> g0 g1; exact: (seg_pose_knot laws).
have kv P0 P1 P2 P3 P4 : G P0 -> G P1 -> gv P0 P1 P2 P3 1 dt = gv P1 P2 P3 P4 0 dt by move=> g0 g1; exact: (seg_vel_knot laws).
have ka P0 P1 P2 P3 P4 : G P0 -> G P1 -> ga P0 P1 P2 P3 1 dt = ga P1 P2 P3 P4 0 dt by move=> g0 g1; exact: (seg_acc_knot laws).
have kw P0 P1 P2 P3 P4 : G P0 -> G P1 -> gw P0 P1 P2 P3 1 dt = gw P1 P2 P3 P4 0 dt.
  by move=> g0 g1; rewrite /gw /seg_w; have := kp _ _ P2 P3 P4 g0 g1; have := kv _ _ P2 P3 P4 g0 g1; rewrite /gp /gv => -> ->.
have kal P0 P1 P2 P3 P4 : G P0 -> G P1 -> gal P0 P1 P2 P3 1 dt = gal P1 P2 P3 P4 0 dt.
  by move=> g0 g1; rewrite /gal /seg_al; have := kp _ _ P2 P3 P4 g0 g1; have := kv _ _ P2 P3 P4 g0 g1; have := ka _ _ P2 P3 P4 g0 g1; rewrite /gp /gv /ga => -> -> ->.
split.
- have H := D _ _ (ur _ _ gp) (ur _ _ gv) t _ _ _ lo hi; rewrite cv in H.
  apply: eq_mderiv (H _ _ _) => [h|P0 P1 P2 P3 P4 g0 g1|P0 P1 P2 P3 P4 g0 g1|P0 P1 P2 P3 v g0].
  + by rewrite /position_at /get_pose /curve /query; case: (find_control _ _) => [[[[[? ?] ?] ?]|]|].
  + by rewrite /ur (kp _ _ P2 P3 P4).
  + by rewrite /ur (kv _ _ P2 P3 P4).
  + exact: mderiv_ur (seg_pose_deriv laws P0 P1 P2 P3 dt v).
- have H := D _ _ (ul _ _ gp) (ul _ _ gv) t _ _ _ lo hi; rewrite cv in H.
  have gi : G (nth p0 (sp_ctrl sp) i.-1).1 by apply: cG; apply: leq_ltn_trans (leq_pred _) _; exact: ltnW (ltnW i2).
  have := rotv_skew laws ortho (nth p0 (sp_ctrl sp) i).1 (nth p0 (sp_ctrl sp) i.+1).1 (nth p0 (sp_ctrl sp) i.+2).1 dt ((t - knot p0.2 dt i) / dt) gi.
  rewrite /seg_w /rot => ->.
  apply: eq_mderiv (H _ _ _) => [h|P0 P1 P2 P3 P4 g0 g1|P0 P1 P2 P3 P4 g0 g1|P0 P1 P2 P3 v g0].
  + by rewrite /attitude_at /get_pose /curve /query; case: (find_control _ _) => [[[[[? ?] ?] ?]|]|].
  + by rewrite /ul (kp _ _ P2 P3 P4).
  + by rewrite /ul (kv _ _ P2 P3 P4).
  + exact: mderiv_ul (seg_pose_deriv laws P0 P1 P2 P3 dt v).
- have H := D _ _ (ur _ _ gv) (ur _ _ ga) t _ _ _ lo hi; rewrite cv in H.
  apply: eq_mderiv (H _ _ _) => [h|P0 P1 P2 P3 P4 g0 g1|P0 P1 P2 P3 P4 g0 g1|P0 P1 P2 P3 v g0].
  + by rewrite /velocity_at /get_velocity /curve /query; case: (find_control _ _) => [[[[[? ?] ?] ?]|]|].
  + by rewrite /ur (kv _ _ P2 P3 P4).
  + by rewrite /ur (ka _ _ P2 P3 P4).
  + exact: mderiv_ur (seg_vel_deriv laws P0 P1 P2 P3 dt v).
- have H := D _ _ gw gal t _ _ _ lo hi; rewrite cv in H.
  apply: eq_mderiv (H kw kal _) => [h|P0 P1 P2 P3 v g0].
  + by rewrite /omega_at /get_velocity /curve /query; case: (find_control _ _) => [[[[[? ?] ?] ?]|]|].
  + exact: (w_deriv laws ortho).
split.
- have aE s : accel_at sp s = curve sp (ur _ _ ga) s.
    by rewrite /accel_at /get_acceleration /curve /query; case: (find_control _ _) => [[[[[? ?] ?] ?]|]|].
  have H := C _ _ (ur _ _ ga) t _ _ lo hi => r c.
  apply: eq_small (H _ _ r c) => [h|P0 P1 P2 P3 P4 g0 g1|P0 P1 P2 P3 v g0].
  + by rewrite !aE.
  + by rewrite /ur (ka _ _ P2 P3 P4).
  + by have [L HL] := seg_acc_cont laws P0 P1 P2 P3 dt v; eexists; exact: mderiv_ur HL.
- have aE s : alpha_at sp s = curve sp gal s.
    by rewrite /alpha_at /get_acceleration /curve /query; case: (find_control _ _) => [[[[[? ?] ?] ?]|]|].
  have H := C _ _ gal t _ _ lo hi => r c.
  apply: eq_small (H kal _ r c) => [h|P0 P1 P2 P3 v g0].
  + by rewrite !aE.
  + exact: (al_deriv laws).
Qed.
End Kinematics.

(** *** Non-vacuity: pure translations, and a trajectory of six poses with max_dt = 1/2.  (A
    witness with rotations, over the real numbers, is in RealProps.v) *)
Section Translations.
Variable T : archiFieldType.
Notation k := (3 + 1)%N.
Definition tExp (v : 'cV[T]_3) : 'M[T]_k := block_mx 1%:M v 0 1%:M.
Definition tLog (X : 'M[T]_k) : 'cV[T]_3 := @ursubmx T 3 1 3 1 X.
Definition tinv (X : 'M[T]_k) : 'M[T]_k := tExp (- tLog X).
Definition twedge (v : 'cV[T]_3) : 'M[T]_k := block_mx 0 v 0 0.
Definition tG (X : 'M[T]_k) : Prop := exists v, X = tExp v.
Lemma tExpM u v : tExp u *m tExp v = tExp (u + v).
Proof. by rewrite /tExp mulmx_block !mul1mx !mul0mx !mulmx1 !mulmx0 !addr0 add0r addrC. Qed.
Lemma tLogK v : tLog (tExp v) = v. Proof. exact: block_mxKur. Qed.
Lemma tExp0 : tExp 0 = 1%:M. Proof. by rewrite /tExp -scalar_mx_block. Qed.
Lemma translation_laws : spline_laws tExp tLog tinv twedge tG.
Proof.
split.
- exact: tExp0.
- by move=> a b v; rewrite tExpM scalerDl.
- move=> v; have := mderivD (mderiv_const 1%:M) (mderiv_lin (twedge v)); rewrite add0r.
  apply: eq_mderiv => h; rewrite /twedge scale_block_mx !scaler0 /tExp.
  by rewrite (@scalar_mx_block _ 3 1) add_block_mx addr0 !add0r addr0.
- by move=> X [v ->]; rewrite tLogK.
- by move=> v; exists v.
- by move=> X Y [u ->] [v ->]; exists (u + v); rewrite tExpM.
- by move=> X [v ->]; exists (- v); rewrite /tinv tLogK.
- by move=> X [v ->]; rewrite /tinv tLogK tExpM subrr tExp0.
Qed.
Lemma translation_ortho (X : 'M[T]_k) : tG X -> (@ulsubmx T 3 1 3 1 X)^T *m @ulsubmx T 3 1 3 1 X = 1%:M.
Proof. by move=> [v ->]; rewrite block_mxKul trmx1 mulmx1. Qed.
(** 6 poses, one second apart, at t^2 e_x *)
Definition tpose (j : nat) : pose T 3 := (tExp (j%:R ^+ 2 *: delta_mx ord0 0), j%:R).
Definition ttraj := [seq tpose j | j <- iota 0 6].
Example C64_nonvacuous : exists sp X w v al a,
  [/\ init tExp tLog tinv ttraj 2%:R^-1 = Ok sp, size (sp_ctrl sp) = 5%N,
     get_pose tExp tLog tinv sp 2%:R = Ok (Some (X, 2%:R)), get_velocity tExp tLog tinv twedge sp 2%:R = Ok (Some (w, v)) &
     get_acceleration tExp tLog tinv twedge sp 2%:R = Ok (Some (al, a)) /\
     is_mderiv (fun h => position_at tExp tLog tinv sp (2%:R + h)) v].
Proof.
have incr : increasing_stamps ttraj by rewrite /increasing_stamps /= !ltr_nat.
have rn : behead ttraj <> [::] by [].
have md : 0 < 2%:R^-1 :> T by rewrite invr_gt0 ltr0n.
have [sp [E [dtE _] _ cE _]] := C65_construction tExp tLog tinv (p0 := tpose 0) (rest := behead ttraj) incr rn md.
have d1 : sp_dt sp = 1.
  by rewrite dtE /= subr0 divff ?pnatr_eq0 //; apply/max_idPr; rewrite invf_le1 ?ltr0n // ler1n.
have n5 : size (sp_ctrl sp) = 5%N.
  rewrite (sz cE) d1; apply/eqP; rewrite eqn_leq; apply/andP; split.
    by rewrite leqNgt arange_lenP ?ltr01 //= add0r mulr1 ltxx.
  by rewrite arange_lenP ?ltr01 //= add0r mulr1 ltr_nat.
have tGt q : List.In q (tpose 0 :: behead ttraj) -> tG q.1.
  by rewrite /=; do 6 (case=> [<-|]; first by eexists; reflexivity).
have lo : (tpose 0).2 + 1%:R * sp_dt sp < 2%:R by rewrite d1 /= add0r mulr1 ltr_nat.
have hi : 2%:R < (tpose 0).2 + (size (sp_ctrl sp) - 2)%:R * sp_dt sp by rewrite n5 d1 /= add0r mulr1 ltr_nat.
have [X [w [v [al [a [h1 h2 h3 [h4 _ _ _ _]]]]]]] := C64_kinematics translation_laws translation_ortho tGt incr rn md E lo hi.
by exists sp, X, w, v, al, a.
Qed.
End Translations.

Print Assumptions C64_basis_range.
Print Assumptions C64_basis_derivatives.
Print Assumptions C64_kinematics.
Print Assumptions C65_construction.
Print Assumptions C65_max_dt_refuted.
Print Assumptions C65_domain.
Print Assumptions C65_end_refuted.
