(** C97 for poses: the batch estimate does not depend on the choice of the world frame. *)
From Coq Require Import Reals.
From mathcomp Require Import all_ssreflect all_algebra.
From Verif Require Import Base Tac LinAlg Deriv RealStruct RealProps PSer MatExp LieExp PreintModel ImuModel ImuProps So3Model So3Props ImuJacProps PreintProps
  ModelsModel ProcessProps MeasureProps LieLaws LieReal LieRealProps EkfModel ResidualModel ProblemModel EquivarianceProps FrameProps BatchFrameProps.
Set Implicit Arguments.
Unset Strict Implicit.
Unset Printing Implicit Defensive.
Import Order.Theory GRing.Theory Num.Theory.
Local Open Scope ring_scope.
Bind Scope ring_scope with Rdefinitions.R.
Local Notation Re := Rdefinitions.R.
Local Notation Rf := [realFieldType of Re].
Local Notation Rc := [rcfType of Re].

Section World.
Variables (K : eqType) (N n kk d : nat) (Gr : attgroup Rc n kk) (view : mstate Rc N -> pose Rc n kk d).
Variables (hat : 'cV[Re]_d -> 'M[Re]_N) (vee : 'M[Re]_N -> 'cV[Re]_d).
Variables (Log : 'M[Re]_N -> 'cV[Re]_d) (J : 'cV[Re]_d -> 'M[Re]_d) (Q : 'M[Re]_d).
(** MatrixLieGroupState with direction="right" (lib/states.py): X.plus(dx) = X Exp(dx),
    X.minus(Y) = Log(Y^-1 X), X.minus_jacobian(Y) = J(X.minus(Y)); Log and J are arbitrary *)
Definition g_dof (_ : 'M[Re]_N) : nat := d.
Definition g_plus (X : 'M[Re]_N) (dx : seq Rc) : 'M[Re]_N := gplus (gExp hat) DRight X (\col_i nth 0 dx i).
Definition g_minus (X Y : 'M[Re]_N) : 'cV[Rc]_d := Log (invmx Y *m X).
Definition g_minus_jac (X Y : 'M[Re]_N) : 'M[Rc]_d := J (g_minus X Y).
Definition odometry : process_model Rc 'M[Re]_N d (vinput Rf 'cV[Re]_d) := body_velocity (gExp hat) (gAd hat vee) (ljac hat vee) Q DRight.

(** The residuals of a pose-graph problem, and the same when the world frame is moved by A
    (rotation C0, translation r0, velocity v0) and the clock is ahead by clk: a prior, odometry
    between two poses, a sensor of navlie.lib.models seen from one pose *)
Inductive moved_residual (group : 'M[Re]_N -> Prop) clk vel C0 r0 v0 (A : 'M[Re]_N) (stamp : K -> option Re) : residual Rc K 'M[Re]_N -> residual Rc K 'M[Re]_N -> Prop :=
  | MovedPrior k (L : 'M[Rc]_d) X t : group X -> moved_residual group clk vel C0 r0 v0 A stamp
      (residual_of stamp [:: k] (prior_evaluate g_minus g_minus_jac L (PState X t)))
      (residual_of (fun k => shift clk (stamp k)) [:: k] (prior_evaluate g_minus g_minus_jac L (PState (A *m X) (shift clk t))))
  | MovedOdometry k k2 v t : moved_residual group clk vel C0 r0 v0 A stamp
      (residual_of stamp [:: k; k2] (process_evaluate g_minus g_minus_jac odometry (VIn v t)))
      (residual_of (fun k => shift clk (stamp k)) [:: k; k2] (process_evaluate g_minus g_minus_jac odometry (VIn v (t + clk))))
  | MovedSensor k y y' : moved_sensor Gr view DRight clk vel C0 r0 v0 y y' -> (forall s, pd (m_cov y s)) -> moved_residual group clk vel C0 r0 v0 A stamp
      (residual_of stamp [:: k] (measurement_evaluate (y : measurement Rc 'M[Re]_N d)))
      (residual_of (fun k => shift clk (stamp k)) [:: k] (measurement_evaluate (y' : measurement Rc 'M[Re]_N d))).
End World.

Theorem C97_world_frame (K : eqType) N n kk d (Gr : attgroup Rc n kk) (view : mstate Rc N -> pose Rc n kk d) (hat : 'cV[Re]_d -> 'M[Re]_N) vee group vel C0 r0 v0 (A : 'M[Re]_N) :
  nav_frame Gr view hat vee group vel C0 r0 v0 A ->
  forall Log J (Q : 'M[Re]_d) clk (stamp : K -> option Re) (p : problem Rc K 'M[Re]_N) rs',
  (forall kv, List.In kv (p_init p ++ p_vars p) -> group kv.2) ->
  List.Forall2 (moved_residual Gr view hat vee Log J Q group clk vel C0 r0 v0 A stamp) (p_resids p) rs' ->
  related (fun q q' => [/\ p_vars q' = [seq (kv.1, A *m kv.2) | kv <- p_vars q], p_history q' = p_history q, p_info q' = p_info q &
                        forall k1 k2, (get_covariance_block q' k1 k2).1 = (get_covariance_block q k1 k2).1])
    (solve (@g_dof N d) (@g_plus N d hat) p) (solve (@g_dof N d) (@g_plus N d hat) (in_frame (mulmx A) p rs')).
Proof.
move=> nf Log J Q clk stamp p rs' hi hr.
have [ok [la gA hg cl hs]] := nav_frame_sensors clk DRight nf.
pose mv : 'M[Re]_N -> 'M[Re]_N -> Prop := moved (inG hat) ok A.
have gm X : group X -> mv X (A *m X) by move=> /hg [].
have hmi a a' b b' : mv a a' -> mv b b' -> g_minus Log a' b' = g_minus Log a b.
  move=> [_ _ ->] [[ub _ _] _ ->]; rewrite /g_minus; case: gA => uA _ _; congr Log.
  have -> : invmx (A *m b) = invmx b *m invmx A.
    have uAb : A *m b \in unitmx by rewrite unitmx_mul uA.
    by rewrite -[LHS]mulmx1 -(mulmxV uA) -{2}[A]mulmx1 -(mulmxV ub) !mulmxA -(mulmxA _ A b) mulVmx // mul1mx.
  by rewrite mulmxA -(mulmxA _ (invmx A)) mulVmx // mulmx1.
have hmj a a' b b' : mv a a' -> mv b b' -> g_minus_jac Log J a' b' = g_minus_jac Log J a b.
  by move=> ha hb; rewrite /g_minus_jac (hmi _ _ _ _ ha hb).
have hpm := C95_body_velocity (real_lie_laws la) cl DRight gA (clk := clk) Q.
have sv (l : seq (K * 'M[Re]_N)) : (forall kv, List.In kv l -> group kv.2) -> same_vars mv l [seq (kv.1, A *m kv.2) | kv <- l].
  elim: l => [|x l IH] h /=; constructor; last by apply: IH => kv hkv; apply: h; right.
  by split=> //; apply: gm; apply: h; left.
have hp : same_problem mv p (in_frame (mulmx A) p rs').
  split=> //.
  - by apply: sv => kv h; apply: hi; apply: List.in_or_app; left.
  - by apply: sv => kv h; apply: hi; apply: List.in_or_app; right.
  elim: hr => [|r r' l l' h _ IH]; constructor=> //.
  case: h => [k L X t gX|k k2 v t|k y y' hy hc].
  - by apply: (C97_prior hmi hmj) => //; split=> //; exact: gm.
  - by apply: (C97_process hmi hmj stamp k k2 hpm); split.
  by apply: (@C97_measurement Rc K _ _ d mv clk stamp k y y' (hs _ _ hy) hc).
have hplus (v v' : 'M[Re]_N) dx : mv v v' -> mv (g_plus hat v dx) (g_plus hat v' dx).
  by move=> /(moved_plus (real_lie_laws la) cl DRight gA (\col_i nth 0 dx i)); rewrite /turn mul1mx.
have hdof (v v' : 'M[Re]_N) : mv v v' -> g_dof d v' = g_dof d v by [].
apply: related_map2 (C97_solve hdof hplus hp) => q q' hq; split; [|exact: sp_history hq|exact: sp_info hq|].
  by elim: (sp_vars hq) => [|[a v] [a' v'] l l' [/= -> [_ _ ->]] _ ->].
by move=> k1 k2; have [] := C97_covariance k1 k2 hq.
Qed.
Print Assumptions C97_world_frame.

(** The hypotheses are met: two poses on SE(3), a prior, odometry between them and a landmark seen
    from the second, from a world frame moved by any rotation and translation. *)
Example C97_world_frame_witness (phi : 'cV[Re]_3) r0 psi r l (z : 'cV[Re]_3) v t clk Log J Q (stamp : nat_eqType -> option Re) :
  let C0 := so3Exp phi : 'M[Re]_3 in let A := block_mx C0 r0 0 1%:M : 'M[Re]_(3 + 1) in
  let X := block_mx (so3Exp psi : 'M[Re]_3) r 0 1%:M : 'M[Re]_(3 + 1) in let hat := se_hat so3R in let vee := se_vee vee3 in
  let stamp' k := shift clk (stamp k) in let mi := g_minus Log in let mj := g_minus_jac Log J in let odo := odometry hat vee Q in
  let y l c := sensor (@se_view Rc 3 3) (relpos_eval l) (relpos_jac so3R l) 1%:M DRight z (Some (t + c)) in
  [/\ nav_frame so3R (@se_view Rc 3 3) hat vee (rigid (@rot Rf)) false C0 r0 0 A, rigid (@rot Rf) X &
      List.Forall2 (moved_residual so3R (@se_view Rc 3 3) hat vee Log J Q (rigid (@rot Rf)) clk false C0 r0 0 A stamp)
        [:: residual_of stamp [:: 0%N : nat_eqType] (prior_evaluate mi mj 1%:M (PState X None));
            residual_of stamp [:: 0%N : nat_eqType; 1%N : nat_eqType] (process_evaluate mi mj odo (VIn v t));
            residual_of stamp [:: 1%N : nat_eqType] (measurement_evaluate (y l 0 : measurement Rc _ _))]
        [:: residual_of stamp' [:: 0%N : nat_eqType] (prior_evaluate mi mj 1%:M (PState (A *m X) None));
            residual_of stamp' [:: 0%N : nat_eqType; 1%N : nat_eqType] (process_evaluate mi mj odo (VIn v (t + clk)));
            residual_of stamp' [:: 1%N : nat_eqType] (measurement_evaluate (y (C0 *m l + r0) clk : measurement Rc _ _))]].
Proof.
move=> C0 A X hat vee stamp' mi mj odo y.
have gX : rigid (@rot Rf) X by exists (so3Exp psi), r; split=> //; exact: so3_rot.
split=> //; first by constructor; exact: so3_rot.
constructor; first by apply: MovedPrior.
constructor; first exact: MovedOdometry.
constructor=> //; apply: MovedSensor; last by move=> s; exact: (@pd1 Rc 3).
rewrite /y addr0; exact: MovedRelpos.
Qed.
