(** C50, C66: states that lack what a model reads, and the IMU state's perturbation. *)
From mathcomp Require Import all_ssreflect all_algebra.
From Verif Require Import Base Tac LinAlg EkfModel PreintModel ImuModel ImuProps Deriv ModelsModel MeasureProps.
Set Implicit Arguments.
Unset Strict Implicit.
Unset Printing Implicit Defensive.
Import Order.Theory GRing.Theory Num.Theory.
Local Open Scope ring_scope.

Section Missing.
Variable R : rcfType.
(** C50: a model of position or velocity applied to an attitude-only state raises, in evaluate and in jacobian: it never returns a
    Jacobian that silently drops the missing block *)
Theorem C50_attitude_only_state_refused (x : mstate R 3) (l tag : 'cV[R]_3) :
  let v := so3_view x in
  [/\ [/\ ~ is_ok (relpos_eval l v), ~ is_ok (range_anchor_eval l tag v), ~ is_ok (abspos_eval v), ~ is_ok (absvel_eval v) & ~ is_ok (altitude_eval None 0 v)],
      [/\ ~ is_ok (relpos_jac (so3 R) l v), ~ is_ok (range_anchor_jac (so3 R) l tag v), ~ is_ok (abspos_jac (so3 R) v), ~ is_ok (absvel_jac (so3 R) v) & ~ is_ok (altitude_jac v)] &
      (m_dir x = DRight -> [/\ abspos_jac (so3 R) v = Raise TypeError, absvel_jac (so3 R) v = Raise TypeError & altitude_jac v = Raise TypeError])].
Proof. by case: x => X [] v; split=> //; split. Qed.
(** C50: a model of velocity applied to a pose without velocity raises *)
Theorem C50_pose_without_velocity_refused n k (G : attgroup R n k) (x : mstate R (n + 1)) :
  let v := se_view k x in ~ is_ok (absvel_eval v) /\ ~ is_ok (absvel_jac G v) /\ (m_dir x = DRight -> absvel_jac G v = Raise TypeError).
Proof. by case: x => X [] v. Qed.
End Missing.

Section ImuPlus.
Variable R : rcfType.
Variable Exp : 'cV[R]_(3 + (3 + 3)) -> 'M[R]_(3 + (1 + 1)).
(** C66: perturbing an IMUState: entries 0-8 move the extended pose, 9-11 are added to the gyroscope bias and 12-14 to the
    accelerometer bias *)
Theorem C66_imu_state_plus (x : istate R) (dx : 'cV[R]_15) : let y := iplus Exp x dx in
  [/\ m_val (i_nav y) = (let E := Exp (\col_(j < 9) dx (inord j) 0) in if m_dir (i_nav x) is DRight then m_val (i_nav x) *m E else E *m m_val (i_nav x)),
      m_dir (i_nav y) = m_dir (i_nav x),
      (forall j : 'I_3, i_bg y j 0 = i_bg x j 0 + dx (inord (9 + j)) 0) &
      (forall j : 'I_3, i_ba y j 0 = i_ba x j 0 + dx (inord (12 + j)) 0)].
Proof.
rewrite /=; split=> //.
- have -> : (\col_(j < 9) dx (inord j) 0) = usubmx (dx : 'cV[R]_(3 + (3 + 3) + (3 + 3))) :> 'cV[R]_(3 + (3 + 3)).
    apply/colP => j; rewrite !mxE; congr (dx _ 0); apply: val_inj; rewrite /= inordK //.
    by apply: leq_trans (ltn_ord j) _.
  by [].
- move=> j; rewrite !mxE; congr (_ + dx _ 0); apply: val_inj; rewrite /= inordK //.
  by case: j => j /= h; rewrite -[15%N]/(9 + 6)%N ltn_add2l; apply: ltn_trans h _.
- move=> j; rewrite !mxE; congr (_ + dx _ 0); apply: val_inj; rewrite /= inordK //.
  by case: j => j /= h; rewrite -[15%N]/(12 + 3)%N ltn_add2l.
Qed.
End ImuPlus.
Print Assumptions C50_attitude_only_state_refused.
Print Assumptions C66_imu_state_plus.
