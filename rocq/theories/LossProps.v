(** C36: robust losses. *)
From Coq Require Import Reals Lra Psatz.
From Coquelicot Require Import Coquelicot.
From Verif Require Import LossModel.
Local Open Scope R_scope.

(** What an M-estimator loss and weight must satisfy. *)
Definition robust_pair (loss weight : R -> R) : Prop :=
  loss 0 = 0 /\
  (forall u, 0 <= loss u) /\
  (forall u, loss (- u) = loss u) /\
  (forall u v, Rabs u <= Rabs v -> loss u <= loss v) /\
  (forall u, 0 < weight u <= 1) /\
  (forall u, is_derive loss u (weight u * u)).

Theorem C36_l2 : robust_pair l2_loss l2_weight.
Proof.
unfold robust_pair, l2_loss, l2_weight; refine (conj _ (conj _ (conj _ (conj _ (conj _ _))))).
- ring.
- intros u; nra.
- intros u; ring.
- intros u v h; apply Rsqr_le_abs_1 in h; unfold Rsqr in h; lra.
- intros u; lra.
- intros u; auto_derive; [trivial | field].
Qed.

Lemma ratio_sq c u : c <> 0 -> 0 <= (u / c) ^ 2.
Proof. intros; apply pow2_ge_0. Qed.

Theorem C36_cauchy c : c <> 0 -> robust_pair (cauchy_loss c) (cauchy_weight c).
Proof.
intros c0; assert (c2 : 0 < c ^ 2) by nra.
unfold cauchy_loss, cauchy_weight.
assert (ge : forall u, 1 <= 1 + (u / c) ^ 2) by (intros u; pose proof (ratio_sq c u c0); lra).
refine (conj _ (conj _ (conj _ (conj _ (conj _ _))))).
- replace (1 + (0 / c) ^ 2) with 1 by (field; trivial); rewrite ln_1; ring.
- intros u; apply Rmult_le_pos; [nra|]; destruct (ge u) as [h|h].
  + apply Rlt_le; rewrite <- ln_1; apply ln_increasing; lra.
  + rewrite <- h, ln_1; lra.
- intros u; replace ((- u / c) ^ 2) with ((u / c) ^ 2) by (field; trivial); reflexivity.
- intros u v h; apply Rmult_le_compat_l; [nra|].
  assert (le : (u / c) ^ 2 <= (v / c) ^ 2).
  { unfold Rdiv; rewrite !Rpow_mult_distr; apply Rmult_le_compat_r; [apply pow2_ge_0|].
    rewrite <- (pow2_abs u), <- (pow2_abs v); apply pow_incr; split; [apply Rabs_pos | trivial]. }
  destruct le as [lt|e]; [|rewrite e; lra].
  apply Rlt_le, ln_increasing; pose proof (ge u); lra.
- intros u; split.
  { pose proof (ge u); unfold Rdiv at 1; rewrite Rmult_1_l; apply Rinv_0_lt_compat; lra. }
  pose proof (ge u); unfold Rdiv at 1; rewrite Rmult_1_l, <- Rinv_1; apply Rinv_le_contravar; lra.
- intros u; pose proof (ge u); auto_derive.
  + unfold Rdiv, pow in H; lra.
  + field; split; [|trivial]; intro h; pose proof (pow2_ge_0 u); nra.
Qed.

(** The stated "loss'(u)/u" form. *)
Theorem C36_weight_is_slope_over_u loss weight u : robust_pair loss weight -> u <> 0 -> weight u = Derive loss u / u.
Proof.
intros (_ & _ & _ & _ & _ & d) u0; rewrite (is_derive_unique _ _ _ (d u)); field; trivial.
Qed.

(** Cauchy never exceeds L2, and is strictly smaller away from 0. *)
Theorem C36_cauchy_below_l2 c u : c <> 0 -> cauchy_loss c u <= l2_loss u.
Proof.
intros c0; unfold cauchy_loss, l2_loss; pose proof (ratio_sq c u c0).
assert (ln (1 + (u / c) ^ 2) <= (u / c) ^ 2).
{ destruct (Req_dec ((u / c) ^ 2) 0) as [e|n]; [rewrite e, Rplus_0_r, ln_1; lra|].
  apply Rlt_le; rewrite <- (ln_exp ((u / c) ^ 2)) at 2; apply ln_increasing; [lra|]; apply exp_ineq1; lra. }
replace (1 / 2 * u * u) with ((1 / 2 * c ^ 2) * (u / c) ^ 2) by (field; trivial).
apply Rmult_le_compat_l; nra.
Qed.
(** The influence weight*u of the Cauchy loss is bounded by |c|/2. *)
Theorem C36_cauchy_bounded_influence c u : c <> 0 -> Rabs (cauchy_weight c u * u) <= Rabs c / 2.
Proof.
intros c0; unfold cauchy_weight; pose proof (ratio_sq c u c0).
assert (c2 : 0 < c ^ 2) by nra.
replace (1 / (1 + (u / c) ^ 2) * u) with (c ^ 2 * u / (c ^ 2 + u ^ 2)).
2:{ field; split; [trivial|]; nra. }
assert (d : 0 < c ^ 2 + u ^ 2) by nra.
unfold Rdiv; rewrite Rabs_mult, (Rabs_right (/ _)); [|left; apply Rinv_0_lt_compat; trivial].
apply (Rmult_le_reg_r (c ^ 2 + u ^ 2)); trivial.
rewrite Rmult_assoc, Rinv_l, Rmult_1_r, Rabs_mult, (Rabs_right (c ^ 2)) by nra.
rewrite <- (pow2_abs c), <- (pow2_abs u).
pose proof (Rabs_pos c); pose proof (Rabs_pos u); pose proof (pow2_ge_0 (Rabs c - Rabs u)); nra.
Qed.

Example C36_example : 0 < cauchy_loss 2 3 < l2_loss 3.
Proof.
unfold cauchy_loss, l2_loss; split.
- apply Rmult_lt_0_compat; [lra|]; rewrite <- ln_1; apply ln_increasing; lra.
- assert (ln (1 + (3 / 2) ^ 2) < (3 / 2) ^ 2).
  { rewrite <- (ln_exp ((3 / 2) ^ 2)) at 2; apply ln_increasing; [lra|]; apply exp_ineq1; lra. }
  lra.
Qed.

Print Assumptions C36_l2.
Print Assumptions C36_cauchy.
Print Assumptions C36_weight_is_slope_over_u.
Print Assumptions C36_cauchy_below_l2.
Print Assumptions C36_cauchy_bounded_influence.
