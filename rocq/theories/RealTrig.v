(** arctan2 over the standard library's reals: range, and inverse of (cos, sin). *)
From Coq Require Import Reals Lra Lia.
Local Open Scope R_scope.

(** numpy.arctan2(y, x), as in the C standard (zeros unsigned) *)
Definition atan2 (y x : R) : R :=
  if Rlt_dec 0 x then atan (y / x)
  else if Rlt_dec x 0 then (if Rle_dec 0 y then atan (y / x) + PI else atan (y / x) - PI)
  else if Rlt_dec 0 y then PI / 2 else if Rlt_dec y 0 then - (PI / 2) else 0.
Lemma quot_neg (y x : R) : x < 0 -> y < 0 -> 0 < y / x.
Proof. intros hx hy; generalize (Rinv_lt_0_compat _ hx); unfold Rdiv; nra. Qed.
Lemma quot_pos (y x : R) : x < 0 -> 0 <= y -> y / x <= 0.
Proof. intros hx hy; generalize (Rinv_lt_0_compat _ hx); unfold Rdiv; nra. Qed.
Lemma atan2_range y x : - PI < atan2 y x <= PI.
Proof.
  generalize PI_RGT_0; intro p; destruct (atan_bound (y / x)) as [b1 b2]; unfold atan2.
  destruct (Rlt_dec 0 x) as [hx|hx]; [lra|].
  destruct (Rlt_dec x 0) as [hx'|hx'].
  - destruct (Rle_dec 0 y) as [hy|hy].
    + assert (atan (y / x) <= 0); [|lra].
      destruct (quot_pos y x hx' hy) as [h|h].
      * left; rewrite <- atan_0; apply atan_increasing; exact h.
      * rewrite h, atan_0; lra.
    + assert (0 < atan (y / x)); [|lra].
      rewrite <- atan_0 at 1; apply atan_increasing, quot_neg; lra.
  - destruct (Rlt_dec 0 y); [lra|]; destruct (Rlt_dec y 0); lra.
Qed.
Lemma atan_unit (y c : R) : 0 < c -> c * c + y * y = 1 -> cos (atan (y / c)) = c /\ sin (atan (y / c)) = y.
Proof.
  intros c0 e.
  assert (q : 1 + (y / c)² = (/ c)²).
  { unfold Rsqr, Rdiv. assert (1 = (c * / c) * (c * / c)) as h by (rewrite Rinv_r; lra).
    rewrite h at 1. replace (c * / c * (c * / c) + y * / c * (y * / c)) with ((c * c + y * y) * (/ c * / c)) by ring.
    rewrite e; ring. }
  assert (s : sqrt (1 + (y / c)²) = / c).
  { rewrite q, sqrt_Rsqr; [reflexivity|left; apply Rinv_0_lt_compat; exact c0]. }
  rewrite cos_atan, sin_atan, s; split; field; lra.
Qed.
(** the angle of a unit vector *)
Lemma atan2_unit (y x : R) : x * x + y * y = 1 -> cos (atan2 y x) = x /\ sin (atan2 y x) = y.
Proof.
  intros e; unfold atan2.
  destruct (Rlt_dec 0 x) as [hx|hx]; [apply atan_unit; assumption|].
  destruct (Rlt_dec x 0) as [hx'|hx'].
  - assert (nx : 0 < - x) by lra.
    assert (e' : - x * - x + - y * - y = 1) by (ring_simplify; ring_simplify in e; lra).
    destruct (atan_unit (- y) (- x) nx e') as [h1 h2].
    assert (q : - y / - x = y / x) by (field; lra).
    rewrite q in h1, h2.
    destruct (Rle_dec 0 y) as [hy|hy].
    + rewrite neg_cos, neg_sin; lra.
    + assert (hc : forall a, cos (a - PI) = - cos a) by (intro a; rewrite <- (cos_period (a - PI) 1); replace (a - PI + 2 * INR 1 * PI) with (a + PI) by (simpl; ring); apply neg_cos).
      assert (hs : forall a, sin (a - PI) = - sin a) by (intro a; rewrite <- (sin_period (a - PI) 1); replace (a - PI + 2 * INR 1 * PI) with (a + PI) by (simpl; ring); apply neg_sin).
      rewrite hc, hs; lra.
  - assert (x = 0) by lra; subst x.
    assert (yy : (y - 1) * (y + 1) = 0) by (ring_simplify; ring_simplify in e; lra).
    destruct (Rlt_dec 0 y) as [hy|hy].
    + rewrite cos_PI2, sin_PI2; split; [reflexivity|].
      destruct (Rmult_integral _ _ yy); lra.
    + destruct (Rlt_dec y 0) as [hy'|hy'].
      * rewrite cos_neg, sin_neg, cos_PI2, sin_PI2; split; [reflexivity|].
        destruct (Rmult_integral _ _ yy); lra.
      * assert (y = 0) by lra; subst y; exfalso; lra.
Qed.
(** two angles in (-pi, pi] with the same cosine and sine are equal *)
Lemma angle_inj (a b : R) : - PI < a <= PI -> - PI < b <= PI -> cos a = cos b -> sin a = sin b -> a = b.
Proof.
  intros ha hb hc hs; generalize PI_RGT_0; intro p.
  assert (c1 : cos (a - b) = 1).
  { rewrite cos_minus, hc, hs; generalize (sin2_cos2 b); unfold Rsqr; lra. }
  assert (s0 : sin (a - b) = 0) by (rewrite sin_minus, hc, hs; ring).
  destruct (sin_eq_0_0 _ s0) as [k hk].
  assert (hk1 : -2 < IZR k < 2).
  { assert (r1 : - (2 * PI) < a - b < 2 * PI) by lra. rewrite hk in r1. split; nra. }
  destruct hk1 as [k1 k2]; apply lt_IZR in k1; apply lt_IZR in k2.
  assert (k = -1 \/ k = 0 \/ k = 1)%Z as kk by lia; destruct kk as [kk | [kk | kk]]; subst k.
  - exfalso; rewrite hk in c1. replace (-1 * PI) with (- PI) in c1 by ring. rewrite cos_neg, cos_PI in c1; lra.
  - rewrite Rmult_0_l in hk; lra.
  - exfalso; rewrite hk, Rmult_1_l, cos_PI in c1; lra.
Qed.
Lemma atan2_angle (a : R) : - PI < a <= PI -> atan2 (sin a) (cos a) = a.
Proof.
  intros ha; destruct (atan2_unit (sin a) (cos a)) as [h1 h2].
  - generalize (sin2_cos2 a); unfold Rsqr; lra.
  - apply angle_inj; auto; apply atan2_range.
Qed.
(** in general the angle is recovered up to a multiple of 2 pi *)
Lemma atan2_mod (a : R) : exists k : Z, atan2 (sin a) (cos a) = a + IZR k * (2 * PI).
Proof.
  destruct (atan2_unit (sin a) (cos a)) as [h1 h2].
  { generalize (sin2_cos2 a); unfold Rsqr; lra. }
  set (b := atan2 (sin a) (cos a)) in *.
  assert (c1 : cos (b - a) = 1).
  { rewrite cos_minus, h1, h2; generalize (sin2_cos2 a); unfold Rsqr; lra. }
  assert (s0 : sin ((b - a) / 2) = 0).
  { assert (sin ((b - a) / 2) * sin ((b - a) / 2) = 0).
    { generalize (cos_2a_sin ((b - a) / 2)); replace (2 * ((b - a) / 2)) with (b - a) by field; rewrite c1; lra. }
    destruct (Rmult_integral _ _ H); assumption. }
  destruct (sin_eq_0_0 _ s0) as [k hk]; exists k; lra.
Qed.
Lemma atan_lim0 : derivable_pt_lim atan 0 1.
Proof.
  generalize (derivable_pt_lim_atan 0). unfold Rsqr.
  replace (/ (1 + 0 ^ 2)) with 1; auto. field.
Qed.
