(** Power series with coefficients a_n / n!, |a_n| <= c^n: entire, and differentiable term by term.  Used for the matrix exponential. *)
From Coq Require Import Reals Lra.
From Coquelicot Require Import Coquelicot.
From Coq Require Import ssreflect.
Set Implicit Arguments.
Unset Strict Implicit.
Unset Printing Implicit Defensive.
Local Open Scope R_scope.

Definition fser (a : nat -> R) (x : R) : R := PSeries (fun n => a n / INR (fact n)) x.

Lemma term_le_exp x n : 0 <= x -> x ^ n / INR (fact n) <= exp x.
Proof.
move=> x0.
have S : infinite_sum (fun n => x ^ n / INR (fact n)) (exp x).
  apply/is_series_Reals; have := is_exp_Reals x; rewrite /is_pseries; apply: is_series_ext => k.
  by rewrite pow_n_pow /scal /= /mult /= /Rdiv.
have p k : 0 <= x ^ k / INR (fact k).
  by apply: Rmult_le_pos; [apply: pow_le|apply/Rlt_le/Rinv_0_lt_compat/INR_fact_lt_0].
have := @sum_incr (fun n => x ^ n / INR (fact n)) n (exp x) S p.
have : x ^ n / INR (fact n) <= sum_f_R0 (fun n => x ^ n / INR (fact n)) n.
  case: n => [|n]; first by rewrite /=; lra.
  rewrite tech5; have := cond_pos_sum (fun n => x ^ n / INR (fact n)) n p; lra.
lra.
Qed.
Definition expbounded (a : nat -> R) := exists2 c, 0 <= c & forall n, Rabs (a n) <= c ^ n.
Lemma fser_radius a : expbounded a -> CV_radius (fun n => a n / INR (fact n)) = p_infty.
Proof.
case=> c c0 h; have [ub _] := CV_radius_bounded (fun n => a n / INR (fact n)).
have H r : Rbar_le (Finite r) (CV_radius (fun n => a n / INR (fact n))).
  apply: ub; exists (exp (c * Rabs r)) => n; apply: Rle_trans (@term_le_exp (c * Rabs r) n _); last first.
    by apply: Rmult_le_pos => //; exact: Rabs_pos.
  rewrite /Rdiv !Rabs_mult Rabs_inv (Rabs_right (INR (fact n))); last by apply/Rle_ge/pos_INR.
  rewrite -RPow_abs Rpow_mult_distr Rmult_assoc [/ _ * _]Rmult_comm -Rmult_assoc.
  apply: Rmult_le_compat_r; first by apply/Rlt_le/Rinv_0_lt_compat/INR_fact_lt_0.
  by apply: Rmult_le_compat_r => //; apply: pow_le; exact: Rabs_pos.
case: (CV_radius _) H => [l|//|] H; last by have := H 0.
by have := H (l + 1); rewrite /=; lra.
Qed.
Lemma fser_ex a x : expbounded a -> ex_pseries (fun n => a n / INR (fact n)) x.
Proof. by move=> h; apply: CV_radius_inside; rewrite fser_radius. Qed.
Lemma fser_deriv a x : expbounded a -> is_derive (fser a) x (fser (fun n => a (S n)) x).
Proof.
move=> h; have := @is_derive_PSeries (fun n => a n / INR (fact n)) x; rewrite fser_radius // => /(_ I).
rewrite /fser; have -> : PSeries (PS_derive (fun n => a n / INR (fact n))) x = PSeries (fun n => a (S n) / INR (fact n)) x.
  apply: PSeries_ext => n; rewrite /PS_derive fact_simpl mult_INR.
  have f0 := INR_fact_neq_0 n; have s0 : INR (S n) <> 0 by apply: not_0_INR.
  by field.
by [].
Qed.
Lemma fser0 a : fser a 0 = a 0%nat.
Proof. by rewrite /fser PSeries_0 /= /Rdiv Rinv_1 Rmult_1_r. Qed.
Lemma fser_scale a t x : fser (fun n => a n * t ^ n) x = fser a (t * x).
Proof.
rewrite /fser /PSeries; apply: Series_ext => n; rewrite Rpow_mult_distr /Rdiv.
by rewrite !Rmult_assoc; congr (_ * _); rewrite -!Rmult_assoc [t ^ n * _]Rmult_comm.
Qed.
(** finite linear combinations *)
Lemma fser_lin a b c x : ex_pseries (fun n => a n / INR (fact n)) x -> ex_pseries (fun n => b n / INR (fact n)) x ->
  fser (fun n => c * a n + b n) x = c * fser a x + fser b x /\ ex_pseries (fun n => (c * a n + b n) / INR (fact n)) x.
Proof.
move=> ha hb.
have hs : ex_pseries (PS_scal c (fun n => a n / INR (fact n))) x by apply: ex_pseries_scal => //; exact: Rmult_comm.
have E n : PS_plus (PS_scal c (fun n => a n / INR (fact n))) (fun n => b n / INR (fact n)) n = (c * a n + b n) / INR (fact n).
  by rewrite /PS_plus /PS_scal /plus /scal /= /mult /=; field; exact: INR_fact_neq_0.
split; first by rewrite /fser -(PSeries_ext _ _ x E) PSeries_plus // PSeries_scal.
exact: (ex_pseries_ext _ _ x E (ex_pseries_plus _ _ x hs hb)).
Qed.
Lemma fser_zero x : fser (fun n => 0) x = 0 /\ ex_pseries (fun n : nat => 0 / INR (fact n)) x.
Proof.
have h : expbounded (fun _ => 0) by exists 1 => [|n]; [lra|rewrite Rabs_R0 pow1; lra].
split; last exact: (fser_ex x h).
rewrite /fser /PSeries -[0 in RHS](Rmult_0_l (Series (fun _ => 0))) -Series_scal_l; apply: Series_ext => n.
by rewrite /Rdiv !Rmult_0_l.
Qed.
Lemma fser_ext a b x : (forall n, a n = b n) -> fser a x = fser b x.
Proof. by move=> h; apply: PSeries_ext => n; rewrite h. Qed.
Lemma fser_bound a C c : 0 <= C -> 0 <= c -> (forall n, Rabs (a n) <= C * c ^ n) -> Rabs (fser a 1) <= C * exp c.
Proof.
move=> C0 c0 h; have ex := is_exp_Reals c.
have E : is_series (fun n => C * (c ^ n / INR (fact n))) (C * exp c).
  have := is_series_scal C _ _ ex; apply: is_series_ext => n.
  by rewrite pow_n_pow; reflexivity.
have B n : Rabs (a n / INR (fact n) * 1 ^ n) <= C * (c ^ n / INR (fact n)).
  have f0 := INR_fact_lt_0 n; rewrite pow1 Rmult_1_r /Rdiv Rabs_mult (Rabs_right (/ _)); last first.
    by apply: Rle_ge; apply: Rlt_le; apply: Rinv_0_lt_compat.
  rewrite -Rmult_assoc; apply: Rmult_le_compat_r; first by apply: Rlt_le; apply: Rinv_0_lt_compat.
  exact: h.
have exA : ex_series (fun n => Rabs (a n / INR (fact n) * 1 ^ n)).
  apply: (@ex_series_le _ _ _ (fun n => C * (c ^ n / INR (fact n)))); last by eexists; exact: E.
  by move=> n; rewrite /norm /= /abs /= Rabs_Rabsolu; exact: B.
rewrite /fser /PSeries; apply: Rle_trans (Series_Rabs _ exA) _.
rewrite -(is_series_unique _ _ E); apply: Series_le; last by eexists; exact: E.
by move=> n; split; [exact: Rabs_pos|exact: B].
Qed.
Lemma fser_sub a b c s : expbounded a -> expbounded b -> expbounded c ->
  fser (fun n => a n - b n - s * c n) 1 = fser a 1 - fser b 1 - s * fser c 1.
Proof.
move=> ha hb hc.
have [e1 x1] := fser_lin (-1) (fser_ex 1 hb) (fser_ex 1 ha).
have [e2 _] := fser_lin (- s) (fser_ex 1 hc) x1.
transitivity (fser (fun n => (- s) * c n + (-1 * b n + a n)) 1); first by apply: fser_ext => n; ring.
by rewrite e2 e1; ring.
Qed.
