(** C81: the series M_matrix converges to the closed form N_matrix. *)
From Coq Require Import Reals Lra.
From Coquelicot Require Import Coquelicot.
From mathcomp Require Import all_ssreflect all_algebra.
From Verif Require Import Base Deriv RealStruct EkfModel ImuModel ImuProps So3Model So3Props.
Set Implicit Arguments.
Unset Strict Implicit.
Unset Printing Implicit Defensive.
Import Order.Theory GRing.Theory Num.Theory.
Local Open Scope ring_scope.
Bind Scope ring_scope with Rdefinitions.R.
Local Notation R := Rdefinitions.R.

Lemma sum_f_R0E (f : nat -> R) k : sum_f_R0 f k = \sum_(i < k.+1) f i.
Proof. elim: k => [|k IH]; first by rewrite big_ord1. by rewrite big_ord_recr /= -IH. Qed.

(** partial sums of the two scalar series *)
Definition S1 (t : R) (k : nat) : R := \sum_(i < k) (- t ^+ 2) ^+ i / ((2 * i + 3)`!)%:R.
Definition S2 (t : R) (k : nat) : R := \sum_(i < k) (- t ^+ 2) ^+ i / ((2 * i + 4)`!)%:R.

Section Powers.
Variable v : 'cV[R]_3.
Notation W := (wedge v).
Notation t := (norm2 v).
Lemma wedge_odd k : W ^+ (2 * k + 1) = (- t ^+ 2) ^+ k *: W.
Proof.
elim: k => [|k IH]; first by rewrite expr1 scale1r.
rewrite mulnS -addnA exprD IH -[2%N]/(1 + 1)%N exprD expr1.
rewrite -[_ * _]/(W *m W *m (_ *: W)) -scalemxAr wedge_cube scalerA -exprSr; by [].
Qed.
Lemma wedge_even k : W ^+ (2 * k + 2) = (- t ^+ 2) ^+ k *: (W *m W).
Proof. by rewrite -[2%N in X in (_ + X)%N]/(1 + 1)%N addnA exprD wedge_odd expr1 -[_ * _]/(_ *m _) -scalemxAl. Qed.

Lemma M_succ m : M_matrix m.+1 v = M_matrix m v + (2%:R / ((m + 2)`!)%:R) *: W ^+ m.
Proof. by rewrite /M_matrix big_ord_recr. Qed.
Lemma M_even k : M_matrix (2 * k + 2) v = M_matrix (2 * k + 1) v + (2%:R * ((- t ^+ 2) ^+ k / ((2 * k + 3)`!)%:R)) *: W.
Proof.
have -> : (2 * k + 2 = (2 * k + 1).+1)%N by rewrite addn2 addn1.
rewrite M_succ; congr (_ + _); rewrite wedge_odd scalerA; congr (_ *: _); by rewrite -[(2 * k + 1 + 2)%N]addnA -mulrA [_^-1 * _]mulrC.
Qed.
Lemma M_odd k : M_matrix (2 * k + 1) v = 1%:M + (2%:R * S1 t k) *: W + (2%:R * S2 t k) *: (W *m W).
Proof.
elim: k => [|k IH].
  rewrite /M_matrix big_ord1 /S1 /S2 !big_ord0 mulr0 !scale0r !addr0 expr0 add0n.
  have -> : (2%:R / (2`!)%:R : R) = 1 by rewrite divff // pnatr_eq0.
  by rewrite scale1r.
have -> : (2 * k.+1 + 1 = (2 * k + 2).+1)%N by rewrite mulnS addn1 addnC.
rewrite M_succ M_even {}IH wedge_even scalerA.
rewrite /S1 /S2 !big_ord_recr /= -/(S1 _ _) -/(S2 _ _) !mulrDr !scalerDl.
rewrite -[(2 * k + 2 + 2)%N]addnA -mulrA [(_%:R)^-1 * _]mulrC.
set a := _ *: W; set b := _ *: W; set c := _ *: (_ *m _); set d := _ *: (_ *m _).
by rewrite -!addrA; congr (_ + (_ + _)); rewrite addrCA.
Qed.
Lemma M_even' k : M_matrix (2 * k + 2) v = 1%:M + (2%:R * S1 t k.+1) *: W + (2%:R * S2 t k) *: (W *m W).
Proof. by rewrite M_even M_odd /S1 big_ord_recr /= -/(S1 t k) mulrDr scalerDl -!addrA; congr (_ + (_ + _)); rewrite addrC. Qed.

Lemma M_closed m : M_matrix m.+1 v = 1%:M + (2%:R * S1 t (uphalf m)) *: W + (2%:R * S2 t m./2) *: (W *m W).
Proof.
rewrite uphalf_half; have := odd_double_half m; case o : (odd m) => /=; rewrite -mul2n => em.
  have -> : (m.+1 = 2 * m./2 + 2)%N by rewrite -{1}em add1n addn2.
  by rewrite M_even' add1n.
have -> : (m.+1 = 2 * m./2 + 1)%N by rewrite -{1}em add0n addn1.
by rewrite M_odd add0n.
Qed.
End Powers.

Definition tends (u : nat -> R) (l : R) : Prop :=
  forall eps : R, 0 < eps -> exists N, forall m, (N <= m)%N -> `|u m - l| < eps.

Lemma infinite_tends (f : nat -> R) l : infinite_sum f l -> tends (fun k => \sum_(i < k) f i) l.
Proof.
move=> h eps /RltP e0; have [N hN] := h eps e0; exists N.+1 => -[|m] //; rewrite ltnS => lm.
move/ssrnat.leP: lm => /hN; by rewrite sum_f_R0E /R_dist => /RltP; rewrite RnormE.
Qed.

Lemma RpowE' (x : R) k : pow x k = x ^+ k.
Proof. by elim: k => [|k IH] //=; rewrite exprS IH. Qed.
Lemma factE' k : Factorial.fact k = k`!.
Proof. by elim: k => [|k IH] //; rewrite factS -IH /= mulSn. Qed.

Lemma tends_ext u u' l : (forall k, u k = u' k) -> tends u l -> tends u' l.
Proof. by move=> e h eps e0; have [N hN] := h eps e0; exists N => m lm; rewrite -e; exact: hN. Qed.
Lemma tends_affine u l (a c : R) : tends u l -> tends (fun k => a + c * u k) (a + c * l).
Proof.
move=> h eps e0; have c1 : 0 < `|c| + 1 by rewrite ltr_paddl ?normr_ge0 ?ltr01.
have [N hN] := h (eps / (`|c| + 1)) (divr_gt0 e0 c1); exists N => m /hN lt.
rewrite opprD addrACA subrr add0r -mulrBr normrM; apply: (le_lt_trans (y := (`|c| + 1) * `|u m - l|)).
  by rewrite ler_wpmul2r ?normr_ge0 // ler_addl ler01.
by rewrite mulrC -ltr_pdivl_mulr.
Qed.
Lemma tends_sub u l (f : nat -> nat) : tends u l -> (forall N, exists M, forall m, (M <= m)%N -> (N <= f m)%N) ->
  tends (fun k => u (f k)) l.
Proof.
by move=> h hf eps e0; have [N hN] := h eps e0; have [M hM] := hf N; exists M => m /hM; exact: hN.
Qed.

Lemma sin_series (t : R) : exists2 a, sin t = t * a & tends (fun k => \sum_(i < k) (- t ^+ 2) ^+ i / ((2 * i + 1)`!)%:R) a.
Proof.
rewrite /sin; case: (exist_sin (Rsqr t)) => a ha; exists a => //.
apply: tends_ext (infinite_tends ha) => k; apply: eq_bigr => i _.
rewrite /sin_n factE' -RnatE !RpowE' /Rdiv -RinvE; last by apply/eqP; rewrite pnatr_eq0 -lt0n fact_gt0.
have -> : Rsqr t = t ^+ 2 by rewrite expr2.
rewrite -!RmulE -[IZR (-1)]/(- 1 : R) multE ?plusE mulrAC -exprMn mulN1r; by [].
Qed.
Lemma cos_series (t : R) : tends (fun k => \sum_(i < k) (- t ^+ 2) ^+ i / ((2 * i)`!)%:R) (cos t).
Proof.
rewrite /cos; case: (exist_cos (Rsqr t)) => a ha.
apply: tends_ext (infinite_tends ha) => k; apply: eq_bigr => i _.
rewrite /cos_n factE' -RnatE !RpowE' /Rdiv -RinvE; last by apply/eqP; rewrite pnatr_eq0 -lt0n fact_gt0.
have -> : Rsqr t = t ^+ 2 by rewrite expr2.
rewrite -!RmulE -[IZR (-1)]/(- 1 : R) multE ?plusE mulrAC -exprMn mulN1r; by [].
Qed.

Lemma S1_tends (t : R) : t != 0 -> tends (S1 t) ((t - sin t) / t ^+ 3).
Proof.
move=> t0; have [a -> h] := sin_series t.
have h' : tends (fun k => t ^- 2 + (- t ^- 2) * \sum_(i < k.+1) (- t ^+ 2) ^+ i / ((2 * i + 1)`!)%:R) (t ^- 2 + (- t ^- 2) * a).
  by apply: (tends_affine (u := fun k => \sum_(i < k.+1) _)); apply: (tends_sub (f := S) h) => N; exists N => m; exact: leqW.
have -> : (t - t * a) / t ^+ 3 = t ^- 2 + (- t ^- 2) * a by rfield.
apply: tends_ext h' => k; rewrite big_ord_recl /= expr0 muln0 add0n -[(1`!)%N]/1%N divr1 mulrDr mulr1 mulNr addrA subrr add0r /S1 big_distrr /=.
rewrite -sumrN; apply: eq_bigr => i _; rewrite /bump /= add1n [_ ^+ i.+1]exprS mulnS.
have -> : (2 + 2 * i + 1 = 2 * i + 3)%N by rewrite addnC addnA addnC [(1 + 2)%N]addnC.
have q0 : t ^+ 2 != 0 by rewrite expf_eq0 (negbTE t0).
move: (t ^+ 2) q0 => q q0; by rewrite !mulNr mulrN opprK -!mulrA mulKf.
Qed.
Lemma S2_tends (t : R) : t != 0 -> tends (S2 t) ((cos t - 1 + t ^+ 2 / 2%:R) / t ^+ 4).
Proof.
move=> t0; have h := cos_series t.
have h' : tends (fun k => (t ^+ 2 / 2%:R - 1) / t ^+ 4 + t ^- 4 * \sum_(i < k.+2) (- t ^+ 2) ^+ i / ((2 * i)`!)%:R) ((t ^+ 2 / 2%:R - 1) / t ^+ 4 + t ^- 4 * cos t).
  by apply: (tends_affine (u := fun k => \sum_(i < k.+2) _)); apply: (tends_sub (f := fun k => k.+2) h) => N; exists N => m l; rewrite (leq_trans l) // ltnW.
have -> : (cos t - 1 + t ^+ 2 / 2%:R) / t ^+ 4 = (t ^+ 2 / 2%:R - 1) / t ^+ 4 + t ^- 4 * cos t by rewrite [t ^- 4 * _]mulrC -mulrDl; congr (_ / _); rewrite addrAC [cos t + _]addrC addrAC.
apply: tends_ext h' => k; rewrite 2!big_ord_recl /= expr0 muln0 fact0 divr1 expr1.
rewrite !mulrDr mulr1 [LHS]addrA [LHS]addrA.
have -> : (t ^+ 2 / 2%:R - 1) / t ^+ 4 + t ^- 4 + t ^- 4 * (- t ^+ 2 / ((2 * bump 0 0)`!)%:R) = 0.
  rewrite /bump /= muln1 -[(2`!)%N]/2%N; rfield.
rewrite add0r /S2 big_distrr /=; apply: eq_bigr => i _; rewrite /bump /= !add1n !mulnS -[i.+2]addn2 exprD sqrrN -exprM.
have -> : (2 + (2 + 2 * i) = 2 * i + 4)%N by rewrite addnA addnC.
have q0 : t ^+ 4 != 0 by rewrite expf_eq0 (negbTE t0).
rewrite -[(2 * 2)%N]/4%N; move: (t ^+ 4) q0 => q q0; by rewrite [_ ^+ i * _]mulrC -!mulrA mulKf.
Qed.

(** C81: for a rotation vector beyond the small-angle tolerance, every entry of the partial
    sums of M_matrix tends to the entry of N_matrix's closed form. *)
Theorem C81_M_series_converges tol (v : 'cV[R]_3) i j : v != 0 -> tol <= norm2 v ->
  forall eps : R, 0 < eps -> exists m0, forall m, (m0 <= m)%N -> `|M_matrix m v i j - N_matrix tol v i j| < eps.
Proof.
move=> v0 ht; have t0 : norm2 v != 0 by rewrite norm2_eq0.
have half N : exists M, forall m, (M <= m)%N -> (N <= m.-1./2)%N.
  exists (N.*2).+1 => -[|m] //=; rewrite ltnS => l; by rewrite -(doubleK N) half_leq.
have uph N : exists M, forall m, (M <= m)%N -> (N <= uphalf m.-1)%N.
  have [M hM] := half N; exists M => m /hM l; apply: leq_trans l _; rewrite uphalf_half; exact: leq_addl.
set t := norm2 v in t0 *.
have h1 := tends_sub (S1_tends t0) uph; have h2 := tends_sub (S2_tends t0) half.
move=> eps e0.
have a1 := tends_affine (1%:M i j : R) (2%:R * wedge v i j) h1.
have a2 := tends_affine 0 (2%:R * (wedge v *m wedge v) i j) h2.
have e2 : 0 < eps / 2%:R by rewrite divr_gt0 // ltr0n.
have [N1 H1] := a1 _ e2; have [N2 H2] := a2 _ e2.
exists (maxn 1 (maxn N1 N2)) => m; rewrite !geq_max => /and3P [m1 l1 l2].
have entry (A B C : 'M[R]_3) (x y : R) : (A + x *: B + y *: C) i j = A i j + x * B i j + y * C i j.
  by rewrite [LHS]mxE [(A + _) i j]mxE [(x *: B) i j]mxE [(y *: C) i j]mxE.
pose u1 : R := 1%:M i j + 2%:R * wedge v i j * S1 t (uphalf m.-1).
pose u2 : R := 0 + 2%:R * (wedge v *m wedge v) i j * S2 t (m.-1)./2.
pose l1' : R := 1%:M i j + 2%:R * wedge v i j * ((t - sin t) / t ^+ 3).
pose l2' : R := 0 + 2%:R * (wedge v *m wedge v) i j * ((cos t - 1 + t ^+ 2 / 2%:R) / t ^+ 4).
have d1 : `|u1 - l1'| < eps / 2%:R := H1 m l1.
have d2 : `|u2 - l2'| < eps / 2%:R := H2 m l2.
have -> : M_matrix m v i j = u1 + u2.
  by rewrite -(prednK m1) M_closed entry -/t /u1 /u2 add0r; congr (_ + _ + _); rewrite mulrAC.
have -> : N_matrix tol v i j = l1' + l2'.
  rewrite (N_closed v0 ht) addrAC -/t entry /l1' /l2' add0r.
  move: (wedge v i j) ((wedge v *m wedge v) i j) => w ww.
  congr (_ + _ + _); rfield.
rewrite opprD addrACA; apply: le_lt_trans (ler_norm_add _ _) _.
by rewrite [eps]splitr ltr_add.
Qed.
(** at zero the series is its first term, the identity, which is also N_matrix there *)
Theorem C81_M_series_at_zero m tol : 0 < tol -> (0 < m)%N -> M_matrix m 0 = 1%:M /\ N_matrix tol 0 = 1%:M.
Proof.
move=> tol0; case: m => [|m] // _; split; last by rewrite /N_matrix (eqP (_ : norm2 0 == 0)) ?norm2_eq0 ?tol0.
have w0 : wedge (0 : 'cV[R]_3) = 0 by rewrite -(scale0r (0 : 'cV[R]_3)) wedgeZ scale0r.
by rewrite M_closed w0 mul0mx !scaler0 !addr0.
Qed.
(** a rotation by one radian about the first axis *)
Example C81_M_witness : let v : 'cV[R]_3 := delta_mx 0 0 in v != 0 /\ (1 / 10%:R : R) <= norm2 v.
Proof.
have n1 : norm2 (delta_mx 0 0 : 'cV[R]_3) = 1.
  rewrite /norm2 (bigD1 0) //= big1 => [|i ne]; rewrite ?mxE ?eqxx ?expr1n ?addr0 ?sqrtr1 //.
  by rewrite (negbTE ne) /= expr0n.
rewrite /= n1 -norm2_eq0 n1 oner_eq0; split=> //.
by rewrite ler_pdivr_mulr ?ltr0n // mul1r ler1n.
Qed.

Print Assumptions C81_M_series_converges.
