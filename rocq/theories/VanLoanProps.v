(** C85: van_loans returns the exact discretization. *)
From Coq Require Import Reals.
From Coquelicot Require Import Coquelicot.
From mathcomp Require Import all_ssreflect all_algebra.
From Verif Require Import Base Tac LinAlg Deriv RealStruct RealProps So3Props PSer MatExp VanLoanModel.
Set Implicit Arguments.
Unset Strict Implicit.
Unset Printing Implicit Defensive.
Import Order.Theory GRing.Theory Num.Theory.
Local Open Scope ring_scope.
Bind Scope ring_scope with Rdefinitions.R.
Local Notation R := Rdefinitions.R.

Section C85.
Variables n m : nat.
Variables (A : 'M[R]_n) (L : 'M[R]_(n, m)) (Q : 'M[R]_m).
Notation B := (L *m Q *m L^T).
Local Notation Ad dt := (van_loans A L Q dt).1.
Local Notation Qd dt := (van_loans A L Q dt).2.

Lemma block_rows (t : R) : let U := fun t => expm (t *: van_loans_xi A L Q) in
  is_mderiv (fun h => ulsubmx (ulsubmx (U (t + h)))) (ulsubmx (ulsubmx (U t)) *m A) /\
  is_mderiv (fun h => ursubmx (ulsubmx (U (t + h)))) (ulsubmx (ulsubmx (U t)) *m B - ursubmx (ulsubmx (U t)) *m A^T).
Proof.
move=> U; have D := expm_deriv_r (van_loans_xi A L Q) t; rewrite -/(U t) in D.
have E : U t *m van_loans_xi A L Q = block_mx (ulsubmx (U t) *m block_mx A B 0 (- A^T)) (ursubmx (U t) *m block_mx A 0 0 0)
     (dlsubmx (U t) *m block_mx A B 0 (- A^T)) (drsubmx (U t) *m block_mx A 0 0 0).
  by rewrite -{1}(submxK (U t)) /van_loans_xi mulmx_block !mulmx0 !addr0 !add0r.
have E2 : ulsubmx (U t) *m block_mx A B 0 (- A^T) = block_mx (ulsubmx (ulsubmx (U t)) *m A) (ulsubmx (ulsubmx (U t)) *m B - ursubmx (ulsubmx (U t)) *m A^T)
   (dlsubmx (ulsubmx (U t)) *m A) (dlsubmx (ulsubmx (U t)) *m B - drsubmx (ulsubmx (U t)) *m A^T).
  by rewrite -{1}(submxK (ulsubmx (U t))) mulmx_block !mulmx0 !addr0 !mulmxN.
split=> i j.
- have := D (lshift _ (lshift _ i)) (lshift _ (lshift _ j)); rewrite E block_mxEul E2 block_mxEul.
  by apply: eq_deriv => h; rewrite !mxE.
- have := D (lshift _ (lshift _ i)) (lshift _ (rshift _ j)); rewrite E block_mxEul E2 block_mxEur.
  by apply: eq_deriv => h; rewrite !mxE.
Qed.
Lemma U0 : expm (0 *: van_loans_xi A L Q) = 1%:M. Proof. by rewrite scale0r expm0. Qed.
(** C85: the discrete transition matrix is the matrix exponential e^(A dt): the solution of x' = A x over the step *)
Theorem C85_transition (dt : R) : Ad dt = expm (dt *: A).
Proof.
rewrite /van_loans /=; have := @ode_unique_r n n A (fun t => ulsubmx (ulsubmx (expm (t *: van_loans_xi A L Q)))) (fun t => (block_rows t).1) dt.
rewrite U0 => ->; rewrite -[RHS]mul1mx; congr (_ *m _).
by apply/matrixP => i j; rewrite !mxE.
Qed.
Theorem C85_transition_solves (x : R -> 'cV[R]_n) : (forall t, is_mderiv (fun h => x (t + h)) (A *m x t)) -> forall dt, x dt = Ad dt *m x 0.
Proof. by move=> H dt; rewrite C85_transition; exact: ode_unique. Qed.
(** the covariance grows at the rate e^(A t) L Q L^T e^(A t)^T ... *)
Lemma Qd_deriv (t : R) : is_mderiv (fun h => Qd (t + h)) (Ad t *m B *m (Ad t)^T).
Proof.
have [h1 h2] := block_rows t; have := mderivM h2 (mderivT h1); rewrite /= !addr0 /van_loans /=; congr is_mderiv.
rewrite trmx_mul mulmxBl -!mulmxA; set a := ursubmx _; by rewrite subrK.
Qed.
Lemma Qd0 : Qd 0 = 0.
Proof.
rewrite /van_loans /= U0; suff -> : ursubmx (ulsubmx (1%:M : 'M[R]_((n + n) + (n + n)))) = 0 by rewrite mul0mx.
apply/matrixP => i j; rewrite !mxE; case: eqP => // /(congr1 val) /= E.
by have := ltn_ord i; rewrite E ltnNge leq_addr.
Qed.
Lemma continuous_of_deriv (f : R -> R) x l : is_deriv (fun h : R => f (x + h)) l -> continuous f x.
Proof. by move=> /lim_of_deriv h; apply: ex_derive_continuous; exists l; apply/is_derive_Reals. Qed.
Lemma rate_deriv (t : R) : exists D, is_mderiv (fun h => expm ((t + h) *: A) *m B *m (expm ((t + h) *: A))^T) D.
Proof. by eexists; apply: mderivM; [apply: mderivM; [exact: expm_deriv|exact: mderiv_const]|apply: mderivT; exact: expm_deriv]. Qed.
(** C85: the discrete noise covariance is the integral over the step of e^(A s) L Q L^T (e^(A s))^T, entry by entry *)
Theorem C85_covariance_is_integral (dt : R) i j :
  is_RInt (fun s : R => (expm (s *: A) *m (L *m Q *m L^T) *m (expm (s *: A))^T) i j) 0 dt (Qd dt i j).
Proof.
have -> : Qd dt i j = minus (Qd dt i j) (Qd 0 i j).
  have q0 : Qd 0 i j = 0 by rewrite Qd0 mxE.
  by rewrite q0; symmetry; exact: (subr0 (Qd dt i j)).
apply: (is_RInt_derive (fun t => Qd t i j)) => t _.
  apply/is_derive_Reals; apply: lim_of_deriv; have := Qd_deriv t i j; by rewrite C85_transition.
have [D hD] := rate_deriv t; exact: continuous_of_deriv (hD i j).
Qed.
Lemma lyapunov (t : R) : A *m Qd t + Qd t *m A^T + B = Ad t *m B *m (Ad t)^T.
Proof.
have dE r : is_mderiv (fun h => Ad (r + h)) (A *m Ad r).
  by rewrite C85_transition; apply: eq_mderiv (expm_deriv A r) => h; rewrite C85_transition.
symmetry; apply: (@same_deriv n n (fun t => Ad t *m B *m (Ad t)^T) (fun t => A *m Qd t + Qd t *m A^T + B)
  (fun t => A *m (Ad t *m B *m (Ad t)^T) + Ad t *m B *m (Ad t)^T *m A^T)) => [r|r|].
- have := mderivM (mderivM (dE r) (mderiv_const B)) (mderivT (dE r)); rewrite !addr0 mulmx0 addr0 trmx_mul; congr is_mderiv.
  by rewrite !mulmxA.
- have := mderivD (mderivD (mderivM (mderiv_const A) (Qd_deriv r)) (mderivM (Qd_deriv r) (mderiv_const A^T))) (mderiv_const B).
  by rewrite !addr0 mul0mx mulmx0 add0r !addr0.
- by rewrite Qd0 mulmx0 mul0mx !add0r C85_transition scale0r expm0 mul1mx trmx1 mulmx1.
Qed.
(** C85: equivalently, it is the covariance at dt of the continuous-time process started at zero: the solution of the Lyapunov
    equation P' = A P + P A^T + L Q L^T, and with the transition matrix it propagates any initial covariance *)
Theorem C85_propagates_covariance (P : R -> 'M[R]_n) : (forall t, is_mderiv (fun h => P (t + h)) (A *m P t + P t *m A^T + L *m Q *m L^T)) ->
  forall dt, P dt = Ad dt *m P 0 *m (Ad dt)^T + Qd dt.
Proof.
move=> HP; pose D t := P t - (Ad t *m P 0 *m (Ad t)^T + Qd t).
have D0 : D 0 = 0 by rewrite /D Qd0 addr0 C85_transition scale0r expm0 mul1mx trmx1 mulmx1 subrr.
have HD t : is_mderiv (fun h => D (t + h)) (A *m D t + D t *m A^T).
  have dE : is_mderiv (fun h => Ad (t + h)) (A *m Ad t).
    by rewrite C85_transition; apply: eq_mderiv (expm_deriv A t) => h; rewrite C85_transition.
  have := mderivB (HP t) (mderivD (mderivM (mderivM dE (mderiv_const (P 0))) (mderivT dE)) (Qd_deriv t)).
  rewrite !addr0 mulmx0 addr0 trmx_mul -(lyapunov t) /D; congr is_mderiv.
  move: (Ad t) (Qd t) => a q; by rewrite mulmxBr mulmxBl mulmxDr mulmxDl !mulmxA; zmod.
have c t : expm (- t *: A) *m A = A *m expm (- t *: A) by exact: expm_comm.
have W0 t : is_mderiv (fun h => expm (- (t + h) *: A) *m D (t + h) *m (expm (- (t + h) *: A))^T) 0.
  have := mderivM (mderivM (expmN_deriv A t) (HD t)) (mderivT (expmN_deriv A t)); rewrite !addr0; congr is_mderiv.
  rewrite mulNmx -c linearN /= trmx_mul; set E := expm _.
  move: (D t) => d; by rewrite mulmxN !mulmxDr !mulmxDl !mulNmx !mulmxA; zmod.
move=> dt; apply/eqP; rewrite -subr_eq0; apply/eqP; rewrite -/(D dt).
have := @mconst_of_deriv _ _ (fun t => expm (- t *: A) *m D t *m (expm (- t *: A))^T) W0 dt; rewrite D0 mulmx0 mul0mx => W.
have e1 : expm (dt *: A) *m expm (- dt *: A) = 1%:M by rewrite scaleNr expmVr.
have e2 : (expm (- dt *: A))^T *m (expm (dt *: A))^T = 1%:M by rewrite -trmx_mul e1 trmx1.
have -> : D dt = expm (dt *: A) *m (expm (- dt *: A) *m D dt *m (expm (- dt *: A))^T) *m (expm (dt *: A))^T by rewrite !mulmxA e1 mul1mx -mulmxA e2 mulmx1.
by rewrite W mulmx0 mul0mx.
Qed.
(** C85: the covariance is symmetric positive semidefinite whenever Q is and dt >= 0 *)
Theorem C85_covariance_psd (dt : R) : psd Q -> 0 <= dt -> psd (Qd dt).
Proof.
move=> hQ dt0; split.
- rewrite /symmx; apply: (@same_deriv n n (fun t => (Qd t)^T) (fun t => Qd t) (fun t => Ad t *m B *m (Ad t)^T)); last by rewrite Qd0 trmx0.
    move=> t; have := mderivT (Qd_deriv t); congr is_mderiv.
    by rewrite !trmx_mul !trmxK (psd_sym hQ) !mulmxA.
  exact: Qd_deriv.
move=> v; have F t : is_deriv (fun h => qf (Qd (t + h)) v) (qf (Ad t *m B *m (Ad t)^T) v).
  have := mderivM (mderivM (mderiv_const v^T) (Qd_deriv t)) (mderiv_const v); rewrite !mul0mx mulmx0 addr0 add0r => /(_ 0 0).
  by [].
have G t : 0 <= qf (Ad t *m B *m (Ad t)^T) v by apply: (psd_congr _ (psd_congr _ hQ)).2.
have -> : 0 = qf (Qd 0) v by rewrite Qd0 /qf mulmx0 mul0mx mxE.
have Dq : derivable (fun t => qf (Qd t) v) by move=> t; exists (qf (Ad t *m B *m (Ad t)^T) v); exact: lim_of_deriv (F t).
apply/RleP; apply: (@nonneg_derivative_1 (fun t => qf (Qd t) v) Dq); last exact/RleP.
by move=> t; rewrite (derive_pt_eq_0 _ _ _ _ (lim_of_deriv (F t))); apply/RleP.
Qed.
(** C85: two steps compose: discretizing over s + t is discretizing over s, then over t *)
Theorem C85_steps_compose (s t : R) : Ad (s + t) = Ad t *m Ad s /\ Qd (s + t) = Ad t *m Qd s *m (Ad t)^T + Qd t.
Proof.
split; first by rewrite !C85_transition addrC expm_add.
have := @C85_propagates_covariance (fun t => Qd (s + t)) _ t; rewrite addr0; apply=> r.
by rewrite lyapunov; apply: eq_mderiv (Qd_deriv (s + r)) => h; rewrite addrA.
Qed.
End C85.

(** a concrete case: the white-noise-acceleration (double integrator) model *)
Section Witness.
Definition A2 : 'M[R]_2 := \matrix_(i, j) (if (i == 0) && (j == 1) then 1 else 0).
Definition L2 : 'M[R]_(2, 1) := \matrix_(i, j) (if i == 1 then 1 else 0).
Lemma A2sq : A2 *m A2 = 0.
Proof. by apply/matrixP => i j; rewrite !mxE !big_ord_recl big_ord0 !mxE; case: i j => [[|[|i]] hi] [[|[|j]] hj] //=; rewrite ?mulr0 ?mul0r ?addr0. Qed.
Lemma expA2 (t : R) : expm (t *: A2) = 1%:M + t *: A2.
Proof.
have := @ode_unique 2 2 A2 (fun t => 1%:M + t *: A2) _ t; rewrite scale0r addr0 mulmx1 => -> // {}t.
rewrite mulmxDr mulmx1 -scalemxAr A2sq scaler0 addr0.
have := mderivD (mderiv_const (1%:M + t *: A2)) (mderiv_lin A2); rewrite add0r; apply: eq_mderiv => h.
by rewrite scalerDl addrA.
Qed.
(** with unit spectral density: [[dt^3/3, dt^2/2], [dt^2/2, dt]] *)
Example C85_double_integrator (dt : R) : let Qd := (van_loans A2 L2 1%:M dt).2 in
  [/\ Qd 0 0 = dt ^+ 3 / 3%:R, Qd 0 1 = dt ^+ 2 / 2%:R & Qd 1 1 = dt].
Proof.
pose F (t : R) : 'M[R]_2 := \matrix_(i, j) (if (i == 0) && (j == 0) then t ^+ 3 / 3%:R else if (i == 1) && (j == 1) then t else t ^+ 2 / 2%:R).
have F0 : F 0 = 0 by apply/matrixP => i j; rewrite !mxE !expr0n /= !mul0r; do 2?case: ifP.
have E (t : R) : expm (t *: A2) *m (L2 *m 1%:M *m L2^T) *m (expm (t *: A2))^T =
    \matrix_(i, j) (if (i == 0) && (j == 0) then t ^+ 2 else if (i == 1) && (j == 1) then 1 else t).
  rewrite expA2 mulmx1; apply/matrixP => i j; rewrite !mxE !big_ord_recl big_ord0 !mxE !big_ord_recl !big_ord0 !mxE !big_ord_recl !big_ord0 !mxE.
  by case: i j => [[|[|i]] hi] [[|[|j]] hj] //=; rewrite ?mulr0 ?mul0r ?addr0 ?add0r ?mulr1 ?mul1r ?mulr0 ?mul0r ?addr0 ?add0r ?expr2 ?mul1r.
have cube (t : R) : is_deriv (fun h => (t + h) ^+ 3 / 3%:R) (t ^+ 2).
  have := derivZ (2%:R * 3%:R^-1) (derivM (shift_deriv t) (sq_deriv t)); rewrite !addr0 mul1r.
  have n2 : 2%:R != 0 :> R by rewrite pnatr_eq0.
  have n3 : 3%:R != 0 :> R by rewrite pnatr_eq0.
  have -> : 2%:R * 3%:R^-1 * (t ^+ 2 / 2%:R + t * t) = t ^+ 2.
    by rfield.
  by apply: eq_deriv => h; rfield.
have H : forall t, (van_loans A2 L2 1%:M t).2 = F t; last by move=> Qd; rewrite /Qd H !mxE.
apply: (@same_deriv 2 2 (fun t => (van_loans A2 L2 1%:M t).2) F _ (Qd_deriv A2 L2 1%:M)); last by rewrite Qd0 F0.
move=> t; rewrite C85_transition E => i j; rewrite mxE.
case: i j => [[|[|i]] hi] [[|[|j]] hj] //=.
- by apply: eq_deriv (cube t) => h; rewrite mxE.
- by apply: eq_deriv (sq_deriv t) => h; rewrite mxE.
- by apply: eq_deriv (sq_deriv t) => h; rewrite mxE.
- by apply: eq_deriv (shift_deriv t) => h; rewrite mxE.
Qed.
End Witness.
Print Assumptions C85_transition.
Print Assumptions C85_covariance_is_integral.
Print Assumptions C85_propagates_covariance.
Print Assumptions C85_covariance_psd.
Print Assumptions C85_steps_compose.
