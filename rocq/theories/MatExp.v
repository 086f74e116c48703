(** The matrix exponential over the reals, as the sum of its power series: derivative, and uniqueness of solutions of linear
    differential equations.  (scipy.linalg.expm is modelled by this function.) *)
From Coq Require Import Reals.
From Coquelicot Require Import Coquelicot.
From mathcomp Require Import all_ssreflect all_algebra.
From Verif Require Import Base Tac LinAlg Deriv RealStruct RealProps So3Props PSer.
Set Implicit Arguments.
Unset Strict Implicit.
Unset Printing Implicit Defensive.
Import Order.Theory GRing.Theory Num.Theory.
Local Open Scope ring_scope.
Bind Scope ring_scope with Rdefinitions.R.
Local Notation R := Rdefinitions.R.

Section MatExp.
Variable n : nat.
Implicit Types X Y : 'M[R]_n.
(** X^k *)
Fixpoint mpow X (k : nat) : 'M[R]_n := if k is k'.+1 then X *m mpow X k' else 1%:M.
(** sum over k of X^k / k! *)
Definition expm X : 'M[R]_n := \matrix_(i, j) fser (fun k => mpow X k i j) 1.

Lemma mpowSr X k : mpow X k.+1 = mpow X k *m X.
Proof. by elim: k => [|k IH] /=; rewrite ?mulmx1 ?mul1mx // -mulmxA -IH. Qed.
Lemma mpowZ t X k : mpow (t *: X) k = t ^+ k *: mpow X k.
Proof. by elim: k => [|k IH] /=; rewrite ?scale1r // IH -scalemxAl -scalemxAr scalerA exprS. Qed.
Lemma mpow0 k : mpow 0 k.+1 = 0. Proof. by rewrite /= mul0mx. Qed.
Lemma RpowE (x : R) k : x ^+ k = pow x k.
Proof. by elim: k => [|k IH] //; rewrite exprS IH. Qed.

Lemma mpow_bounded X i j : expbounded (fun k => mpow X k i j).
Proof.
pose c : R := \sum_i \sum_j `|X i j|.
have c0 : 0 <= c by apply: sumr_ge0 => ? _; apply: sumr_ge0 => ? _.
exists c; first exact/RleP.
have H k i' j' : `|mpow X k i' j'| <= c ^+ k.
  elim: k i' j' => [|k IH] i' j'.
    by rewrite expr0 /= mxE; case: eqP; rewrite ?normr1 ?normr0 ?ler01.
  rewrite /= mxE; apply: le_trans (ler_norm_sum _ _ _) _.
  rewrite exprS; apply: (@le_trans _ _ (\sum_l `|X i' l| * c ^+ k)).
    by apply: ler_sum => l _; rewrite normrM ler_wpmul2l.
  rewrite -mulr_suml ler_wpmul2r ?exprn_ge0 // /c [Z in _ <= Z](bigD1 i') //= ler_addl.
  by apply: sumr_ge0 => ? _; apply: sumr_ge0.
by move=> k; have /RleP := H k i j; rewrite RpowE.
Qed.
Lemma expm_line t X i j : expm (t *: X) i j = fser (fun k => mpow X k i j) t.
Proof.
rewrite mxE -[in RHS](Rmult_1_r t) -fser_scale; apply: fser_ext => k.
by rewrite mpowZ mxE RpowE; exact: mulrC.
Qed.
Lemma expm0 : expm 0 = 1%:M.
Proof. by rewrite -(scale0r (0 : 'M[R]_n)); apply/matrixP => i j; rewrite expm_line; exact: fser0. Qed.
(** finite combinations *)
Lemma fser_sum (I : Type) (r : seq I) (c : I -> R) (a : I -> nat -> R) x : (forall l, expbounded (a l)) ->
  fser (fun k => \sum_(l <- r) c l * a l k) x = \sum_(l <- r) c l * fser (a l) x.
Proof.
move=> h.
suff [] : fser (fun k => \sum_(l <- r) c l * a l k) x = \sum_(l <- r) c l * fser (a l) x /\
   ex_pseries (fun k => Rdiv (\sum_(l <- r) c l * a l k) (INR (fact k))) x by [].
elim: r => [|l r [IH1 IH2]].
  have [h1 h2] := fser_zero x; rewrite big_nil; split.
    by rewrite -[RHS]h1; apply: fser_ext => k; rewrite big_nil.
  by apply: (ex_pseries_ext _ _ x _ h2) => k; rewrite big_nil.
have [h1 h2] := fser_lin (c l) (fser_ex x (h l)) IH2; rewrite big_cons -IH1; split.
  by rewrite -[RHS]h1; apply: fser_ext => k; rewrite big_cons.
by apply: (ex_pseries_ext _ _ x _ h2) => k; rewrite big_cons.
Qed.
Lemma expm_deriv X (t : R) : is_mderiv (fun h => expm ((t + h) *: X)) (X *m expm (t *: X)).
Proof.
move=> i j; rewrite mxE.
have -> : (\sum_l X i l * expm (t *: X) l j) = fser (fun k => mpow X k.+1 i j) t.
  have -> : (\sum_l X i l * expm (t *: X) l j) = \sum_l X i l * fser (fun k => mpow X k l j) t.
    by apply: eq_bigr => l _; rewrite expm_line.
  rewrite -fser_sum; last by move=> l; exact: mpow_bounded.
  by apply: fser_ext => k; rewrite /= mxE.
apply: (@eq_deriv _ (fun h : R => fser (fun k => mpow X k i j) (t + h))); first by move=> h; rewrite expm_line.
by apply: deriv_of_lim; apply/is_derive_Reals; apply: fser_deriv; exact: mpow_bounded.
Qed.
Lemma expm_comm X t : expm (t *: X) *m X = X *m expm (t *: X).
Proof.
apply/matrixP => i j; rewrite !mxE.
have -> : (\sum_l X i l * expm (t *: X) l j) = \sum_l X i l * fser (fun k => mpow X k l j) t.
  by apply: eq_bigr => l _; rewrite expm_line.
have -> : (\sum_l expm (t *: X) i l * X l j) = \sum_l X l j * fser (fun k => mpow X k i l) t.
  by apply: eq_bigr => l _; rewrite expm_line mulrC.
rewrite -!fser_sum; try by move=> l; exact: mpow_bounded.
apply: fser_ext => k; transitivity ((mpow X k *m X) i j); last by rewrite -mpowSr mxE.
by rewrite mxE; apply: eq_bigr => l _; rewrite mulrC.
Qed.
Lemma expmN_deriv X (t : R) : is_mderiv (fun h => expm (- (t + h) *: X)) (- X *m expm (- t *: X)).
Proof.
have E s : - s *: X = s *: - X by rewrite scaleNr scalerN.
by rewrite E; apply: eq_mderiv (expm_deriv (- X) t) => h; rewrite E.
Qed.
(** solutions of Y' = X Y *)
Lemma ode_back m X (Y : R -> 'M[R]_(n, m)) : (forall t, is_mderiv (fun h => Y (t + h)) (X *m Y t)) ->
  forall t, expm (- t *: X) *m Y t = Y 0.
Proof.
move=> H t; rewrite (@mconst_of_deriv _ _ (fun t => expm (- t *: X) *m Y t)); first by rewrite oppr0 scale0r expm0 mul1mx.
move=> {}t; have := mderivM (expmN_deriv X t) (H t); rewrite !addr0.
suff -> : - X *m expm (- t *: X) *m Y t + expm (- t *: X) *m (X *m Y t) = 0 by [].
by rewrite mulmxA expm_comm !mulNmx addNr.
Qed.
Lemma expmVl X : expm (- X) *m expm X = 1%:M.
Proof.
have := @ode_back n X (fun t => expm (t *: X)) (expm_deriv X) 1.
by rewrite !scale1r scaleN1r scale0r expm0.
Qed.
Lemma expmVr X : expm X *m expm (- X) = 1%:M.
Proof. by rewrite -{1}(opprK X) expmVl. Qed.
Theorem ode_unique m X (Y : R -> 'M[R]_(n, m)) : (forall t, is_mderiv (fun h => Y (t + h)) (X *m Y t)) ->
  forall t, Y t = expm (t *: X) *m Y 0.
Proof. by move=> H t; rewrite -(ode_back H t) mulmxA scaleNr expmVr mul1mx. Qed.
Lemma expm_deriv_r X (t : R) : is_mderiv (fun h => expm ((t + h) *: X)) (expm (t *: X) *m X).
Proof. by rewrite expm_comm; exact: expm_deriv. Qed.
Lemma expm_add X s t : expm ((s + t) *: X) = expm (s *: X) *m expm (t *: X).
Proof.
have := @ode_unique n X (fun r => expm ((r + t) *: X)) _ s; rewrite add0r; apply=> r.
have E := expm_deriv X (r + t); apply: eq_mderiv E => h; by rewrite addrAC.
Qed.
End MatExp.
Lemma mpow_tr n (X : 'M[R]_n) k : mpow X^T k = (mpow X k)^T.
Proof. by elim: k => [|k IH]; [rewrite /= trmx1|rewrite mpowSr IH /= trmx_mul]. Qed.
Lemma expm_tr n (X : 'M[R]_n) : expm X^T = (expm X)^T.
Proof. by apply/matrixP => i j; rewrite !mxE; apply: fser_ext => k; rewrite mpow_tr mxE. Qed.
Lemma ode_unique_r n m (X : 'M[R]_n) (Y : R -> 'M[R]_(m, n)) : (forall t, is_mderiv (fun h => Y (t + h)) (Y t *m X)) ->
  forall t, Y t = Y 0 *m expm (t *: X).
Proof.
move=> H t; apply: trmx_inj; rewrite trmx_mul -expm_tr linearZ /=; apply: (@ode_unique n m X^T (fun t => (Y t)^T)) => {}t.
by rewrite -trmx_mul; exact: mderivT (H t).
Qed.
