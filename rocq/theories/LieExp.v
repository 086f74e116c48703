(** The matrix exponential on a matrix Lie algebra over the reals: derivative in every direction, adjoint, left Jacobian. *)
From Coq Require Import Reals Lra.
From Coquelicot Require Import Coquelicot.
From mathcomp Require Import all_ssreflect all_algebra.
From Verif Require Import Base Tac LinAlg Deriv RealStruct RealProps So3Props PSer MatExp.
Set Implicit Arguments.
Unset Strict Implicit.
Unset Printing Implicit Defensive.
Import Order.Theory GRing.Theory Num.Theory.
Local Open Scope ring_scope.
Bind Scope ring_scope with Rdefinitions.R.
Local Notation R := Rdefinitions.R.

Lemma mfser_bound (a : nat -> R) (C c : R) : 0 <= C -> 0 <= c -> (forall n, `|a n| <= C * c ^+ n) -> `|fser a 1| <= C * exp c.
Proof. by move=> /RleP C0 /RleP c0 h; apply/RleP; apply: fser_bound => // n; have /RleP := h n; rewrite RpowE. Qed.

Section Frechet.
Variable n : nat.
Variables V W : 'M[R]_n.
Definition dirB : 'M[R]_(n + n) := block_mx V W 0 V.
Lemma dirB_pow k : exists D, mpow dirB k = block_mx (mpow V k) D 0 (mpow V k) /\
   mpow dirB k.+1 = block_mx (mpow V k.+1) (V *m D + W *m mpow V k) 0 (mpow V k.+1).
Proof.
elim: k => [|k [D [_ e2]]].
  exists 0; rewrite /= !mulmx1 !mulmx0 add0r; split=> //; by rewrite -scalar_mx_block.
eexists; split; first exact: e2.
by rewrite [LHS]/= -/(mpow dirB k.+1) e2 mulmx_block !mulmx0 !mul0mx !addr0 !add0r.
Qed.
Definition dk k : 'M[R]_n := ursubmx (mpow dirB k).
Lemma dk0 : dk 0 = 0. Proof. by rewrite /dk /= scalar_mx_block block_mxKur. Qed.
Lemma dkS k : dk k.+1 = V *m dk k + W *m mpow V k.
Proof. by have [D [e1 e2]] := dirB_pow k; rewrite /dk e2 e1 !block_mxKur. Qed.

Definition mxsum (X : 'M[R]_n) : R := \sum_i \sum_j `|X i j|.
Lemma mxsum_ge0 (X : 'M[R]_n) : 0 <= mxsum X. Proof. by apply: sumr_ge0 => ? _; apply: sumr_ge0. Qed.
Lemma row_le (X : 'M[R]_n) i : \sum_j `|X i j| <= mxsum X.
Proof. by rewrite /mxsum [leRHS](bigD1 i) //= ler_addl; apply: sumr_ge0 => ? _; apply: sumr_ge0. Qed.
Lemma mul_bound (X Y : 'M[R]_n) (b : R) : 0 <= b -> (forall i j, `|Y i j| <= b) -> forall i j, `|(X *m Y) i j| <= mxsum X * b.
Proof.
move=> b0 h i j; rewrite mxE; apply: le_trans (ler_norm_sum _ _ _) _.
apply: (@le_trans _ _ (\sum_l `|X i l| * b)); first by apply: ler_sum => l _; rewrite normrM ler_wpmul2l.
by rewrite -mulr_suml ler_wpmul2r // row_le.
Qed.
Lemma mxsumD (s : R) : `|s| <= 1 -> mxsum (V + s *: W) <= mxsum V + mxsum W.
Proof.
move=> s1; rewrite /mxsum -big_split /=; apply: ler_sum => i _; rewrite -big_split /=; apply: ler_sum => j _.
rewrite !mxE; apply: le_trans (ler_norm_add _ _) _; rewrite ler_add2l normrM -[leRHS]mul1r; exact: ler_wpmul2r.
Qed.
Lemma dk_bound : exists2 c : R, 0 <= c & forall k i j, `|dk k i j| <= c ^+ k.
Proof.
pose c : R := \sum_(i < n + n) \sum_(j < n + n) `|dirB i j|.
have c0 : 0 <= c by apply: sumr_ge0 => ? _; apply: sumr_ge0.
exists c => //.
have H k i' j' : `|mpow dirB k i' j'| <= c ^+ k.
  elim: k i' j' => [|k IH] i' j'; first by rewrite expr0 /= mxE; case: eqP; rewrite ?normr1 ?normr0 ?ler01.
  rewrite /= mxE; apply: le_trans (ler_norm_sum _ _ _) _.
  rewrite exprS; apply: (@le_trans _ _ (\sum_l `|dirB i' l| * c ^+ k)).
    by apply: ler_sum => l _; rewrite normrM ler_wpmul2l.
  rewrite -mulr_suml ler_wpmul2r ?exprn_ge0 // /c [Z in _ <= Z](bigD1 i') //= ler_addl.
  by apply: sumr_ge0 => ? _; apply: sumr_ge0.
by move=> k i j; rewrite /dk !mxE; exact: H.
Qed.
Lemma rem_bound : exists2 c : R, 0 <= c & forall (s : R) k i j, `|s| <= 1 ->
  `|mpow (V + s *: W) k i j - mpow V k i j - s * dk k i j| <= `|s| ^+ 2 * c ^+ k.
Proof.
have [c c0 hc] := dk_bound; pose c' := c + (mxsum V + mxsum W) + mxsum W.
have vw0 : 0 <= mxsum V + mxsum W by rewrite addr_ge0 // mxsum_ge0.
have c'0 : 0 <= c' by rewrite !addr_ge0 // mxsum_ge0.
have cc' : c <= c' by rewrite /c' -addrA ler_addl addr_ge0 // mxsum_ge0.
exists c' => // s k i j s1.
pose Rk k := mpow (V + s *: W) k - mpow V k - s *: dk k.
suff H : forall i j, `|Rk k i j| <= `|s| ^+ 2 * c' ^+ k by have := H i j; rewrite !mxE.
elim: k {i j} => [|k IH] i j.
  by rewrite /Rk dk0 scaler0 subr0 subrr mxE normr0 mulr_ge0 // exprn_ge0.
have -> : Rk k.+1 = (V + s *: W) *m Rk k + s ^+ 2 *: (W *m dk k).
  have e : mpow (V + s *: W) k = Rk k + mpow V k + s *: dk k by rewrite /Rk addrAC subrK subrK.
  rewrite {1}/Rk dkS /= e !mulmxDr !mulmxDl -!scalemxAr -!scalemxAl scalerDr scalerA expr2; zmod.
rewrite mxE; apply: le_trans (ler_norm_add _ _) _.
have s20 : 0 <= `|s| ^+ 2 * c' ^+ k by rewrite mulr_ge0 // exprn_ge0.
have h1 : `|((V + s *: W) *m Rk k) i j| <= (mxsum V + mxsum W) * (`|s| ^+ 2 * c' ^+ k).
  by apply: le_trans (mul_bound _ s20 IH i j) _; rewrite ler_wpmul2r // mxsumD.
have h2 : `|(s ^+ 2 *: (W *m dk k)) i j| <= mxsum W * (`|s| ^+ 2 * c' ^+ k).
  rewrite mxE normrM normrX mulrCA; apply: ler_wpmul2l; first by rewrite exprn_ge0.
  apply: mul_bound; first by rewrite exprn_ge0.
  by move=> i' j'; apply: le_trans (hc _ _ _) _; apply: ler_expn2r; rewrite ?nnegrE.
apply: le_trans (ler_add h1 h2) _; rewrite -mulrDl [c' ^+ k.+1]exprS [leRHS]mulrCA; apply: ler_wpmul2r => //.
by rewrite /c' -addrA ler_addr.
Qed.
Lemma dk_expbounded i j : expbounded (fun k => dk k i j).
Proof. by have [c /RleP c0 h] := dk_bound; exists c => // k; have /RleP := h k i j; rewrite RpowE. Qed.
(** the derivative of expm at V in the direction W *)
Theorem expm_dir : is_mderiv (fun s => expm (V + s *: W)) (ursubmx (expm dirB)).
Proof.
have [c c0 h] := rem_bound; move=> i j e e0.
have K0 : 0 < exp c + 1 by apply: ltr_paddl (ltr01); apply/RleP; apply: Rlt_le; exact: exp_pos.
exists (Num.min 1 (e / (exp c + 1))); first by rewrite lt_minr ltr01 divr_gt0.
move=> s; rewrite lt_minr => /andP [/ltW s1 s2].
have -> : expm (V + s *: W) i j - expm (V + 0 *: W) i j - s * ursubmx (expm dirB) i j =
   fser (fun k => mpow (V + s *: W) k i j - mpow V k i j - s * dk k i j) 1.
  rewrite fser_sub; [|exact: mpow_bounded|exact: mpow_bounded|exact: dk_expbounded].
  rewrite scale0r addr0 !mxE; congr (_ - s * _); apply: fser_ext => k; by rewrite /dk !mxE.
apply: le_trans (@mfser_bound _ (`|s| ^+ 2) c _ c0 _) _; first by rewrite exprn_ge0.
  by move=> k; apply: h.
rewrite expr2 -mulrA mulrC ler_wpmul2r //; apply: (@le_trans _ _ (`|s| * (exp c + 1))).
  by rewrite ler_wpmul2l // ler_addl ler01.
by rewrite -ler_pdivl_mulr // ltW.
Qed.
End Frechet.
