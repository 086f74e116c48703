(** Symmetric positive (semi)definite matrices and the Loewner order over an
    ordered field.  Specification vocabulary ([qf], [psd], [pd], [loewner]) and
    the facts used by the filter proofs. *)
From mathcomp Require Import all_ssreflect all_algebra.
From Verif Require Import Tac.
Set Implicit Arguments.
Unset Strict Implicit.
Unset Printing Implicit Defensive.
Import Order.Theory GRing.Theory Num.Theory.
Local Open Scope ring_scope.

Section LinAlg.
Variable R : realFieldType.

(** Quadratic form v^T A v. *)
Definition qf n (A : 'M[R]_n) (v : 'cV[R]_n) : R := (v^T *m A *m v) 0 0.

Definition symmx n (A : 'M[R]_n) : Prop := A^T = A.

(** Symmetric positive semidefinite / definite. *)
Definition psd n (A : 'M[R]_n) : Prop := symmx A /\ forall v, 0 <= qf A v.
Definition pd n (A : 'M[R]_n) : Prop := symmx A /\ forall v, v != 0 -> 0 < qf A v.

(** Loewner order: A is at most B. *)
Definition loewner n (A B : 'M[R]_n) : Prop := psd (B - A).

Lemma qfD n (A B : 'M_n) v : qf (A + B) v = qf A v + qf B v.
Proof. by rewrite /qf mulmxDr mulmxDl mxE. Qed.

Lemma qfB n (A B : 'M_n) v : qf (A - B) v = qf A v - qf B v.
Proof. by rewrite /qf mulmxBr mulmxBl !mxE. Qed.

Lemma qfZ n (a : R) (A : 'M_n) v : qf (a *: A) v = a * qf A v.
Proof. by rewrite /qf -scalemxAr -scalemxAl mxE. Qed.

Lemma qf_congr n m (A : 'M_(m, n)) (P : 'M[R]_n) v : qf (A *m P *m A^T) v = qf P (A^T *m v).
Proof. by rewrite /qf trmx_mul trmxK !mulmxA. Qed.

Lemma qf1 n (v : 'cV_n) : qf 1%:M v = \sum_i v i 0 ^+ 2.
Proof. by rewrite /qf mulmx1 mxE; apply: eq_bigr => i _; rewrite mxE. Qed.

Lemma psd_sym n (A : 'M_n) : psd A -> A^T = A. Proof. by case. Qed.
Lemma pd_sym n (A : 'M_n) : pd A -> A^T = A. Proof. by case. Qed.

Lemma pd_psd n (A : 'M_n) : pd A -> psd A.
Proof.
move=> [s h]; split=> // v; case: (eqVneq v 0) => [->|/h/ltW //].
by rewrite /qf mulmx0 mxE.
Qed.

Lemma psd0 n : psd (0 : 'M_n).
Proof. by split=> [|v]; rewrite /symmx ?trmx0 // /qf mulmx0 mul0mx mxE. Qed.

Lemma psdD n (A B : 'M_n) : psd A -> psd B -> psd (A + B).
Proof.
move=> [sA hA] [sB hB]; split; first by rewrite /symmx linearD /= sA sB.
by move=> v; rewrite qfD addr_ge0.
Qed.

Lemma psd_sum n (I : Type) (r : seq I) (p : pred I) (F : I -> 'M_n) :
  (forall i, p i -> psd (F i)) -> psd (\sum_(i <- r | p i) F i).
Proof. by move=> h; elim/big_ind: _ => //; [apply: psd0 | move=> A B; apply: psdD]. Qed.

Lemma psdZ n a (A : 'M_n) : 0 <= a -> psd A -> psd (a *: A).
Proof.
move=> ha [sA hA]; split; first by rewrite /symmx linearZ /= sA.
by move=> v; rewrite qfZ mulr_ge0.
Qed.

Lemma psd_congr n m (A : 'M_(m, n)) (P : 'M[R]_n) : psd P -> psd (A *m P *m A^T).
Proof.
move=> [sP hP]; split; first by rewrite /symmx !trmx_mul trmxK sP mulmxA.
by move=> v; rewrite qf_congr.
Qed.

Lemma psd_outer n (v : 'cV_n) : psd (v *m v^T).
Proof.
split; first by rewrite /symmx trmx_mul trmxK.
move=> w; rewrite /qf -mulmxA -[(v *m v^T) *m w]mulmxA mulmxA mxE big_ord1.
have -> : (w^T *m v) 0 0 = (v^T *m w) 0 0.
  by rewrite -[in RHS](trmxK w) -trmx_mul [RHS]mxE.
by rewrite -expr2 sqr_ge0.
Qed.

Lemma pdD_psd n (A B : 'M_n) : psd A -> pd B -> pd (A + B).
Proof.
move=> [sA hA] [sB hB]; split; first by rewrite /symmx linearD /= sA sB.
by move=> v h; rewrite qfD ltr_paddl // hB.
Qed.

Lemma pdZ n a (A : 'M_n) : 0 < a -> pd A -> pd (a *: A).
Proof.
move=> ha [sA hA]; split; first by rewrite /symmx linearZ /= sA.
by move=> v h; rewrite qfZ mulr_gt0 // hA.
Qed.

Lemma sumsq_eq0 n (v : 'cV_n) : (\sum_i v i 0 ^+ 2 == 0 :> R) = (v == 0).
Proof.
apply/idP/eqP => [|->]; last by rewrite big1 // => i _; rewrite mxE expr0n.
rewrite psumr_eq0 => [/allP h|i _]; last exact: sqr_ge0.
apply/matrixP => i j; rewrite (ord1 j) mxE; apply/eqP.
by have := h i; rewrite mem_index_enum => /(_ isT); rewrite sqrf_eq0.
Qed.

Lemma pd1 n : pd (1%:M : 'M_n).
Proof.
split; first by rewrite /symmx trmx1.
move=> v h; rewrite qf1 lt_neqAle eq_sym sumsq_eq0 h /=.
by apply: sumr_ge0 => i _; apply: sqr_ge0.
Qed.

Lemma pd_unit n (S : 'M[R]_n) : pd S -> S \in unitmx.
Proof.
move=> [sS hS]; rewrite -row_free_unit -kermx_eq0; apply/rowV0P => v /sub_kermxP h.
apply/eqP; rewrite -[v]trmxK trmx_eq0; case: (eqVneq v^T 0) => [//|/hS].
by rewrite /qf trmxK h mul0mx mxE ltxx.
Qed.

Lemma inv_sym n (S : 'M[R]_n) : S^T = S -> (invmx S)^T = invmx S.
Proof. by move=> h; rewrite trmx_inv h. Qed.

Lemma pd_inv n (S : 'M[R]_n) : pd S -> pd (invmx S).
Proof.
move=> h; have u := pd_unit h; have [sS hS] := h.
split; first exact: inv_sym.
move=> v nz; set w := invmx S *m v.
have ev : v = S *m w by rewrite mulmxA mulmxV // mul1mx.
have -> : qf (invmx S) v = qf S w.
  by rewrite /qf {1}ev trmx_mul sS -mulmxA.
apply: hS; apply: contra nz => /eqP e; by rewrite ev e mulmx0.
Qed.

Lemma pd_congr n (A P : 'M[R]_n) : A \in unitmx -> pd P -> pd (A *m P *m A^T).
Proof.
move=> uA [sP hP]; split; first by rewrite /symmx !trmx_mul trmxK sP mulmxA.
move=> v nz; rewrite qf_congr; apply: hP; apply: contra nz => /eqP e.
by rewrite -[v]mul1mx -[1%:M](@mulVmx _ _ A^T) ?unitmx_tr // -mulmxA e mulmx0.
Qed.

Lemma loewner_refl n (A : 'M_n) : loewner A A.
Proof. by rewrite /loewner subrr; apply: psd0. Qed.

Lemma loewner_trans n (B A C : 'M_n) : loewner A B -> loewner B C -> loewner A C.
Proof.
rewrite /loewner => h1 h2; have -> : C - A = (C - B) + (B - A) by rewrite addrA subrK.
exact: psdD.
Qed.

(** 0.5 * (P + P^T) *)
Lemma symmetrize_id n (P : 'M[R]_n) : P^T = P -> 2%:R^-1 *: (P + P^T) = P.
Proof.
move=> ->; rewrite -mulr2n -scaler_nat scalerA mulVf ?scale1r //.
by rewrite pnatr_eq0.
Qed.

(** ** Kalman algebra *)
Section Kalman.
Variables (n m : nat) (P : 'M[R]_n) (G : 'M[R]_(m, n)) (V : 'M[R]_m).
Hypothesis sP : P^T = P.
Hypothesis sV : V^T = V.
Let S := G *m P *m G^T + V.
Hypothesis uS : S \in unitmx.
Let K := P *m G^T *m invmx S.

Lemma S_sym : S^T = S.
Proof. by rewrite /S linearD /= !trmx_mul trmxK sP sV mulmxA. Qed.

Lemma KS : K *m S = P *m G^T. Proof. by rewrite /K mulmxKV. Qed.
Lemma SKt : S *m K^T = G *m P.
Proof. by rewrite -[S in LHS]S_sym -trmx_mul KS trmx_mul trmxK sP. Qed.

(** (I - KG) P = P - K S K^T *)
Lemma post_KSK : (1%:M - K *m G) *m P = P - K *m S *m K^T.
Proof. by rewrite mulmxBl mul1mx -!mulmxA SKt. Qed.

(** Completing the square: the Joseph form for any gain L. *)
Lemma joseph (L : 'M_(n, m)) :
  (1%:M - L *m G) *m P *m (1%:M - L *m G)^T + L *m V *m L^T =
  ((1%:M - K *m G) *m P) + (L - K) *m S *m (L - K)^T.
Proof.
rewrite post_KSK.
have -> : (1%:M - L *m G) *m P *m (1%:M - L *m G)^T + L *m V *m L^T =
  P - L *m (G *m P) - P *m G^T *m L^T + L *m S *m L^T.
  rewrite linearB /= trmx1 trmx_mul.
  rewrite /S; mxexp; zmod.
rewrite -SKt -KS linearB /=; mxexp.
zmod.
Qed.

Lemma post_sym : ((1%:M - K *m G) *m P)^T = (1%:M - K *m G) *m P.
Proof. by rewrite post_KSK linearB /= sP trmx_mul trmxK (trmx_mul K S) S_sym mulmxA. Qed.

(** Information form. *)
Lemma post_info : P \in unitmx -> V \in unitmx ->
  (1%:M - K *m G) *m P *m (invmx P + G^T *m invmx V *m G) = 1%:M.
Proof.
move=> uP uV.
have e : K *m (G *m P *m G^T) = P *m G^T - K *m V.
  by rewrite -KS -mulmxBr /S addrK.
have -> : (1%:M - K *m G) *m P *m (invmx P + G^T *m invmx V *m G) =
   P *m invmx P - K *m G *m (P *m invmx P) + (P *m G^T - K *m (G *m P *m G^T)) *m invmx V *m G.
  by mxexp; zmod.
rewrite e mulmxV // mulmx1 subKr mulmxK //; zmod.
Qed.

(** K = P+ G^T V^-1 *)
Lemma gain_info : V \in unitmx -> (1%:M - K *m G) *m P *m G^T *m invmx V = K.
Proof.
move=> uV; have e : K *m (G *m P *m G^T) = P *m G^T - K *m V.
  by rewrite -KS -mulmxBr /S addrK.
have -> : (1%:M - K *m G) *m P *m G^T = P *m G^T - K *m (G *m P *m G^T) by mxexp.
by rewrite e subKr mulmxK.
Qed.
End Kalman.

End LinAlg.
