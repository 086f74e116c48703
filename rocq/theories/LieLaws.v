(** The Lie-group facts assumed of pymlg (lie_laws, group_laws, exponential) hold for the matrix exponential on any matrix Lie
    algebra over the reals. *)
From Coq Require Import Reals.
From mathcomp Require Import all_ssreflect all_algebra.
From Verif Require Import Base Tac LinAlg Deriv RealStruct RealProps So3Props PSer MatExp LieExp PreintModel PreintProps ModelsModel ProcessProps.
Set Implicit Arguments.
Unset Strict Implicit.
Unset Printing Implicit Defensive.
Import Order.Theory GRing.Theory Num.Theory.
Local Open Scope ring_scope.
Bind Scope ring_scope with Rdefinitions.R.
Local Notation R := Rdefinitions.R.

(** the matrix of a linear map on coordinates *)
Definition mxof m n (f : 'cV[R]_n -> 'cV[R]_m) : 'M[R]_(m, n) := \matrix_(i, j) f (delta_mx j 0) i 0.
Definition lin (m n p q : nat) (f : 'M[R]_(m, n) -> 'M[R]_(p, q)) : Prop :=
  (forall v w, f (v + w) = f v + f w) /\ (forall a v, f (a *: v) = a *: f v).
Lemma lin0 m n p q (f : 'M[R]_(m, n) -> 'M[R]_(p, q)) : lin f -> f 0 = 0.
Proof. by case=> _ h; rewrite -(scale0r 0) h scale0r. Qed.
Lemma linN m n p q (f : 'M[R]_(m, n) -> 'M[R]_(p, q)) v : lin f -> f (- v) = - f v.
Proof. by case=> _ h; rewrite -scaleN1r h scaleN1r. Qed.
Lemma lin_sum m n p q (f : 'M[R]_(m, n) -> 'M[R]_(p, q)) I (r : seq I) F : lin f -> f (\sum_(i <- r) F i) = \sum_(i <- r) f (F i).
Proof. by move=> h; elim: r => [|i r IH]; rewrite ?big_nil ?lin0 // !big_cons h.1 IH. Qed.
Lemma lin_coord n p q (f : 'cV[R]_n -> 'M[R]_(p, q)) v : lin f -> f v = \sum_i v i 0 *: f (delta_mx i 0).
Proof.
move=> h; rewrite {1}[v]matrix_sum_delta lin_sum //; apply: eq_bigr => i _.
by rewrite big_ord1 h.2.
Qed.
Lemma mxofE m n (f : 'cV[R]_n -> 'cV[R]_m) v : lin f -> mxof f *m v = f v.
Proof.
move=> h; rewrite (lin_coord v h); apply/matrixP => i j; rewrite !ord1 mxE summxE.
by apply: eq_bigr => l _; rewrite !mxE mulrC.
Qed.
Lemma lin_deriv n p q (f : 'cV[R]_n -> 'M[R]_(p, q)) F L : lin f -> is_mderiv F L -> is_mderiv (fun t => f (F t)) (f L).
Proof.
move=> h H i j; rewrite (lin_coord L h) summxE.
have E t : f (F t) i j = \sum_l F t l 0 * f (delta_mx l 0) i j.
  by rewrite (lin_coord _ h) summxE; apply: eq_bigr => l _; rewrite mxE.
apply: (eq_deriv (fun t => esym (E t))); under [X in is_deriv _ X]eq_bigr do rewrite mxE.
apply: deriv_sum => l; rewrite mulrC; apply: eq_deriv (derivZ _ (H l 0)) => t; exact: mulrC.
Qed.

Record lie_algebra (k d : nat) (hat : 'cV[R]_d -> 'M[R]_k) (vee : 'M[R]_k -> 'cV[R]_d) : Prop := LieAlgebra {
  la_hat : lin hat;
  la_vee : lin vee;
  la_vee_hat : forall v, vee (hat v) = v;
  la_bracket : forall v w, exists z, hat v *m hat w - hat w *m hat v = hat z }.

Section Laws.
Variables (k d : nat) (hat : 'cV[R]_d -> 'M[R]_k) (vee : 'M[R]_k -> 'cV[R]_d).
Hypothesis la : lie_algebra hat vee.
Notation hl := (la_hat la). Notation vl := (la_vee la). Notation vh := (la_vee_hat la).
Lemma hat_inj v w : hat v = hat w -> v = w. Proof. by move=> e; rewrite -[v]vh e vh. Qed.
Definition br (A B : 'M[R]_k) : 'M[R]_k := A *m B - B *m A.
(** [ad v] w is the bracket of v and w, [gAd X] w is X w X^-1, in coordinates *)
Definition ad (v : 'cV[R]_d) : 'M[R]_d := mxof (fun w => vee (br (hat v) (hat w))).
Definition gAd (X : 'M[R]_k) : 'M[R]_d := mxof (fun w => vee (X *m hat w *m invmx X)).
(** the group: the invertible matrices that map the algebra to itself by conjugation, with their inverses *)
Definition inG (X : 'M[R]_k) : Prop := [/\ X \in unitmx, forall w, exists z, X *m hat w *m invmx X = hat z &
  forall w, exists z, invmx X *m hat w *m X = hat z].
Definition gExp (v : 'cV[R]_d) : 'M[R]_k := expm (hat v).
(** the left Jacobian, the integral over t in [0,1] of expm (t ad v) (ljac_deriv): the upper right block of an exponential *)
Definition ljB (v : 'cV[R]_d) : 'M[R]_(d + d) := block_mx (ad v) 1%:M 0 0.
Definition ljac_t (v : 'cV[R]_d) (t : R) : 'M[R]_d := ursubmx (expm (t *: ljB v)).
Definition ljac (v : 'cV[R]_d) : 'M[R]_d := ljac_t v 1.

Lemma adE v w : hat (ad v *m w) = br (hat v) (hat w).
Proof.
rewrite mxofE; first by have [z e] := la_bracket la v w; rewrite /br e vh.
split=> [a b|c a]; first by rewrite -vl.1 /br hl.1 mulmxDr mulmxDl opprD addrACA.
by rewrite -vl.2 /br hl.2 -scalemxAr -scalemxAl scalerBr.
Qed.
Lemma adN v : ad (- v) = - ad v.
Proof.
apply/matrixP => i j; rewrite !mxE.
have -> : br (hat (- v)) (hat (delta_mx j 0)) = - br (hat v) (hat (delta_mx j 0)).
  by rewrite /br (linN v hl) mulNmx mulmxN opprB opprK addrC.
by rewrite (linN _ vl) mxE.
Qed.
Lemma ad0 : ad 0 = 0.
Proof. by apply/matrixP => i j; rewrite !mxE (lin0 hl) /br mul0mx mulmx0 subrr (lin0 vl) mxE. Qed.
Lemma gAdE X w : inG X -> hat (gAd X *m w) = X *m hat w *m invmx X.
Proof.
move=> [_ h _]; rewrite mxofE; first by have [z e] := h w; rewrite e vh.
split=> [a b|c a]; first by rewrite -vl.1 hl.1 mulmxDr mulmxDl.
by rewrite -vl.2 hl.2 -scalemxAr -scalemxAl.
Qed.
(** conjugation by an exponential is the exponential of ad *)
Lemma exp_conj v w (t : R) : expm (t *: hat v) *m hat w *m expm (- t *: hat v) = hat (expm (t *: ad v) *m w).
Proof.
pose Y t := expm (- t *: hat v) *m hat (expm (t *: ad v) *m w) *m expm (t *: hat v).
have : Y t = Y 0.
  apply: mconst_of_deriv => {}t.
  have D1 : is_mderiv (fun h => hat (expm ((t + h) *: ad v) *m w)) (hat (ad v *m expm (t *: ad v) *m w)).
    by apply: (lin_deriv (F := fun h => expm ((t + h) *: ad v) *m w) hl); exact: mderivMr (expm_deriv _ _).
  have := mderivM (mderivM (expmN_deriv (hat v) t) D1) (expm_deriv (hat v) t); rewrite !addr0.
  set Z := (_ *m _ + _); suff -> : Z = 0 by [].
  rewrite {}/Z -mulmxA adE /br; set E := expm (- t *: _); set F := expm (t *: hat v); set H := hat (_ *m w).
  have -> : - hat v *m E = - (E *m hat v) by rewrite mulNmx /E expm_comm.
  by rewrite mulmxBr !mulmxA mulNmx addrA addNr add0r mulNmx addNr.
rewrite /Y oppr0 !scale0r !expm0 !mul1mx mulmx1 => <-.
by rewrite !mulmxA !scaleNr expmVr mul1mx -mulmxA expmVr mulmx1.
Qed.
Lemma invmx_exp X : invmx (expm X) = expm (- X) :> 'M[R]_k.
Proof.
have h := expmVr X; have u : expm X \in unitmx by case: (mulmx1_unit h).
by rewrite -[LHS]mulmx1 -h mulmxA mulVmx // mul1mx.
Qed.
Lemma inG_exp v : inG (gExp v).
Proof.
split; first by case: (mulmx1_unit (expmVr (hat v))).
  move=> w; rewrite invmx_exp; exists (expm (1 *: ad v) *m w); by rewrite -exp_conj scale1r scaleN1r.
move=> w; rewrite invmx_exp; exists (expm (- 1 *: ad v) *m w); by rewrite -exp_conj opprK scale1r scaleN1r.
Qed.
Lemma unitV X : inG X -> invmx (invmx X) = X. Proof. by move=> _; exact: invmxK. Qed.
Lemma inG1 : inG 1%:M.
Proof. by split=> [|w|w]; rewrite ?unitmx1 ?invmx1 // ?mul1mx ?mulmx1; exists w. Qed.
Lemma inGM X Y : inG X -> inG Y -> inG (X *m Y).
Proof.
move=> [uX a b] [uY a' b']; have i : invmx (X *m Y) = invmx Y *m invmx X.
  have u : X *m Y \in unitmx by rewrite unitmx_mul uX.
  by rewrite -[LHS]mulmx1 -(mulmxV uX) -{2}[X]mulmx1 -(mulmxV uY) !mulmxA -(mulmxA _ X Y) mulVmx // mul1mx.
split=> [|w|w]; first by rewrite unitmx_mul uX.
  by have [z e] := a' w; have [z' e'] := a z; exists z'; rewrite i -e' -e !mulmxA.
by have [z e] := b w; have [z' e'] := b' z; exists z'; rewrite i -e' -e !mulmxA.
Qed.
Lemma inGV X : inG X -> inG (invmx X).
Proof. by move=> [uX a b]; split=> [|w|w]; rewrite ?unitmx_inv // invmxK. Qed.
Lemma expm_conj X A : X \in unitmx -> expm (X *m A *m invmx X) = X *m expm A *m invmx X :> 'M[R]_k.
Proof.
move=> uX; have := @ode_unique k k (X *m A *m invmx X) (fun t => X *m expm (t *: A) *m invmx X).
move=> /(_ _ 1); rewrite !scale1r scale0r expm0 mulmx1 mulmxV // mulmx1 => -> // t.
have -> : X *m A *m invmx X *m (X *m expm (t *: A) *m invmx X) = X *m (A *m expm (t *: A)) *m invmx X.
  by rewrite !mulmxA -(mulmxA _ (invmx X) X) mulVmx // mulmx1.
by apply: mderivMr; apply: mderivMl; exact: expm_deriv.
Qed.
(** blocks of exponentials of block upper triangular matrices *)
Lemma ul_exp n (A B D : 'M[R]_n) (t : R) : ulsubmx (expm (t *: block_mx A B 0 D)) = expm (t *: A).
Proof.
have := @ode_unique_r n n A (fun t => ulsubmx (expm (t *: block_mx A B 0 D))).
move=> /(_ _ t); rewrite scale0r expm0 scalar_mx_block block_mxKul mul1mx; apply=> {}t.
have := mderiv_ul (expm_deriv_r (block_mx A B 0 D) t).
by rewrite -{1}(submxK (expm (t *: _))) mulmx_block block_mxKul mulmx0 addr0.
Qed.
Lemma dr_exp n (A B D : 'M[R]_n) (t : R) : drsubmx (expm (t *: block_mx A B 0 D)) = expm (t *: D).
Proof.
have := @ode_unique n n D (fun t => drsubmx (expm (t *: block_mx A B 0 D))).
move=> /(_ _ t); rewrite scale0r expm0 scalar_mx_block block_mxKdr mulmx1; apply=> {}t i j.
have := expm_deriv (block_mx A B 0 D) t (rshift _ i) (rshift _ j).
rewrite -{1}(submxK (expm (t *: _))) mulmx_block block_mxEdr mul0mx add0r.
by apply: eq_deriv => s; rewrite !mxE.
Qed.
Lemma ljac_deriv v (t : R) : is_mderiv (fun h => ljac_t v (t + h)) (expm (t *: ad v)).
Proof.
have := mderiv_ur (expm_deriv_r (ljB v) t).
rewrite -{1}(submxK (expm (t *: ljB v))) mulmx_block block_mxKur mulmx1 mulmx0 addr0 ul_exp.
exact.
Qed.
Lemma ljac_t0 v : ljac_t v 0 = 0.
Proof. by rewrite /ljac_t scale0r expm0 scalar_mx_block block_mxKur. Qed.
Lemma ljac0 : ljac 0 = 1%:M.
Proof.
rewrite /ljac; have E : forall t, ljac_t 0 t - t *: 1%:M = 0.
  move=> t; rewrite (@mconst_of_deriv _ _ (fun t => ljac_t 0 t - t *: 1%:M)) ?ljac_t0 ?scale0r ?subrr // => {}t.
  have D2 : is_mderiv (fun h : R => (t + h) *: (1%:M : 'M[R]_d)) 1%:M.
    have := mderivD (mderiv_const (t *: 1%:M)) (mderiv_lin (1%:M : 'M[R]_d)); rewrite add0r.
    by apply: eq_mderiv => h; rewrite scalerDl.
  by have := mderivB (ljac_deriv 0 t) D2; rewrite ad0 scaler0 expm0 subrr.
by have := E 1; rewrite scale1r => /eqP; rewrite subr_eq0 => /eqP.
Qed.
(** the derivative of the exponential at v in the direction w *)
Theorem exp_deriv v w : is_mderiv (fun t => gExp (v + t *: w)) (gExp v *m hat (ljac (- v) *m w)).
Proof.
have D0 := expm_dir (hat v) (hat w).
suff <- : ursubmx (expm (dirB (hat v) (hat w))) = gExp v *m hat (ljac (- v) *m w).
  by apply: eq_mderiv D0 => t; rewrite /gExp hl.1 hl.2.
pose Dt t := ursubmx (expm (t *: dirB (hat v) (hat w))).
have DD (t : R) : is_mderiv (fun h => Dt (t + h)) (hat v *m Dt t + hat w *m expm (t *: hat v)).
  have := mderiv_ur (expm_deriv (dirB (hat v) (hat w)) t).
  by rewrite -{1}(submxK (expm (t *: dirB _ _))) mulmx_block block_mxKur dr_exp; exact.
pose Z t := expm (- t *: hat v) *m Dt t - hat (ljac_t (- v) t *m w).
have : Z 1 = Z 0.
  apply: mconst_of_deriv => t.
  have D1 : is_mderiv (fun h => hat (ljac_t (- v) (t + h) *m w)) (hat (expm (t *: ad (- v)) *m w)).
    by apply: (lin_deriv (F := fun h => ljac_t (- v) (t + h) *m w) hl); exact: mderivMr (ljac_deriv _ _).
  have := mderivB (mderivM (expmN_deriv (hat v) t) (DD t)) D1; rewrite !addr0.
  set X := (_ - _); suff -> : X = 0 by [].
  rewrite {}/X adN scalerN -scaleNr -exp_conj opprK mulmxDr !mulmxA.
  have -> : - hat v *m expm (- t *: hat v) = - (expm (- t *: hat v) *m hat v) by rewrite mulNmx expm_comm.
  rewrite mulNmx; zmod.
rewrite /Z /Dt ljac_t0 scale0r expm0 scalar_mx_block block_mxKur mulmx0 mul0mx (lin0 hl) subrr scale1r scaleN1r => /eqP.
by rewrite subr_eq0 => /eqP <-; rewrite mulmxA /gExp expmVr mul1mx.
Qed.

(** *** The laws *)
Theorem real_group_laws : group_laws gExp gAd (@invmx _ k) inG.
Proof.
split.
- exact: inG1.
- exact: inGM.
- exact: inGV.
- exact: inG_exp.
- by move=> X [uX _ _]; exact: mulmxV.
- by rewrite /gExp (lin0 hl) expm0.
- by move=> v; rewrite /gExp (linN _ hl) invmx_exp.
- apply/matrixP => i j; rewrite !mxE invmx1 mulmx1 mul1mx vh mxE eqxx andbT; by [].
- move=> X Y gX gY; apply/matrixP => i j.
  have E (w : 'cV[R]_d) : gAd (X *m Y) *m w = gAd X *m gAd Y *m w.
    apply: hat_inj; rewrite gAdE; last exact: inGM.
    rewrite -[gAd X *m gAd Y *m w]mulmxA !gAdE //; case: gX gY => uX _ _ [uY _ _].
    have -> : invmx (X *m Y) = invmx Y *m invmx X.
      have u : X *m Y \in unitmx by rewrite unitmx_mul uX.
      by rewrite -[LHS]mulmx1 -(mulmxV uX) -{2}[X]mulmx1 -(mulmxV uY) !mulmxA -(mulmxA _ X Y) mulVmx // mul1mx.
    by rewrite !mulmxA.
  by have /matrixP /(_ i 0) := E (delta_mx j 0); rewrite -!colE !mxE.
Qed.
Theorem real_lie_laws : lie_laws gExp gAd (@invmx _ k) ljac hat inG.
Proof.
split; first exact: real_group_laws.
- by move=> X v gX; rewrite /gExp gAdE // expm_conj //; case: gX.
- by move=> X v gX; rewrite gAdE.
- by move=> a b v; rewrite /gExp !hl.2 -expm_add.
- exact: ljac0.
- exact: exp_deriv.
Qed.
End Laws.
