(** The groups of the library, SO(2), SO(3), SE(2), SE(3), SE_2(3), over the reals with the matrix exponential: they satisfy
    what the group theorems assume (LieLaws), and the closed forms used for SO(3) and SE_2(3) are the exponential. *)
From Coq Require Import Reals.
From mathcomp Require Import all_ssreflect all_algebra.
From Verif Require Import Base Tac LinAlg Deriv RealStruct RealProps PSer MatExp LieExp PreintModel ImuModel ImuProps So3Model So3Props ImuJacProps PreintProps
  ModelsModel ProcessProps MeasureProps LieLaws.
Set Implicit Arguments.
Unset Strict Implicit.
Unset Printing Implicit Defensive.
Import Order.Theory GRing.Theory Num.Theory.
Local Open Scope ring_scope.
Bind Scope ring_scope with Rdefinitions.R.
Local Notation R := Rdefinitions.R.
Notation wedge9R := (@wedge9 [realFieldType of R]).
Notation wedgeR := (@wedge [realFieldType of R]).
Notation so2R := (so2 [rcfType of R]).
Notation so3R := (so3 [rcfType of R]).

(** *** SO(2), SO(3) *)
Definition vee2 (W : 'M[R]_2) : 'cV[R]_1 := (W 1 0)%:M.
Lemma so2_algebra : lie_algebra (ag_wedge so2R) vee2.
Proof.
split.
- split=> [v w|a v]; apply/matrixP => i j; rewrite !mxE; case: i => [[|[|//]] ?]; case: j => [[|[|//]] ?] /=;
   rewrite ?addr0 ?mulr0 ?opprD ?mulrN //.
- by split=> [v w|a v]; apply/matrixP => i j; rewrite !ord1 !mxE !eqxx.
- by move=> v; apply/matrixP => i j; rewrite !ord1 !mxE eqxx.
- move=> v w; exists 0; apply/matrixP => i j; rewrite !mxE !big_ord_recl !big_ord0 !mxE.
  by case: i => [[|[|//]] ?]; case: j => [[|[|//]] ?] /=; rewrite ?(mul0r, mulr0, add0r, addr0, subrr, oppr0, mulNr, mulrN, opprK) // ?[v 0 0 * _]mulrC ?subrr ?addNr ?oppr0.
Qed.
Lemma vee3_linear : lin (vee3 : 'M[R]_3 -> 'cV[R]_3).
Proof.
split=> [v w|a v]; first by have := vee3_lin 1 v w; rewrite !scale1r.
have := vee3_lin a v 0; rewrite addr0 => ->; have -> : vee3 0 = 0; last by rewrite addr0.
by apply/matrixP => i j; rewrite !mxE; case: i => [[|[|[|//]]] ?] /=; rewrite ?mxE.
Qed.
Lemma wedgeTR (v : 'cV[R]_3) : (wedgeR v)^T = - wedgeR v. Proof. exact: wedgeT. Qed.
Lemma so3_algebra : lie_algebra wedgeR vee3.
Proof.
split.
- by split=> [v w|a v]; [exact: wedgeD|exact: wedgeZ].
- exact: vee3_linear.
- by move=> v; apply/matrixP => i j; rewrite !ord1 !mxE; case: i => [[|[|[|//]]] ?] /=; congr (v _ _); apply: val_inj.
- move=> v w; exists (vee3 (wedgeR v *m wedgeR w - wedgeR w *m wedgeR v)); rewrite wedge_vee3 //.
  by rewrite linearB /= !trmx_mul !wedgeTR !mulNmx !mulmxN !opprK opprB.
Qed.
Section Blocks.
Variables m1 m2 n1 n2 : nat.
Implicit Types X Y : 'M[R]_(m1 + m2, n1 + n2).
Lemma ulD X Y : ulsubmx (X + Y) = ulsubmx X + ulsubmx Y. Proof. by apply/matrixP => i j; rewrite !mxE. Qed.
Lemma urD X Y : ursubmx (X + Y) = ursubmx X + ursubmx Y. Proof. by apply/matrixP => i j; rewrite !mxE. Qed.
Lemma ulZ a X : ulsubmx (a *: X) = a *: ulsubmx X. Proof. by apply/matrixP => i j; rewrite !mxE. Qed.
Lemma urZ a X : ursubmx (a *: X) = a *: ursubmx X. Proof. by apply/matrixP => i j; rewrite !mxE. Qed.
End Blocks.
Lemma lsD m n1 n2 (X Y : 'M[R]_(m, n1 + n2)) : lsubmx (X + Y) = lsubmx X + lsubmx Y. Proof. by apply/matrixP => i j; rewrite !mxE. Qed.
Lemma rsD m n1 n2 (X Y : 'M[R]_(m, n1 + n2)) : rsubmx (X + Y) = rsubmx X + rsubmx Y. Proof. by apply/matrixP => i j; rewrite !mxE. Qed.
Lemma lsZ m n1 n2 a (X : 'M[R]_(m, n1 + n2)) : lsubmx (a *: X) = a *: lsubmx X. Proof. by apply/matrixP => i j; rewrite !mxE. Qed.
Lemma rsZ m n1 n2 a (X : 'M[R]_(m, n1 + n2)) : rsubmx (a *: X) = a *: rsubmx X. Proof. by apply/matrixP => i j; rewrite !mxE. Qed.
(** *** SE(n) *)
Definition se_vee n k (vee : 'M[R]_n -> 'cV[R]_k) (X : 'M[R]_(n + 1)) : 'cV[R]_(k + n) := col_mx (vee (ulsubmx X)) (ursubmx X).
Lemma se_algebra n k (G : attgroup [rcfType of R] n k) vee : lie_algebra (ag_wedge G) vee -> lie_algebra (se_hat G) (se_vee vee).
Proof.
move=> la; have [h1 h2] := la_hat la; have [v1 v2] := la_vee la; split.
- split=> [v w|a v]; rewrite /se_hat.
    by rewrite !linearD /= h1 add_block_mx !addr0.
  by rewrite !linearZ /= h2 scale_block_mx !scaler0.
- split=> [v w|a v]; rewrite /se_vee; first by rewrite ulD urD v1 add_col_mx.
  by rewrite ulZ urZ v2 scale_col_mx.
- by move=> v; rewrite /se_vee /se_hat block_mxKul block_mxKur (la_vee_hat la) vsubmxK.
- move=> v w; have [z e] := la_bracket la (usubmx v) (usubmx w).
  exists (col_mx z (ag_wedge G (usubmx v) *m dsubmx w - ag_wedge G (usubmx w) *m dsubmx v)).
  by rewrite /se_hat col_mxKu col_mxKd !mulmx_block !mulmx0 !mul0mx !addr0 opp_block_mx add_block_mx e !oppr0 !addr0.
Qed.
(** *** SE_2(3) *)
Definition vee9 (X : M5) : 'cV[R]_n9 := col_mx (vee3 (ulsubmx X)) (col_mx (lsubmx (ursubmx X)) (rsubmx (ursubmx X))).
Lemma se23_algebra : lie_algebra wedge9R vee9.
Proof.
have [h1 h2] := la_hat so3_algebra; have [v1 v2] := la_vee so3_algebra; split.
- split=> [v w|a v]; rewrite /wedge9.
    by rewrite !linearD /= h1 add_block_mx !addr0 add_row_mx.
  by rewrite !linearZ /= h2 scale_block_mx !scaler0 scale_row_mx.
- split=> [v w|a v]; rewrite /vee9; first by rewrite ulD urD lsD rsD v1 !add_col_mx.
  by rewrite ulZ urZ lsZ rsZ v2 !scale_col_mx.
- by move=> v; rewrite /vee9 /wedge9 block_mxKul block_mxKur (la_vee_hat so3_algebra) row_mxKl row_mxKr !vsubmxK.
- move=> v w; have [z e] := la_bracket so3_algebra (usubmx v) (usubmx w).
  exists (col_mx z (col_mx (wedgeR (usubmx v) *m usubmx (dsubmx w) - wedgeR (usubmx w) *m usubmx (dsubmx v))
                           (wedgeR (usubmx v) *m dsubmx (dsubmx w) - wedgeR (usubmx w) *m dsubmx (dsubmx v)))).
  rewrite /wedge9 !col_mxKu !col_mxKd ?col_mxKu !mulmx_block !mulmx0 !mul0mx !addr0 opp_block_mx add_block_mx e !oppr0 !addr0.
  by rewrite !mul_mx_row opp_row_mx add_row_mx.
Qed.

Lemma wedge_br_gen (F : realFieldType) (v w : 'cV[F]_3) : wedge v *m wedge w - wedge w *m wedge v = wedge (wedge v *m w).
Proof.
apply/matrixP=> i j; rewrite /wedge !mxE ?big_ord_recl ?big_ord0 ?mxE ?big_ord_recl ?big_ord0 ?mxE /=.
rewrite !(atE v) !(atE w) ord31 ord32 /= /bump /= !addn0; change (1 + 1)%N with 2%N.
by case: i => [[|[|[|//]]] ?]; case: j => [[|[|[|//]]] ?] /=; rng.
Qed.
(** *** Closed forms *)
Theorem so3Exp_expm v : so3Exp v = gExp wedgeR v.
Proof.
have := @MatExp.ode_unique_r 3 3 (wedgeR v) (flowE v) (flowE_deriv v) 1.
by rewrite /flowE scale1r scale0r so3Exp0 mul1mx scale1r.
Qed.
Lemma mderiv_block m1 m2 n1 n2 (A : R -> 'M[R]_(m1, n1)) B C (D : R -> 'M[R]_(m2, n2)) A' B' C' D' :
  is_mderiv A A' -> is_mderiv B B' -> is_mderiv C C' -> is_mderiv D D' ->
  is_mderiv (fun t => block_mx (A t) (B t) (C t) (D t)) (block_mx A' B' C' D').
Proof.
move=> hA hB hC hD i j; case: (split_ordP i) => i' ->; case: (split_ordP j) => j' ->.
- by rewrite block_mxEul; apply: eq_deriv (hA i' j') => t; rewrite block_mxEul.
- by rewrite block_mxEur; apply: eq_deriv (hB i' j') => t; rewrite block_mxEur.
- by rewrite block_mxEdl; apply: eq_deriv (hC i' j') => t; rewrite block_mxEdl.
- by rewrite block_mxEdr; apply: eq_deriv (hD i' j') => t; rewrite block_mxEdr.
Qed.
Theorem se23Exp_expm xi : se23Exp xi = gExp wedge9R xi.
Proof.
pose om := usubmx xi; pose nu := usubmx (dsubmx xi); pose rho := dsubmx (dsubmx xi).
pose Y t := ie3 (flowE om t) (flowJ om t *m nu) (flowJ om t *m rho) 0.
have E1 : Y 1 = se23Exp xi by rewrite /Y /flowE /flowJ !scale1r.
have E0 : Y 0 = 1%:M by rewrite /Y flowE0 flowJ0 !mul0mx; exact: ie31.
have := @MatExp.ode_unique_r (3 + (1 + 1)) (3 + (1 + 1)) (wedge9R xi) Y _ 1.
rewrite E1 E0 mul1mx scale1r; apply=> t; rewrite /Y ie3_wedge9 -/om -/nu -/rho.
apply: mderiv_block; first exact: flowE_deriv.
- by apply: mderiv_row; apply: mderivMr; exact: flowJ_deriv.
- exact: mderiv_const.
- exact: mderiv_const.
Qed.
Lemma wedge_br (v w : 'cV[R]_3) : wedgeR v *m wedgeR w - wedgeR w *m wedgeR v = wedgeR (wedgeR v *m w).
Proof. exact: wedge_br_gen. Qed.
Lemma so3_ad v : ad wedgeR vee3 v = wedgeR v.
Proof.
apply/matrixP => i j; have := adE so3_algebra v (delta_mx j 0); rewrite /br wedge_br => /(hat_inj so3_algebra).
by rewrite -!colE => /matrixP /(_ i 0); rewrite !mxE.
Qed.
Theorem so3Jl_ljac v : so3Jl v = ljac wedgeR vee3 v.
Proof.
have := @same_deriv 3 3 (flowJ v) (ljac_t wedgeR vee3 v) (flowE v) (flowJ_deriv v) _ _ 1.
rewrite /flowJ !scale1r; apply; last by rewrite scale0r ljac_t0.
move=> t; have := ljac_deriv wedgeR vee3 v t; rewrite so3_ad; suff -> : expm (t *: wedgeR v) = flowE v t by [].
by rewrite /flowE so3Exp_expm /gExp wedgeZ.
Qed.
(** *** The groups *)
Lemma rot_inv (C : 'M[R]_3) : @rot [realFieldType of R] C -> invmx C = C^T /\ C \in unitmx.
Proof.
move=> [h _]; have u : C \in unitmx by case: (mulmx1_unit h).
by split=> //; rewrite -[LHS]mulmx1 -h mulmxA mulVmx // mul1mx.
Qed.
Theorem rot_in_group (C : 'M[R]_3) : @rot [realFieldType of R] C -> inG wedgeR C.
Proof.
move=> h; have [e u] := rot_inv h; have [CC _] := h; split=> // w; rewrite e.
  by exists (C *m w); rewrite rot_wedge // -mulmxA CC mulmx1.
by exists (C^T *m w); rewrite rot_wedge ?(mulmx1C CC) -?mulmxA ?(mulmx1C CC) ?mulmx1 //; exact: rotT.
Qed.
