(** C48: the algebra of the IE(3) helpers. *)
From mathcomp Require Import all_ssreflect all_algebra.
From Verif Require Import Base Tac LinAlg EkfModel PreintModel PreintProps ImuModel.
Set Implicit Arguments.
Unset Strict Implicit.
Unset Printing Implicit Defensive.
Import Order.Theory GRing.Theory Num.Theory.
Local Open Scope ring_scope.

Section IE3.
Variable R : realFieldType.
Notation M5 := 'M[R]_(3 + (1 + 1)).
Notation n9 := (3 + (3 + 3))%N.

(** proper rotations *)
Definition rot (C : 'M[R]_3) : Prop := C *m C^T = 1%:M /\ \det C = 1.
(** elements of IE(3), and of SE_2(3) *)
Definition in_IE3 (X : M5) : Prop := exists C a b c, rot C /\ X = ie3 C a b c.
Definition in_SE23 (X : M5) : Prop := exists C a b, rot C /\ X = ie3 C a b 0.

(** the element of the Lie algebra of SE_2(3) with coordinates (phi, nu, rho) *)
Definition wedge9 (xi : 'cV[R]_n9) : M5 :=
  block_mx (wedge (usubmx xi)) (row_mx (usubmx (dsubmx xi)) (dsubmx (dsubmx xi))) 0 0.

Lemma ie3_CE C a b c : ie3_C (ie3 C a b c) = C :> 'M[R]_3. Proof. by rewrite /ie3_C block_mxKul. Qed.
Lemma ie3_aE C a b c : ie3_a (ie3 C a b c) = a :> 'cV[R]_3. Proof. by rewrite /ie3_a block_mxKur row_mxKl. Qed.
Lemma ie3_bE C a b c : ie3_b (ie3 C a b c) = b :> 'cV[R]_3. Proof. by rewrite /ie3_b block_mxKur row_mxKr. Qed.
Lemma ie3_cE C a b c : ie3_c (ie3 C a b c) = c :> R.
Proof. by rewrite /ie3_c block_mxKdr block_mxKur mxE eqxx. Qed.
Definition ie3E := (ie3_CE, ie3_aE, ie3_bE, ie3_cE).

Lemma ie3M (C : 'M[R]_3) a b c S d e f :
  ie3 C a b c *m ie3 S d e f = ie3 (C *m S) (C *m d + a) (C *m e + f *: a + b) (c + f).
Proof.
rewrite /ie3 mulmx_block !mulmx0 !mul0mx !addr0 !add0r mul_mx_row mul_row_block add_row_mx.
rewrite !mulmx0 !mulmx1 addr0 mul_mx_scalar addrA; congr block_mx.
by rewrite mulmx_block !mulmx0 !mul0mx !mulmx1 !mul1mx !addr0 !add0r addrC -raddfD.
Qed.
Lemma ie31 : ie3 1%:M 0 0 0 = 1%:M :> M5.
Proof. by rewrite /ie3 row_mx0 [0%:M]raddf0 -!scalar_mx_block. Qed.

(** entries by natural-number indices *)
Definition at_ (p q : nat) (A : 'M[R]_(p.+1, q.+1)) (i j : nat) : R := A (inord i) (inord j).
Lemma atE p q (A : 'M[R]_(p.+1, q.+1)) i j : A i j = at_ A (nat_of_ord i) (nat_of_ord j).
Proof. by rewrite /at_ !inord_val. Qed.
Lemma ord31 : nat_of_ord (1 : 'I_3) = 1%N. Proof. by []. Qed.
Lemma ord32 : nat_of_ord (2%:R : 'I_3) = 2%N. Proof. by []. Qed.

Lemma det3 (A : 'M[R]_3) : \det A =
  A 0 0 * (A 1 1 * A 2%:R 2%:R - A 1 2%:R * A 2%:R 1)
  - A 0 1 * (A 1 0 * A 2%:R 2%:R - A 1 2%:R * A 2%:R 0)
  + A 0 2%:R * (A 1 0 * A 2%:R 1 - A 1 1 * A 2%:R 0).
Proof.
rewrite (expand_det_row _ 0) !big_ord_recl big_ord0 /cofactor.
rewrite !(expand_det_row _ 0) !big_ord_recl !big_ord0 /cofactor !det_mx11 !mxE !(atE A) ord31 ord32 /= /bump /=.
rewrite !addn0 !add0n; change (1 + 1)%N with 2%N; rewrite !expr0 !expr1 sqrrN expr1n; rng.
Qed.

(** R^T (R v)^ R = det(R) v^, for any 3 x 3 matrix R *)
Lemma wedge_congr (C : 'M[R]_3) v : C^T *m wedge (C *m v) *m C = \det C *: wedge v.
Proof.
apply/matrixP=> i j; rewrite det3 /wedge !mxE ?big_ord_recl ?big_ord0 ?mxE ?big_ord_recl ?big_ord0 ?mxE ?big_ord_recl ?big_ord0 /=.
rewrite !(atE C) !(atE v) ord31 ord32 /= /bump /= !addn0; change (1 + 1)%N with 2%N.
by case: i => [[|[|[|//]]] ?]; case: j => [[|[|[|//]]] ?] /=; rng.
Qed.

Lemma wedgeD (v w : 'cV[R]_3) : wedge (v + w) = wedge v + wedge w.
Proof.
by apply/matrixP=> i j; rewrite /wedge !mxE; case: i => [[|[|[|//]]] ?]; case: j => [[|[|[|//]]] ?] /=; zmod.
Qed.
Lemma wedgeZ k (v : 'cV[R]_3) : wedge (k *: v) = k *: wedge v.
Proof.
by apply/matrixP=> i j; rewrite /wedge !mxE; case: i => [[|[|[|//]]] ?]; case: j => [[|[|[|//]]] ?] /=; rng.
Qed.
Lemma wedgeN (v : 'cV[R]_3) : wedge (- v) = - wedge v. Proof. by rewrite -scaleN1r wedgeZ scaleN1r. Qed.
Lemma wedgeB (v w : 'cV[R]_3) : wedge (v - w) = wedge v - wedge w. Proof. by rewrite wedgeD wedgeN. Qed.
(** v x w = - w x v *)
Lemma wedge_anti (v w : 'cV[R]_3) : wedge v *m w = - (wedge w *m v).
Proof.
apply/matrixP=> i j; rewrite /wedge !mxE !big_ord_recl !big_ord0 !mxE.
rewrite !(atE v) !(atE w) ord31 ord32 /= /bump /= !addn0; change (1 + 1)%N with 2%N.
have -> : nat_of_ord j = 0%N by case: j => [[]].
by case: i => [[|[|[|//]]] ?] /=; rng.
Qed.
Lemma rot_wedge C v : rot C -> C *m wedge v = wedge (C *m v) *m C.
Proof.
case=> CC d1; have := wedge_congr C v; rewrite d1 scale1r => <-.
by rewrite !mulmxA CC mul1mx.
Qed.
Lemma rot1 : rot 1%:M. Proof. by split; rewrite ?trmx1 ?mulmx1 ?det1. Qed.
Lemma rotM C S : rot C -> rot S -> rot (C *m S).
Proof.
move=> [h1 h2] [h3 h4]; split; last by rewrite det_mulmx h2 h4 mulr1.
by rewrite trmx_mul mulmxA -(mulmxA C) h3 mulmx1.
Qed.
Lemma rotT C : rot C -> rot C^T.
Proof. by move=> [h1 h2]; split; rewrite ?det_tr // trmxK; apply: mulmx1C. Qed.

Lemma in_IE3_ie3 C a b c : rot C -> in_IE3 (ie3 C a b c). Proof. by move=> h; exists C, a, b, c. Qed.
Lemma in_IE31 : in_IE3 1%:M. Proof. by rewrite -ie31; apply: in_IE3_ie3; apply: rot1. Qed.
Lemma in_IE3M X Y : in_IE3 X -> in_IE3 Y -> in_IE3 (X *m Y).
Proof.
by move=> [C [a [b [c [h ->]]]]] [S [d [e [f [h' ->]]]]]; rewrite ie3M; apply: in_IE3_ie3; apply: rotM.
Qed.

(** C48: inverse_IE3 is a two-sided inverse and stays in the group *)
Theorem C48_inverse X : in_IE3 X ->
  X *m inverse_IE3 X = 1%:M /\ inverse_IE3 X *m X = 1%:M /\ in_IE3 (inverse_IE3 X).
Proof.
move=> [C [a [b [c [h ->]]]]]; have [CC _] := h.
have H : ie3 C a b c *m inverse_IE3 (ie3 C a b c) = 1%:M.
  rewrite /inverse_IE3 !ie3E ie3M mulNmx mulmxN !mulmxA CC !mul1mx -ie31; congr ie3; rewrite ?addNr ?subrr //.
  rewrite scaleNr; zmod.
split=> //; split; first exact: mulmx1C.
by rewrite /inverse_IE3 !ie3E; apply: in_IE3_ie3; apply: rotT.
Qed.

Lemma wedge9E (p nu rho : 'cV[R]_3) : wedge9 (col_mx p (col_mx nu rho)) = block_mx (wedge p) (row_mx nu rho) 0 0.
Proof. by rewrite /wedge9 !col_mxKd !col_mxKu. Qed.
Lemma adjoint_col C a b c (p nu rho : 'cV[R]_3) :
  adjoint_IE3 (ie3 C a b c) *m col_mx p (col_mx nu rho) =
  col_mx (C *m p) (col_mx (wedge a *m C *m p + C *m nu)
                          (- wedge (c *: a - b) *m C *m p + (- c *: (C *m nu) + C *m rho))).
Proof.
rewrite /adjoint_IE3 !ie3E mul_block_col mul0mx addr0 mul_block_col mul_col_mx mul0mx addr0 add_col_mx.
by rewrite -scalemxAl.
Qed.
(** C48: adjoint_IE3 is the adjoint action on the Lie algebra of SE_2(3) *)
Theorem C48_adjoint_relation X xi : in_IE3 X ->
  X *m wedge9 xi *m inverse_IE3 X = wedge9 (adjoint_IE3 X *m xi).
Proof.
move=> [C [a [b [c [h ->]]]]]; have [CC _] := h.
rewrite -[xi]vsubmxK -[dsubmx xi]vsubmxK; move: (usubmx xi) (usubmx (dsubmx xi)) (dsubmx (dsubmx xi)) => p nu rho.
rewrite adjoint_col !wedge9E /inverse_IE3 !ie3E /ie3.
rewrite mulmx_block !mulmx0 !mul0mx !addr0 mul_mx_row mulmx_block !mulmx0 !mul0mx !addr0 mul_mx_row mul_row_block.
rewrite add_row_mx !mulmx0 !mulmx1 addr0 mul_mx_scalar.
have E : C *m wedge p *m C^T = wedge (C *m p) by rewrite rot_wedge // -mulmxA CC mulmx1.
congr block_mx => //; congr row_mx.
  by rewrite mulNmx mulmxN mulmxA E wedge_anti opprK mulmxA.
by rewrite mulmxA E wedge_anti -!mulmxA mulNmx.
Qed.

(** C48: and it is multiplicative *)
Theorem C48_adjoint_mul X Y : in_IE3 X -> in_IE3 Y -> adjoint_IE3 (X *m Y) = adjoint_IE3 X *m adjoint_IE3 Y.
Proof.
move=> [C [a [b [c [h ->]]]]] [S [d [e [f [h' ->]]]]].
rewrite ie3M /adjoint_IE3 !ie3E !mulmx_block !mulmx0 !mul0mx !addr0 !add0r.
rewrite mul_col_mx mul_block_col add_col_mx mul0mx addr0; congr block_mx.
  congr col_mx; first by rewrite wedgeD mulmxDl addrC !mulmxA rot_wedge // -!mulmxA.
  have W v : C *m (wedge v *m S) = wedge (C *m v) *m (C *m S) by rewrite mulmxA rot_wedge // mulmxA.
  have -> : C *m (- wedge (f *: d - e) *m S) = - wedge (C *m (f *: d - e)) *m (C *m S).
    by rewrite !mulNmx mulmxN W.
  rewrite -(mulmxA _ C S) -scalemxAl W [- c *: (_ *m _)]scalemxAl -!mulmxDl; congr (_ *m _).
  rewrite -wedgeZ -!wedgeN -!wedgeD; congr wedge.
  rewrite mulmxBr -scalemxAr !scalerDl !scalerDr !scaleNr; zmod.
by rewrite -scalemxAl -scalemxAr -scalerDl opprD.
Qed.

Lemma wedge0 : wedge 0 = 0 :> 'M[R]_3.
Proof. by rewrite -[X in wedge X](scale0r 0) wedgeZ scale0r. Qed.
Lemma adjoint1 : adjoint_IE3 1%:M = 1%:M :> 'M[R]_n9.
Proof.
rewrite -{1}ie31 /adjoint_IE3 !ie3E oppr0 !scale0r addr0 wedge0 mul0mx oppr0 mul0mx col_mx0.
by rewrite oppr0 scale0r -!scalar_mx_block.
Qed.
Theorem C48_adjoint_inverse X : in_IE3 X -> adjoint_IE3 (inverse_IE3 X) *m adjoint_IE3 X = 1%:M.
Proof.
move=> h; have [_ [h1 h2]] := C48_inverse h; rewrite -C48_adjoint_mul // h1.
exact: adjoint1.
Qed.

Lemma half2 (x : R) : x = 2%:R * x / 2%:R.
Proof. by rewrite mulrAC divff ?mul1r // pnatr_eq0. Qed.
(** C48: the gravity matrices form a one-parameter group *)
Theorem C48_gravity (g : 'cV[R]_3) s t :
  G_matrix g s *m G_matrix g t = G_matrix g (s + t) /\ G_matrix g 0 = 1%:M /\
  G_matrix_inv g s = G_matrix g (- s).
Proof.
split; [|split].
- rewrite /G_matrix ie3M mul1mx; congr ie3; rewrite ?mul1mx ?opprD -?scalerDl ?[s + t]addrC //.
  by rewrite scalerA -!scalerDl; congr (_ *: _); rewrite [- t * s]half2; rng.
- by rewrite /G_matrix oppr0 scale0r expr0n /= mul0r oppr0 scale0r ie31.
rewrite /G_matrix_inv /inverse_IE3 /G_matrix !ie3E trmx1 mulNmx !mul1mx sqrrN scalerA; congr ie3.
  by rewrite -scaleNr.
by rewrite -scalerBl; congr (_ *: _); rewrite [- s * s]half2; rng.
Qed.

(** C48: the input matrix factors into the SE_2(3) part and a time shift; U_matrix_inv and
    G_matrix_inv invert *)
Theorem C48_U_factor (soExp soJl Nmat : 'cV[R]_3 -> 'M[R]_3) om acc dt :
  delta_matrix dt *m U_tilde_matrix soExp soJl Nmat om acc dt = U_matrix soExp soJl Nmat om acc dt.
Proof. by rewrite /delta_matrix /U_tilde_matrix /U_matrix ie3M !mul1mx scaler0 !addr0. Qed.
Theorem C48_U_inv (soExp soJl Nmat : 'cV[R]_3 -> 'M[R]_3) om acc dt : (forall v, rot (soExp v)) ->
  U_matrix soExp soJl Nmat om acc dt *m U_matrix_inv soExp soJl Nmat om acc dt = 1%:M /\
  U_matrix_inv soExp soJl Nmat om acc dt *m U_matrix soExp soJl Nmat om acc dt = 1%:M.
Proof.
move=> h; have [h1 [h2 _]] := C48_inverse (in_IE3_ie3 (dt *: (soJl (dt *: om) *m acc))
  ((dt ^+ 2 / 2%:R) *: (Nmat (dt *: om) *m acc)) dt (h (dt *: om))).
by split.
Qed.

End IE3.
