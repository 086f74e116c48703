(** Correctness of the Cholesky factorisation. *)
From mathcomp Require Import all_ssreflect all_algebra.
From Verif Require Import Base LinAlg EkfModel CholModel.
Set Implicit Arguments.
Unset Strict Implicit.
Unset Printing Implicit Defensive.
Import Order.Theory GRing.Theory Num.Theory.
Local Open Scope ring_scope.

Section Chol.
Variable R : rcfType.

Definition lower n (L : 'M[R]_n) : Prop := forall i j : 'I_n, (i < j)%N -> L i j = 0.

Lemma lower_block n l (v : 'cV[R]_n) L : lower L -> lower (block_mx l%:M 0 v L : 'M_(1 + n)).
Proof.
move=> h i j; rewrite -[i]splitK -[j]splitK; case: (split i) => i'; case: (split j) => j' /=.
- by rewrite block_mxEul !ord1.
- by rewrite block_mxEur mxE.
- by rewrite ord1.
- by rewrite block_mxEdr ltn_add2l; exact: h.
Qed.

Lemma tr1 (a : 'M[R]_1) : a^T = a. Proof. by apply/matrixP=> i j; rewrite mxE !ord1. Qed.
Lemma block_prod n l (v : 'cV[R]_n) L : (block_mx l%:M 0 v L : 'M_(1 + n)) *m (block_mx l%:M 0 v L : 'M_(1 + n))^T
  = block_mx (l * l)%:M (l *: v^T) (l *: v) (v *m v^T + L *m L^T).
Proof.
by rewrite tr_block_mx mulmx_block !trmx0 !mul0mx !mulmx0 !addr0 tr_scalar_mx -scalar_mxM mul_scalar_mx mul_mx_scalar.
Qed.
Lemma diag_block n l (v : 'cV[R]_n) (L : 'M[R]_n) : 0 < l -> (forall i, 0 < L i i) -> forall i, 0 < (block_mx l%:M 0 v L : 'M_(1 + n)) i i.
Proof.
move=> l0 h i; rewrite -[i]splitK; case: (split i) => i' /=.
  by rewrite block_mxEul ord1 mxE eqxx mulr1n.
by rewrite block_mxEdr.
Qed.
Lemma pd_block n a (d : 'cV[R]_n) D : pd (block_mx a%:M d^T d D : 'M_(1 + n)) -> 0 < a /\ pd (D - a^-1 *: (d *m d^T)).
Proof.
case=> sB pB; have a0 : 0 < a.
  have : (col_mx 1%:M 0 : 'cV[R]_(1 + n)) != 0 by rewrite col_mx_eq0 negb_and; apply/orP; left; exact: oner_neq0.
  move/pB; rewrite /qf -mulmxA mul_block_col !mulmx0 !addr0 !mulmx1 tr_col_mx mul_row_col trmx0 mul0mx addr0.
  by rewrite tr_scalar_mx mul1mx mxE eqxx mulr1n.
have sD : D^T = D.
  by move: sB; rewrite /symmx tr_block_mx => /eq_block_mx [_ _ _].
split=> //; split; first by rewrite /symmx linearB /= linearZ /= trmx_mul trmxK sD.
move=> y y0; set x : 'M[R]_1 := - (a^-1 *: (d^T *m y)).
have : (col_mx x y : 'cV[R]_(1 + n)) != 0 by rewrite col_mx_eq0 negb_and y0 orbT.
move/pB; rewrite /qf -mulmxA mul_block_col tr_col_mx mul_row_col.
have -> : a%:M *m x + d^T *m y = 0.
  by rewrite /x mulmxN mul_scalar_mx scalerA divff ?gt_eqF // scale1r addNr.
rewrite mulmx0 add0r.
have -> : d *m x + D *m y = (D - a^-1 *: (d *m d^T)) *m y.
  by rewrite mulmxBl /x mulmxN -scalemxAr -scalemxAl mulmxA addrC.
by rewrite mulmxA.
Qed.
(** On success, on a symmetric matrix, the factor is lower triangular with positive diagonal and L L^T = A *)
Lemma cholesky_ok n (A L : 'M[R]_n) : A^T = A -> cholesky A = Ok L ->
  [/\ L *m L^T = A, lower L & forall i, 0 < L i i].
Proof.
elim: n A L => [|n IH] A L sA /=.
  by case=> <-; split; [rewrite [LHS]thinmx0 [RHS]thinmx0|case|case].
case: ifP => // a0; set l := Num.sqrt _; set v := _ *: _.
case e : (cholesky _) => [L'|] //= [<-].
set A' : 'M_(1 + n) := A in a0 l v e *.
have sA' : A'^T = A' by [].
have eul : ulsubmx A' = (ulsubmx A' 0 0)%:M by rewrite [LHS]mx11_scalar.
have eur : ursubmx A' = (dlsubmx A')^T by rewrite -{1}sA' -trmx_dlsub.
have edr : (drsubmx A')^T = drsubmx A' by rewrite trmx_drsub sA'.
have l0 : 0 < l by rewrite sqrtr_gt0.
have ll : l * l = ulsubmx A' 0 0 by rewrite -expr2 sqr_sqrtr // ltW.
have [|h1 h2 h3] := IH _ L' _ e; first by rewrite linearB /= edr trmx_mul trmxK.
split; [|exact: lower_block|].
  apply: (etrans (block_prod l v L')); apply: (etrans _ (submxK A')).
  congr block_mx.
  - by rewrite ll -eul.
  - by rewrite /v linearZ /= scalerA divff ?gt_eqF // scale1r eur.
  - by rewrite /v scalerA divff ?gt_eqF // scale1r.
  - by rewrite h1 addrC subrK.
exact: diag_block.
Qed.

Lemma lower_unit n (L : 'M[R]_n) : lower L -> (forall i, 0 < L i i) -> L \in unitmx.
Proof.
move=> lo pos; rewrite unitmxE det_trig ?unitfE.
  by apply/prodf_neq0 => i _; rewrite gt_eqF.
by apply/is_trig_mxP.
Qed.

(** It succeeds exactly on positive definite matrices *)
Lemma cholesky_pd n (A : 'M[R]_n) : A^T = A -> (pd A <-> exists L, cholesky A = Ok L).
Proof.
move=> sA; split; last first.
  case=> L e; have [h1 h2 h3] := cholesky_ok sA e.
  have := @pd_congr _ n L 1%:M (lower_unit h2 h3) (pd1 _ _); by rewrite mulmx1 h1.
elim: n A sA => [|n IH] A sA [_ pA] /=; first by exists A.
set A' : 'M_(1 + n) := A.
have sA' : A'^T = A' by [].
have eul : ulsubmx A' = (ulsubmx A' 0 0)%:M by rewrite [LHS]mx11_scalar.
have eur : ursubmx A' = (dlsubmx A')^T by rewrite -{1}sA' -trmx_dlsub.
have edr : (drsubmx A')^T = drsubmx A' by rewrite trmx_drsub sA'.
set a := ulsubmx A' 0 0 in eul *.
have pA' : pd (block_mx a%:M (dlsubmx A')^T (dlsubmx A') (drsubmx A') : 'M_(1 + n)).
  by rewrite -eul -eur submxK.
have [a0 pS] := pd_block pA'; rewrite a0.
have e : drsubmx A' - ((Num.sqrt a)^-1 *: dlsubmx A') *m ((Num.sqrt a)^-1 *: dlsubmx A')^T = drsubmx A' - a^-1 *: (dlsubmx A' *m (dlsubmx A')^T).
  rewrite linearZ /= -scalemxAr -scalemxAl scalerA -invfM; congr (_ - _^-1 *: _).
  by rewrite -expr2 sqr_sqrtr // ltW.
rewrite -e in pS; have [L eL] := IH _ (pd_sym pS) pS.
by rewrite eL /=; eexists.
Qed.
End Chol.
