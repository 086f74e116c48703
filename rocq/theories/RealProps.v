(** Real rotations: the groups of plane rotations SO(2), and of screw motions about the z axis in
    SE(3), over Coq's real numbers.  They satisfy the hypotheses made of pymlg in the generic
    theorems (C64, C66, C76, C46), and give the exact range on which plus and minus are inverse
    for SO2State.  arctan2 is defined from atan as in the C standard. *)
From Coq Require Import Reals Lra.
From mathcomp Require Import all_ssreflect all_algebra.
From Verif Require Import Base Tac RealStruct RealTrig LieModel LieProps PreintProps ProcessProps Deriv UtilsModel UtilsProps2 DatagenModel DatagenProof BsplineModel BsplineProof BsplineCalc BsplineProps.
Set Implicit Arguments.
Unset Strict Implicit.
Unset Printing Implicit Defensive.
Import Order.Theory GRing.Theory Num.Theory.
Local Open Scope ring_scope.
Bind Scope ring_scope with Rdefinitions.R.
Local Notation R := Rdefinitions.R.

Lemma deriv_of_lim (f : R -> R) x l : derivable_pt_lim f x l -> is_deriv (fun h : R => f (x + h)) l.
Proof.
move=> H e /RltP e0; have [d hd] := H e e0; exists (pos d); first by apply/RltP; exact: (cond_pos d).
move=> h /RltP hh; rewrite addr0.
have [->|/eqP hn] := eqVneq h 0.
  by rewrite addr0 subrr mul0r subrr normr0 mulr0.
have /RltP/ltW := hd h hn hh; rewrite -[Rdiv _ _]/(Rmult _ (Rinv h)) -RinvE // => K.
rewrite (_ : f (x + h) - f x - h * l = ((f (x + h) - f x) * h^-1 - l) * h); last first.
  by rewrite mulrBl mulfVK ?[h * l]mulrC //; apply/eqP.
by rewrite normrM ler_wpmul2r.
Qed.
Lemma cos_deriv (x : R) : is_deriv (fun h : R => cos (x + h)) (- sin x).
Proof. exact: deriv_of_lim (derivable_pt_lim_cos x). Qed.
Lemma sin_deriv (x : R) : is_deriv (fun h : R => sin (x + h)) (cos x).
Proof. exact: deriv_of_lim (derivable_pt_lim_sin x). Qed.
Lemma cosD (a b : R) : cos (a + b) = cos a * cos b - sin a * sin b. Proof. exact: cos_plus. Qed.
Lemma sinD (a b : R) : sin (a + b) = sin a * cos b + cos a * sin b. Proof. exact: sin_plus. Qed.
Lemma cs1 (a : R) : cos a * cos a + sin a * sin a = 1.
Proof. by have := sin2_cos2 a; rewrite /Rsqr Rplus_comm. Qed.


(** *** SO(2) *)
Definition rmx (c s : R) : 'M[R]_2 := \matrix_(i, j) (if i == j then c else if i == 0 then - s else s).
Definition so2Exp (v : 'cV[R]_1) : 'M[R]_2 := rmx (cos (v 0 0)) (sin (v 0 0)).
(** pymlg's SO2.Log: arctan2(X[1, 0], X[0, 0]) *)
Definition so2Log (X : 'M[R]_2) : 'cV[R]_1 := const_mx (atan2 (X 1 0) (X 0 0)).
Definition so2inv (X : 'M[R]_2) : 'M[R]_2 := X^T.
Definition so2hat (v : 'cV[R]_1) : 'M[R]_2 := rmx 0 (v 0 0).
(** the rotations *)
Definition SO2 (X : 'M[R]_2) : Prop := X *m X^T = 1%:M /\ \det X = 1.
(** other than the one by pi *)
Definition not_pi (X : 'M[R]_2) : Prop := X <> - 1%:M.
Definition in_range (v : 'cV[R]_1) : Prop := Rlt (Ropp PI) (v 0 0) /\ Rle (v 0 0) PI.

Lemma ord2 (P : 'I_2 -> Prop) : P 0 -> P 1 -> forall i, P i.
Proof. by move=> p0 p1 [[|[|//]] h]; [rewrite (_ : Ordinal h = 0)|rewrite (_ : Ordinal h = 1)] => //; apply/val_inj. Qed.
Lemma rmxE c s : [/\ rmx c s 0 0 = c, rmx c s 0 1 = - s, rmx c s 1 0 = s & rmx c s 1 1 = c].
Proof. by rewrite !mxE. Qed.
Lemma r00 c s : rmx c s 0 0 = c. Proof. by case: (rmxE c s). Qed.
Lemma r01 c s : rmx c s 0 1 = - s. Proof. by case: (rmxE c s). Qed.
Lemma r10 c s : rmx c s 1 0 = s. Proof. by case: (rmxE c s). Qed.
Lemma r11 c s : rmx c s 1 1 = c. Proof. by case: (rmxE c s). Qed.
Definition rE := (r00, r01, r10, r11).
Lemma mx2P (A B : 'M[R]_2) : A 0 0 = B 0 0 -> A 0 1 = B 0 1 -> A 1 0 = B 1 0 -> A 1 1 = B 1 1 -> A = B.
Proof. by move=> *; apply/matrixP; elim/ord2; elim/ord2. Qed.
Lemma mulmx2E (A B : 'M[R]_2) i j : (A *m B) i j = A i 0 * B 0 j + A i 1 * B 1 j.
Proof. by rewrite mxE !big_ord_recl big_ord0 addr0; congr (_ + A i _ * B _ j); apply/val_inj. Qed.
Lemma rmxM c s c' s' : rmx c s *m rmx c' s' = rmx (c * c' - s * s') (s * c' + c * s').
Proof. by apply: mx2P; rewrite mulmx2E !rE; rng. Qed.
Lemma rmxT c s : (rmx c s)^T = rmx c (- s).
Proof. by apply: mx2P; rewrite [LHS]mxE !rE ?opprK. Qed.
Lemma rmx1 : rmx 1 0 = 1%:M.
Proof. by apply: mx2P; rewrite !mxE /= ?oppr0. Qed.
Lemma det2 (A : 'M[R]_2) : \det A = A 0 0 * A 1 1 - A 0 1 * A 1 0.
Proof.
rewrite (expand_det_row _ 0) !big_ord_recl big_ord0 addr0 /cofactor !det_mx11 !mxE /= expr0 expr1 mul1r mulN1r mulrN.
by congr (A _ _ * A _ _ - A _ _ * A _ _); apply/val_inj.
Qed.
Lemma SO2P X : SO2 X <-> exists a, X = rmx (cos a) (sin a).
Proof.
split=> [[o d]|[a ->]]; last first.
  split; first by rewrite rmxT rmxM mulrN opprK cs1 mulrN mulrC addrN rmx1.
  by rewrite det2 !rE mulNr opprK cs1.
move: d; rewrite det2 => d.
have [o0 o1] : X 0 0 * X 0 0 + X 0 1 * X 0 1 = 1 /\ X 0 0 * X 1 0 + X 0 1 * X 1 1 = 0.
  by split; [have := congr1 (fun A : 'M_2 => A 0 0) o|have := congr1 (fun A : 'M_2 => A 0 1) o]; rewrite mulmx2E !mxE.
have e1 : X 1 1 = X 0 0.
  transitivity (X 1 1 * (X 0 0 * X 0 0 + X 0 1 * X 0 1) - X 0 1 * (X 0 0 * X 1 0 + X 0 1 * X 1 1)); first by rewrite o0 o1; rng.
  by transitivity (X 0 0 * (X 0 0 * X 1 1 - X 0 1 * X 1 0)); [rng|rewrite d mulr1].
have e2 : X 0 1 = - X 1 0.
  apply/eqP; rewrite -subr_eq0 opprK; apply/eqP.
  transitivity (X 0 1 * (X 0 0 * X 1 1 - X 0 1 * X 1 0) + X 1 0 * (X 0 0 * X 0 0 + X 0 1 * X 0 1)); first by rewrite d o0; rng.
  rewrite e1; transitivity (X 0 0 * (X 0 0 * X 1 0 + X 0 1 * X 0 0)); [rng|move: o1; rewrite e1 => ->; by rewrite mulr0].
have u : X 0 0 * X 0 0 + X 1 0 * X 1 0 = 1 by rewrite -o0 e2 mulrNN.
have [h1 h2] := atan2_unit _ _ u.
by exists (atan2 (X 1 0) (X 0 0)); apply: mx2P; rewrite !rE ?h1 ?h2.
Qed.
Lemma rmxD a b : rmx (cos a) (sin a) *m rmx (cos b) (sin b) = rmx (cos (a + b)) (sin (a + b)).
Proof. by rewrite rmxM cosD sinD. Qed.

Lemma so2_group : [/\ SO2 1%:M, forall X Y, SO2 X -> SO2 Y -> SO2 (X *m Y), forall X, SO2 X -> SO2 (so2inv X),
  forall v, SO2 (so2Exp v) & forall X, SO2 X -> X *m so2inv X = 1%:M].
Proof.
split.
- by split; rewrite ?trmx1 ?mulmx1 ?det1.
- by move=> X Y /SO2P[a ->] /SO2P[b ->]; apply/SO2P; exists (a + b); rewrite rmxD.
- by move=> X [o d]; split; rewrite /so2inv ?trmxK ?det_tr //; exact: mulmx1C.
- by move=> v; apply/SO2P; exists (v 0 0).
- by move=> X [].
Qed.
Lemma so2LogE X : so2Log X 0 0 = atan2 (X 1 0) (X 0 0). Proof. by rewrite mxE. Qed.
Lemma so2_exp_log X : SO2 X -> True -> so2Exp (so2Log X) = X.
Proof.
move=> /SO2P[a ->] _; rewrite /so2Exp so2LogE !rE.
by have [|-> ->] := @atan2_unit (sin a) (cos a); first exact: cs1.
Qed.
Lemma so2_log_exp v : in_range v -> so2Log (so2Exp v) = v.
Proof.
move=> h; rewrite /so2Log /so2Exp !rE (atan2_angle _ h).
by apply/matrixP => i j; rewrite !ord1 mxE.
Qed.
Lemma so2_Exp0 : so2Exp 0 = 1%:M. Proof. by rewrite /so2Exp mxE cos_0 sin_0 rmx1. Qed.
Lemma mderiv_rmx (f g : R -> R) l m : is_deriv f l -> is_deriv g m -> is_mderiv (fun h => rmx (f h) (g h)) (rmx l m).
Proof.
move=> hf hg; elim/ord2; elim/ord2; rewrite ?rE.
- by apply: eq_deriv hf => h; rewrite rE.
- by apply: eq_deriv (derivN hg) => h; rewrite rE.
- by apply: eq_deriv hg => h; rewrite rE.
- by apply: eq_deriv hf => h; rewrite rE.
Qed.
Lemma so2_exp_deriv v w : is_mderiv (fun h => so2Exp (v + h *: w)) (so2Exp v *m so2hat w).
Proof.
rewrite /so2Exp /so2hat rmxM.
have L : is_deriv (fun h : R => h * w 0 0) (w 0 0).
  by have := derivZ (w 0 0) (@deriv_id _); rewrite mulr1; apply: eq_deriv => h; rewrite mulrC.
have C := @deriv_comp _ (fun h => h * w 0 0) (fun s => cos (v 0 0 + s)) _ _ L.
have S := @deriv_comp _ (fun h => h * w 0 0) (fun s => sin (v 0 0 + s)) _ _ L.
rewrite (_ : cos (v 0 0) * 0 - _ = - sin (v 0 0) * w 0 0); last by rng.
rewrite (_ : sin (v 0 0) * 0 + _ = cos (v 0 0) * w 0 0); last by rng.
apply: eq_mderiv (mderiv_rmx (C _ _) (S _ _)) => [h| |]; first by rewrite !mxE.
- by apply: eq_deriv (cos_deriv (v 0 0)) => h; rewrite mul0r add0r.
- by apply: eq_deriv (sin_deriv (v 0 0)) => h; rewrite mul0r add0r.
Qed.
Lemma rmx_comm c s c' s' : rmx c s *m rmx c' s' = rmx c' s' *m rmx c s.
Proof. by rewrite !rmxM; congr rmx; rng. Qed.
Lemma so2_exp_deriv' v w : is_mderiv (fun h => so2Exp (v + h *: w)) (so2hat w *m so2Exp v).
Proof. by rewrite rmx_comm; exact: so2_exp_deriv. Qed.
(** the logarithm of a curve of rotations, away from the rotation by pi *)
Lemma atan_deriv0 : is_deriv (fun s : R => atan (0 + s)) 1.
Proof.
exact: deriv_of_lim atan_lim0.
Qed.
Lemma so2_log_deriv (F : R -> 'M[R]_2) w : (forall h, SO2 (F h)) -> not_pi (F 0) ->
  is_mderiv F (F 0 *m so2hat w) -> is_mderiv (fun h => so2Log (F h)) (1%:M *m w).
Proof.
move=> gF np H; rewrite mul1mx.
pose a := atan2 (F 0 1 0) (F 0 0 0).
have F0 : F 0 = rmx (cos a) (sin a) by rewrite -{1}(so2_exp_log (gF 0) Logic.I) /so2Exp so2LogE.
have [r1 r2] := atan2_range (F 0 1 0) (F 0 0 0); rewrite -/a in r1 r2.
have r3 : Rlt a PI.
  case: r2 => // e; case: np; rewrite F0 e cos_PI sin_PI.
  by apply: mx2P; rewrite rE !mxE /= ?oppr0.
pose C h := (F 0)^T *m F h.
have dC : is_mderiv C (so2hat w).
  have := mderivMl (F 0)^T H; rewrite mulmxA (_ : (F 0)^T *m F 0 = 1%:M) ?mul1mx //.
  by apply: mulmx1C; case: (gF 0).
have C0 : C 0 = 1%:M by rewrite /C; apply: mulmx1C; case: (gF 0).
have gC h : SO2 (C h) by case: so2_group => _ hM hV _ _; apply: hM; [exact: hV|].
have Ceq h : F h = rmx (cos a) (sin a) *m C h.
  by rewrite /C -F0 mulmxA (_ : F 0 *m (F 0)^T = 1%:M) ?mul1mx //; case: (gF 0).
have c0 : C 0 0 0 = 1 by rewrite C0 mxE eqxx.
have s0 : C 0 1 0 = 0 by rewrite C0 mxE.
have dc : is_deriv (fun h => C h 0 0) 0 by have := dC 0 0; rewrite rE.
have ds : is_deriv (fun h => C h 1 0) (w 0 0) by have := dC 1 0; rewrite rE.
pose b h := atan (C h 1 0 / C h 0 0).
have db : is_deriv b (w 0 0).
  have n0 : C 0 0 0 != 0 by rewrite c0 oner_eq0.
  have := deriv_div n0 ds dc; rewrite c0 s0 => D.
  have := @deriv_comp _ (fun h => C h 1 0 / C h 0 0) atan _ 1 D.
  rewrite /= c0 s0 mul0r => /(_ atan_deriv0).
  by rewrite /b expr1n divr1 !mul0r subr0 mul1r.
have b0 : b 0 = 0 by rewrite /b s0 mul0r atan_0.
have [d1 p1 near1] : exists2 del, 0 < del & forall t, `|t| < del -> 0 < C t 0 0 by apply: deriv_above dc _; rewrite c0 ltr01.
have [d2 p2 near2] : exists2 del, 0 < del & forall t, `|t| < del -> - (a + PI) < b t.
  by apply: deriv_above db _; rewrite b0; apply/RltP; rewrite R0E !RoppE !RaddE; lra.
have [d3 p3 near3] : exists2 del, 0 < del & forall t, `|t| < del -> - (PI - a) < - b t.
  by apply: deriv_above (derivN db) _; rewrite b0; apply/RltP; rewrite R0E !RoppE !RaddE ?RoppE; lra.
have ab : is_deriv (fun h => a + b h) (w 0 0).
  by have := derivD (deriv_const a) db; rewrite add0r.
move=> i j; rewrite !ord1.
apply: (@deriv_near _ _ (fun h => a + b h) _ (Num.min d1 (Num.min d2 d3))) ab; first by rewrite !lt_minr p1 p2.
move=> t; rewrite !lt_minr => /and3P[/near1/RltP cp /near2/RltP l1 /near3/RltP l2].
have [t' Ct] := iffLR (SO2P _) (gC t).
rewrite so2LogE Ceq.
have [e1 e2] : cos (b t) = C t 0 0 /\ sin (b t) = C t 1 0.
  have n0 : C t 0 0 <> R0 by move=> e; move: cp; rewrite e; exact: Rlt_irrefl.
  rewrite /b RinvE //; apply: atan_unit => //.
  by rewrite Ct !rE; exact: cs1.
have -> : C t = rmx (cos (b t)) (sin (b t)) by rewrite e1 e2 Ct !rE.
rewrite rmxD !rE; apply: atan2_angle.
by move: l1 l2; rewrite !RoppE !RaddE ?RoppE; split; lra.
Qed.

(** *** SO2State: plus and minus over the reals *)
Section So2State.
Variables S I : Type.
Notation state X t i dir := (@LState R_realFieldType S I 2 X t i dir).
Notation plus := (lie_plus so2Exp).
Notation minus := (lie_minus so2Log so2inv).
Notation one := (fun=> 1%:M).
Lemma four : (2 * 2)%N <> 1%N. Proof. by []. Qed.
(** minus followed by plus is always exact ... *)
Theorem C66_so2_minus_then_plus (X Y : 'M[R]_2) (t t' : S) (i i' : I) dir : SO2 X -> SO2 Y -> known dir ->
  exists e, [/\ minus (state Y t' i' dir) (state X t i dir) = Ok e, plus (state X t i dir) e = Ok (state Y t i dir) & in_range e].
Proof.
move=> gX gY kd.
have [|e [h1 h2]] := @C66_minus_then_plus _ S I _ _ _ _ _ SO2 four (fun=> True) so2_group so2_exp_log X Y t i t' i' dir gX gY kd.
  by case: dir kd.
exists e; split=> //; move: h1; rewrite minusE.
by case: dir kd h2 => // _ _ [<-]; rewrite /in_range so2LogE; exact: atan2_range.
Qed.
(** ... plus followed by minus gives back the angle exactly when it is in (-pi, pi] *)
Theorem C66_so2_plus_then_minus (X : 'M[R]_2) (t : S) (i : I) dir (dx : 'cV[R]_1) : SO2 X -> known dir ->
  exists y e, [/\ plus (state X t i dir) dx = Ok y, minus y (state X t i dir) = Ok e,
    e = dx <-> (Rlt (Ropp PI) (dx 0 0) /\ Rle (dx 0 0) PI) &
    exists k : Z, e 0 0 = dx 0 0 + Rmult (IZR k) (Rmult (IZR 2) PI)].
Proof.
move=> gX kd.
have [e1 e2] : so2inv X *m (X *m so2Exp dx) = so2Exp dx /\ so2Exp dx *m X *m so2inv X = so2Exp dx.
  have o : X *m so2inv X = 1%:M by case: gX.
  by rewrite mulmxA (mulmx1C o) mul1mx -mulmxA o mulmx1.
have K : (so2Log (so2Exp dx) = dx <-> in_range dx) /\ (exists k : Z, so2Log (so2Exp dx) 0 0 = dx 0 0 + Rmult (IZR k) (Rmult (IZR 2) PI)).
  split; last by rewrite so2LogE /so2Exp !rE; exact: atan2_mod.
  split=> [<-|]; last exact: so2_log_exp.
  by rewrite /in_range so2LogE; exact: atan2_range.
case: K => K1 K2; exists (state (if dir is DirRight then X *m so2Exp dx else so2Exp dx *m X) t i dir), (so2Log (so2Exp dx)).
by rewrite (plusE so2Exp four) minusE; case: dir kd => // _; rewrite ?e1 ?e2.
Qed.
(** the Jacobians returned, the identity, are the derivatives except across the rotation by pi *)
Theorem C66_so2_jacobians (X Y : 'M[R]_2) (t t' : S) (i i' : I) dir (dx w : 'cV[R]_1) : SO2 X -> SO2 Y -> known dir ->
  not_pi (so2inv X *m Y) ->
  (exists J y, [/\ lie_plus_jacobian one one (state X t i dir) dx = Ok J, plus (state X t i dir) dx = Ok y &
     is_mderiv (fun h => unok 0 (y' <~ plus (state X t i dir) (dx + h *: w) ;; minus y' y)) (J *m w)]) /\
  (exists J, lie_minus_jacobian so2Log so2inv one one (state Y t' i' dir) (state X t i dir) = Ok J /\
     is_mderiv (fun h => unok 0 (y' <~ plus (state Y t' i' dir) (h *: w) ;; minus y' (state X t i dir))) (J *m w)).
Proof.
move=> gX gY kd np.
have d0 : in_range 0 by rewrite /in_range mxE R0E; have := PI_RGT_0; split; lra.
have jr v u : is_mderiv (fun h => so2Exp (v + h *: u)) (so2Exp v *m so2hat (1%:M *m u)) by rewrite mul1mx; exact: so2_exp_deriv.
have jl v u : is_mderiv (fun h => so2Exp (v + h *: u)) (so2hat (1%:M *m u) *m so2Exp v) by rewrite mul1mx; exact: so2_exp_deriv'.
have comm A u : SO2 A -> so2hat u *m A = A *m so2hat u by move=> /SO2P[a ->]; exact: rmx_comm.
have jli (F : R -> 'M[R]_2) u : (forall h, SO2 (F h)) -> not_pi (F 0) ->
    is_mderiv F (so2hat u *m F 0) -> is_mderiv (fun h => so2Log (F h)) (1%:M *m u).
  by move=> gF nF; rewrite comm //; exact: so2_log_deriv.
have n1 : not_pi 1%:M.
  move=> /(congr1 (fun A : 'M[R]_2 => A 0 0)); rewrite !mxE /= => /eqP.
  by rewrite -addr_eq0 -mulr2n mulrn_eq0 oner_eq0.
split.
  exact: (C66_plus_jacobian (LD := not_pi) (D := in_range) (Jl := one) (Jr := one) (Jlinv := one) (Jrinv := one) four so2_group so2_log_exp so2_Exp0 jr jl so2_log_deriv jli).
apply: (C66_minus_jacobian (LD := not_pi) (Jl := one) (Jr := one) (Jlinv := one) (Jrinv := one) four so2_group so2_Exp0 jr jl so2_log_deriv jli) => //.
case: dir kd => // _; suff <- : so2inv X *m Y = Y *m so2inv X by [].
have gV : SO2 (so2inv X) by case: so2_group => _ _ hV _ _; exact: hV.
by have [a ->] := iffLR (SO2P _) gV; have [c ->] := iffLR (SO2P _) gY; exact: rmx_comm.
Qed.
(** so for angles beyond pi x.plus(dx).minus(x) is not dx *)
Theorem C66_so2_wraps_refuted (t : S) (i : I) dir : known dir ->
  exists (dx : 'cV[R]_1) y e, [/\ plus (state 1%:M t i dir) dx = Ok y, minus y (state 1%:M t i dir) = Ok e & e <> dx].
Proof.
move=> kd; exists (const_mx (Rmult (IZR 2) PI)).
have g1 : SO2 1%:M by case: so2_group.
have [y [e [h1 h2 h3 _]]] := @C66_so2_plus_then_minus 1%:M t i dir (const_mx (Rmult (IZR 2) PI)) g1 kd.
exists y, e; split=> // /h3 [_]; rewrite mxE; have := PI_RGT_0; lra.
Qed.
(** the bound of the hypotheses is met by a quarter turn and its inverse *)
Example C66_so2_nonvacuous : let X := rmx 0 1 in [/\ SO2 X, SO2 X^T, not_pi (so2inv X^T *m 1%:M) & X <> X^T].
Proof.
move=> X; have o : X *m X^T = 1%:M by rewrite /X rmxT rmxM -rmx1; congr rmx; rng.
have dX : \det X = 1 by rewrite det2 !rE mulNr mul0r sub0r mulr1 opprK.
split; first by split.
- by split; rewrite ?trmxK ?det_tr //; exact: mulmx1C.
- rewrite /not_pi mulmx1 /so2inv trmxK => /(congr1 (fun A : 'M[R]_2 => A 1 0)).
  by rewrite rE !mxE /= oppr0 => /eqP; rewrite oner_eq0.
- rewrite /X rmxT => /(congr1 (fun A : 'M[R]_2 => A 1 0)); rewrite !rE => /eqP.
  by rewrite -addr_eq0 -mulr2n mulrn_eq0 oner_eq0.
Qed.
End So2State.

(** *** Planar motions as elements of SE(3): rotations about z and translations in the plane.
    They satisfy the hypotheses of the spline theorems (C64) *)
Lemma cos0 : cos 0 = 1 :> R. Proof. exact: cos_0. Qed.
Lemma sin0 : sin 0 = 0 :> R. Proof. exact: sin_0. Qed.
Lemma cosN (a : R) : cos (- a) = cos a. Proof. exact: cos_neg. Qed.
Lemma sinN (a : R) : sin (- a) = - sin a. Proof. exact: sin_neg. Qed.
Definition Vmx (a : R) : 'M[R]_2 := if a == 0 then 1%:M else a^-1 *: rmx (sin a) (1 - cos a).
Definition pmx (A : 'M[R]_2) (t : 'cV[R]_2) : 'M[R]_(2 + 1 + 1) :=
  block_mx (block_mx A 0 0 1%:M : 'M[R]_(2 + 1)) (col_mx t 0 : 'cV[R]_(2 + 1)) 0 1%:M.
Definition pA (X : 'M[R]_(2 + 1 + 1)) : 'M[R]_2 := ulsubmx (ulsubmx X).
Definition pt (X : 'M[R]_(2 + 1 + 1)) : 'cV[R]_2 := usubmx (ursubmx X).
Definition pExp (v : 'cV[R]_(1 + 2)) : 'M[R]_(2 + 1 + 1) :=
  pmx (rmx (cos (v ord0 0)) (sin (v ord0 0))) (Vmx (v ord0 0) *m dsubmx v).
Definition pLog (X : 'M[R]_(2 + 1 + 1)) : 'cV[R]_(1 + 2) :=
  let a := atan2 (pA X 1 0) (pA X 0 0) in col_mx (const_mx a) (invmx (Vmx a) *m pt X).
Definition pinv (X : 'M[R]_(2 + 1 + 1)) : 'M[R]_(2 + 1 + 1) := pmx (pA X)^T (- ((pA X)^T *m pt X)).
Definition pwedge (v : 'cV[R]_(1 + 2)) : 'M[R]_(2 + 1 + 1) :=
  block_mx (block_mx (rmx 0 (v ord0 0)) 0 0 0 : 'M[R]_(2 + 1)) (col_mx (dsubmx v) 0 : 'cV[R]_(2 + 1)) 0 0.
Definition planar (X : 'M[R]_(2 + 1 + 1)) : Prop := exists a t, X = pmx (rmx (cos a) (sin a)) t.

Lemma pmxM A t B u : pmx A t *m pmx B u = pmx (A *m B) (A *m u + t).
Proof.
rewrite /pmx (@mulmx_block _ 3 1 3 1 3 1) (@mulmx_block _ 2 1 2 1 2 1) (@mul_block_col _ 2 1 2 1) !mulmx0 !mul0mx !mulmx1 ?mul0mx ?mul1mx.
by rewrite ?(addr0, add0r) (@add_col_mx _ 2 1 1) ?(addr0, add0r).
Qed.
Lemma pAE A t : pA (pmx A t) = A. Proof. by rewrite /pA (@block_mxKul _ 3 1 3 1) block_mxKul. Qed.
Lemma ptE A t : pt (pmx A t) = t. Proof. by rewrite /pt (@block_mxKur _ 3 1 3 1) col_mxKu. Qed.
Lemma pmx1 : pmx 1%:M 0 = 1%:M.
Proof. by rewrite /pmx col_mx0 -(@scalar_mx_block _ 2 1) -(@scalar_mx_block _ 3 1). Qed.
Lemma rmx_scale x c s : x *: rmx c s = rmx (x * c) (x * s).
Proof. by apply: mx2P; rewrite [LHS]mxE !rE ?mulrN. Qed.
Lemma rmx_add c s c' s' : rmx c s + rmx c' s' = rmx (c + c') (s + s').
Proof. by apply: mx2P; rewrite [LHS]mxE !rE ?opprD. Qed.
Lemma V_unit a : Rlt (Ropp PI) a -> Rle a PI -> Vmx a \in unitmx.
Proof.
move=> r1 r2; rewrite /Vmx; case: eqP => [_|/eqP a0]; first exact: unitmx1.
rewrite unitmxE detZ unitrM unitrX ?unitrV ?unitfE // det2 !rE mulNr opprK.
have -> : sin a * sin a + (1 - cos a) * (1 - cos a) = 2%:R * (1 - cos a).
  transitivity (cos a * cos a + sin a * sin a + 1 - 2%:R * cos a); first by rng.
  by rewrite cs1; rng.
rewrite mulf_neq0 ?pnatr_eq0 // subr_eq0; apply/eqP => c1.
have s0 : sin a = 0.
  by have := cs1 a; rewrite -c1 mulr1 -[RHS]addr0 => /addrI /eqP; rewrite mulf_eq0 orbb => /eqP.
case/eqP: a0; apply: angle_inj => //; last by rewrite s0 sin0.
  by rewrite R0E; have := PI_RGT_0; split; lra.
by rewrite -c1 cos0.
Qed.
(** x V(x a) *)
Lemma scaleV x a : a != 0 -> x *: Vmx (x * a) = a^-1 *: rmx (sin (x * a)) (1 - cos (x * a)).
Proof.
move=> a0; rewrite /Vmx mulf_eq0 (negbTE a0) orbF; case: eqP => [->|/eqP x0].
  by rewrite mul0r scale0r sin0 cos0 subrr rmx_scale !mulr0; apply: mx2P; rewrite [LHS]mxE !rE ?oppr0.
by rewrite scalerA invfM mulrA divff // mul1r.
Qed.
Lemma V_line x y a : rmx (cos (x * a)) (sin (x * a)) *m (y *: Vmx (y * a)) + x *: Vmx (x * a) = (x + y) *: Vmx ((x + y) * a).
Proof.
have [->|a0] := eqVneq a 0.
  rewrite !mulr0 /Vmx eqxx cos0 sin0 rmx1 mul1mx -scalerDl; congr (_ *: _); exact: addrC.
rewrite !scaleV // -scalemxAr -scalerDr rmxM rmx_add mulrDl cosD sinD; congr (_ *: rmx _ _); rng.
Qed.
Lemma V_deriv a : is_mderiv (fun h => h *: Vmx (h * a)) 1%:M.
Proof.
have [->|a0] := eqVneq a 0.
  by apply: eq_mderiv (mderiv_lin 1%:M) => h; rewrite mulr0 /Vmx eqxx.
have L : is_deriv (fun h : R => h * a) a.
  by have := derivZ a (@deriv_id _); rewrite mulr1; apply: eq_deriv => h; rewrite mulrC.
have C : is_deriv (fun h => cos (h * a)) 0.
  have := @deriv_comp _ (fun h => h * a) cos _ (- sin 0) L; rewrite sin0 oppr0 !mul0r; apply.
  by have := cos_deriv 0; rewrite sin0 oppr0.
have S : is_deriv (fun h => sin (h * a)) a.
  have := @deriv_comp _ (fun h => h * a) sin _ (cos 0) L; rewrite cos0 mul0r mul1r; apply.
  by have := sin_deriv 0; rewrite cos0.
have := mderiv_rmx (derivZ a^-1 S) (derivZ a^-1 (derivB (deriv_const 1) C)).
rewrite subrr mulr0 mulVf // rmx1; apply: eq_mderiv => h; by rewrite scaleV // rmx_scale.
Qed.
Lemma mderiv_block m1 m2 n1 n2 (A : R -> 'M[R]_(m1, n1)) (B : R -> 'M[R]_(m1, n2)) (C : R -> 'M[R]_(m2, n1)) (D : R -> 'M[R]_(m2, n2)) A' B' C' D' :
  is_mderiv A A' -> is_mderiv B B' -> is_mderiv C C' -> is_mderiv D D' ->
  is_mderiv (fun h => block_mx (A h) (B h) (C h) (D h)) (block_mx A' B' C' D').
Proof.
move=> a b c d i j; rewrite -[i]splitK -[j]splitK; case: (split i) (split j) => i' [] j' /=.
- by rewrite block_mxEul; apply: eq_deriv (a i' j') => h; rewrite block_mxEul.
- by rewrite block_mxEur; apply: eq_deriv (b i' j') => h; rewrite block_mxEur.
- by rewrite block_mxEdl; apply: eq_deriv (c i' j') => h; rewrite block_mxEdl.
- by rewrite block_mxEdr; apply: eq_deriv (d i' j') => h; rewrite block_mxEdr.
Qed.
Lemma mderiv_col m1 m2 n (A : R -> 'M[R]_(m1, n)) (B : R -> 'M[R]_(m2, n)) A' B' :
  is_mderiv A A' -> is_mderiv B B' -> is_mderiv (fun h => col_mx (A h) (B h)) (col_mx A' B').
Proof.
move=> a b i j; rewrite -[i]splitK; case: (split i) => i' /=.
- by rewrite col_mxEu; apply: eq_deriv (a i' j) => h; rewrite col_mxEu.
- by rewrite col_mxEd; apply: eq_deriv (b i' j) => h; rewrite col_mxEd.
Qed.
Lemma planar_laws : spline_laws pExp pLog pinv pwedge planar.
Proof.
have sc x (v : 'cV[R]_(1 + 2)) : pExp (x *: v) = pmx (rmx (cos (x * v ord0 0)) (sin (x * v ord0 0))) (x *: Vmx (x * v ord0 0) *m dsubmx v).
  by rewrite /pExp mxE linearZ /= -scalemxAr scalemxAl.
split.
- by rewrite /pExp mxE cos0 sin0 rmx1 linear0 mulmx0 pmx1.
- move=> x y v; rewrite !sc pmxM rmxD -mulrDl; congr pmx.
  by rewrite mulmxA -mulmxDl V_line.
- move=> v; apply: (@eq_mderiv _ _ _ (fun h => pmx (rmx (cos (h * v ord0 0)) (sin (h * v ord0 0))) (h *: Vmx (h * v ord0 0) *m dsubmx v))).
    by move=> h; rewrite sc.
  have L : is_deriv (fun h : R => h * v ord0 0) (v ord0 0).
    by have := derivZ (v ord0 0) (@deriv_id _); rewrite mulr1; apply: eq_deriv => h; rewrite mulrC.
  have C : is_deriv (fun h => cos (h * v ord0 0)) 0.
    have := @deriv_comp _ (fun h => h * v ord0 0) cos _ (- sin 0) L; rewrite sin0 oppr0 !mul0r; apply.
    by have := cos_deriv 0; rewrite sin0 oppr0.
  have S : is_deriv (fun h => sin (h * v ord0 0)) (v ord0 0).
    have := @deriv_comp _ (fun h => h * v ord0 0) sin _ (cos 0) L; rewrite cos0 mul0r mul1r; apply.
    by have := sin_deriv 0; rewrite cos0.
  have D := mderiv_rmx C S; have E := mderivMr (dsubmx v) (V_deriv (v ord0 0)); rewrite mul1mx in E.
  apply: (@mderiv_block 3 1 3 1); try exact: mderiv_const.
    by apply: (@mderiv_block 2 1 2 1) => //; exact: mderiv_const.
  by apply: (@mderiv_col 2 1 1) => //; exact: mderiv_const.
- move=> X [a [t ->]]; rewrite /pExp /pLog pAE ptE !rE.
  have [r1 r2] := atan2_range (sin a) (cos a); have [|c s] := @atan2_unit (sin a) (cos a); first exact: cs1.
  have -> : col_mx (const_mx (atan2 (sin a) (cos a)) : 'cV[R]_1) (invmx (Vmx (atan2 (sin a) (cos a))) *m t) ord0 0 = atan2 (sin a) (cos a).
    by have := @col_mxEu R 1 2 1 (const_mx (atan2 (sin a) (cos a))) (invmx (Vmx (atan2 (sin a) (cos a))) *m t) 0 0; rewrite [RHS]mxE; move=> H; rewrite -[RHS]H; congr (col_mx _ _ _ _); apply/val_inj.
  by rewrite c s col_mxKd mulmxA mulmxV ?mul1mx // V_unit.
- by move=> v; exists (v ord0 0), (Vmx (v ord0 0) *m dsubmx v).
- by move=> X Y [a [t ->]] [b [u ->]]; exists (a + b), (rmx (cos a) (sin a) *m u + t); rewrite pmxM rmxD.
- move=> X [a [t ->]]; rewrite /pinv pAE ptE rmxT -(cosN a) -sinN; by do 2 eexists.
- move=> X [a [t ->]]; rewrite /pinv pAE ptE pmxM mulmxN mulmxA.
  have -> : rmx (cos a) (sin a) *m (rmx (cos a) (sin a))^T = 1%:M by have [] : SO2 (rmx (cos a) (sin a)) by apply/SO2P; exists a.
  by rewrite mul1mx addNr pmx1.
Qed.
Lemma planar_ortho (X : 'M[R]_(3 + 1)) : planar X -> (@ulsubmx R 3 1 3 1 X)^T *m @ulsubmx R 3 1 3 1 X = 1%:M.
Proof.
move=> [a [t ->]]; rewrite /pmx (@block_mxKul _ 3 1 3 1) (@tr_block_mx _ 2 1 2 1) (@mulmx_block _ 2 1 2 1 2 1) !trmx0 trmx1 !mulmx0 !mul0mx mulmx1 ?(addr0, add0r).
have /mulmx1C -> : rmx (cos a) (sin a) *m (rmx (cos a) (sin a))^T = 1%:M by have [] : SO2 (rmx (cos a) (sin a)) by apply/SO2P; exists a.
by rewrite -(@scalar_mx_block _ 2 1).
Qed.
(** six poses, one second apart, turning by one radian per second on a unit circle *)
Definition circle (j : nat) : pose [archiFieldType of R] 3 := (pmx (rmx (cos j%:R) (sin j%:R)) (\col_i (if i == 0 then cos j%:R else sin j%:R)), j%:R).
Definition circle_traj := [seq circle j | j <- iota 0 6].
Example C64_rotation_nonvacuous : exists sp X w v al a,
  [/\ init pExp pLog pinv circle_traj 2%:R^-1 = Ok sp, size (sp_ctrl sp) = 5%N,
     get_pose pExp pLog pinv sp 2%:R = Ok (Some (X, 2%:R)), get_velocity pExp pLog pinv pwedge sp 2%:R = Ok (Some (w, v)) &
     get_acceleration pExp pLog pinv pwedge sp 2%:R = Ok (Some (al, a)) /\
     (is_mderiv (fun h => position_at pExp pLog pinv sp (2%:R + h)) v /\
      is_mderiv (fun h => attitude_at pExp pLog pinv sp (2%:R + h)) (@ulsubmx R 3 1 3 1 X *m skew w))].
Proof.
have incr : increasing_stamps circle_traj by rewrite /increasing_stamps /= !ltr_nat.
have rn : behead circle_traj <> [::] by [].
have md : 0 < 2%:R^-1 :> R by rewrite invr_gt0 ltr0n.
have [sp [E [dtE _] _ cE _]] := C65_construction pExp pLog pinv (p0 := circle 0) (rest := behead circle_traj) incr rn md.
have d1 : sp_dt sp = 1.
  by rewrite dtE /= subr0 divff ?pnatr_eq0 //; apply/max_idPr; rewrite invf_le1 ?ltr0n // ler1n.
have n5 : size (sp_ctrl sp) = 5%N.
  rewrite (sz cE) d1; apply/eqP; rewrite eqn_leq; apply/andP; split.
    by rewrite leqNgt arange_lenP ?ltr01 //= add0r mulr1 ltxx.
  by rewrite arange_lenP ?ltr01 //= add0r mulr1 ltr_nat.
have tGt q : List.In q (circle 0 :: behead circle_traj) -> planar q.1.
  by rewrite /=; do 6 (case=> [<-|]; first by do 2 eexists; reflexivity).
have lo : (circle 0).2 + 1%:R * sp_dt sp < 2%:R by rewrite d1 /= add0r mulr1 ltr_nat.
have hi : 2%:R < (circle 0).2 + (size (sp_ctrl sp) - 2)%:R * sp_dt sp by rewrite n5 d1 /= add0r mulr1 ltr_nat.
have [X [w [v [al [a [h1 h2 h3 [h4 h5 _ _ _]]]]]]] := C64_kinematics planar_laws planar_ortho tGt incr rn md E lo hi.
by exists sp, X, w, v, al, a.
Qed.

Print Assumptions C66_so2_minus_then_plus.
Print Assumptions C66_so2_plus_then_minus.
Print Assumptions C66_so2_jacobians.
Print Assumptions C66_so2_wraps_refuted.
Print Assumptions C64_rotation_nonvacuous.
