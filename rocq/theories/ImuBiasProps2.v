(** C83, continued: the gyro bias, and instances of C82 and C83. *)
From Coq Require Import Reals Lra.
From mathcomp Require Import all_ssreflect all_algebra.
From Verif Require Import Base Tac LinAlg Deriv RealStruct RealTrig RealProps EkfModel PreintModel PreintProps ImuModel ImuProps ImuPreintProps So3Model So3Props So3Jac ImuJacProps ImuBiasProps.
Set Implicit Arguments.
Unset Strict Implicit.
Unset Printing Implicit Defensive.
Import Order.Theory GRing.Theory Num.Theory.
Local Open Scope ring_scope.
Bind Scope ring_scope with Rdefinitions.R.
Local Notation R := Rdefinitions.R.
Local Notation RF := [realFieldType of R].


Lemma gyro_alg (F : realFieldType) (V U : 'M[F]_(3 + (1 + 1))) (y l : 'cV[F]_(3 + (3 + 3))) : in_IE3 V -> in_IE3 U ->
  let z := adjoint_IE3 (inverse_IE3 U) *m y + l in
  ie3_C V *m wedge (usubmx y) *m ie3_C U + ie3_C V *m (ie3_C U *m wedge (usubmx l)) = ie3_C V *m ie3_C U *m wedge (usubmx z) /\
  ie3_C V *m wedge (usubmx y) *m ie3_a U + ie3_C V *m (ie3_C U *m usubmx (dsubmx l)) + ie3_C V *m usubmx (dsubmx y) =
  ie3_C V *m ie3_C U *m usubmx (dsubmx z).
Proof.
move=> [C [a [b [c [_ ->]]]]] [S [d [e [f [hS ->]]]]] z; rewrite {}/z /inverse_IE3 !ie3E.
rewrite -[y]vsubmxK -[dsubmx y]vsubmxK; move: (usubmx y) (usubmx (dsubmx y)) (dsubmx (dsubmx y)) => y1 y2 y3.
rewrite adjoint_col !linearD /= !(col_mxKu, col_mxKd) wedgeD.
have [SS _] := hS; have [S'S _] : S^T *m S = 1%:M /\ True by split=> //; exact: mulmx1C.
have SW v : S *m wedge (S^T *m v) = wedge v *m S by rewrite rot_wedge // mulmxA SS mul1mx.
split.
  by rewrite mulmxDr -!mulmxA SW.
rewrite !mulmxDr -!mulmxA ![S *m (S^T *m _)]mulmxA SS !mul1mx.
rewrite [S *m (wedge _ *m _)]mulmxA mulNmx wedgeN mulmxN SW mulNmx -mulmxA [S *m (S^T *m _)]mulmxA SS mul1mx (wedge_anti d) opprK.
by rewrite addrAC.
Qed.
Section Steps.
Variables (tol : R) (so3Jlinv : 'cV[R]_3 -> 'M[R]_3) (seJl : 'cV[R]_n9 -> 'M[R]_n9) (seAd : M5 -> 'M[R]_n9).
Variables (g : 'cV[R]_3) (Q : 'M[R]_((3 + 3) + (3 + 3))).
Notation L := (L_matrix tol so3Jlinv seJl).
Notation U := (U_matrix so3Exp so3Jl (N_matrix tol)).
Notation xi := (L_xi tol so3Jlinv).
Notation lie_at := (lie_at tol so3Jlinv seJl).
Notation steps_ok := (steps_ok tol so3Jlinv seJl).
Notation rmi bg ba := (accumulate (irmi_increment (R := RF) so3Exp so3Jl (N_matrix tol) L Q) (irmi0 bg ba)).
Notation rmi_rcons := (rmi_rcons tol so3Jlinv seJl Q).
Notation inU := (inU tol).

Lemma rmi_in bg ba steps : in_IE3 (R := RF) (ir_val (rmi bg ba steps)).
Proof.
elim/last_ind: steps => [|s p [C [a [b [c [hC E]]]]]]; first by rewrite /= -ie31; exact/in_IE3_ie3/rot1.
have [-> _] := rmi_rcons bg ba s p; rewrite E /U_matrix ie3M; apply: in_IE3_ie3; apply: rotM => //; exact: so3_rot.
Qed.
Lemma in_parts (X Y : M5) : in_IE3 (R := RF) X -> in_IE3 (R := RF) Y ->
  ie3_C (X *m Y) = ie3_C X *m ie3_C Y /\ ie3_a (X *m Y) = ie3_C X *m ie3_a Y + ie3_a X.
Proof. by move=> [C [a [b [c [_ ->]]]]] [C' [a' [b' [c' [_ ->]]]]]; rewrite ie3M !ie3E. Qed.
Lemma in_wedge (X : M5) (y : 'cV[R]_n9) : in_IE3 (R := RF) X ->
  ie3_C (X *m wedge9 y) = ie3_C X *m wedge (usubmx y) /\ ie3_a (X *m wedge9 y) = ie3_C X *m usubmx (dsubmx y).
Proof. by move=> [C [a [b [c [_ ->]]]]]; rewrite ie3_Cw ie3_aw ie3E. Qed.
(** C83: the same for the gyro bias, in the attitude and velocity of the increment *)
Theorem C83_gyro_bias_jacobian bg ba steps (w : 'cV[R]_3) : steps_ok bg ba steps ->
  let D := ir_val (rmi bg ba steps) *m wedge9 (ir_jac (rmi bg ba steps) *m col_mx w 0) in
  is_mderiv (fun h => ie3_C (ir_val (rmi (bg + h *: w) ba steps))) (ie3_C D) /\
  is_mderiv (fun h => ie3_a (ir_val (rmi (bg + h *: w) ba steps))) (ie3_a D).
Proof.
elim/last_ind: steps => [_|s p IH /steps_rcons [/IH {IH} H [hj hr]]] D; rewrite {}/D.
  rewrite /= mul0mx mul1mx (_ : wedge9 0 = 0); last by rewrite /wedge9 !linear0 wedge0 row_mx0 block_mx0.
  by split; [exact: (mderiv_C (mderiv_const (1%:M : M5)))|exact: (mderiv_a (mderiv_const (1%:M : M5)))].
have [-> ->] := rmi_rcons bg ba s p; set om := im_gyro p.1 - bg in hj hr *; set a := im_accel p.1 - ba in hr *.
have [DC Da] := C82_gyro_attitude_velocity (- w) hr.
have hV h := rmi_in (bg + h *: w) ba s; have hV0 := rmi_in bg ba s; have hU := inU om a p.2.
case: H => HC Ha.
have vE h : ir_val (rmi (bg + h *: w) ba (rcons s p)) = ir_val (rmi (bg + h *: w) ba s) *m U (om + h *: (- w)) a p.2.
  by have [-> _] := rmi_rcons (bg + h *: w) ba s p; rewrite opprD addrA -scalerN.
set V := ir_val (rmi bg ba s) in HC Ha hV0 *; set J := ir_jac (rmi bg ba s) in HC Ha *.
have UE : U om a p.2 = ie3 (ie3_C (U om a p.2)) (ie3_a (U om a p.2)) (ie3_b (U om a p.2)) p.2 by rewrite /U_matrix !ie3E.
have [CC _] : rot (R := RF) (ie3_C (U om a p.2)) by rewrite /U_matrix ie3E; exact: so3_rot.
have hR : rot (R := RF) (ie3_C (U om a p.2)) by rewrite /U_matrix ie3E; exact: so3_rot.
have nL : L om a p.2 *m col_mx (- w) 0 = - (L om a p.2 *m col_mx w 0) by rewrite -mulmxN opp_col_mx oppr0.
have [pC pa] := in_wedge (J *m col_mx w 0) hV0; rewrite pC in HC; rewrite pa in Ha.
have [uC ua] := in_wedge (L om a p.2 *m col_mx (- w) 0) hU; rewrite uC in DC; rewrite ua in Da.
have hVU : in_IE3 (R := RF) (V *m U om a p.2).
  by have [C1 [a1 [b1 [c1 [h1 ->]]]]] := hV0; have [C2 [a2 [b2 [c2 [h2 ->]]]]] := hU; rewrite ie3M; apply: in_IE3_ie3; exact: rotM.
have [-> ->] := in_wedge ((adjoint_IE3 (inverse_IE3 (U om a p.2)) *m J - L om a p.2) *m col_mx w 0) hVU.
have [qC qa] := in_parts hV0 hU; rewrite qC.
have -> : (adjoint_IE3 (inverse_IE3 (U om a p.2)) *m J - L om a p.2) *m col_mx w 0 =
   adjoint_IE3 (inverse_IE3 (U om a p.2)) *m (J *m col_mx w 0) + L om a p.2 *m col_mx (- w) 0.
  by rewrite nL mulmxBl mulmxA.
have [<- <-] := gyro_alg (J *m col_mx w 0) (L om a p.2 *m col_mx (- w) 0) hV0 hU.
have v0 : ir_val (rmi (bg + 0 *: w) ba s) = V by rewrite scale0r addr0.
split.
- have := mderivM HC DC; rewrite v0 !scale0r !addr0; apply: eq_mderiv => h; rewrite vE.
  exact: (esym (proj1 (in_parts (hV h) (inU (om + h *: (- w)) a p.2)))).
- have := mderivD (mderivM HC Da) Ha; rewrite v0 !scale0r !addr0; apply: eq_mderiv => h; rewrite vE.
  exact: (esym (proj2 (in_parts (hV h) (inU (om + h *: (- w)) a p.2)))).
Qed.
End Steps.

(** *** instances *)
Definition seJl0 (x : 'cV[R]_n9) : 'M[R]_n9 := Epsilon.epsilon (inhabits 0) (fun J => right_jac_at (- x) J).
Lemma seJl0_ok x : right_jac_at x (seJl0 (- x)).
Proof. by have := Epsilon.epsilon_spec (inhabits 0) (fun J => right_jac_at (- - x) J); rewrite /seJl0 opprK; apply; exact: right_jac_exists. Qed.
Lemma lie_at_ok tol om a dt : dt *: om = 0 \/ cos (norm2 (dt *: om)) <> 1 -> lie_at tol so3Jlinv0 seJl0 om a dt.
Proof. by move=> h; split; [exact: so3Jlinv0_ok|exact: seJl0_ok]. Qed.
Lemma norm_e3 : norm2 (e3 0) = 1.
Proof. by rewrite /norm2 !big_ord_recl big_ord0 !mxE /= !expr0n /= !addr0 expr1n sqrtr1. Qed.
Definition ex_u (om : 'cV[R]_3) (t : R) : imu RF := Imu om (e3 1) t (Some 0) (Some 0).
Definition ex_steps : seq (imu RF * R) := [:: (ex_u ((PI / 2%:R) *: e3 0) 0, 1); (ex_u (PI *: e3 0) 1, 1)].
Lemma ex_steps_ok tol : steps_ok tol so3Jlinv0 seJl0 0 0 ex_steps.
Proof.
have pi0 : 0 < PI :> R by apply/RltP; exact: PI_RGT_0.
have c1 : cos PI <> 1 :> R by change (cos PI <> R1); rewrite cos_PI; lra.
have c2 : cos (PI / 2%:R) <> 1 :> R.
  have -> : PI / 2%:R = Rdiv PI (IZR 2) :> R by rfield.
  by change (cos (Rdiv PI (IZR 2)) <> R1); rewrite cos_PI2; lra.
constructor; last constructor; last constructor; apply: lie_at_ok; right; rewrite /= subr0 scale1r norm2Z norm_e3 mulr1 gtr0_norm //.
by apply: divr_gt0 => //; rewrite ltr0n.
Qed.
Example C83_instance tol Q (w : 'cV[R]_3) :
  let r ba := accumulate (irmi_increment (R := RF) so3Exp so3Jl (N_matrix tol) (L_matrix tol so3Jlinv0 seJl0) Q) (irmi0 0 ba) ex_steps in
  is_mderiv (fun h => irmi_value (R := RF) se23Exp (irmi_update_bias (r 0) (col_mx 0 (0 + h *: w))) - ir_val (r (0 + h *: w))) 0.
Proof. by have [_ h] := C83_accel_bias_correction Q w (ex_steps_ok tol). Qed.
(** C83: for the gyro bias the position part of the correction is wrong already for one step at rest: with the unit
    acceleration e1 and a unit step, a bias error in direction e0 is corrected by -5/24 e2, while integrating again changes the position by nothing
    in the code (and by -1/6 e2 under the exact kinematics) *)
Theorem C83_gyro_position_refuted tol Q : 0 < tol ->
  let r bg := accumulate (irmi_increment (R := RF) so3Exp so3Jl (N_matrix tol) (L_matrix tol so3Jlinv0 seJl0) Q) (irmi0 bg 0) [:: (ex_u 0 0, 1)] in
  let claimed := ie3_b (ir_val (r 0) *m wedge9 (ir_jac (r 0) *m col_mx (e3 0) 0)) in
  [/\ claimed = - (5%:R / 24%:R : R) *: e3 2%:R,
      is_mderiv (fun h => ie3_b (ir_val (r (0 + h *: e3 0)))) 0 & ~ is_mderiv (fun h => ie3_b (ir_val (r (0 + h *: e3 0)))) claimed].
Proof.
move=> t0 r claimed; have [hj hr] : lie_at tol so3Jlinv0 seJl0 0 (e3 1) 1 by apply: lie_at_ok; left; rewrite scaler0.
have j0 : so3Jlinv0 0 = 1%:M by rewrite /so3Jlinv0 norm20 eqxx.
have wE : wedge (- e3 0) *m e3 1 = - e3 2%:R.
  rewrite wedgeN mulNmx; congr (- _); apply/matrixP => i j; rewrite ord1 /wedge !mxE !big_ord_recl big_ord0 !mxE /= mulr0n mulr1n.
  by case: i => [[|[|[|//]]] ?] /=; rewrite ?mulr0 ?mul0r ?mulr1 ?addr0 ?oppr0 ?add0r.
have c0 : e3 2%:R != 0 :> 'cV[R]_3 by apply/eqP => /matrixP /(_ 2%:R 0) /eqP; rewrite !mxE !eqxx oner_eq0.
have vE bg : ir_val (r bg) = U_matrix so3Exp so3Jl (N_matrix tol) (- bg) (e3 1) 1 by rewrite /r /= mul1mx sub0r subr0.
have JE : ir_jac (r 0) = - L_matrix tol so3Jlinv0 seJl0 0 (e3 1) 1 by rewrite /r /= mulmx0 sub0r !subr0.
have cE : claimed = - (5%:R / 24%:R : R) *: e3 2%:R.
  rewrite /claimed vE JE oppr0 mulNmx -mulmxN opp_col_mx oppr0 (@L_rest tol so3Jlinv0 seJl0 t0 (e3 1) 1 (- e3 0) j0 hr) wE expr1n mulr1.
  by rewrite scalerN scaleNr.
have D : is_mderiv (fun h => ie3_b (ir_val (r (0 + h *: e3 0)))) 0.
  by have := @coded_rest tol t0 (e3 1) 1 (- e3 0); apply: eq_mderiv => h; rewrite vE add0r scalerN.
split=> // /(mderiv_uniq D)/eqP; rewrite cE eq_sym scaler_eq0 (negbTE c0) orbF oppr_eq0 mulf_eq0 invr_eq0 !pnatr_eq0 //.
Qed.
Print Assumptions C83_gyro_bias_jacobian.
Print Assumptions C83_gyro_position_refuted.
