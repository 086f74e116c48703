(** C45 and the IMU part of C47: IMU preintegration equals sequential IMU kinematics. *)
From mathcomp Require Import all_ssreflect all_algebra.
From Verif Require Import Base Tac LinAlg EkfModel PreintModel PreintProps ImuModel ImuProps.
Set Implicit Arguments.
Unset Strict Implicit.
Unset Printing Implicit Defensive.
Import Order.Theory GRing.Theory Num.Theory.
Local Open Scope ring_scope.

Section IE3.
Variable R : realFieldType.
Notation M5 := 'M[R]_(3 + (1 + 1)).
Notation n9 := (3 + (3 + 3))%N.

(** *** C45 *)
Section Preint.
Variables (soExp soJl Nmat : 'cV[R]_3 -> 'M[R]_3).
Variable Lmat : 'cV[R]_3 -> 'cV[R]_3 -> R -> 'M[R]_(n9, 3 + 3).
Variable seAd : M5 -> 'M[R]_n9.
Variable seExp : 'cV[R]_n9 -> M5.
Variable seJr : 'cV[R]_n9 -> 'M[R]_n9.
Variable g : 'cV[R]_3.
Variable Q : 'M[R]_((3 + 3) + (3 + 3)).
(** what is assumed of pymlg *)
Hypothesis Exp_rot : forall v, rot (soExp v).
Hypothesis Exp0 : seExp 0 = 1%:M.
Hypothesis Jr0 : seJr 0 = 1%:M.
Hypothesis Ad_SE23 : forall X, in_SE23 X -> seAd X = adjoint_IE3 X.
Hypothesis Qs : Q^T = Q.
Notation iu := (fun u : imu R => Some (im_stamp u)).
Notation U_ := (U_matrix soExp soJl Nmat).
Notation rmi bg ba := (accumulate (irmi_increment soExp soJl Nmat Lmat Q) (irmi0 bg ba)).

(** readings with no bias random walk input (the default of the constructor) *)
Definition no_walk (steps : seq (imu R * R)) : bool :=
  all (fun p => (im_gwalk p.1 == Some 0) && (im_awalk p.1 == Some 0)) steps.

Lemma irmi_const bg ba steps : let r := rmi bg ba steps in
  [/\ ir_bg r = bg, ir_ba r = ba & ir_new r = col_mx bg ba].
Proof. by elim/last_ind: steps => [//|s p [h1 h2 h3]]; rewrite accumulate_rcons. Qed.

Lemma ir_stampsE bg ba p steps :
  ir_stamps (rmi bg ba (p :: steps)) = Some (im_stamp p.1, im_stamp p.1 + duration (p :: steps)).
Proof.
rewrite -(C47_stamps (@im_stamp R)) /accumulate.
have E : forall l r, ir_stamps (foldl (fun r p => irmi_increment soExp soJl Nmat Lmat Q r p.1 p.2) r l) =
   foldl (fun st q => tick st (im_stamp q.1) q.2) (ir_stamps r) l.
  by elim=> //= q l IH r; rewrite IH.
by rewrite E.
Qed.

Definition iF dir (D : R) (T : M5) (r : irmi R) : 'M[R]_(n9 + (3 + 3)) :=
  if dir is DRight then block_mx (adjoint_IE3 (inverse_IE3 (ir_val r))) (ir_jac r) 0 1%:M
  else block_mx (adjoint_IE3 (G_matrix g D)) (adjoint_IE3 (G_matrix g D *m T *m ir_val r) *m ir_jac r) 0 1%:M.
Definition iL dir (D : R) (T : M5) (r : irmi R) : 'M[R]_(n9 + (3 + 3)) :=
  if dir is DRight then 1%:M else block_mx (adjoint_IE3 (G_matrix g D *m T *m ir_val r)) 0 0 1%:M.

Lemma in_G D : in_IE3 (G_matrix g D). Proof. by apply: in_IE3_ie3; apply: rot1. Qed.
Lemma in_U om a dt : in_IE3 (U_ om a dt). Proof. exact: in_IE3_ie3. Qed.
Lemma SE23_IE3 (X : M5) : in_SE23 X -> in_IE3 X. Proof. by move=> [C [a [b [h ->]]]]; exact: in_IE3_ie3. Qed.
Lemma step_SE23 (X : M5) om a dt : in_SE23 X -> in_SE23 (G_matrix g dt *m X *m U_ om a dt).
Proof.
move=> [C [b [c [h ->]]]]; rewrite /G_matrix /U_matrix !ie3M addr0 addNr.
by do 3 eexists; split; last by []; rewrite mul1mx; apply: rotM.
Qed.

Lemma cov_step N M (F Fs F' Ls L' Af P C C' : 'M[R]_N) (Lf Li : 'M[R]_(N, M)) (W : 'M[R]_M) :
  P^T = P -> C^T = C -> W^T = W ->
  Fs *m F = F' -> Fs *m Ls = L' *m Af -> Li = L' *m Lf ->
  C' = symmetrize (Af *m C *m Af^T + Lf *m W *m Lf^T) ->
  symmetrize (Fs *m (F *m P *m F^T + Ls *m C *m Ls^T) *m Fs^T + Li *m W *m Li^T) =
  F' *m P *m F'^T + L' *m C' *m L'^T.
Proof.
move=> Ps Cs Ws <- e -> ->.
rewrite /symmetrize symmetrize_id; last first.
  by apply: addT; apply: congrT => //; apply: addT; apply: congrT.
rewrite symmetrize_id; last by apply: addT; apply: congrT.
by rewrite !mulmxDr !mulmxDl !congrM e addrA.
Qed.

Lemma bmul_1 a b (A B : 'M[R]_a) (L J : 'M[R]_(a, b)) :
  block_mx A (- L) 0 1%:M *m block_mx B J 0 1%:M = block_mx (A *m B) (A *m J - L) 0 1%:M.
Proof. by rewrite mulmx_block !mulmx0 !mul0mx !mulmx1 !addr0 !add0r. Qed.
Lemma bmul_2 a b (A B : 'M[R]_a) (L : 'M[R]_(a, b)) :
  block_mx A (- L) 0 1%:M *m block_mx B 0 0 1%:M = block_mx (A *m B) (- L) 0 1%:M.
Proof. by rewrite mulmx_block !mulmx0 !mul0mx !mulmx1 !addr0 !add0r. Qed.
Lemma bmul_3 a b (A B : 'M[R]_a) (L : 'M[R]_(a, b)) :
  block_mx A 0 0 1%:M *m block_mx B L 0 1%:M = block_mx (A *m B) (A *m L) 0 1%:M.
Proof. by rewrite mulmx_block !mulmx0 !mul0mx !mulmx1 !addr0 !add0r. Qed.
Lemma bmul_4 a b c (A : 'M[R]_a) (L : 'M[R]_(a, b)) (X : 'M[R]_c) :
  block_mx A 0 0 1%:M *m block_mx L 0 0 X = block_mx (A *m L) 0 0 X.
Proof. by rewrite mulmx_block !mulmx0 !mul0mx !mul1mx !addr0 !add0r. Qed.

Lemma inverse_IE3M (X Y : M5) : in_IE3 X -> in_IE3 Y -> inverse_IE3 (X *m Y) = inverse_IE3 Y *m inverse_IE3 X.
Proof.
move=> iX iY; have [hX [hX' _]] := C48_inverse iX; have [hY [hY' _]] := C48_inverse iY.
have [h [h' _]] := C48_inverse (in_IE3M iX iY).
have e : (X *m Y) *m (inverse_IE3 Y *m inverse_IE3 X) = 1%:M.
  by rewrite mulmxA -(mulmxA X) hY mulmx1.
by rewrite -[LHS]mulmx1 -e mulmxA h' mul1mx.
Qed.

(** one increment, and one sequential prediction *)
Lemma irmi_step (r : irmi R) bg ba u dt : ir_bg r = bg -> ir_ba r = ba ->
  let r' := irmi_increment soExp soJl Nmat Lmat Q r u dt in
  let gy := im_gyro u - bg in let ac := im_accel u - ba in
  let A := adjoint_IE3 (inverse_IE3 (U_ gy ac dt)) in let L := Lmat gy ac dt in
  let Af := block_mx A (- L) 0 1%:M in let Lf := block_mx L 0 0 dt%:M in
  [/\ ir_val r' = ir_val r *m U_ gy ac dt, ir_jac r' = A *m ir_jac r - L &
      ir_cov r' = symmetrize (Af *m ir_cov r *m Af^T + Lf *m Q *m Lf^T)].
Proof. by move=> <- <-. Qed.

Lemma imu_step dir T bg ba P t u dt : 0 <= dt -> im_gwalk u = Some 0 -> im_awalk u = Some 0 ->
  let gy := im_gyro u - bg in let ac := im_accel u - ba in
  let T' := G_matrix g dt *m T *m U_ gy ac dt in
  let Li := if dir is DRight then Lmat gy ac dt else seAd T' *m Lmat gy ac dt in
  let F := block_mx (if dir is DRight then adjoint_IE3 (inverse_IE3 (U_ gy ac dt)) else adjoint_IE3 (G_matrix g dt))
             (- Li) 0 1%:M in
  let L := block_mx Li 0 0 dt%:M in
  ekf_predict iu (imu_kinematics soExp soJl Nmat Lmat seAd g Q dir)
    (Est (PState (ImuState T bg ba) (Some t)) P) (Some u) (Some dt) None =
  Ok (Est (PState (ImuState T' bg ba) (Some (t + dt))) (symmetrize (F *m P *m F^T + L *m Q *m L^T))).
Proof.
move=> dt0 w1 w2; rewrite /ekf_predict /= ltNge dt0 /=.
by rewrite /imu_evaluate /= w1 w2 /= !scaler0 !addr0; case: dir.
Qed.

Lemma predict_all_imu dir T bg ba P t steps : in_SE23 T -> P^T = P -> forward steps -> no_walk steps ->
  let r := rmi bg ba steps in let D := duration steps in
  [/\ in_IE3 (ir_val r), in_SE23 (G_matrix g D *m T *m ir_val r), (ir_cov r)^T = ir_cov r &
  predict_all iu (imu_kinematics soExp soJl Nmat Lmat seAd g Q dir) (Est (PState (ImuState T bg ba) (Some t)) P) steps =
  Ok (Est (PState (ImuState (G_matrix g D *m T *m ir_val r) bg ba) (Some (t + D)))
          (iF dir D T r *m P *m (iF dir D T r)^T + iL dir D T r *m ir_cov r *m (iL dir D T r)^T))].
Proof.
move=> iT Ps; have [_ [G0 _]] := C48_gravity g 0 0.
elim/last_ind: steps => [|steps p IH] fw nw.
  rewrite /= /duration big_nil addr0 trmx0 G0 mul1mx mulmx1; split=> //; first exact: in_IE31.
  congr Ok; congr Est; rewrite mulmx0 mul0mx addr0 /iF /= G0 mul1mx adjoint1 mulmx0.
  rewrite (_ : inverse_IE3 1%:M = 1%:M) ?adjoint1 -?scalar_mx_block; last first.
    by rewrite -[LHS]mul1mx; have [] := C48_inverse (in_IE31 R).
  by case: dir; rewrite mul1mx trmx1 mulmx1.
move: fw nw; rewrite /forward /no_walk !all_rcons => /andP [dt0 fw] /andP [/andP [/eqP w1 /eqP w2] nw].
have [iV iX Cs E] := IH fw nw; have [b1 b2 _] := irmi_const bg ba steps.
rewrite accumulate_rcons.
move: iV iX Cs E b1 b2; move: (rmi bg ba steps) => r iV iX Cs E b1 b2 {IH}.
have := irmi_step p.1 p.2 b1 b2; move: (irmi_increment _ _ _ _ _ r _ _) => r'.
rewrite /predict_all foldM_rcons -/(predict_all _ _ _ _) E => {E}.
rewrite [bind _ _]/= imu_step //.
set gy := im_gyro _ - _; set ac := im_accel _ - _; set D := duration steps in iX *.
set U := U_ gy ac p.2; have iU : in_IE3 U by exact: in_U.
have [UV [VU iUi]] := C48_inverse iU.
set G1 := G_matrix g p.2; set Tj := G_matrix g D *m T *m ir_val r in iX *.
have iT' : in_SE23 (G1 *m Tj *m U) by exact: step_SE23.
have GD : G_matrix g (duration (rcons steps p)) = G1 *m G_matrix g D.
  by rewrite duration_rcons addrC; have [<-] := C48_gravity g p.2 D.
have iG : in_IE3 G1 by exact: in_G.
move: U G1 iU UV VU iUi iT' GD iG => U G1 iU UV VU iUi iT' GD iG.
move=> /= [V' J' C'].
have TE : G_matrix g (duration (rcons steps p)) *m T *m ir_val r' = G1 *m Tj *m U.
  by rewrite GD V' /Tj !mulmxA.
rewrite TE; have iV' : in_IE3 (ir_val r') by rewrite V'; exact: in_IE3M.
have Cs' : (ir_cov r')^T = ir_cov r'.
  by rewrite C' /symmetrize symmetrize_id; apply: addT; apply: congrT.
split=> //; congr Ok; congr Est; first by rewrite duration_rcons addrA.
move: (Lmat gy ac p.2) J' C' => L J' C'; set A := adjoint_IE3 (inverse_IE3 U) in J' C' *.
rewrite (Ad_SE23 iT') /iF /iL TE GD; rewrite -/Tj; case: dir.
  set T' := G1 *m Tj *m U in TE iT' *.
  have AA : adjoint_IE3 T' *m A = adjoint_IE3 G1 *m adjoint_IE3 Tj.
    rewrite /A -C48_adjoint_mul //; last exact: SE23_IE3.
    by rewrite /T' -mulmxA UV mulmx1 C48_adjoint_mul //; exact: SE23_IE3.
  apply: (cov_step Ps Cs Qs _ _ _ C').
  - by rewrite bmul_1 J' (C48_adjoint_mul iG (in_G D)) mulmxBr !mulmxA AA.
  - by rewrite bmul_2 bmul_3 AA mulmxN.
  - by rewrite bmul_4.
apply: (cov_step Ps Cs Qs _ _ _ C').
- rewrite bmul_1 J' V' inverse_IE3M // C48_adjoint_mul //; by have [_ []] := C48_inverse iV.
- by rewrite mul1mx mulmx1.
by rewrite mul1mx.
Qed.

(** C45: for a state in SE_2(3) carrying the biases the increment was built with, one
    prediction with the accumulated increment equals running the IMU kinematics through all
    the readings: pose, biases, 15 x 15 covariance and stamp, for both perturbation
    conventions. *)
Theorem C45_imu dir T bg ba P p steps : in_SE23 T -> P^T = P -> forward (p :: steps) -> no_walk (p :: steps) ->
  let x0 := Est (PState (ImuState T bg ba) (Some (im_stamp p.1))) P in
  ekf_predict (fun r => rmi_stamp (ir_stamps r)) (preint_imu seAd g seExp seJr dir) x0
      (Some (rmi bg ba (p :: steps))) None None
  = predict_all iu (imu_kinematics soExp soJl Nmat Lmat seAd g Q dir) x0 (p :: steps).
Proof.
move=> iT Ps fw nw x0.
have [iV iX Cs E] := predict_all_imu dir bg ba (im_stamp p.1) iT Ps fw nw.
have S := ir_stampsE bg ba p steps; have [b1 b2 b3] := irmi_const bg ba (p :: steps).
rewrite [RHS]E => {E}; set r := rmi bg ba (p :: steps) in iV iX Cs S b1 b2 b3 *.
have O : ir_orig r = col_mx bg ba by rewrite /ir_orig b1 b2.
have DT : ir_dt r = duration (p :: steps) by rewrite /ir_dt S addrAC subrr add0r.
have V : irmi_value seExp (irmi_update_bias (irmi_copy r) (col_mx bg ba)) = ir_val r.
  by rewrite /irmi_value /ir_orig /= b1 b2 subrr mulmx0 Exp0 mulmx1.
move: r iV iX Cs S b1 b2 b3 O DT V => r iV iX Cs S b1 b2 b3 O DT V.
rewrite /ekf_predict [rmi_stamp _]/= S /= addrAC subrr add0r ltNge duration_ge0 //=.
rewrite /preint_imu_evaluate /preint_imu_jacobian /preint_imu_covariance /is_bias /= V DT O subrr mulmx0 oppr0 Exp0 Jr0.
congr Ok; congr Est.
have A1 : seAd 1%:M = 1%:M.
  by rewrite Ad_SE23 ?adjoint1 // -ie31; do 3 eexists; split; last by []; apply: rot1.
rewrite A1 /iF /iL; case: dir => /=.
  rewrite Ad_SE23 // !mulmx1 /symmetrize symmetrize_id //.
  by apply: addT; apply: congrT.
by rewrite mul1mx -scalar_mx_block /symmetrize symmetrize_id //; apply: addT; apply: congrT.
Qed.
End Preint.
End IE3.

(** *** Copies and constructors *)
Section Copy.
Variable R : realFieldType.
Notation n9 := (3 + (3 + 3))%N.
Variables (soExp soJl Nmat : 'cV[R]_3 -> 'M[R]_3).
Variable Lmat : 'cV[R]_3 -> 'cV[R]_3 -> R -> 'M[R]_(n9, 3 + 3).
Variable Q : 'M[R]_((3 + 3) + (3 + 3)).
Notation rmi bg ba := (accumulate (irmi_increment soExp soJl Nmat Lmat Q) (irmi0 bg ba)).
(** C47: the stamps of an IMU increment *)
Theorem C47_imu_stamps bg ba p steps :
  ir_stamps (rmi bg ba (p :: steps)) = Some (im_stamp p.1, im_stamp p.1 + duration (p :: steps)).
Proof. exact: ir_stampsE. Qed.
(** a copy of an increment whose bias was not corrected is equal to it *)
Theorem C47_imu_copy bg ba steps : irmi_copy (rmi bg ba steps) = rmi bg ba steps.
Proof.
have [h1 h2 h3] := irmi_const soExp soJl Nmat Lmat Q bg ba steps.
by move: h1 h2 h3; rewrite /irmi_copy /ir_orig; case: (rmi bg ba steps) => /= ??????? -> -> ->.
Qed.
(** ... a copy of a corrected one forgets the correction *)
Theorem C47_imu_copy_refuted (b : 'cV[R]_(3 + 3)) : b != 0 ->
  let r := irmi_update_bias (irmi0 0 0) b in ir_new r = b /\ ir_new (irmi_copy r) = 0 /\ irmi_copy r <> r.
Proof.
move=> b0 r; rewrite /= /ir_orig /= col_mx0; split=> //; split=> // /(congr1 (@ir_new R)) /=.
by rewrite /ir_orig /= col_mx0 => h; rewrite -h eqxx in b0.
Qed.
(** [new] is documented to take the bias of the new increment; it always keeps the old one *)
Theorem C47_imu_new_refuted bg ba (r : irmi R) nb gb ab : ir_bg r = bg -> ir_ba r = ba ->
  irmi_new r nb gb ab = irmi0 bg ba.
Proof. by move=> <- <-; rewrite /irmi_new; case: nb => [[x y]|]. Qed.
(** the documented 6 x 6 input covariance is rejected, and with AttributeError *)
Theorem C45_six_by_six_refuted : imu_increment_init 6 = Raise AttributeError.
Proof. by []. Qed.

(** An IMU reading built with one random walk given as None cannot be copied, so neither
    perturbed nor used in a prediction. *)
Theorem C45_none_walk_refuted (gyro accel : 'cV[R]_3) t w : imu_copy (imu_new gyro accel t (Some w) None) = Raise AttributeError
  /\ imu_copy (imu_new gyro accel t None (Some w)) = Raise AttributeError
  /\ imu_copy (imu_new gyro accel t None None) = Raise AttributeError.
Proof. by []. Qed.
(** with both walks given, copying is the identity and plus adds each block *)
Theorem C45_imu_plus (gyro accel : 'cV[R]_3) t gw aw w1 w2 w3 w4 : let u := imu_new gyro accel t (Some gw) (Some aw) in
  imu_copy u = Ok u /\
  imu_plus u w1 w2 w3 w4 = Ok (imu_new (gyro + w1) (accel + w2) t (Some (gw + w3)) (Some (aw + w4))).
Proof. by []. Qed.
End Copy.

(** *** An instance: the rotation cycling the axes, two readings *)
Section Instance.
Variable R : realFieldType.
Notation n9 := (3 + (3 + 3))%N.
Definition cyc : 'M[R]_3 := \matrix_(i, j) nth 0 (nth [::] [:: [:: 0; 0; 1]; [:: 1; 0; 0]; [:: 0; 1; 0]] i) j.
Lemma rot_cyc : rot cyc.
Proof.
split; last by rewrite det3 !mxE /=; rng.
apply/matrixP=> i j; rewrite !mxE !big_ord_recl !big_ord0 !mxE /=.
by case: i => [[|[|[|//]]] ?]; case: j => [[|[|[|//]]] ?] /=; rng.
Qed.
Definition ex_Exp (v : 'cV[R]_3) : 'M[R]_3 := if v == 0 then 1%:M else cyc.
Lemma ex_Exp_rot v : rot (ex_Exp v).
Proof. by rewrite /ex_Exp; case: eqP => _; [exact: rot1|exact: rot_cyc]. Qed.
Definition i_steps : seq (imu R * R) :=
  [:: (imu_new (const_mx 1) (const_mx 2%:R) 0 (Some 0) (Some 0), 1);
      (imu_new 0 (const_mx 1) 1 (Some 0) (Some 0), 2%:R)].
Example C45_imu_instance dir (Jl N : 'cV[R]_3 -> 'M[R]_3) Lm :
  let x0 := Est (PState (ImuState (ie3 cyc (const_mx 1) 0 0) (const_mx 3%:R) 0) (Some 0)) 1%:M in
  ekf_predict (fun r => rmi_stamp (ir_stamps r)) (preint_imu (@adjoint_IE3 R) (const_mx 1) (fun _ => 1%:M) (fun _ => 1%:M) dir) x0
      (Some (accumulate (irmi_increment ex_Exp Jl N Lm 1%:M) (irmi0 (const_mx 3%:R) 0) i_steps)) None None
  = predict_all (fun u => Some (im_stamp u)) (imu_kinematics ex_Exp Jl N Lm (@adjoint_IE3 R) (const_mx 1) 1%:M dir) x0 i_steps.
Proof.
apply: (@C45_imu R ex_Exp Jl N Lm (@adjoint_IE3 R) (fun _ => 1%:M) (fun _ => 1%:M) (const_mx 1) 1%:M
   ex_Exp_rot erefl erefl (fun _ _ => erefl) (trmx1 _ _) dir _ (const_mx 3%:R) 0 1%:M
   (imu_new (const_mx 1) (const_mx 2%:R) 0 (Some 0) (Some 0), 1)).
- by exists cyc, (const_mx 1), 0; split=> //; exact: rot_cyc.
- by rewrite trmx1.
- by rewrite /forward /= ler01 ler0n.
by rewrite /no_walk /= !eqxx.
Qed.
End Instance.
Print Assumptions C45_imu.
Print Assumptions C48_adjoint_mul.
(** the hypotheses of the C48 theorems are met by a non-trivial element *)
Example C48_instance (R : realFieldType) : in_IE3 (ie3 (cyc R) (const_mx 1) (const_mx 2%:R) 3%:R) /\
  inverse_IE3 (ie3 (cyc R) (const_mx 1) (const_mx 2%:R) 3%:R) <> 1%:M.
Proof.
split; first exact: in_IE3_ie3 (rot_cyc R).
move/(congr1 (@ie3_c R)); rewrite -ie31 /inverse_IE3 !ie3E => /eqP.
by rewrite oppr_eq0 pnatr_eq0.
Qed.
