(** C44, C46, C47: preintegration equals sequential prediction. *)
From mathcomp Require Import all_ssreflect all_algebra.
From Verif Require Import Base Tac LinAlg EkfModel PreintModel.
Set Implicit Arguments.
Unset Strict Implicit.
Unset Printing Implicit Defensive.
Import Order.Theory GRing.Theory Num.Theory.
Local Open Scope ring_scope.

Lemma foldM_rcons (A S : Type) (f : S -> A -> result S) st s a :
  foldM f st (rcons s a) = (st' <~ foldM f st s ;; f st' a).
Proof.
elim: s st => [|b s IH] st /=; first by case: (f st a).
by case: (f st b) => //= st'.
Qed.

(** A list of (input, time step) pairs handed to a filter one after the other ... *)
Definition predict_all (R : realFieldType) V n U (ustamp : U -> option R)
  (pm : process_model R V n U) (x : est R V n) (steps : seq (U * R)) : result (est R V n) :=
  foldM (fun x p => ekf_predict ustamp pm x (Some p.1) (Some p.2) None) x steps.
(** ... and accumulated into a relative motion increment *)
Definition accumulate (R Rmi U : Type) (inc : Rmi -> U -> R -> Rmi) (r0 : Rmi) (steps : seq (U * R)) : Rmi :=
  foldl (fun r p => inc r p.1 p.2) r0 steps.
Lemma accumulate_rcons (R Rmi U : Type) (inc : Rmi -> U -> R -> Rmi) r0 steps p :
  accumulate inc r0 (rcons steps p) = inc (accumulate inc r0 steps) p.1 p.2.
Proof. by rewrite /accumulate -cats1 foldl_cat. Qed.

Section Time.
Variable R : realFieldType.
Definition duration U (steps : seq (U * R)) : R := \sum_(p <- steps) p.2.
(** all steps forward in time *)
Definition forward U (steps : seq (U * R)) : bool := all (fun p => 0 <= p.2) steps.

Lemma duration_rcons U (steps : seq (U * R)) p : duration (rcons steps p) = duration steps + p.2.
Proof. by rewrite /duration -cats1 big_cat big_seq1. Qed.
Lemma duration_ge0 U (steps : seq (U * R)) : forward steps -> 0 <= duration steps.
Proof.
by elim: steps => [|p s IH] /=; rewrite /duration ?big_nil // big_cons => /andP [h /IH]; exact: addr_ge0.
Qed.

(** C47: the stamps of an increment after any sequence of steps *)
Theorem C47_stamps U (ustamp : U -> R) (p : U * R) steps :
  foldl (fun st q => tick st (ustamp q.1) q.2) None (p :: steps) =
  Some (ustamp p.1, ustamp p.1 + duration (p :: steps)).
Proof.
rewrite /= /duration big_cons addrA; move: (ustamp p.1 + p.2) => b.
elim: steps b => [|q steps IH] b /=; first by rewrite big_nil addr0.
by rewrite IH big_cons addrA.
Qed.
End Time.

Lemma congrT (R : realFieldType) a b (A : 'M[R]_(a, b)) X : X^T = X -> (A *m X *m A^T)^T = A *m X *m A^T.
Proof. by move=> h; rewrite !trmx_mul trmxK h mulmxA. Qed.
Lemma addT (R : realFieldType) a (X Y : 'M[R]_a) : X^T = X -> Y^T = Y -> (X + Y)^T = X + Y.
Proof. by move=> h1 h2; rewrite linearD /= h1 h2. Qed.

Lemma congrM (R : realFieldType) a b c (M : 'M[R]_(a, b)) (A : 'M[R]_(b, c)) X :
  M *m (A *m X *m A^T) *m M^T = (M *m A) *m X *m (M *m A)^T.
Proof. by rewrite trmx_mul !mulmxA. Qed.

Section Linear.
Variable R : realFieldType.
Variables n m : nat.
Notation input := (vinput R 'cV[R]_m).
Variable sm : input -> R -> 'M[R]_n.
Variable im : input -> R -> 'M[R]_(n, m).
Notation iu := (fun u : input => Some (vi_stamp u)).

Section NoBias.
Variable Q : 'M[R]_m.
Hypothesis Qs : Q^T = Q.
Notation rmi := (accumulate (lrmi_increment sm im Q) (lrmi0 R n m)).

Lemma predict_all_linear x P t steps : P^T = P -> forward steps ->
  let r := rmi steps in (lr_cov r)^T = lr_cov r /\
  predict_all iu (linear_model sm im Q) (Est (PState x (Some t)) P) steps =
  Ok (Est (PState (lr_A r *m x + lr_u r) (Some (t + duration steps))) (lr_A r *m P *m (lr_A r)^T + lr_cov r)).
Proof.
move=> Ps; elim/last_ind: steps => [|steps p IH] fw.
  rewrite /= trmx0 /duration big_nil !addr0 mul1mx mul1mx trmx1 mulmx1; by split.
move: fw; rewrite /forward all_rcons => /andP [dt0 fw]; have [Cs E] := IH fw.
rewrite accumulate_rcons; set r := rmi steps in Cs E *.
rewrite /predict_all foldM_rcons -/(predict_all _ _ _ _) E /= /ekf_predict /= ltNge dt0 /=.
set A := sm _ _; set B := im _ _.
have Cs' : (A *m lr_cov r *m A^T + B *m Q *m B^T)^T = A *m lr_cov r *m A^T + B *m Q *m B^T.
  by apply: addT; apply: congrT.
split=> //; congr Ok; congr Est.
  by rewrite duration_rcons mulmxDr !mulmxA -!addrA.
rewrite /symmetrize symmetrize_id.
  by rewrite trmx_mul mulmxDr mulmxDl !mulmxA addrA.
by apply: addT; apply: congrT => //; apply: addT => //; apply: congrT.
Qed.

Lemma lr_stampsE p steps : lr_stamps (rmi (p :: steps)) = Some (vi_stamp p.1, vi_stamp p.1 + duration (p :: steps)).
Proof.
rewrite -(C47_stamps (@vi_stamp _ _)) /accumulate.
have E : forall l r, lr_stamps (foldl (fun r p => lrmi_increment sm im Q r p.1 p.2) r l) =
   foldl (fun st q => tick st (vi_stamp q.1) q.2) (lr_stamps r) l.
  by elim=> //= q l IH r; rewrite IH.
by rewrite E.
Qed.

(** C44: predicting once with the accumulated increment (default time step) gives exactly
    the estimate - mean, covariance and stamp - of predicting with every input in turn, for
    any state-space matrices depending on the input and the time step. *)
Theorem C44_linear x P p steps : P^T = P -> forward (p :: steps) ->
  let x0 := Est (PState x (Some (vi_stamp p.1))) P in
  ekf_predict (fun r => rmi_stamp (lr_stamps r)) (preint_linear R n m) x0 (Some (rmi (p :: steps))) None None
  = predict_all iu (linear_model sm im Q) x0 (p :: steps).
Proof.
move=> Ps fw x0.
have [Cs E] := predict_all_linear x (vi_stamp p.1) Ps fw.
rewrite [RHS]E /ekf_predict [rmi_stamp _]/= lr_stampsE /=.
rewrite addrAC subrr add0r ltNge duration_ge0 //=; congr Ok; congr Est.
by rewrite /symmetrize symmetrize_id //; apply: addT => //; apply: congrT.
Qed.
End NoBias.

Section Bias.
Variable Q : 'M[R]_(m + m).
Hypothesis Qs : Q^T = Q.
Notation rmi b := (accumulate (brmi_increment sm im Q) (brmi0 n b)).

Lemma brmi_const b steps : let r := rmi b steps in br_b0 r = b /\ br_new r = b.
Proof. by elim/last_ind: steps => [//|s p [h1 h2]]; rewrite accumulate_rcons. Qed.

Lemma predict_all_bias x b P t steps : P^T = P -> forward steps ->
  let r := rmi b steps in let F := preint_bias_jacobian r in (br_cov r)^T = br_cov r /\
  predict_all iu (bias_model sm im Q) (Est (PState (col_mx x b) (Some t)) P) steps =
  Ok (Est (PState (col_mx (br_A r *m x + br_u r) b) (Some (t + duration steps))) (F *m P *m F^T + br_cov r)).
Proof.
move=> Ps; elim/last_ind: steps => [|steps p IH] fw.
  rewrite /= /preint_bias_jacobian /= -scalar_mx_block trmx0 /duration big_nil !addr0 mul1mx mul1mx trmx1 mulmx1; by split.
move: fw; rewrite /forward all_rcons => /andP [dt0 fw]; have [Cs E] := IH fw.
have [b0 _] := brmi_const b steps.
rewrite accumulate_rcons; set r := rmi b steps in Cs E b0 *.
rewrite /predict_all foldM_rcons -/(predict_all _ _ _ _) E /= /ekf_predict /= ltNge dt0 /=.
rewrite col_mxKu col_mxKd b0.
set A := sm _ _; set B := im _ _.
set Bf := B_full B p.2; set Af := A_full A B.
have Cs' : (Af *m br_cov r *m Af^T + Bf *m Q *m Bf^T)^T = Af *m br_cov r *m Af^T + Bf *m Q *m Bf^T.
  by apply: addT; apply: congrT.
split=> //; congr Ok; congr Est.
  congr PState; first by congr col_mx; rewrite mulmxDr !mulmxA -!addrA.
  by rewrite duration_rcons !addrA.
have FE : preint_bias_jacobian (brmi_increment sm im Q r p.1 p.2) = Af *m preint_bias_jacobian r.
  rewrite /preint_bias_jacobian /= b0 /Af /A_full mulmx_block.
  by rewrite !mulmx0 !mul0mx !mulmx1 !addr0 !add0r -/A -/B.
rewrite -/A -/B -/Af -/Bf /symmetrize symmetrize_id.
  by rewrite FE trmx_mul mulmxDr mulmxDl !mulmxA addrA.
by apply: addT; apply: congrT => //; apply: addT => //; apply: congrT.
Qed.

Lemma br_stampsE b p steps :
  br_stamps (rmi b (p :: steps)) = Some (vi_stamp p.1, vi_stamp p.1 + duration (p :: steps)).
Proof.
rewrite -(C47_stamps (@vi_stamp _ _)) /accumulate.
have E : forall l r, br_stamps (foldl (fun r p => brmi_increment sm im Q r p.1 p.2) r l) =
   foldl (fun st q => tick st (vi_stamp q.1) q.2) (br_stamps r) l.
  by elim=> //= q l IH r; rewrite IH.
by rewrite E.
Qed.

(** C44 with a bias: for a state carrying the bias the increment was built with, one
    prediction with the increment equals predicting through all the inputs - mean (including
    the bias), the covariance of state and bias, and stamp. *)
Theorem C44_bias x b P p steps : P^T = P -> forward (p :: steps) ->
  let x0 := Est (PState (col_mx x b) (Some (vi_stamp p.1))) P in
  ekf_predict (fun r => rmi_stamp (br_stamps r)) (preint_bias R n m) x0 (Some (rmi b (p :: steps))) None None
  = predict_all iu (bias_model sm im Q) x0 (p :: steps).
Proof.
move=> Ps fw x0.
have [Cs E] := predict_all_bias x b (vi_stamp p.1) Ps fw.
have [h0 h1] := brmi_const b (p :: steps).
rewrite [RHS]E /ekf_predict [rmi_stamp _]/= br_stampsE /=.
rewrite addrAC subrr add0r ltNge duration_ge0 //=; congr Ok; congr Est.
  by rewrite col_mxKu col_mxKd h0 h1 subrr mulmx0 !addr0.
by rewrite /symmetrize symmetrize_id //; apply: addT => //; apply: congrT.
Qed.

(** For state-space matrices that do not depend on the value of the input, correcting the
    bias of an increment and reading its value once gives exactly the value of the increment
    re-accumulated from the raw inputs with the new bias. *)
Theorem C44_bias_correction b b' steps :
  (forall c u dt, sm (unbias c u) dt = sm u dt) -> (forall c u dt, im (unbias c u) dt = im u dt) ->
  (brmi_value (brmi_update_bias (rmi b steps) b')).1 = (brmi_value (rmi b' steps)).1.
Proof.
move=> hs hi.
have [h1 h2] := brmi_const b steps; have [h3 h4] := brmi_const b' steps.
rewrite /= h1 h3 h4 subrr mulmx0 addr0.
suff [-> [_ ->]] : br_A (rmi b steps) = br_A (rmi b' steps) /\ br_jac (rmi b steps) = br_jac (rmi b' steps) /\
   br_u (rmi b steps) + br_jac (rmi b steps) *m (b' - b) = br_u (rmi b' steps) by [].
elim/last_ind: steps {h1 h2 h3 h4} => [|steps p [hA [hJ hu]]]; first by rewrite /= mul0mx addr0.
have [h1 h2] := brmi_const b steps; have [h3 h4] := brmi_const b' steps.
rewrite !accumulate_rcons /= h1 h3 !hs !hi hA hJ; split=> //; split=> //.
rewrite -hu hJ mulmxBl !mulmxDr !mulmxN !mulmxA; zmod.
Qed.

(** Each read of [value] adds the correction once more: the model's prediction with a
    bias-corrected increment applies it twice, and leaves the caller's increment changed. *)
Lemma preint_bias_evaluate_twice (r : brmi R n m) x b' :
  let db := b' - br_b0 r in
  preint_bias_evaluate (brmi_update_bias r b') x =
  (col_mx (br_A r *m usubmx x + (br_u r + br_jac r *m db + br_jac r *m db)) (dsubmx x),
   BRmi (br_b0 r) b' (br_A r) (br_u r + br_jac r *m db + br_jac r *m db) (br_cov r) (br_jac r) (br_stamps r)).
Proof. by []. Qed.
End Bias.
End Linear.

Section Refuted.
Variable R : realFieldType.
Notation sm1 := (fun (_ : vinput R 'cV[R]_1) (_ : R) => 1%:M : 'M[R]_1).
Notation im1 := (fun (_ : vinput R 'cV[R]_1) (dt : R) => dt%:M : 'M[R]_1).
Notation rmi1 b := (accumulate (brmi_increment sm1 im1 (0 : 'M[R]_(1 + 1))) (brmi0 1 b)).

(** x' = x + dt (u - b): predicting with an increment whose bias was corrected is not
    predicting with the increment built with the correct bias, and it changes the
    increment handed in. *)
Theorem C44_value_read_twice_refuted :
  ~ (forall b b' steps (x : 'cV[R]_(1 + 1)),
       (preint_bias_evaluate (brmi_update_bias (rmi1 b steps) b') x).1 = (preint_bias_evaluate (rmi1 b' steps) x).1) /\
  ~ (forall b b' steps (x : 'cV[R]_(1 + 1)),
       (preint_bias_evaluate (brmi_update_bias (rmi1 b steps) b') x).2 = brmi_update_bias (rmi1 b steps) b').
Proof.
split=> H.
  have /(congr1 (fun v : 'cV[R]_(1 + 1) => usubmx v)) :=
     H 0 (const_mx 1) [:: (VIn 0 0, 1)] 0.
  rewrite /preint_bias_evaluate /= !col_mxKu !subrr !subr0 !mulmx0 !addr0 !add0r.
  rewrite -scalemx1 scale1r !mul1mx !mulNmx !mul1mx => /matrixP /(_ 0 0).
  rewrite !mxE !add0r => /eqP; rewrite -[X in _ == X]addr0 (inj_eq (addrI _)) oppr_eq0 oner_eq0 => //.
have /(congr1 (@br_u R 1 1)) := H 0 (const_mx 1) [:: (VIn 0 0, 1)] 0.
rewrite /= !subrr !subr0 !mulmx0 !addr0 !add0r -scalemx1 scale1r !mulNmx !mul1mx => /matrixP /(_ 0 0).
by rewrite !mxE -opprD => /eqP; rewrite oppr_eq0 paddr_eq0 ?ler01 // oner_eq0.
Qed.

(** The state's own bias does not enter the prediction, although the reported Jacobian has
    the bias Jacobian in that block. *)
Theorem C44_state_bias_ignored_refuted :
  ~ (forall b steps (x dx : 'cV[R]_(1 + 1)), let r := rmi1 b steps in
       (preint_bias_evaluate r (x + dx)).1 - (preint_bias_evaluate r x).1 = preint_bias_jacobian r *m dx).
Proof.
move=> H; have /(congr1 (fun v : 'cV[R]_(1 + 1) => usubmx v)) :=
     H 0 [:: (VIn 0 0, 1)] 0 (col_mx 0 (const_mx 1)).
rewrite /preint_bias_evaluate /preint_bias_jacobian /= mul_block_col -scalemx1 scale1r.
rewrite !subrr !mulmx0 !addr0 !add0r [usubmx (_ - _)]linearB /= !col_mxKu.
rewrite [usubmx 0]linear0 !mulmx0 subrr mulNmx mul1mx => /matrixP /(_ 0 0).
by rewrite !mxE => /eqP; rewrite eq_sym oppr_eq0 oner_eq0.
Qed.
End Refuted.

(** C47: copying an increment without bias. *)
Section LinearCopy.
Variable R : realFieldType.
Variables n m : nat.
Variables (sm : vinput R 'cV[R]_m -> R -> 'M[R]_n) (im : vinput R 'cV[R]_m -> R -> 'M[R]_(n, m)) (Q : 'M[R]_m).
Notation rmi := (accumulate (lrmi_increment sm im Q) (lrmi0 R n m)).
Theorem C47_linear_copy p steps : lrmi_copy (rmi (p :: steps)) = Ok (rmi (p :: steps)).
Proof.
rewrite /lrmi_copy; suff [J ->] : exists J, lr_jac (rmi (p :: steps)) = Some J by [].
by rewrite lastI accumulate_rcons /=; eexists.
Qed.
(** ... a fresh one cannot be copied *)
Theorem C47_linear_copy_fresh_refuted : lrmi_copy (rmi [::]) = Raise AttributeError.
Proof. by []. Qed.
End LinearCopy.

(** ** C46: body velocity preintegration on a matrix Lie group *)
(** What is assumed of the group operations. *)
Record group_laws (R : realFieldType) k d (Exp : 'cV[R]_d -> 'M[R]_k) (Ad : 'M[R]_k -> 'M[R]_d)
  (ginv : 'M[R]_k -> 'M[R]_k) (G : 'M[R]_k -> Prop) : Prop := GroupLaws {
  gl_1 : G 1%:M;
  gl_M : forall X Y, G X -> G Y -> G (X *m Y);
  gl_V : forall X, G X -> G (ginv X);
  gl_E : forall v, G (Exp v);
  gl_mulV : forall X, G X -> X *m ginv X = 1%:M;
  gl_E0 : Exp 0 = 1%:M;
  gl_EN : forall v, Exp (- v) = ginv (Exp v);
  gl_Ad1 : Ad 1%:M = 1%:M;
  gl_AdM : forall X Y, G X -> G Y -> Ad (X *m Y) = Ad X *m Ad Y }.

Section Velocity.
Variable R : realFieldType.
Variables k d : nat.
Variables (Exp : 'cV[R]_d -> 'M[R]_k) (Ad : 'M[R]_k -> 'M[R]_d) (ginv : 'M[R]_k -> 'M[R]_k).
Variable Jl : 'cV[R]_d -> 'M[R]_d.
Variable G : 'M[R]_k -> Prop.
Hypothesis laws : group_laws Exp Ad ginv G.
Variable Q : 'M[R]_d.
Hypothesis Qs : Q^T = Q.
Notation input := (vinput R 'cV[R]_d).
Notation iu := (fun u : input => Some (vi_stamp u)).
Notation rmi b := (accumulate (vrmi_increment Exp Ad ginv Jl Q) (vrmi0 k b)).

(** the same inputs with a known bias removed *)
Definition debias (b : 'cV[R]_d) (steps : seq (input * R)) : seq (input * R) :=
  [seq (VIn (vi_val p.1 - b) (vi_stamp p.1), p.2) | p <- steps].

Lemma ginvM X Y : G X -> G Y -> ginv (X *m Y) = ginv Y *m ginv X.
Proof.
move=> gX gY; have hX := gl_mulV laws gX; have hY := gl_mulV laws gY.
have h := gl_mulV laws (gl_M laws gX gY).
have h' : (ginv Y *m ginv X) *m (X *m Y) = 1%:M.
  rewrite mulmxA -(mulmxA (ginv Y)) (mulmx1C hX) mulmx1; exact: mulmx1C.
by rewrite -[LHS]mul1mx -h' -!mulmxA (mulmxA X) h mulmx1.
Qed.

Lemma vrmi_const b steps : let r := rmi b steps in vr_bias r = b /\ vr_new r = b.
Proof. by elim/last_ind: steps => [//|s p [h1 h2]]; rewrite accumulate_rcons. Qed.
Lemma vrmi_valueE b steps : vrmi_value Exp (rmi b steps) = vr_val (rmi b steps).
Proof. by have [h1 h2] := vrmi_const b steps; rewrite /vrmi_value h1 h2 subrr mulmx0 (gl_E0 laws) mulmx1. Qed.

Definition Fd dir (U : 'M[R]_k) := if dir is DRight then Ad (ginv U) else 1%:M.
Definition Ld dir (X : 'M[R]_k) := if dir is DRight then 1%:M else Ad X.

Lemma predict_all_velocity dir X b P t steps : G X -> P^T = P -> forward steps ->
  let r := rmi b steps in let F := Fd dir (vr_val r) in let L := Ld dir (X *m vr_val r) in
  [/\ G (vr_val r), (vr_cov r)^T = vr_cov r &
  predict_all iu (body_velocity Exp Ad Jl Q dir) (Est (PState X (Some t)) P) (debias b steps) =
  Ok (Est (PState (X *m vr_val r) (Some (t + duration steps)))
          (F *m P *m F^T + L *m vr_cov r *m L^T))].
Proof.
move=> gX Ps; have [G1 GM GV GE mV E0 EN A1 AM] := laws.
have i1 : ginv 1%:M = 1%:M by rewrite -[LHS]mul1mx mV.
elim/last_ind: steps => [|steps p IH] fw.
  rewrite /= mulmx1 /duration big_nil addr0 trmx0; split=> //.
  congr Ok; congr Est; rewrite mulmx0 mul0mx addr0 /Fd i1 A1.
  by case: dir; rewrite mul1mx trmx1 mulmx1.
move: fw; rewrite /forward all_rcons => /andP [dt0 fw]; have [gU Cs E] := IH fw.
have [b0 _] := vrmi_const b steps.
rewrite accumulate_rcons; set r := rmi b steps in gU Cs E b0 *.
rewrite /predict_all /debias map_rcons foldM_rcons -/(debias _ _) -/(predict_all _ _ _ _) E /= /ekf_predict /= ltNge dt0 /=.
rewrite b0; set w := p.2 *: _; set U := Exp w; set L := p.2 *: Jl (- w); set A := Ad (ginv U).
have gUU : G U by exact: GE.
have S1 : (A *m vr_cov r *m A^T + L *m Q *m L^T)^T = A *m vr_cov r *m A^T + L *m Q *m L^T.
  by apply: addT; apply: congrT.
have -> : symmetrize (A *m vr_cov r *m A^T + L *m Q *m L^T) = A *m vr_cov r *m A^T + L *m Q *m L^T.
  by rewrite /symmetrize symmetrize_id.
split=> //; first exact: GM.
congr Ok; congr Est.
  by rewrite duration_rcons mulmxA addrA.
rewrite /symmetrize symmetrize_id; last first.
  apply: addT; apply: congrT => //; apply: addT; exact: congrT.
rewrite /Fd /Ld; case: dir {E IH}.
  rewrite !mul1mx trmx1 !mulmx1 -addrA; congr (_ + _).
  have gXV : G (X *m vr_val r) by exact: GM.
  have AA : Ad U *m A = 1%:M by rewrite /A -AM ?mV //; exact: GV.
  rewrite mulmxA (AM _ U) // mulmxDr mulmxDl !congrM -!(mulmxA (Ad (X *m vr_val r))) AA mulmx1.
  by rewrite /L mul1mx -!scalemxAr -!mulmxA -!scalemxAl -?scalemxAr -?mulmxA.
rewrite EN -/A ginvM // AM; try exact: GV.
by rewrite !mul1mx trmx1 !mulmx1 mulmxDr mulmxDl congrM addrA.
Qed.

Lemma vr_stampsE b p steps :
  vr_stamps (rmi b (p :: steps)) = Some (vi_stamp p.1, vi_stamp p.1 + duration (p :: steps)).
Proof.
rewrite -(C47_stamps (@vi_stamp _ _)) /accumulate.
have E : forall l r, vr_stamps (foldl (fun r p => vrmi_increment Exp Ad ginv Jl Q r p.1 p.2) r l) =
   foldl (fun st q => tick st (vi_stamp q.1) q.2) (vr_stamps r) l.
  by elim=> //= q l IH r; rewrite IH.
by rewrite E.
Qed.

(** C46: for either perturbation convention, one prediction with the accumulated increment
    equals predicting through every bias-removed velocity in turn. *)
Theorem C46_velocity dir X b P p steps : G X -> P^T = P -> forward (p :: steps) ->
  let x0 := Est (PState X (Some (vi_stamp p.1))) P in
  ekf_predict (fun r => rmi_stamp (vr_stamps r)) (preint_velocity Exp Ad ginv dir) x0 (Some (rmi b (p :: steps))) None None
  = predict_all iu (body_velocity Exp Ad Jl Q dir) x0 (debias b (p :: steps)).
Proof.
move=> gX Ps fw x0.
have [gU Cs E] := predict_all_velocity dir b (vi_stamp p.1) gX Ps fw.
have V := vrmi_valueE b (p :: steps); have S := vr_stampsE b p steps.
rewrite [RHS]E; set r := rmi b (p :: steps) in gU Cs E V S *.
rewrite /ekf_predict [rmi_stamp _]/= S /=.
rewrite addrAC subrr add0r ltNge duration_ge0 //= V; congr Ok; congr Est.
by rewrite /symmetrize symmetrize_id //; apply: addT; apply: congrT.
Qed.

(** C47: copying an increment whose bias was not corrected gives an equal increment *)
Theorem C47_velocity_copy b steps : vrmi_copy (rmi b steps) = rmi b steps.
Proof. by have [h1 h2] := vrmi_const b steps; move: h1 h2; case: (rmi b steps) => /= ?????? -> ->. Qed.
End Velocity.

(** *** The group of translations: X = [1 v; 0 1] *)
Section Translation.
Variable R : realFieldType.
Variable d : nat.
Definition tExp (v : 'cV[R]_d) : 'M[R]_(d + 1) := block_mx 1%:M v 0 1%:M.
Definition tAd (_ : 'M[R]_(d + 1)) : 'M[R]_d := 1%:M.
Definition tinv (X : 'M[R]_(d + 1)) : 'M[R]_(d + 1) := tExp (- ursubmx X).
Definition tG (X : 'M[R]_(d + 1)) : Prop := exists v, X = tExp v.
Definition tJl (_ : 'cV[R]_d) : 'M[R]_d := 1%:M.
Lemma tExpD v w : tExp v *m tExp w = tExp (v + w).
Proof. by rewrite /tExp mulmx_block !mulmx0 !mul0mx !mulmx1 !mul1mx !addr0 !add0r addrC. Qed.
Lemma tExp0 : tExp 0 = 1%:M. Proof. by rewrite /tExp -scalar_mx_block. Qed.
Lemma translation_laws : group_laws tExp tAd tinv tG.
Proof.
split=> //; rewrite ?tExp0 //.
- by exists 0; rewrite tExp0.
- by move=> _ _ [v ->] [w ->]; exists (v + w); rewrite tExpD.
- by move=> _ [v ->]; exists (- v); rewrite /tinv block_mxKur.
- by move=> v; exists v.
- by move=> _ [v ->]; rewrite /tinv block_mxKur tExpD subrr tExp0.
- by move=> v; rewrite /tinv block_mxKur.
by move=> X Y _ _; rewrite mulmx1.
Qed.
Variable Q : 'M[R]_d.
Notation rmi b := (accumulate (vrmi_increment tExp tAd tinv tJl Q) (vrmi0 (d + 1) b)).
Lemma t_value b b' steps : vrmi_value tExp (vrmi_update_bias (rmi b steps) b') =
  tExp (\sum_(p <- steps) p.2 *: (vi_val p.1 - b) + duration steps *: (b' - b)).
Proof.
have H : vr_bias (rmi b steps) = b /\ vr_val (rmi b steps) = tExp (\sum_(p <- steps) p.2 *: (vi_val p.1 - b))
      /\ vr_jac (rmi b steps) = (duration steps)%:M.
  elim/last_ind: steps => [|steps p [h1 [h2 h3]]].
    by rewrite /duration !big_nil tExp0; split=> //; split=> //; rewrite -scalemx1 scale0r.
  rewrite accumulate_rcons /= h1 h2 h3 tExpD /tAd /tJl mul1mx duration_rcons -cats1 big_cat big_seq1.
  by split=> //; split=> //; rewrite scalemx1 raddfD.
have [h1 [h2 h3]] := H.
by rewrite /vrmi_value /= h1 h2 h3 tExpD mul_scalar_mx.
Qed.
(** Correcting the bias moves the increment the wrong way: on translations, where the
    first-order correction is exact, the corrected value is that of bias b - (b' - b). *)
Theorem C46_bias_update_mirrored b b' steps :
  vrmi_value tExp (vrmi_update_bias (rmi b steps) b') = vrmi_value tExp (rmi (b - (b' - b)) steps).
Proof.
have -> : rmi (b - (b' - b)) steps = vrmi_update_bias (rmi (b - (b' - b)) steps) (b - (b' - b)).
  have [h1 h2] := vrmi_const tExp tAd tinv tJl Q (b - (b' - b)) steps.
  by move: h1 h2; case: (rmi _ steps) => /= ?????? -> ->.
rewrite !t_value subrr scaler0 addr0 /duration scaler_suml -big_split /=; congr tExp.
by apply: eq_bigr => p _; rewrite -scalerDr; congr (_ *: _); zmod.
Qed.
End Translation.

Section RefutedV.
Variable R : realFieldType.
Notation rmi b := (accumulate (vrmi_increment (@tExp R 1) (@tAd R 1) (@tinv R 1) (@tJl R 1) 1%:M) (vrmi0 (1 + 1) b)).
Theorem C46_bias_update_refuted :
  ~ (forall b b' steps, vrmi_value (@tExp R 1) (vrmi_update_bias (rmi b steps) b') = vrmi_value (@tExp R 1) (rmi b' steps)).
Proof.
move=> H; have := H 0 (const_mx 1) [:: (VIn 0 0, 1)].
rewrite C46_bias_update_mirrored /vrmi_value /= !subrr !mulmx0 !subr0 !scale1r !add0r !mul1mx tExp0 !mulmx1.
move/(congr1 ursubmx); rewrite !block_mxKur => /matrixP /(_ 0 0).
by rewrite !mxE opprK => /eqP; rewrite -subr_eq0 opprK paddr_eq0 ?ler01 // oner_eq0.
Qed.
Theorem C47_velocity_copy_refuted :
  ~ (forall b b' steps, let r := vrmi_update_bias (rmi b steps) b' in
       vrmi_value (@tExp R 1) (vrmi_copy r) = vrmi_value (@tExp R 1) r).
Proof.
move=> H; have := H 0 (const_mx 1) [:: (VIn 0 0, 1)].
rewrite /vrmi_value /= !subrr !mulmx0 !subr0 !scale1r !add0r !mul1mx tExp0 !mulmx1.
rewrite mul1mx -tExp0 => /(congr1 ursubmx); rewrite !block_mxKur => /matrixP /(_ 0 0).
by rewrite !mxE => /eqP; rewrite eq_sym oner_eq0.
Qed.
End RefutedV.

(** *** A non-commutative instance: upper unitriangular 3 x 3 matrices (Heisenberg group) *)
Section Heisenberg.
Variable R : realFieldType.
Definition hmx (a b c : R) : 'M[R]_3 := \matrix_(i, j)
  nth 0 (nth [::] [:: [:: 1; a; c]; [:: 0; 1; b]; [:: 0; 0; 1]] i) j.
Definition h01 (X : 'M[R]_3) : R := X (inord 0) (inord 1).
Definition h12 (X : 'M[R]_3) : R := X (inord 1) (inord 2).
Definition h02 (X : 'M[R]_3) : R := X (inord 0) (inord 2).
Definition hExp (v : 'cV[R]_3) : 'M[R]_3 :=
  hmx (v (inord 0) 0) (v (inord 1) 0) (v (inord 2) 0 + v (inord 0) 0 * v (inord 1) 0 / 2%:R).
Definition hAd (X : 'M[R]_3) : 'M[R]_3 := \matrix_(i, j)
  nth 0 (nth [::] [:: [:: 1; 0; 0]; [:: 0; 1; 0]; [:: - h12 X; h01 X; 1]] i) j.
Definition hinv (X : 'M[R]_3) : 'M[R]_3 := hmx (- h01 X) (- h12 X) (h01 X * h12 X - h02 X).
Definition hG (X : 'M[R]_3) : Prop := exists a b c, X = hmx a b c.
Lemma h01E a b c : h01 (hmx a b c) = a. Proof. by rewrite /h01 mxE !inordK. Qed.
Lemma h12E a b c : h12 (hmx a b c) = b. Proof. by rewrite /h12 mxE !inordK. Qed.
Lemma h02E a b c : h02 (hmx a b c) = c. Proof. by rewrite /h02 mxE !inordK. Qed.
Lemma hmxM a b c a' b' c' : hmx a b c *m hmx a' b' c' = hmx (a + a') (b + b') (c + c' + a * b').
Proof.
apply/matrixP=> i j; rewrite !mxE !big_ord_recl big_ord0 !mxE.
by case: i => [[|[|[|//]]] ?]; case: j => [[|[|[|//]]] ?] /=; rng.
Qed.
Lemma hmx1 : hmx 0 0 0 = 1%:M.
Proof. by apply/matrixP=> i j; rewrite !mxE; case: i => [[|[|[|//]]] ?]; case: j => [[|[|[|//]]] ?]. Qed.
Lemma heisenberg_laws : group_laws hExp hAd hinv hG.
Proof.
have two : 2%:R != 0 :> R by rewrite pnatr_eq0.
split.
- by exists 0, 0, 0; rewrite hmx1.
- by move=> _ _ [a [b [c ->]]] [a' [b' [c' ->]]]; rewrite hmxM; do 3 eexists.
- by move=> X _; rewrite /hinv; do 3 eexists.
- by move=> v; rewrite /hExp; do 3 eexists.
- by move=> _ [a [b [c ->]]]; rewrite /hinv h01E h12E h02E hmxM -hmx1; congr hmx; rng.
- by rewrite /hExp !mxE -hmx1; congr hmx; rewrite mul0r mul0r addr0.
- move=> v; rewrite /hExp /hinv h01E h12E h02E !mxE; congr hmx.
  rewrite mulrNN; have := splitr (v (inord 0) 0 * v (inord 1) 0); move: (_ / _) => t ->; zmod.
- by rewrite /hAd -hmx1 h01E h12E; apply/matrixP=> i j; rewrite !mxE;
    case: i => [[|[|[|//]]] ?]; case: j => [[|[|[|//]]] ?] //=; rewrite oppr0.
move=> _ _ [a [b [c ->]]] [a' [b' [c' ->]]]; rewrite hmxM /hAd !h01E !h12E.
apply/matrixP=> i j; rewrite !mxE !big_ord_recl big_ord0 !mxE.
by case: i => [[|[|[|//]]] ?]; case: j => [[|[|[|//]]] ?] /=; rng.
Qed.
(** ... it is not commutative, so the order of the increments matters *)
Lemma heisenberg_noncomm : hExp (delta_mx (inord 0) 0) *m hExp (delta_mx (inord 1) 0) !=
   hExp (delta_mx (inord 1) 0) *m hExp (delta_mx (inord 0) 0) :> 'M[R]_3.
Proof.
rewrite /hExp !hmxM; apply/eqP => /(congr1 h02); rewrite !h02E !mxE /=.
by rewrite -!val_eqE /= !inordK //= !mulr0 !mul0r !addr0 add0r mulr1 => /eqP; rewrite oner_eq0.
Qed.
Definition h_steps : seq (vinput R 'cV[R]_3 * R) :=
  [:: (VIn (delta_mx (inord 0) 0) 0, 1); (VIn (delta_mx (inord 1) 0) 1, 2%:R)].
Example C46_velocity_instance dir (Jl : 'cV[R]_3 -> 'M[R]_3) b :
  ekf_predict (fun r => rmi_stamp (vr_stamps r)) (preint_velocity hExp hAd hinv dir)
     (Est (PState (hmx 1 0 0) (Some 0)) 1%:M)
     (Some (accumulate (vrmi_increment hExp hAd hinv Jl 1%:M) (vrmi0 3 b) h_steps)) None None
  = predict_all (fun u => Some (vi_stamp u)) (body_velocity hExp hAd Jl 1%:M dir)
      (Est (PState (hmx 1 0 0) (Some 0)) 1%:M) (debias b h_steps).
Proof.
apply: (@C46_velocity R 3 3 hExp hAd hinv Jl hG heisenberg_laws 1%:M (trmx1 _ _) dir (hmx 1 0 0) b 1%:M
   (VIn (delta_mx (inord 0) 0) 0, 1)); rewrite ?trmx1 //; first by do 3 eexists.
by rewrite /forward /= ler01 ler0n.
Qed.
End Heisenberg.

(** *** Instances for the linear theorems: a scalar integrator with two inputs *)
Section LinearInstances.
Variable R : realFieldType.
Definition l_steps : seq (vinput R 'cV[R]_1 * R) :=
  [:: (VIn (const_mx 1) 0, 1); (VIn (const_mx 3%:R) 1, 2%:R)].
Notation sm1 := (fun (_ : vinput R 'cV[R]_1) (dt : R) => (1 + dt)%:M : 'M[R]_1).
Notation im1 := (fun (_ : vinput R 'cV[R]_1) (dt : R) => dt%:M : 'M[R]_1).
Notation iu := (fun u : vinput R 'cV[R]_1 => Some (vi_stamp u)).
Example C44_linear_instance : let x0 := Est (PState (const_mx 5%:R) (Some 0)) 1%:M in
  ekf_predict (fun r => rmi_stamp (lr_stamps r)) (preint_linear R 1 1) x0
    (Some (accumulate (lrmi_increment sm1 im1 1%:M) (lrmi0 R 1 1) l_steps)) None None
  = predict_all iu (linear_model sm1 im1 1%:M) x0 l_steps.
Proof.
apply: (@C44_linear R 1 1 sm1 im1 1%:M (trmx1 _ _) (const_mx 5%:R) 1%:M (VIn (const_mx 1) 0, 1)).
  by rewrite trmx1.
by rewrite /forward /= ler01 ler0n.
Qed.
Example C44_bias_instance b : let x0 := Est (PState (col_mx (const_mx 5%:R) b) (Some 0)) 1%:M in
  ekf_predict (fun r => rmi_stamp (br_stamps r)) (preint_bias R 1 1) x0
    (Some (accumulate (brmi_increment sm1 im1 1%:M) (brmi0 1 b) l_steps)) None None
  = predict_all iu (bias_model sm1 im1 1%:M) x0 l_steps.
Proof.
apply: (@C44_bias R 1 1 sm1 im1 1%:M (trmx1 _ _) (const_mx 5%:R) b 1%:M (VIn (const_mx 1) 0, 1)).
  by rewrite trmx1.
by rewrite /forward /= ler01 ler0n.
Qed.
Example C44_bias_correction_instance b b' :
  (brmi_value (brmi_update_bias (accumulate (brmi_increment sm1 im1 1%:M) (brmi0 1 b) l_steps) b')).1 =
  (brmi_value (accumulate (brmi_increment sm1 im1 1%:M) (brmi0 1 b') l_steps)).1.
Proof. by apply: C44_bias_correction. Qed.
End LinearInstances.
Print Assumptions C44_linear.
Print Assumptions C44_bias.
Print Assumptions C44_bias_correction.
Print Assumptions C46_velocity.
Print Assumptions C46_bias_update_refuted.
