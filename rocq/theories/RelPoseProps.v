(** C11 and C51: a measurement model of one named substate differentiates with respect to the
    whole composite state; RangeRelativePose. *)
From mathcomp Require Import all_ssreflect all_algebra.
From Verif Require Import Base Tac LinAlg Deriv CompositeModel CompositeProof CompositeProof2 CompositeProof3 CompositeProps PreintModel ImuModel ImuProps ModelsModel MeasureProps MeasureProps2 PairModel PairProps RelPoseModel.
Set Implicit Arguments.
Unset Strict Implicit.
Unset Printing Implicit Defensive.
Local Open Scope ring_scope.
Import GRing.Theory.

Section Lift.
Variable R : realFieldType.
Variables (T : Type) (I : eqType) (L : Type).
Variable ops : leafops R L.
Notation state := (state T I L).
Notation dof l := (sumn (map (@s_dof R T I L ops) l)).

(** [b] is the Jacobian of [f] at the substate [s] *)
Definition block_correct (f : state -> result (seq R)) m (s : state) (b : arr R) : Prop :=
  [/\ nrow b = m, ncol b = s_dof ops s &
   forall d, size d = s_dof ops s ->
   directional (fun t => a <~ s_plus ops s (scale t d) ;; f a) m (aapply b d)].

(** C11: whenever the wrapped model's Jacobian is the derivative of its value at the substate,
    the CompositeMeasurementModel's Jacobian is the derivative of its value with respect to the
    whole composite state, which may hold any other substates before and after. *)
Theorem C11_jacobian_correct (mm : mmodel R T I L (seq R)) (l : seq state) ts i0 id s b m :
  perturbable ops l -> get_state_by_id l id = Ok s -> mm_jac mm s = Ok b -> block_correct (mm_eval mm) m s b ->
  exists2 A, cmm_jac ops mm id l = Ok A & composite_jacobian_correct ops (cmm_eval mm id) l ts i0 m A.
Proof.
move=> pl g1 jE [n1 c1 H]; have [sl e1 [w1 _]] := state_slice ops g1.
have [A [aE n3 c3 ap _]] := C11_measurement_lift g1 e1 jE c1.
exists A => //; split=> [||dx sz]; [by rewrite n3|by []|].
have [F [F1 F2]] := H _ (scale_blocks g1 e1 sz).
exists F; split=> [t|i im].
  have [l' P] := @plus_all R T I L ops l ts i0 (scale t dx) pl (etrans (size_scale t dx) sz); rewrite P /= /cmm_eval.
  have [s1' p1 ->] := get_id_plus P g1 e1.
  by have := F1 t; rewrite -!pslice_scale p1.
by have := F2 i im; rewrite ap // n1.
Qed.

(** C11: a CompositeMeasurement keeps value, stamp and id, and its model reads only the
    substate it names *)
Theorem C11_composite_measurement (V Y : Type) (y : meas T I V (mmodel R T I L Y)) (i : I) (l l' : seq state) s :
  let y' := composite_measurement ops y i in
  [/\ me_value y' = me_value y, me_stamp y' = me_stamp y, me_id y' = me_id y &
      get_state_by_id l i = Ok s -> get_state_by_id l' i = Ok s ->
      [/\ lm_eval (me_model y') l = mm_eval (me_model y) s, lm_eval (me_model y') l' = lm_eval (me_model y') l,
          lm_cov (me_model y') l = mm_cov (me_model y) s & lm_cov (me_model y') l' = lm_cov (me_model y') l]].
Proof. by split=> //= g g'; rewrite /cmm_eval /cmm_cov g g'. Qed.
End Lift.

Section Range.
Variable R : rcfType.

(** norms are invariant under rotations *)
Lemma norm2_rot n (C : 'M[R]_n) (v : 'cV[R]_n) : C *m C^T = 1%:M -> norm2 (C^T *m v) = norm2 v.
Proof. by move=> h; rewrite /norm2 !norm2E trmx_mul trmxK -mulmxA (mulmxA C) h mul1mx. Qed.

(** C51: for two robots at T1, T2 in SE(n), RangeRelativePose applied to the relative pose
    T1^-1 T2 of robot 2 gives the distance between the two tags in the world, which is what
    RangePoseToPose gives for (T1, T2). *)
Theorem C51_relative_range_value n k (T1 T2 : mstate R (n + 1)) dir (t1 t2 : 'cV[R]_n) :
  se_valid T1 -> se_valid T2 ->
  range_anchor_eval t1 t2 (se_view k (MState (invmx (m_val T1) *m m_val T2) dir)) =
  range_poses_eval t1 t2 (se_view k T1) (se_view k T2).
Proof.
move=> [C1 [r1 [o1 e1]]] [C2 [r2 [o2 e2]]].
have o1' : C1 *m C1^T = 1%:M by exact: mulmx1C.
have invE : invmx (m_val T1) = block_mx C1^T (- (C1^T *m r1)) 0 1%:M.
  have u : m_val T1 *m block_mx C1^T (- (C1^T *m r1)) 0 1%:M = 1%:M.
    rewrite e1 mulmx_block !mulmx0 !mul0mx !mulmx1 !addr0 o1' mulmxN mulmxA o1' mul1mx addNr add0r.
    by rewrite -scalar_mx_block.
  have [u1 _] := mulmx1_unit u.
  by rewrite -[RHS](mulKmx u1) u mulmx1.
rewrite /range_anchor_eval /range_poses_eval /= invE e1 e2 mulmx_block !mul0mx !mulmx0 !mulmx1 !addr0.
rewrite !block_mxKul !block_mxKur; congr (Ok _%:M).
rewrite -[RHS](@norm2_rot _ C1) // -norm2N; congr norm2.
rewrite !mulmxBr !mulmxDr !mulmxA o1 mul1mx.
set a := _ *m t2; set b := _ *m r2; set c := _ *m r1; zmod.
Qed.

Variables n k : nat.
Variable G : attgroup R n k.
Variables (d1 d2 : nat) (X1 X2 : Type).
Variables (view1 : X1 -> pose R n k d1) (plus1 : X1 -> 'cV[R]_d1 -> X1) (valid1 : X1 -> Prop).
Variable plus2 : X2 -> 'cV[R]_d2 -> X2.
Notation K1 := (@Kind R X1 n k d1 G view1 plus1 valid1).
Variables (T : Type) (I : eqType).
Notation state := (state T I (X1 + X2)).
Notation ops := (two_ops plus1 plus2).

Lemma one_block m (g : X1 -> result 'cV[R]_m) x u (i : I) J :
  (forall dx, exists F, (forall t, g (plus1 x (t *: dx)) = Ok (F t)) /\ is_mderiv F (J *m dx)) ->
  block_correct ops (one_f g) m (Leaf (inl x) u i : state) (mat_arr J).
Proof.
move=> H; split=> // e /= z; have [F [F1 F2]] := H (seq_vec d1 e).
exists (fun t => vec_seq (F t)); split=> [t|j im].
  by rewrite !size_scale z !eqxx /= !seq_vec_scale F1 size_vec_seq.
have -> : j = (Ordinal im) :> nat by []; rewrite !aapply_mat.
by have := F2 (Ordinal im) 0; apply: eq_deriv => t; rewrite -nth_vec_seq.
Qed.

(** C51: RangeRelativePose, on every composite holding the neighbour's relative pose anywhere
    among other poses or vectors: its Jacobian is the derivative of its value *)
Theorem C51_range_relative_pose (tag nb_tag : 'cV[R]_n) cov (l : seq state) ts i0 id x u r :
  pose_state K1 -> valid1 x -> (forall s, List.In s l -> if s is Comp _ _ _ then false else true) ->
  get_state_by_id l id = Ok (Leaf (inl x) u id) ->
  p_pos (view1 x) = Some r -> p_att (view1 x) *m nb_tag + r != tag ->
  exists2 A, cmm_jac ops (range_relative_model X2 G view1 T I tag nb_tag cov) id l = Ok A &
    composite_jacobian_correct ops (cmm_eval (range_relative_model X2 G view1 T I tag nb_tag cov) id) l ts i0 1 A.
Proof.
move=> pK xv lv g1 pE ne; have [J [jE H]] := C50_range_to_anchor pK xv pE ne.
apply: (C11_jacobian_correct ts i0 (leaves_perturbable lv) g1 (b := mat_arr J)); first by rewrite /= jE.
exact: one_block.
Qed.
End Range.

(** *** Instances *)
Section Instances.
Variable R : rcfType.
(** two SE(3) poses: the identity, and a quarter turn about z followed by a translation *)
Definition quarter : 'M[R]_3 := \matrix_(i, j) nth 0 (nth [::] [:: [:: 0; -1; 0]; [:: 1; 0; 0]; [:: 0; 0; 1]] i) j.
Example C51_relative_instance : se_valid (MState (1%:M : 'M[R]_(3 + 1)) DRight) /\
  se_valid (MState (block_mx quarter (const_mx 1) 0 1%:M : 'M[R]_(3 + 1)) DLeft).
Proof.
split.
  by exists 1%:M, 0; rewrite trmx1 mul1mx /= -scalar_mx_block.
exists quarter, (const_mx 1); split=> //.
apply/matrixP => i j; rewrite !mxE !big_ord_recl big_ord0 !mxE /=.
case: i => -[|[|[|i]]] //= hi; case: j => -[|[|[|j]]] //= hj; rewrite /bump /=; rng.
Qed.
(** [neighbour, vector] : the vector state is perturbed too, the range ignores it *)
Example C51_relative_composite (x : mstate R (3 + 1)) (v : 'cV[R]_2) :
  let l := [:: Leaf (inr v) None 7%N; Leaf (inl x) None 8%N] : seq (state R nat_eqType (mstate R (3 + 1) + 'cV[R]_2)) in
  (forall s, List.In s l -> if s is Comp _ _ _ then false else true) /\ get_state_by_id l 8%N = Ok (Leaf (inl x) None 8%N).
Proof. by split=> // s [<-|[<-|]]. Qed.
End Instances.

Print Assumptions C11_jacobian_correct.
Print Assumptions C11_composite_measurement.
Print Assumptions C51_relative_range_value.
Print Assumptions C51_range_relative_pose.
