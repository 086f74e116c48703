(** C50: the Jacobians of the measurement models are the derivatives of evaluate. *)
From mathcomp Require Import all_ssreflect all_algebra.
From Verif Require Import Base Tac LinAlg EkfModel PreintModel ImuModel ImuProps Deriv ModelsModel.
Set Implicit Arguments.
Unset Strict Implicit.
Unset Printing Implicit Defensive.
Import Order.Theory GRing.Theory Num.Theory.
Local Open Scope ring_scope.

(** *** Specification *)
Section Spec.
Variable R : rcfType.

(** a kind of state: values, what the models read from them, and plus *)
Record kind := Kind { k_X : Type; k_n : nat; k_k : nat; k_d : nat; k_G : attgroup R k_n k_k;
  k_view : k_X -> pose R k_n k_k k_d; k_plus : k_X -> 'cV[R]_k_d -> k_X; k_valid : k_X -> Prop }.

(** [jc] is the derivative of [ev] at [x] in every direction: along t |-> x.plus(t dx) the
    value is defined and its derivative at t = 0 is jacobian(x) dx *)
Definition jacobian_correct (K : kind) m (ev : pose R (k_n K) (k_k K) (k_d K) -> result 'cV[R]_m)
    (jc : pose R (k_n K) (k_k K) (k_d K) -> result 'M[R]_(m, k_d K)) (x : k_X K) : Prop :=
  exists J, jc (k_view x) = Ok J /\
    forall dx, exists F, (forall t, ev (k_view (k_plus x (t *: dx))) = Ok (F t)) /\ is_mderiv F (J *m dx).

(** what is assumed of a group exponential: its value and derivative at 0 *)
Definition exponential n d (hat : 'cV[R]_d -> 'M[R]_n) (Exp : 'cV[R]_d -> 'M[R]_n) : Prop :=
  Exp 0 = 1%:M /\ forall xi, is_mderiv (fun t => Exp (t *: xi)) (hat xi).
(** the Lie algebras of SE(n) and SE_2(3) ([wedge9] of ImuProps) in pymlg's coordinates *)
Definition se_hat n k (G : attgroup R n k) (xi : 'cV[R]_(k + n)) : 'M[R]_(n + 1) :=
  block_mx (ag_wedge G (usubmx xi)) (dsubmx xi) 0 0.

Definition se_valid n (x : mstate R (n + 1)) : Prop :=
  exists C r, C^T *m C = 1%:M /\ m_val x = block_mx C r 0 1%:M.
Definition so3_kind Exp : kind := @Kind (mstate R 3) 3 3 3 (so3 R) (@so3_view R) (mplus Exp)
  (fun x => (m_val x)^T *m m_val x = 1%:M).
Definition se2_kind Exp : kind := @Kind (mstate R (2 + 1)) 2 1 (1 + 2) (so2 R) (@se_view R 2 1) (mplus Exp) (@se_valid 2).
Definition se3_kind Exp : kind := @Kind (mstate R (3 + 1)) 3 3 (3 + 3) (so3 R) (@se_view R 3 3) (mplus Exp) (@se_valid 3).
Definition se23_valid (x : mstate R (3 + (1 + 1))) : Prop :=
  exists C v r, C^T *m C = 1%:M /\ m_val x = ie3 C v r 0.
Definition se23_kind Exp : kind := @Kind (mstate R (3 + (1 + 1))) 3 3 (3 + (3 + 3)) (so3 R) (@se23_view R) (mplus Exp) se23_valid.
Definition imu_kind Exp : kind := @Kind (istate R) 3 3 (3 + (3 + 3) + (3 + 3)) (so3 R) (@imu_view R) (iplus Exp)
  (fun x => se23_valid (i_nav x)).

(** the state classes of the library, by what they carry *)
Inductive vel_state : kind -> Prop :=
| PK_SE23 Exp : exponential (@wedge9 R) Exp -> vel_state (se23_kind Exp)
| PK_IMU Exp : exponential (@wedge9 R) Exp -> vel_state (imu_kind Exp).
Inductive pose_state : kind -> Prop :=
| PK_SE2 Exp : exponential (se_hat (so2 R)) Exp -> pose_state (se2_kind Exp)
| PK_SE3 Exp : exponential (se_hat (so3 R)) Exp -> pose_state (se3_kind Exp)
| PK_vel K : vel_state K -> pose_state K.
Inductive att_state : kind -> Prop :=
| PK_SO3 Exp : exponential (@wedge R) Exp -> att_state (so3_kind Exp)
| PK_pose K : pose_state K -> att_state K.
End Spec.

(** *** What the models need to know about a kind of state *)
Section Facts.
Variable R : rcfType.
Definition ag_law n k (G : attgroup R n k) : Prop :=
  (forall a b, ag_wedge G a *m b = ag_odot G b *m a) /\ (forall a, (ag_wedge G a)^T = - ag_wedge G a).

Lemma ord21 : nat_of_ord (1 : 'I_2) = 1%N. Proof. by []. Qed.
Lemma so2_law : ag_law (so2 R).
Proof.
split=> [a b|a]; last first.
  apply/matrixP => i j; rewrite !mxE.
  by case: i => [[|[|//]] ?]; case: j => [[|[|//]] ?] /=; rewrite ?oppr0 ?opprK.
apply/matrixP => i j; rewrite !mxE !big_ord_recl !big_ord0 !mxE !ord1.
by case: i => [[|[|//]] ?] /=; rewrite !(atE b) !(atE a) /= /bump /= ?addn0; try change (1 %% 2)%N with 1%N; rng.
Qed.
Lemma so3_law : ag_law (so3 R).
Proof.
split=> [a b|a]; last by apply/matrixP => i j; rewrite !mxE; case: i => [[|[|[|//]]] ?]; case: j => [[|[|[|//]]] ?] /=; rewrite ?oppr0 ?opprK.
by rewrite /= mulNmx; exact: wedge_anti.
Qed.

Definition motion n (dir : direction) (C W : 'M[R]_n) : 'M[R]_n := if dir is DRight then C *m W else W *m C.
Definition drift n (dir : direction) (C W : 'M[R]_n) (r rho : 'cV[R]_n) : 'cV[R]_n :=
  if dir is DRight then C *m rho else W *m r + rho.
Definition blk m n p (o : option 'M[R]_(m, n)) : 'M[R]_(n, p) -> 'M[R]_(m, p) := fun v => odflt 0 o *m v.

Record facts (hp hv : bool) (K : kind R) : Prop := Facts {
  fc_law : ag_law (k_G K);
  fc_orth : forall x, k_valid x -> (p_att (k_view x : pose R (k_n K) _ _))^T *m p_att (k_view x) = 1%:M;
  fc_pos : hp -> forall x : k_X K, k_valid x -> exists r, p_pos (k_view x) = Some r;
  fc_vel : hv -> forall x : k_X K, k_valid x -> exists v, p_vel (k_view x) = Some v;
  fc_curve : forall (x : k_X K), k_valid x -> forall dx, exists phi rho nu,
    [/\ is_mderiv (fun t => p_att (k_view (k_plus x (t *: dx))))
          (motion (p_dir (k_view x)) (p_att (k_view x)) (ag_wedge (k_G K) phi)) /\
        p_att (k_view (k_plus x (0 *: dx))) = p_att (k_view x),
        (forall t, p_dir (k_view (k_plus x (t *: dx))) = p_dir (k_view x)),
        hp -> forall r, p_pos (k_view x) = Some r -> exists P,
          [/\ forall t, p_pos (k_view (k_plus x (t *: dx))) = Some (P t), P 0 = r &
           is_mderiv P (drift (p_dir (k_view x)) (p_att (k_view x)) (ag_wedge (k_G K) phi) r rho)],
        hv -> forall v, p_vel (k_view x) = Some v -> exists P,
          [/\ forall t, p_vel (k_view (k_plus x (t *: dx))) = Some (P t), P 0 = v &
           is_mderiv P (drift (p_dir (k_view x)) (p_att (k_view x)) (ag_wedge (k_G K) phi) v nu)] &
        forall m (a : option 'M[R]_(m, _)) p v, (p != None -> hp) -> (v != None -> hv) ->
          [|| a != None, p != None | v != None] ->
          exists J, p_jfb (k_view x) a p v = Ok J /\ J *m dx = blk a phi + blk p rho + blk v nu] }.
End Facts.

Section Kinds.
Variable R : rcfType.
Lemma mplus_curve n d (hat Exp : 'cV[R]_d -> 'M[R]_n) (x : mstate R n) dx : exponential hat Exp ->
  is_mderiv (fun t => m_val (mplus Exp x (t *: dx))) (motion (m_dir x) (m_val x) (hat dx)) /\
  m_val (mplus Exp x (0 *: dx)) = m_val x.
Proof.
move=> [E0 D]; rewrite /mplus /=; split; last by rewrite scale0r E0 mulmx1 mul1mx; case: (m_dir x).
by case: (m_dir x) => /=; [apply: mderivMr|apply: mderivMl].
Qed.

Lemma so3_facts Exp : exponential (@wedge R) Exp -> facts false false (so3_kind Exp).
Proof.
move=> hE; split=> //; first exact: so3_law.
move=> x _ dx; exists dx, 0, 0; have [D v0] := mplus_curve x dx hE; split=> //.
move=> m a p v; case: p => [p|] h; first by have := h isT.
case: v => [v|] h'; first by have := h' isT.
case: a => // a _; exists a; split=> //.
by rewrite /blk /= !mul0mx !addr0.
Qed.

Lemma se_facts n k (G : attgroup R n k) Exp : ag_law G -> exponential (se_hat G) Exp ->
  facts true false (@Kind R (mstate R (n + 1)) n k (k + n) G (@se_view R n k) (mplus Exp) (@se_valid R n)).
Proof.
move=> lw hE; split=> //=.
- by move=> x [C [r [o ->]]]; rewrite block_mxKul.
- by move=> _ x _; eexists; reflexivity.
move=> [X dir] [C [r [o /= ->]]] dx {X}; exists (usubmx dx), (dsubmx dx), 0.
have := mplus_curve (MState (block_mx C r 0 1%:M) dir) dx hE; rewrite /mplus /= => -[D v0].
have DE : motion dir (block_mx C r 0 1%:M) (se_hat G dx) =
  block_mx (motion dir C (ag_wedge G (usubmx dx))) (drift dir C (ag_wedge G (usubmx dx)) r (dsubmx dx)) 0 0.
  by rewrite /motion /drift /se_hat; case: dir {D v0}; rewrite mulmx_block !mulmx0 !mul0mx ?addr0 ?mulmx1.
rewrite {}DE in D; split=> //.
- by split; [have := mderiv_ul D; rewrite !block_mxKul|rewrite v0].
- move=> _ r'; rewrite block_mxKur => -[<-].
  eexists; split; first by move=> t; reflexivity.
    by rewrite /= v0 block_mxKur.
  by have := mderiv_ur D; rewrite block_mxKur block_mxKul.
move=> m a p v _ h; case: v h => [v|] h; first by have := h isT.
case: a => [a|]; case: p => [p|] // _; eexists; (split; first reflexivity);
  by rewrite -{1}[dx]vsubmxK mul_row_col /blk /= ?mul0mx ?addr0.
Qed.

Lemma se23_facts Exp : exponential (@wedge9 R) Exp -> facts true true (se23_kind Exp).
Proof.
move=> hE; split=> //=; first exact: so3_law.
- by move=> x [C [v [r [o ->]]]]; rewrite -/(ie3_C _) ie3E.
- by move=> _ x _; eexists; reflexivity.
- by move=> _ x _; eexists; reflexivity.
move=> [X dir] [C [v [r [o /= ->]]]] dx {X}; exists (usubmx dx), (dsubmx (dsubmx dx)), (usubmx (dsubmx dx)).
have := mplus_curve (MState (ie3 C v r 0) dir) dx hE; rewrite /mplus /= => -[D v0].
have DE : motion dir (ie3 C v r 0) (wedge9 dx) =
  block_mx (motion dir C (wedge (usubmx dx)))
    (row_mx (drift dir C (wedge (usubmx dx)) v (usubmx (dsubmx dx))) (drift dir C (wedge (usubmx dx)) r (dsubmx (dsubmx dx)))) 0 0.
  rewrite /motion /drift /wedge9 /ie3 [0%:M]raddf0 -scalar_mx_block.
  by case: dir {D v0}; rewrite mulmx_block !mulmx0 !mul0mx ?addr0 ?mulmx1 mul_mx_row // add_row_mx.
rewrite {}DE in D; rewrite -/(ie3_C _) -/(ie3_a _) -/(ie3_b _) !ie3E; split=> //.
- by split; [have := mderiv_ul D; rewrite !block_mxKul|rewrite v0 -/(ie3_C _) ie3E].
- move=> _ r' -[<-].
  eexists; split; first by move=> t; reflexivity.
    by rewrite /= v0 -/(ie3_b _) ie3E.
  by have := mderiv_r (mderiv_ur D); rewrite block_mxKur row_mxKr.
- move=> _ v' -[<-].
  eexists; split; first by move=> t; reflexivity.
    by rewrite /= v0 -/(ie3_a _) ie3E.
  by have := mderiv_l (mderiv_ur D); rewrite block_mxKur row_mxKl.
move=> m a p v' _ _ h.
exists (row_mx (odflt 0 a) (row_mx (odflt 0 v') (odflt 0 p))); split.
  by case: a h => [a|]; case: p => [p|]; case: v' => [v'|].
by rewrite -{1}[dx]vsubmxK -{1}[dsubmx dx]vsubmxK !mul_row_col /blk /=; zmod.
Qed.

Lemma imu_facts Exp : exponential (@wedge9 R) Exp -> facts true true (imu_kind Exp).
Proof.
move=> hE; have [lw orth pos vel curve] := se23_facts hE; split=> //=; try by move=> x /orth.
- by move=> _ x _; eexists; reflexivity.
- by move=> _ x _; eexists; reflexivity.
move=> x xv dx; have [phi [rho [nu [h1 h2 h3 h4 h5]]]] := curve (i_nav x) xv (usubmx dx).
have uZ t : usubmx (t *: dx) = t *: usubmx dx by rewrite linearZ.
exists phi, rho, nu; split=> //.
- have [D v0] := h1; split; last by rewrite uZ.
  by apply: eq_mderiv D => t; rewrite /= uZ.
- move=> hp r E; have [P [p1 p2 p3]] := h3 hp r E; exists P; split=> // t.
  by rewrite uZ; apply: p1.
- move=> hv r E; have [P [p1 p2 p3]] := h4 hv r E; exists P; split=> // t.
  by rewrite uZ; apply: p1.
move=> m a p v a1 a2 a3; have [J [E e]] := h5 m a p v a1 a2 a3.
exists (row_mx J (row_mx 0 0)); split.
  by move: E; rewrite /= => ->.
by rewrite -{1}[dx]vsubmxK mul_row_col row_mx0 mul0mx addr0.
Qed.

Lemma vel_facts (K : kind R) : vel_state K -> facts true true K.
Proof. by case=> Exp hE; [exact: se23_facts|exact: imu_facts]. Qed.
Lemma facts_weak (hp hv hp' hv' : bool) (K : kind R) : (hp' -> hp) -> (hv' -> hv) -> facts hp hv K -> facts hp' hv' K.
Proof.
move=> H1 H2 [lw orth pos vel curve]; split=> //.
- by move=> /H1 /pos.
- by move=> /H2 /vel.
move=> x xv dx; have [phi [rho [nu [h1 h2 h3 h4 h5]]]] := curve x xv dx.
exists phi, rho, nu; split=> //.
- by move=> /H1 /h3.
- by move=> /H2 /h4.
by move=> m a p v a1 a2; apply: h5 => /[dup]; [move=> _ /a1 /H1|move=> _ /a2 /H2].
Qed.
Lemma pose_facts (K : kind R) : pose_state K -> facts true false K.
Proof.
case=> [Exp hE|Exp hE|{}K /vel_facts].
- exact: se_facts (@so2_law R) hE.
- exact: se_facts (@so3_law R) hE.
exact: facts_weak.
Qed.
Lemma att_facts (K : kind R) : att_state K -> facts false false K.
Proof. by case=> [Exp /so3_facts //|{}K /pose_facts]; apply: facts_weak. Qed.
End Kinds.

(** *** Theorems: models of one pose *)
Section Models.
Variable R : rcfType.

(** the curves of attitude, position and velocity along a perturbation *)
Record moves (hp hv : bool) (K : kind R) (x : k_X K) (dx : 'cV[R]_(k_d K)) phi rho nu : Prop := Moves {
  mv_att : is_mderiv (fun t => p_att (k_view (k_plus x (t *: dx))))
          (motion (p_dir (k_view x)) (p_att (k_view x)) (ag_wedge (k_G K) phi));
  mv_att0 : p_att (k_view (k_plus x (0 *: dx))) = p_att (k_view x);
  mv_dir : forall t, p_dir (k_view (k_plus x (t *: dx))) = p_dir (k_view x);
  mv_pos : hp -> forall r, p_pos (k_view x) = Some r -> exists P,
          [/\ forall t, p_pos (k_view (k_plus x (t *: dx))) = Some (P t), P 0 = r &
           is_mderiv P (drift (p_dir (k_view x)) (p_att (k_view x)) (ag_wedge (k_G K) phi) r rho)];
  mv_vel : hv -> forall v, p_vel (k_view x) = Some v -> exists P,
          [/\ forall t, p_vel (k_view (k_plus x (t *: dx))) = Some (P t), P 0 = v &
           is_mderiv P (drift (p_dir (k_view x)) (p_att (k_view x)) (ag_wedge (k_G K) phi) v nu)] }.

Lemma jfb_facts hp hv (K : kind R) (x : k_X K) m a p v : facts hp hv K -> k_valid x ->
  (p != None -> hp) -> (v != None -> hv) -> [|| a != None, p != None | v != None] ->
  exists J, @p_jfb _ _ _ _ (k_view x) m a p v = Ok J /\
    forall dx, exists phi rho nu, moves hp hv x dx phi rho nu /\ J *m dx = blk a phi + blk p rho + blk v nu.
Proof.
move=> f xv c1 c2 c3; have [_ _ _ _ curve] := f.
have [? [? [? [_ _ _ _ h5]]]] := curve x xv 0; have [J [E _]] := h5 m a p v c1 c2 c3.
exists J; split=> // dx; have [phi [rho [nu [[h1 h1'] h2 h3 h4 {}h5]]]] := curve x xv dx.
exists phi, rho, nu; split=> //; have [J' [E' <-]] := h5 m a p v c1 c2 c3.
by move: E'; rewrite E => -[->].
Qed.

Lemma correct_by hp hv (K : kind R) m ev jc (x : k_X K) a p v : facts hp hv K -> k_valid x ->
  (p != None -> hp) -> (v != None -> hv) -> [|| a != None, p != None | v != None] ->
  jc (k_view x) = @p_jfb _ _ _ _ (k_view x) m a p v ->
  (forall dx phi rho nu, moves hp hv x dx phi rho nu ->
     exists F, (forall t, ev (k_view (k_plus x (t *: dx))) = Ok (F t)) /\
               is_mderiv F (blk a phi + blk p rho + blk v nu)) ->
  @jacobian_correct R K m ev jc x.
Proof.
move=> f xv c1 c2 c3 jE H; have [J [E hJ]] := jfb_facts f xv c1 c2 c3.
exists J; split; first by rewrite jE.
by move=> dx; have [phi [rho [nu [mv ->]]]] := hJ dx; exact: H mv.
Qed.

Lemma exF m (Pr : (R -> 'cV[R]_m) -> Prop) D E : E = D ->
  (exists F, Pr F /\ is_mderiv F D) -> exists F, Pr F /\ is_mderiv F E.
Proof. by move=> ->. Qed.

(** PointRelativePosition, y = C^T (l - r): SE2State, SE3State, SE23State, IMUState, both directions *)
Theorem C50_relative_position (K : kind R) (l : 'cV[R]_(k_n K)) (x : k_X K) :
  pose_state K -> k_valid x -> jacobian_correct (relpos_eval l) (relpos_jac (k_G K) l) x.
Proof.
move=> /pose_facts f xv; have [[wo wT] orth pos _ _] := f.
have o := orth x xv; have [r rE] := pos isT x xv.
have M dx phi rho nu : moves true false x dx phi rho nu -> exists F,
    (forall t, relpos_eval l (k_view (k_plus x (t *: dx))) = Ok (F t)) /\
    is_mderiv F ((motion (p_dir (k_view x)) (p_att (k_view x)) (ag_wedge (k_G K) phi))^T *m (l - r)
       - (p_att (k_view x))^T *m drift (p_dir (k_view x)) (p_att (k_view x)) (ag_wedge (k_G K) phi) r rho).
  move=> [h1 h1' _ h3 _]; have [P [p1 p2 p3]] := h3 isT r rE.
  exists (fun t => (p_att (k_view (k_plus x (t *: dx))))^T *m (l - P t)); split=> [t|]; first by rewrite /relpos_eval p1.
  have := mderivM (mderivT h1) (mderivB (mderiv_const l) p3).
  by rewrite p2 h1' sub0r mulmxN.
case dE: (p_dir (k_view x)) M => M; apply: (correct_by (v := None) f xv _ _ _ (_ : _ = p_jfb _ (Some _) (Some _) _));
  rewrite ?/relpos_jac ?rE ?dE //= => dx phi rho nu mv; apply: exF (M _ _ _ _ mv); rewrite /motion /drift /blk /= mul0mx addr0.
- rewrite trmx_mul wT !mulmxN !mulNmx -mulmxA -wo mulmxBr !mulmxDr -!mulmxA; zmod.
- by rewrite trmx_mul wT [_ *m (_ *m rho)]mulmxA o mul1mx !mulNmx mul1mx -[ag_wedge _ _ *m _ *m _]mulmxA wo.
Qed.

(** RangePoseToAnchor, y = |C tag + r - a| wherever the range is not zero *)
Lemma tag_curve (hp hv : bool) (K : kind R) (tag r : 'cV[R]_(k_n K)) (x : k_X K) dx phi rho nu : hp ->
  p_pos (k_view x) = Some r -> ag_law (k_G K) -> moves hp hv x dx phi rho nu -> exists P,
   (forall t, p_pos (k_view (k_plus x (t *: dx))) = Some (P t)) /\
   p_att (k_view (k_plus x (0 *: dx))) *m tag + P 0 = p_att (k_view x) *m tag + r /\
   is_mderiv (fun t => p_att (k_view (k_plus x (t *: dx))) *m tag + P t)
     (match p_dir (k_view x) with
      | DRight => p_att (k_view x) *m ag_odot (k_G K) tag *m phi + p_att (k_view x) *m rho
      | DLeft => ag_odot (k_G K) (p_att (k_view x) *m tag + r) *m phi + rho end).
Proof.
move=> hh rE [wo wT] [h1 h1' _ h3 _]; have [P [p1 p2 p3]] := h3 hh r rE.
exists P; split=> //; split; first by rewrite h1' p2.
have := mderivD (mderivMr tag h1) p3; congr is_mderiv; rewrite /motion /drift.
case: (p_dir _); first by rewrite -wo mulmxDr -!mulmxA addrA.
by rewrite -!mulmxA wo.
Qed.
Theorem C50_range_to_anchor (K : kind R) (a tag : 'cV[R]_(k_n K)) (x : k_X K) r :
  pose_state K -> k_valid x -> p_pos (k_view x) = Some r -> p_att (k_view x) *m tag + r != a ->
  jacobian_correct (range_anchor_eval a tag) (range_anchor_jac (k_G K) a tag) x.
Proof.
move=> /pose_facts f xv rE ne; have lw := fc_law f.
set C := p_att (k_view x) in ne *; set q := C *m tag + r - a; have q0 : q != 0 by rewrite subr_eq0.
have M dx phi rho nu : moves true false x dx phi rho nu -> exists F,
    (forall t, range_anchor_eval a tag (k_view (k_plus x (t *: dx))) = Ok (F t)) /\
    is_mderiv F (((norm2 q)^-1 *: q)^T *m (match p_dir (k_view x) with
      | DRight => C *m ag_odot (k_G K) tag *m phi + C *m rho
      | DLeft => ag_odot (k_G K) (C *m tag + r) *m phi + rho end)).
  move=> mv; have [P [p1 [p2 p3]]] := tag_curve tag isT rE lw mv.
  exists (fun t => (norm2 (p_att (k_view (k_plus x (t *: dx))) *m tag + P t - a))%:M).
  split=> [t|i j]; first by rewrite /range_anchor_eval p1.
  have := mderivB p3 (mderiv_const a); rewrite subr0 => /deriv_norm2.
  rewrite p2 => /(_ q0); rewrite !ord1; apply: eq_deriv => t; by rewrite mxE eqxx mulr1n.
case dE: (p_dir (k_view x)) M => M; apply: (correct_by (v := None) f xv _ _ _ (_ : _ = p_jfb _ (Some _) (Some _) _));
  rewrite ?/range_anchor_jac ?rE ?dE //= => dx phi rho nu mv; apply: exF (M _ _ _ _ mv); rewrite /blk /= mul0mx addr0 -/C -/q.
- by rewrite mulmxDr mulmx1 !mulmxA.
- by rewrite mulmxDr !mulmxA.
Qed.

(** AbsolutePosition *)
Theorem C50_absolute_position (K : kind R) (x : k_X K) :
  pose_state K -> k_valid x -> jacobian_correct (@abspos_eval R _ _ _) (abspos_jac (k_G K)) x.
Proof.
move=> /pose_facts f xv; have [[wo wT] orth pos _ _] := f; have [r rE] := pos isT x xv.
have M dx phi rho nu : moves true false x dx phi rho nu -> exists F,
    (forall t, abspos_eval (k_view (k_plus x (t *: dx))) = Ok (F t)) /\
    is_mderiv F (drift (p_dir (k_view x)) (p_att (k_view x)) (ag_wedge (k_G K) phi) r rho).
  by move=> [h1 h1' _ h3 _]; have [P [p1 p2 p3]] := h3 isT r rE; exists P; split=> // t; rewrite /abspos_eval p1.
case dE: (p_dir (k_view x)) M => M;
  [apply: (correct_by (v := None) f xv _ _ _ (_ : _ = p_jfb _ (Some _) (Some _) _))|
   apply: (correct_by (v := None) f xv _ _ _ (_ : _ = p_jfb _ None (Some _) _))];
  rewrite ?/abspos_jac ?rE ?dE //= => dx phi rho nu mv; apply: exF (M _ _ _ _ mv); rewrite /drift /blk /= !mul0mx addr0.
- by rewrite mul1mx wo.
- by rewrite add0r.
Qed.
(** AbsoluteVelocity *)
Theorem C50_absolute_velocity (K : kind R) (x : k_X K) :
  vel_state K -> k_valid x -> jacobian_correct (@absvel_eval R _ _ _) (absvel_jac (k_G K)) x.
Proof.
move=> /vel_facts f xv; have [[wo wT] orth _ vel _] := f; have [r rE] := vel isT x xv.
have M dx phi rho nu : moves true true x dx phi rho nu -> exists F,
    (forall t, absvel_eval (k_view (k_plus x (t *: dx))) = Ok (F t)) /\
    is_mderiv F (drift (p_dir (k_view x)) (p_att (k_view x)) (ag_wedge (k_G K) phi) r nu).
  by move=> [h1 h1' _ _ h3]; have [P [p1 p2 p3]] := h3 isT r rE; exists P; split=> // t; rewrite /absvel_eval p1.
case dE: (p_dir (k_view x)) M => M;
  [apply: (correct_by f xv _ _ _ (_ : _ = p_jfb _ (Some _) None (Some _)))|
   apply: (correct_by f xv _ _ _ (_ : _ = p_jfb _ None None (Some _)))];
  rewrite ?/absvel_jac ?rE ?dE //= => dx phi rho nu mv; apply: exF (M _ _ _ _ mv); rewrite /drift /blk /= !mul0mx ?addr0.
- by rewrite mul1mx wo.
- by rewrite add0r.
Qed.

(** Gravitometer and Magnetometer, y = C^T g: also SO3State *)
Theorem C50_field_vector (K : kind R) (g : 'cV[R]_(k_n K)) (x : k_X K) :
  att_state K -> k_valid x -> jacobian_correct (vector_eval g) (vector_jac (k_G K) g) x.
Proof.
move=> /att_facts f xv; have [[wo wT] orth _ _ _] := f.
have M dx phi rho nu : moves false false x dx phi rho nu -> exists F,
    (forall t, vector_eval g (k_view (k_plus x (t *: dx))) = Ok (F t)) /\
    is_mderiv F ((motion (p_dir (k_view x)) (p_att (k_view x)) (ag_wedge (k_G K) phi))^T *m g).
  move=> [h1 h1' _ _ _]; exists (fun t => (p_att (k_view (k_plus x (t *: dx))))^T *m g); split=> //.
  exact: mderivMr (mderivT h1).
case dE: (p_dir (k_view x)) M => M; apply: (correct_by f xv _ _ _ (_ : _ = p_jfb _ (Some _) None None));
  rewrite ?/vector_jac ?dE //= => dx phi rho nu mv; apply: exF (M _ _ _ _ mv); rewrite /motion /blk /= !mul0mx !addr0.
- by rewrite trmx_mul wT !mulmxN !mulNmx -!mulmxA wo.
- by rewrite trmx_mul wT !mulNmx -!mulmxA wo.
Qed.
End Models.
