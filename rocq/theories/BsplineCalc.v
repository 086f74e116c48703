(** Proofs for BsplineProps: derivatives of a spline segment, matching at the knots, gluing. *)
From mathcomp Require Import all_ssreflect all_algebra.
From Verif Require Import Base Tac UtilsModel UtilsProps2 DatagenModel DatagenProof BsplineModel BsplineProof Deriv.
Set Implicit Arguments.
Unset Strict Implicit.
Unset Printing Implicit Defensive.
Import Order.Theory GRing.Theory Num.Theory.
Local Open Scope ring_scope.

(** *** What is assumed of pymlg's SE3 *)
Record spline_laws (T : archiFieldType) (k d : nat) (Exp : 'cV[T]_d -> 'M[T]_k) (Log : 'M[T]_k -> 'cV[T]_d)
  (ginv : 'M[T]_k -> 'M[T]_k) (wedge : 'cV[T]_d -> 'M[T]_k) (G : 'M[T]_k -> Prop) : Prop := SplineLaws {
  sl_one : Exp 0 = 1%:M;
  sl_line : forall (a b : T) v, Exp (a *: v) *m Exp (b *: v) = Exp ((a + b) *: v);
  sl_deriv : forall v, is_mderiv (fun t => Exp (t *: v)) (wedge v);
  sl_log : forall X, G X -> Exp (Log X) = X;
  sl_exp : forall v, G (Exp v);
  sl_mul : forall X Y, G X -> G Y -> G (X *m Y);
  sl_inv : forall X, G X -> G (ginv X);
  sl_mulV : forall X, G X -> X *m ginv X = 1%:M }.

Section Spline.
Variable T : archiFieldType.
Variables (p d : nat).
Notation k := (p + 1)%N.
Notation pose := (pose T p).
Variables (Exp : 'cV[T]_d -> 'M[T]_k) (Log : 'M[T]_k -> 'cV[T]_d) (ginv : 'M[T]_k -> 'M[T]_k) (wedge : 'cV[T]_d -> 'M[T]_k) (G : 'M[T]_k -> Prop).
Hypothesis laws : spline_laws Exp Log ginv wedge G.

Lemma exp_deriv (c : T -> T) l v : is_deriv c l -> is_mderiv (fun h => Exp (c h *: v)) (l *: wedge v *m Exp (c 0 *: v)).
Proof.
move=> H i j; rewrite -scalemxAl mxE mulrC.
apply: (deriv_comp (g := fun s => Exp (s *: v) i j) H).
have := @mderivMr _ _ _ _ (Exp (c 0 *: v)) _ _ (sl_deriv laws v) i j.
by apply: eq_deriv => t; rewrite (sl_line laws) addrC.
Qed.

(** *** The segment formula *)
Section Segment.
Variables (P0 P1 P2 P3 : 'M[T]_k) (dt : T).
Hypothesis dt0 : dt != 0.
Notation W := (wu _ dt).
Notation B0 u := (A0 Exp Log ginv P0 P1 u).
Notation B1 u := (A1 Exp Log ginv P1 P2 u).
Notation B2 u := (A2 Exp Log ginv P2 P3 u).
Lemma A0_deriv u : is_mderiv (fun h => B0 (wu u dt h)) (A0d Exp Log ginv wedge P0 P1 u dt).
Proof. by have := exp_deriv (om10 Log ginv P0 P1) (b0_deriv u dt); rewrite wu0. Qed.
Lemma A1_deriv u : is_mderiv (fun h => B1 (wu u dt h)) (A1d Exp Log ginv wedge P1 P2 u dt).
Proof. by have := exp_deriv (om21 Log ginv P1 P2) (b1_deriv u dt); rewrite wu0. Qed.
Lemma A2_deriv u : is_mderiv (fun h => B2 (wu u dt h)) (A2d Exp Log ginv wedge P2 P3 u dt).
Proof. by have := exp_deriv (om32 Log ginv P2 P3) (b2_deriv u dt); rewrite wu0. Qed.
Lemma Ad_deriv (c : T -> T) l (Om : 'M[T]_k) (F : T -> 'M[T]_k) L : is_deriv c l -> is_mderiv F L ->
  is_mderiv (fun h => c h *: Om *m F h) (c 0 *: Om *m L + l *: Om *m F 0).
Proof.
move=> H H'; have := mderivM (mderivZ H (mderiv_const Om)) H'.
rewrite scaler0 addr0 addrC; exact.
Qed.
Lemma A0d_deriv u : is_mderiv (fun h => A0d Exp Log ginv wedge P0 P1 (wu u dt h) dt) (A0dd Exp Log ginv wedge P0 P1 u dt).
Proof. by have := Ad_deriv (wedge (om10 Log ginv P0 P1)) (b0d_deriv u dt) (A0_deriv u); rewrite !wu0. Qed.
Lemma A1d_deriv u : is_mderiv (fun h => A1d Exp Log ginv wedge P1 P2 (wu u dt h) dt) (A1dd Exp Log ginv wedge P1 P2 u dt).
Proof. by have := Ad_deriv (wedge (om21 Log ginv P1 P2)) (b1d_deriv u dt) (A1_deriv u); rewrite !wu0. Qed.
Lemma A2d_deriv u : is_mderiv (fun h => A2d Exp Log ginv wedge P2 P3 (wu u dt h) dt) (A2dd Exp Log ginv wedge P2 P3 u dt).
Proof. by have := Ad_deriv (wedge (om32 Log ginv P2 P3)) (b2d_deriv u dt) (A2_deriv u); rewrite !wu0. Qed.

Lemma mderiv3 (F0 F1 F2 : T -> 'M[T]_k) L0 L1 L2 : is_mderiv F0 L0 -> is_mderiv F1 L1 -> is_mderiv F2 L2 ->
  is_mderiv (fun h => F0 h *m F1 h *m F2 h) (L0 *m F1 0 *m F2 0 + F0 0 *m L1 *m F2 0 + F0 0 *m F1 0 *m L2).
Proof. by move=> H0 H1 H2; have := mderivM (mderivM H0 H1) H2; rewrite mulmxDl. Qed.

Lemma seg_pose_deriv u : is_mderiv (fun h => seg_pose Exp Log ginv P0 P1 P2 P3 (wu u dt h)) (seg_vel Exp Log ginv wedge P0 P1 P2 P3 u dt).
Proof.
have := mderivMl P0 (mderiv3 (A0_deriv u) (A1_deriv u) (A2_deriv u)); rewrite !wu0.
by apply: eq_mderiv => h; rewrite /seg_pose !mulmxA.
Qed.
Lemma seg_vel_deriv u : is_mderiv (fun h => seg_vel Exp Log ginv wedge P0 P1 P2 P3 (wu u dt h) dt) (seg_acc Exp Log ginv wedge P0 P1 P2 P3 u dt).
Proof.
have H := mderivMl P0 (mderivD (mderivD (mderiv3 (A0d_deriv u) (A1_deriv u) (A2_deriv u)) (mderiv3 (A0_deriv u) (A1d_deriv u) (A2_deriv u))) (mderiv3 (A0_deriv u) (A1_deriv u) (A2d_deriv u))).
move: H; rewrite !wu0; set L := (X in is_mderiv _ X -> _) => H.
rewrite (_ : seg_acc _ _ _ _ _ _ _ _ _ _ = L) //; rewrite /seg_acc /L; congr (_ *m _).
by rewrite -!scalemxAl !scaler_nat !mulr2n; zmod.
Qed.
Lemma seg_acc_cont u : exists L, is_mderiv (fun h => seg_acc Exp Log ginv wedge P0 P1 P2 P3 (wu u dt h) dt) L.
Proof.
have [l0 d0] : exists l, is_deriv (fun h => basis0_ddot (wu u dt h) dt) l by exact: bdd_deriv.
have [l1 d1] : exists l, is_deriv (fun h => basis1_ddot (wu u dt h) dt) l.
  have [l H] := bdd_deriv u dt 6%:R (- 12%:R); exists l; apply: eq_deriv H => h; rewrite /basis1_ddot; rng.
have [l2 d2] : exists l, is_deriv (fun h => basis2_ddot (wu u dt h) dt) l.
  have [l H] := bdd_deriv u dt 0 6%:R; exists l; apply: eq_deriv H => h; rewrite /basis2_ddot; rng.
have Hdd (Om : 'M[T]_k) (c c' : T -> T) l l' (F : T -> 'M[T]_k) L (F' : T -> 'M[T]_k) L' : is_deriv c l -> is_deriv c' l' -> is_mderiv F L -> is_mderiv F' L' ->
    is_mderiv (fun h => c h *: Om *m F h + c' h *: Om *m F' h) ((c 0 *: Om *m L + l *: Om *m F 0) + (c' 0 *: Om *m L' + l' *: Om *m F' 0)).
  by move=> *; apply: mderivD; apply: Ad_deriv.
have a0 := Hdd (wedge (om10 Log ginv P0 P1)) _ _ _ _ _ _ _ _ (b0d_deriv u dt) d0 (A0d_deriv u) (A0_deriv u).
have a1 := Hdd (wedge (om21 Log ginv P1 P2)) _ _ _ _ _ _ _ _ (b1d_deriv u dt) d1 (A1d_deriv u) (A1_deriv u).
have a2 := Hdd (wedge (om32 Log ginv P2 P3)) _ _ _ _ _ _ _ _ (b2d_deriv u dt) d2 (A2d_deriv u) (A2_deriv u).
have H := mderivMl P0 (mderivD (mderivD (mderivD (mderivD (mderivD
  (mderiv3 a0 (A1_deriv u) (A2_deriv u)) (mderiv3 (A0_deriv u) a1 (A2_deriv u))) (mderiv3 (A0_deriv u) (A1_deriv u) a2))
  (mderiv3 (mderivZc 2%:R (A0d_deriv u)) (A1d_deriv u) (A2_deriv u))) (mderiv3 (mderivZc 2%:R (A0_deriv u)) (A1d_deriv u) (A2d_deriv u)))
  (mderiv3 (mderivZc 2%:R (A0d_deriv u)) (A1_deriv u) (A2d_deriv u))).
by eexists; exact: H.
Qed.
End Segment.

(** *** Meeting at a knot *)
Section Knot.
Variables (P0 P1 P2 P3 P4 : 'M[T]_k) (dt : T).
Hypotheses (G0 : G P0) (G1 : G P1).
Let six : 6%:R != 0 :> T. Proof. by rewrite pnatr_eq0. Qed.
Lemma bk0 : basis0 1 = 1 :> T.
Proof. by rewrite /basis0 -[RHS](mulVf six); congr (_ * _); rng. Qed.
Lemma bk1 : basis1 1 = basis0 0 :> T. Proof. rewrite /basis1 /basis0; rng. Qed.
Lemma bk2 : basis2 1 = basis1 0 :> T. Proof. rewrite /basis2 /basis1; rng. Qed.
Lemma bk3 : basis2 0 = 0 :> T. Proof. rewrite /basis2; rng. Qed.
Lemma bd0 : basis0_dot 1 dt = 0. Proof. rewrite /basis0_dot; rng. Qed.
Lemma bd1 : basis1_dot 1 dt = basis0_dot 0 dt. Proof. rewrite /basis1_dot /basis0_dot; rng. Qed.
Lemma bd2 : basis2_dot 1 dt = basis1_dot 0 dt. Proof. rewrite /basis2_dot /basis1_dot; rng. Qed.
Lemma bd3 : basis2_dot 0 dt = 0. Proof. rewrite /basis2_dot; rng. Qed.
Lemma bdd0 : basis0_ddot 1 dt = 0. Proof. rewrite /basis0_ddot; rng. Qed.
Lemma bdd1 : basis1_ddot 1 dt = basis0_ddot 0 dt. Proof. rewrite /basis1_ddot /basis0_ddot; rng. Qed.
Lemma bdd2 : basis2_ddot 1 dt = basis1_ddot 0 dt. Proof. rewrite /basis2_ddot /basis1_ddot; rng. Qed.
Lemma bdd3 : basis2_ddot 0 dt = 0. Proof. rewrite /basis2_ddot; rng. Qed.
Lemma A0_1 : P0 *m A0 Exp Log ginv P0 P1 1 = P1.
Proof.
have gg : G (ginv P0 *m P1) by apply: (sl_mul laws) => //; exact: (sl_inv laws).
by rewrite /A0 bk0 scale1r /om10 (sl_log laws) // mulmxA (sl_mulV laws) // mul1mx.
Qed.
Lemma A2_0 : A2 Exp Log ginv P3 P4 0 = 1%:M.
Proof. by rewrite /A2 bk3 scale0r (sl_one laws). Qed.
Lemma A1_1 : A1 Exp Log ginv P1 P2 1 = A0 Exp Log ginv P1 P2 0.
Proof. by rewrite /A1 /A0 bk1. Qed.
Lemma A2_1 : A2 Exp Log ginv P2 P3 1 = A1 Exp Log ginv P2 P3 0.
Proof. by rewrite /A2 /A1 bk2. Qed.
Lemma A0d_1 : A0d Exp Log ginv wedge P0 P1 1 dt = 0.
Proof. by rewrite /A0d bd0 scale0r mul0mx. Qed.
Lemma A1d_1 : A1d Exp Log ginv wedge P1 P2 1 dt = A0d Exp Log ginv wedge P1 P2 0 dt.
Proof. by rewrite /A1d /A0d bd1 A1_1. Qed.
Lemma A2d_1 : A2d Exp Log ginv wedge P2 P3 1 dt = A1d Exp Log ginv wedge P2 P3 0 dt.
Proof. by rewrite /A2d /A1d bd2 A2_1. Qed.
Lemma A2d_0 : A2d Exp Log ginv wedge P3 P4 0 dt = 0.
Proof. by rewrite /A2d bd3 scale0r mul0mx. Qed.
Lemma A0dd_1 : A0dd Exp Log ginv wedge P0 P1 1 dt = 0.
Proof. by rewrite /A0dd bd0 bdd0 !scale0r !mul0mx addr0. Qed.
Lemma A1dd_1 : A1dd Exp Log ginv wedge P1 P2 1 dt = A0dd Exp Log ginv wedge P1 P2 0 dt.
Proof. by rewrite /A1dd /A0dd bd1 bdd1 A1d_1 A1_1. Qed.
Lemma A2dd_1 : A2dd Exp Log ginv wedge P2 P3 1 dt = A1dd Exp Log ginv wedge P2 P3 0 dt.
Proof. by rewrite /A2dd /A1dd bd2 bdd2 A2d_1 A2_1. Qed.
Lemma A2dd_0 : A2dd Exp Log ginv wedge P3 P4 0 dt = 0.
Proof. by rewrite /A2dd bd3 bdd3 !scale0r !mul0mx addr0. Qed.

Lemma seg_pose_knot : seg_pose Exp Log ginv P0 P1 P2 P3 1 = seg_pose Exp Log ginv P1 P2 P3 P4 0.
Proof. by rewrite /seg_pose A0_1 A1_1 A2_1 A2_0 mulmx1. Qed.
Lemma seg_vel_knot : seg_vel Exp Log ginv wedge P0 P1 P2 P3 1 dt = seg_vel Exp Log ginv wedge P1 P2 P3 P4 0 dt.
Proof.
rewrite /seg_vel A0d_1 A1d_1 A2d_1 A1_1 A2_1 A2_0 A2d_0 !mul0mx add0r !mulmx0 addr0 !mulmx1.
rewrite -[X in _ = X *m _]A0_1.
move: (A0 _ _ _ P0 P1 1) (A0d _ _ _ _ P1 P2 0 dt) (A0 _ _ _ P1 P2 0) (A1 _ _ _ P2 P3 0) (A1d _ _ _ _ P2 P3 0 dt) => a b c d' f.
by rewrite !(mulmxDr, mulmxA).
Qed.
Lemma seg_acc_knot : seg_acc Exp Log ginv wedge P0 P1 P2 P3 1 dt = seg_acc Exp Log ginv wedge P1 P2 P3 P4 0 dt.
Proof.
rewrite /seg_acc A0dd_1 A0d_1 A1dd_1 A2dd_1 A1d_1 A2d_1 A1_1 A2_1 A2_0 A2d_0 A2dd_0 scaler0 !mul0mx add0r !addr0 !mulmx0 !addr0 !mulmx1.
rewrite -[X in _ = X *m _]A0_1.
move: (A0 _ _ _ P0 P1 1) (A0dd _ _ _ _ P1 P2 0 dt) (A0d _ _ _ _ P1 P2 0 dt) (A0 _ _ _ P1 P2 0) (A1 _ _ _ P2 P3 0) (A1d _ _ _ _ P2 P3 0 dt) (A1dd _ _ _ _ P2 P3 0 dt) => a b c d' f g h.
by rewrite -!scalemxAl !(mulmxDr, mulmxA, =^~ scalemxAr).
Qed.
End Knot.

Lemma seg_group P0 P1 P2 P3 u : G P0 -> G (seg_pose Exp Log ginv P0 P1 P2 P3 u).
Proof. by move=> g0; rewrite /seg_pose; do 3 (apply: (sl_mul laws); last exact: (sl_exp laws)). Qed.
End Spline.

(** control points inherit membership of the group *)
Section Members.
Variable T : archiFieldType.
Variables (p d : nat).
Notation k := (p + 1)%N.
Notation pose := (pose T p).
Variables (Exp : 'cV[T]_d -> 'M[T]_k) (Log : 'M[T]_k -> 'cV[T]_d) (ginv : 'M[T]_k -> 'M[T]_k) (wedge : 'cV[T]_d -> 'M[T]_k) (G : 'M[T]_k -> Prop).
Hypothesis laws : spline_laws Exp Log ginv wedge G.
Lemma py_nth_In A (s : seq A) i x : py_nth s i = Ok x -> List.In x s.
Proof.
rewrite /py_nth; elim: s i => [|y s IH] [|i] //=; first by case=> ->; left.
by move=> h; right; exact: IH h.
Qed.
Lemma interp_group (traj : seq pose) q c : (forall x, List.In x traj -> G x.1) ->
  interp_one (se3_plus Exp) (se3_minus Log ginv) traj q = Ok c -> G c.1.
Proof.
move=> H; rewrite /interp_one; case E: (py_nth _ _) => [sl|] //=; case: (py_nth _ _) => [su|] //=.
case: ifP => // _; case: ifP => // _ [<-] /=.
by apply: (sl_mul laws); [exact: H (py_nth_In E)|exact: (sl_exp laws)].
Qed.
End Members.

(** *** The whole curve from its segments *)
Section Glue.
Variable T : archiFieldType.
Variable p : nat.
Notation k := (p + 1)%N.
Notation pose := (pose T p).
Variables (cps : seq pose) (c0 e dt : T) (sp : spline T p) (G : 'M[T]_k -> Prop) (q0 : pose).
Hypothesis dt0 : 0 < dt.
Hypothesis cpsE : map snd cps = arange c0 e dt.
Hypothesis spE : sp_ctrl sp = cps.
Hypothesis cpsG : forall j, (j < size cps)%N -> G (nth q0 cps j).1.
Definition valueof (m n : nat) (r : result (option 'M[T]_(m, n))) : 'M[T]_(m, n) := if r is Ok (Some a) then a else 0.
Notation kn := (knot c0 dt).
Notation P j := (nth q0 cps j).1.
Lemma find_knot t : kn 1 <= t -> t < kn (size cps - 2) -> exists i, [/\ (0 < i)%N, (i.+2 < size cps)%N, kn i <= t & t < kn i.+1].
Proof.
move=> lo hi.
have : exists j, t < kn j by exists (size cps - 2)%N.
case/ex_minnP => -[|j] tj mn; first by move: (lt_trans tj (@knot_lt _ c0 dt dt0 0 1 isT)); rewrite ltNge lo.
have j0 : (0 < j)%N by rewrite lt0n; apply: contraL tj => /eqP ->; rewrite -leNgt.
exists j; split=> //; last by rewrite leNgt; apply/negP => /mn; rewrite ltnn.
by have := mn _ hi; rewrite ltn_subRL add2n.
Qed.
Definition segfn m n := 'M[T]_k -> 'M[T]_k -> 'M[T]_k -> 'M[T]_k -> T -> T -> 'M[T]_(m, n).
Definition curve m n (g : segfn m n) t : 'M[T]_(m, n) := valueof (query sp t g).
Lemma curve_in m n (g0 : segfn m n) i t : (0 < i)%N -> (i.+2 < size cps)%N -> kn i <= t -> t < kn i.+1 ->
  curve g0 t = g0 (P i.-1) (P i) (P i.+1) (P i.+2) ((t - kn i) / dt) dt.
Proof. by move=> h1 h2 h3 h4; rewrite /curve (query_in dt0 cpsE g0 q0 spE h1 h2 h3 h4). Qed.
Let dtn : dt != 0. Proof. by rewrite gt_eqF. Qed.
Lemma wuE i t h : (t + h - kn i) / dt = wu ((t - kn i) / dt) dt h.
Proof. by rewrite /wu -mulrDl addrAC. Qed.

(** a window around t: on it the curve is one segment, or two that meet at t *)
Lemma window t : kn 1 < t -> t < kn (size cps - 2) -> exists i, (0 < i)%N /\ (i.+2 < size cps)%N /\
  ((exists2 d, 0 < d & [/\ kn i < t, t < kn i.+1 & forall m n (g0 : segfn m n) h, `|h| < d -> curve g0 (t + h) = g0 (P i.-1) (P i) (P i.+1) (P i.+2) (wu ((t - kn i) / dt) dt h) dt]) \/
   [/\ (1 < i)%N, t = kn i, forall m n (g0 : segfn m n) h, `|h| < dt -> h < 0 -> curve g0 (t + h) = g0 (P i.-2) (P i.-1) (P i) (P i.+1) (wu 1 dt h) dt &
     forall m n (g0 : segfn m n) h, `|h| < dt -> 0 <= h -> curve g0 (t + h) = g0 (P i.-1) (P i) (P i.+1) (P i.+2) (wu 0 dt h) dt]).
Proof.
move=> lo hi; have [i [i0 i2 l u]] := find_knot (ltW lo) hi; exists i; split=> //; split=> //.
move: l; rewrite le_eqVlt => /orP [/eqP tE|l]; [right|left].
  have i1 : (1 < i)%N by rewrite ltn_neqAle i0 andbT; apply: contraL lo => /eqP ->; rewrite tE ltxx.
  case: i i0 i1 i2 u tE => // -[|i] // _ _ i2 u tE.
  split=> // m n g0 h hd h0.
    have nh : `|h| = - h by rewrite ltr0_norm.
    rewrite (@curve_in _ _ g0 i.+1) //.
    - by rewrite -tE knotS /wu; congr (g0 _ _ _ _ _ _); rewrite (_ : _ + dt + h - _ = dt + h); [rewrite mulrDl divff|zmod].
    - exact: ltnW i2.
    - by rewrite -tE (knotS c0 dt i.+1) -addrA ler_addl -[h]opprK subr_ge0 -nh ltW.
    - by rewrite -tE gtr_addl.
  have nh : `|h| = h by rewrite ger0_norm.
  rewrite (@curve_in _ _ g0 i.+2) //.
  - by rewrite -tE /wu addrAC subrr !add0r.
  - by rewrite -tE ler_addl.
  - by rewrite -tE [X in _ < X]knotS ltr_add2l -nh.
exists (Num.min (t - kn i) (kn i.+1 - t)); first by rewrite lt_minr !subr_gt0 l.
split=> // m n g0 h; rewrite lt_minr => /andP [h1 h2]; rewrite (@curve_in _ _ g0 i) ?wuE //.
  have := le_lt_trans (ler_norm (- h)) _; rewrite normrN => /(_ _ h1).
  by rewrite ltr_subr_addr addrC ltr_subl_addr => /ltW.
by have := le_lt_trans (ler_norm h) h2; rewrite ltr_subr_addl.
Qed.
Let dtn' : dt != 0 := dtn.
Lemma curve_at0 m n (g : segfn m n) t : curve g (t + 0) = curve g t. Proof. by rewrite addr0. Qed.
Lemma curve_deriv m n (g g' : segfn m n) t : (forall P0 P1 P2 P3 P4, G P0 -> G P1 -> g P0 P1 P2 P3 1 dt = g P1 P2 P3 P4 0 dt) ->
  (forall P0 P1 P2 P3 P4, G P0 -> G P1 -> g' P0 P1 P2 P3 1 dt = g' P1 P2 P3 P4 0 dt) ->
  (forall P0 P1 P2 P3 u, G P0 -> is_mderiv (fun h => g P0 P1 P2 P3 (wu u dt h) dt) (g' P0 P1 P2 P3 u dt)) ->
  kn 1 < t -> t < kn (size cps - 2) -> is_mderiv (fun h => curve g (t + h)) (curve g' t).
Proof.
move=> kg kg' H lo hi; have [i [i0 [i2 [[d d0 [l u cE]]|[i1 tE cL cR]]]]] := window lo hi.
  rewrite (@curve_in _ _ g' i) ?(ltW l) // => r c.
  have gi : G (P i.-1) by apply: cpsG; apply: leq_ltn_trans (leq_pred _) _; exact: ltnW (ltnW i2).
  by apply: (deriv_near d0 _ (H _ _ _ _ _ gi r c)) => h hd; rewrite cE.
case: i i0 i1 i2 tE cL cR => // -[|i] // _ _ i2 tE cL cR.
have n0 : `|0 : T| < dt by rewrite normr0.
have s0 : (i < size cps)%N by do 4 apply: ltnW.
have s1 : (i.+1 < size cps)%N by do 3 apply: ltnW.
have c0E : curve g' t = g' (P i.+1) (P i.+2) (P i.+3) (P i.+4) 0 dt by have := cR _ _ g' 0 n0 (lexx _); rewrite addr0 wu0.
rewrite c0E => r c.
apply: (deriv_glue (g := fun h => g (P i) (P i.+1) (P i.+2) (P i.+3) (wu 1 dt h) dt r c)
  (h := fun h => g (P i.+1) (P i.+2) (P i.+3) (P i.+4) (wu 0 dt h) dt r c) dt0).
- by rewrite !wu0 (kg _ _ _ _ (P i.+4)) //; apply: cpsG.
- by rewrite cR.
- by move=> h h1 h2; rewrite cL.
- by move=> h h1 h2; rewrite cR.
- by rewrite -(kg' (P i)); [apply: H; exact: cpsG|exact: cpsG|exact: cpsG].
- by apply: H; exact: cpsG.
Qed.
Lemma curve_cont m n (g : segfn m n) t : (forall P0 P1 P2 P3 P4, G P0 -> G P1 -> g P0 P1 P2 P3 1 dt = g P1 P2 P3 P4 0 dt) ->
  (forall P0 P1 P2 P3 u, G P0 -> exists L, is_mderiv (fun h => g P0 P1 P2 P3 (wu u dt h) dt) L) ->
  kn 1 < t -> t < kn (size cps - 2) -> is_mcont (fun h => curve g (t + h)).
Proof.
move=> kg H lo hi; have [i [i0 [i2 [[d d0 [l u cE]]|[i1 tE cL cR]]]]] := window lo hi.
  have gi : G (P i.-1) by apply: cpsG; apply: leq_ltn_trans (leq_pred _) _; exact: ltnW (ltnW i2).
  have [L HL] := H (P i.-1) (P i) (P i.+1) (P i.+2) ((t - kn i) / dt) gi.
  move=> r c; apply: (@small_deriv _ _ (L r c)); apply: (deriv_near d0 _ (HL r c)) => h hd; by rewrite cE.
case: i i0 i1 i2 tE cL cR => // -[|i] // _ _ i2 tE cL cR.
have n0 : `|0 : T| < dt by rewrite normr0.
have s0 : (i < size cps)%N by do 4 apply: ltnW.
have s1 : (i.+1 < size cps)%N by do 3 apply: ltnW.
have [L HL] := H (P i) (P i.+1) (P i.+2) (P i.+3) 1 (cpsG s0).
have [K HK] := H (P i.+1) (P i.+2) (P i.+3) (P i.+4) 0 (cpsG s1).
move=> r c; have sL := small_deriv (HL r c); have sK := small_deriv (HK r c).
move=> eps e0; have [d1 d10 h1] := sL eps e0; have [d2 d20 h2] := sK eps e0.
exists (Num.min dt (Num.min d1 d2)); first by rewrite !lt_minr dt0 d10.
move=> h; rewrite !lt_minr => /and3P [td t1 t2]; rewrite [curve g (t + 0)]cR //.
case: (ltP h 0) => hs; last by rewrite cR //; exact: h2.
by rewrite cL // wu0 -(kg (P i)) //; try (by apply: cpsG); have := h1 h t1; rewrite wu0.
Qed.
End Glue.


(** *** Attitude and angular velocity *)
Section Attitude.
Variable T : archiFieldType.
Variable d : nat.
Notation k := (3 + 1)%N.
Variables (Exp : 'cV[T]_d -> 'M[T]_k) (Log : 'M[T]_k -> 'cV[T]_d) (ginv : 'M[T]_k -> 'M[T]_k) (wedge : 'cV[T]_d -> 'M[T]_k) (G : 'M[T]_k -> Prop).
Hypothesis laws : spline_laws Exp Log ginv wedge G.
Definition rot (X : 'M[T]_k) : 'M[T]_3 := @ulsubmx T 3 1 3 1 X.
Hypothesis ortho : forall X, G X -> (rot X)^T *m rot X = 1%:M.
(** the matrix of the cross product with v *)
Definition skew (v : 'cV[T]_3) : 'M[T]_3 := \matrix_(i, j)
  (if i == j then 0 else if (i == i0) && (j == i1) then - v i2 0 else if (i == i0) && (j == i2) then v i1 0
   else if (i == i1) && (j == i0) then v i2 0 else if (i == i1) && (j == i2) then - v i0 0
   else if (i == i2) && (j == i0) then - v i1 0 else v i0 0).
Lemma ord3 (P : 'I_3 -> Prop) : P i0 -> P i1 -> P i2 -> forall i, P i.
Proof.
move=> p0 p1 p2 [[|[|[|//]]] h].
- by rewrite (_ : Ordinal h = i0) //; apply/val_inj.
- by rewrite (_ : Ordinal h = i1) //; apply/val_inj.
- by rewrite (_ : Ordinal h = i2) //; apply/val_inj.
Qed.
Lemma skew_vee (W : 'M[T]_3) : W^T = - W -> skew (vee W) = W.
Proof.
move=> h; have e i j : W j i = - W i j by have := congr1 (fun A : 'M_3 => A i j) h; rewrite !mxE.
have e0 i : W i i = 0.
  apply/eqP; have /eqP : W i i *+ 2 = 0 by rewrite mulr2n {1}e addNr.
  by rewrite mulrn_eq0.
by apply/matrixP; elim/ord3; elim/ord3; rewrite !mxE //= ?e0 // [RHS]e.
Qed.
Lemma mderiv_vee (F : T -> 'M[T]_3) L : is_mderiv F L -> is_mderiv (fun h => vee (F h)) (vee L).
Proof.
move=> H i j; rewrite mxE; case: ifP => h0; [|case: ifP => h1].
- by apply: eq_deriv (H i2 i1) => h; rewrite mxE h0.
- by apply: eq_deriv (H i0 i2) => h; rewrite mxE h0 h1.
- by apply: eq_deriv (H i1 i0) => h; rewrite mxE h0 h1.
Qed.
Section Seg.
Variables (P0 P1 P2 P3 : 'M[T]_k) (dt u : T).
Hypothesis G0 : G P0.
Notation X := (seg_pose Exp Log ginv P0 P1 P2 P3).
Notation V u := (seg_vel Exp Log ginv wedge P0 P1 P2 P3 u dt).
Notation A u := (seg_acc Exp Log ginv wedge P0 P1 P2 P3 u dt).
Definition seg_w u := vee ((rot (X u))^T *m rot (V u)).
Definition seg_al u := vee ((rot (X u))^T *m (rot (A u) - rot (V u) *m ((rot (X u))^T *m rot (V u)))).
Lemma rot_deriv : is_mderiv (fun h => rot (X (wu u dt h))) (rot (V u)).
Proof. exact: mderiv_ul (seg_pose_deriv laws P0 P1 P2 P3 dt u). Qed.
Lemma rotd_deriv : is_mderiv (fun h => rot (V (wu u dt h))) (rot (A u)).
Proof. exact: mderiv_ul (seg_vel_deriv laws P0 P1 P2 P3 dt u). Qed.
Lemma rotO v : (rot (X v))^T *m rot (X v) = 1%:M.
Proof. by apply: ortho; apply: (seg_group laws). Qed.
Lemma rotO' v : rot (X v) *m (rot (X v))^T = 1%:M.
Proof. exact: mulmx1C (rotO v). Qed.
Lemma rot_skew : (rot (V u))^T *m rot (X u) = - ((rot (X u))^T *m rot (V u)).
Proof.
have H := mderivM (mderivT rot_deriv) rot_deriv; rewrite wu0 in H.
have K : is_mderiv (fun h => (rot (X (wu u dt h)))^T *m rot (X (wu u dt h))) 0.
  by apply: eq_mderiv (mderiv_const 1%:M) => h; rewrite rotO.
by have := mderiv_uniq H K => /eqP; rewrite addr_eq0 => /eqP.
Qed.
Lemma rotv_skew : rot (X u) *m skew (seg_w u) = rot (V u).
Proof.
rewrite /seg_w skew_vee ?mulmxA ?rotO' ?mul1mx //.
by rewrite trmx_mul trmxK rot_skew.
Qed.
Lemma w_deriv : is_mderiv (fun h => seg_w (wu u dt h)) (seg_al u).
Proof.
have H := mderiv_vee (mderivM (mderivT rot_deriv) rotd_deriv); rewrite wu0 in H.
move: H; set L := (Z in is_mderiv _ (vee Z) -> _).
rewrite /seg_al (_ : (rot (X u))^T *m _ = L) // /L mulmxBr addrC; congr (_ + _).
by rewrite !mulmxA -mulNmx -mulNmx -rot_skew -[_ *m (rot (X u))^T]mulmxA rotO' mulmx1.
Qed.
Lemma al_deriv : exists L, is_mderiv (fun h => seg_al (wu u dt h)) L.
Proof.
have [L /mderiv_ul H] := seg_acc_cont laws P0 P1 P2 P3 dt u.
eexists; apply: mderiv_vee; apply: mderivM; first exact: (mderivT rot_deriv).
apply: mderivB; first exact: H.
apply: mderivM; first exact: rotd_deriv.
by apply: mderivM; [exact: (mderivT rot_deriv)|exact: rotd_deriv].
Qed.
End Seg.
End Attitude.
