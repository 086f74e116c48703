(** C65: where the control points are; C64: a motion of constant body velocity is reproduced exactly. *)
From mathcomp Require Import all_ssreflect all_algebra.
From Verif Require Import Base Tac UtilsModel UtilsProps2 DatagenModel DatagenProof BsplineModel BsplineProof BsplineCalc BsplineProps Deriv.
Set Implicit Arguments.
Unset Strict Implicit.
Unset Printing Implicit Defensive.
Import Order.Theory GRing.Theory Num.Theory.
Local Open Scope ring_scope.

Section Spline.
Variable T : archiFieldType.
Variables (p d : nat).
Notation k := (p + 1)%N.
Notation pose := (pose T p).
Variables (Exp : 'cV[T]_d -> 'M[T]_k) (Log : 'M[T]_k -> 'cV[T]_d) (ginv : 'M[T]_k -> 'M[T]_k) (wedge : 'cV[T]_d -> 'M[T]_k) (G : 'M[T]_k -> Prop).
Notation init := (init Exp Log ginv).
Notation get_pose := (get_pose Exp Log ginv).

(** C65: every control point lies on the geodesic between the two poses of the trajectory around its
    stamp, at the fraction of the interval that has elapsed. *)
Theorem C65_control_points p0 rest max_dt sp c : let traj := p0 :: rest in
  increasing_stamps traj -> rest <> [::] -> 0 < max_dt -> init traj max_dt = Ok sp -> List.In c (sp_ctrl sp) ->
  exists i, let a := nth p0 traj i in let b := nth p0 traj i.+1 in let s := (c.2 - a.2) / (b.2 - a.2) in
  [/\ (i.+1 < size traj)%N, a.2 <= c.2 < b.2, 0 <= s < 1 & c.1 = a.1 *m Exp (s *: Log (ginv a.1 *m b.1))].
Proof.
move=> traj incr rn md E hc; have [sp' [E' [_ dt0] _ cE cI]] := C65_construction Exp Log ginv incr rn md.
move: E'; rewrite E => -[spE]; rewrite -spE in dt0 cE cI.
have n0 : (0 < size traj)%N by [].
have cin : c.2 \in arange p0.2 (last p0 rest).2 (sp_dt sp).
  by rewrite -cE; elim: (sp_ctrl sp) hc => //= q l IH [->|/IH h]; rewrite inE ?eqxx ?h ?orbT.
have [j jl jE] := nthP 0 cin; rewrite nth_arange ?size_arange // in jE; last by rewrite size_arange in jl.
have lo : (nth p0 traj 0).2 <= c.2 by rewrite -jE /= ler_addl mulr_ge0 ?ler0n // ltW.
have hi : c.2 < (nth p0 traj (size traj).-1).2.
  by rewrite /traj /= -(last_nth p0 p0 rest) -jE -arange_lenP // -size_arange.
have [i [i1 i2 i3]] := locate incr n0 lo hi.
have [s0 s1 iE] := C59_between (se3_plus Exp) (se3_minus Log ginv) incr i1 i2 i3.
by exists i; split=> //; [rewrite i2|rewrite s0|move: iE; rewrite cI // => -[->]].
Qed.

Hypothesis laws : spline_laws Exp Log ginv wedge G.

Lemma between (X0 : 'M[T]_k) w (a b : T) : G X0 -> ginv (X0 *m Exp (a *: w)) *m (X0 *m Exp (b *: w)) = Exp ((b - a) *: w).
Proof.
move=> g0; have gX : G (X0 *m Exp (a *: w)) by apply: (sl_mul laws) => //; exact: (sl_exp laws).
have -> : X0 *m Exp (b *: w) = X0 *m Exp (a *: w) *m Exp ((b - a) *: w).
  by rewrite -mulmxA (sl_line laws) addrC subrK.
by rewrite mulmxA (mulmx1C (sl_mulV laws gX)) mul1mx.
Qed.

(** the motion through X0 at time t0 with the constant body velocity w *)
Definition motion (X0 : 'M[T]_k) (w : 'cV[T]_d) (t0 t : T) : 'M[T]_k := X0 *m Exp ((t - t0) *: w).

(** C64: if the poses of the trajectory are samples of a motion of constant body velocity, the spline IS
    that motion wherever it can be queried.  (Log has to return the increment between successive poses
    and control points, i.e. they turn by less than half a revolution.) *)
Theorem C64_constant_velocity X0 w p0 rest max_dt sp t : let traj := p0 :: rest in
  G X0 -> (forall q, List.In q traj -> q.1 = motion X0 w p0.2 q.2) ->
  (forall i, (i.+1 < size traj)%N -> let h := (nth p0 traj i.+1).2 - (nth p0 traj i).2 in Log (Exp (h *: w)) = h *: w) ->
  increasing_stamps traj -> rest <> [::] -> 0 < max_dt -> init traj max_dt = Ok sp ->
  Log (Exp (sp_dt sp *: w)) = sp_dt sp *: w ->
  p0.2 + sp_dt sp <= t -> t < p0.2 + (size (sp_ctrl sp) - 2)%:R * sp_dt sp ->
  get_pose sp t = Ok (Some (motion X0 w p0.2 t, t)).
Proof.
move=> traj g0 tE lE incr rn md E ldt lo hi.
have [sp' [E' [_ dt0] _ cE _]] := C65_construction Exp Log ginv incr rn md.
move: E'; rewrite E => -[spE]; rewrite -spE in dt0 cE.
set dt := sp_dt sp in dt0 cE ldt lo hi.
have inl (l : seq pose) j : (j < size l)%N -> List.In (nth p0 l j) l.
  by elim: l j => // q l IH [|j] /=; [left|rewrite ltnS => /IH; right].
have cM j : (j < size (sp_ctrl sp))%N -> (nth p0 (sp_ctrl sp) j).1 = X0 *m Exp ((j%:R * dt) *: w).
  move=> jl; have [i [i1 /andP [i2 i3] _ ->]] := C65_control_points incr rn md E (inl _ _ jl).
  rewrite (tE _ (inl _ _ (ltnW i1))) (tE _ (inl _ _ i1)) /motion between //.
  rewrite (stampE cE) // in i2 i3 *; rewrite -/traj /knot in i2 i3 *.
  set a := (nth p0 traj i).2 in i2 i3 *; set b := (nth p0 traj i.+1).2 in i3 *.
  have ab : b - a != 0 by rewrite gt_eqF // subr_gt0; exact: le_lt_trans i2 i3.
  rewrite (_ : b - p0.2 - (a - p0.2) = b - a); last by zmod.
  rewrite (lE i i1) -/a -/b scalerA divfK // -mulmxA (sl_line laws); congr (_ *m Exp (_ *: w)); zmod.
have lo1 : knot p0.2 dt 1 <= t by rewrite /knot mul1r.
have [i [i0 i2 l u]] := find_knot dt0 lo1 hi.
rewrite /BsplineModel.get_pose (query_in dt0 cE _ p0 erefl i0 i2 l u).
have i1 : (i.+1 < size (sp_ctrl sp))%N by exact: ltnW.
have il : (i < size (sp_ctrl sp))%N by exact: ltnW.
have ip : (i.-1 < size (sp_ctrl sp))%N by apply: leq_ltn_trans il; exact: leq_pred.
congr (Ok (Some (_, _))).
rewrite /seg_pose /A0 /A1 /A2 /om10 /om21 /om32 !cM // !between //.
have st j : (j.+1%:R * dt - j%:R * dt) = dt by rewrite -[j.+1]addn1 natrD mulrDl mul1r addrAC subrr add0r.
have sp1 : i%:R * dt - i.-1%:R * dt = dt by rewrite -{1}(prednK i0) st.
rewrite sp1 !st !ldt !scalerA -!mulmxA !(sl_line laws) /motion; congr (_ *m Exp (_ *: w)).
have pi : i.-1%:R = i%:R - 1 :> T by rewrite -{2}(prednK i0) -addn1 natrD addrK.
rewrite pi /basis0 /basis1 /basis2 /knot.
have e : dt * dt^-1 = 1 by rewrite divff // gt_eqF.
have s : (6%:R : T) * 6%:R^-1 = 1 by rewrite divff // pnatr_eq0.
set v := (t - _) / dt.
have ve : t - p0.2 = i%:R * dt + v * dt by rewrite /v -mulrA [_^-1 * _]mulrC e mulr1; zmod.
rewrite ve.
transitivity (i%:R * dt - dt + 6%:R * 6%:R^-1 * (dt + v * dt)); first by rng.
by rewrite s mul1r; zmod.
Qed.
End Spline.

(** C64: on such a trajectory the velocities returned are those of the motion: d/dt X = X w^. *)
Section Rates.
Variable T : archiFieldType.
Variable d : nat.
Notation k := (3 + 1)%N.
Variables (Exp : 'cV[T]_d -> 'M[T]_k) (Log : 'M[T]_k -> 'cV[T]_d) (ginv : 'M[T]_k -> 'M[T]_k) (wedge : 'cV[T]_d -> 'M[T]_k) (G : 'M[T]_k -> Prop).
Hypothesis laws : spline_laws Exp Log ginv wedge G.
Hypothesis ortho : forall X : 'M[T]_k, G X -> (@ulsubmx T 3 1 3 1 X)^T *m @ulsubmx T 3 1 3 1 X = 1%:M.
Theorem C64_constant_velocity_rates X0 w p0 rest max_dt sp t : let traj := p0 :: rest in
  G X0 -> (forall q, List.In q traj -> q.1 = motion Exp X0 w p0.2 q.2) ->
  (forall i, (i.+1 < size traj)%N -> let h := (nth p0 traj i.+1).2 - (nth p0 traj i).2 in Log (Exp (h *: w)) = h *: w) ->
  increasing_stamps traj -> rest <> [::] -> 0 < max_dt -> init Exp Log ginv traj max_dt = Ok sp ->
  Log (Exp (sp_dt sp *: w)) = sp_dt sp *: w ->
  p0.2 + sp_dt sp < t -> t < p0.2 + (size (sp_ctrl sp) - 2)%:R * sp_dt sp ->
  let X := motion Exp X0 w p0.2 t in
  exists om v, [/\ get_velocity Exp Log ginv wedge sp t = Ok (Some (om, v)),
     v = @ursubmx T 3 1 3 1 (X *m wedge w) & @ulsubmx T 3 1 3 1 X *m skew om = @ulsubmx T 3 1 3 1 (X *m wedge w)].
Proof.
move=> traj g0 tE lE incr rn md E ldt lo hi X.
have gX s : G (motion Exp X0 w p0.2 s) by apply: (sl_mul laws) => //; exact: (sl_exp laws).
have tG q : List.In q traj -> G q.1 by move/tE => ->.
have lo1 : p0.2 + 1%:R * sp_dt sp < t by rewrite mul1r.
have gp s : p0.2 + sp_dt sp <= s -> s < p0.2 + (size (sp_ctrl sp) - 2)%:R * sp_dt sp ->
    get_pose Exp Log ginv sp s = Ok (Some (motion Exp X0 w p0.2 s, s)).
  exact: (C64_constant_velocity laws g0 tE lE incr rn md E ldt).
have [X' [om [v [al [a [pE vE _ [D1 D2 _ _ _]]]]]]] := C64_kinematics laws ortho tG incr rn md E lo1 hi.
move: pE; rewrite gp // ?ltW // => -[XE]; rewrite -{X'}XE -/X in D2.
have DX : is_mderiv (fun h => motion Exp X0 w p0.2 (t + h)) (X *m wedge w).
  have := mderivMl (X0 *m Exp ((t - p0.2) *: w)) (sl_deriv laws w); apply: eq_mderiv => h.
  rewrite /motion -mulmxA (sl_line laws); congr (_ *m Exp (_ *: w)); zmod.
pose del := Num.min (t - (p0.2 + sp_dt sp)) (p0.2 + (size (sp_ctrl sp) - 2)%:R * sp_dt sp - t).
have del0 : 0 < del by rewrite lt_minr !subr_gt0 lo.
have near h : `|h| < del -> get_pose Exp Log ginv sp (t + h) = Ok (Some (motion Exp X0 w p0.2 (t + h), t + h)).
  rewrite ltr_norml lt_minr => /andP [h1 /andP [_ h2]].
  have h3 : - (t - (p0.2 + sp_dt sp)) < h by apply: le_lt_trans h1; rewrite ler_opp2 le_minl lexx.
  apply: gp; first by rewrite ltW // -ltr_subl_addl; apply: le_lt_trans h3; rewrite opprB.
  by rewrite -ltr_subr_addl.
exists om, v; split=> //.
- apply: (mderiv_uniq D1) => i j; apply: (deriv_near del0) (mderiv_ur DX i j) => h /near e.
  by rewrite /position_at e.
- apply: (mderiv_uniq D2) => i j; apply: (deriv_near del0) (mderiv_ul DX i j) => h /near e.
  by rewrite /attitude_at e.
Qed.
End Rates.

(** Witness: six poses one second apart, moving along x by 2 m per second. *)
Section Line.
Variable T : archiFieldType.
Definition lw : 'cV[T]_3 := 2%:R *: delta_mx ord0 0.
Definition lpose (j : nat) : pose T 3 := (tExp (j%:R *: lw), j%:R).
Definition ltraj := [seq lpose j | j <- iota 0 6].
Example C64_constant_velocity_instance : exists sp, init (@tExp T) (@tLog T) (@tinv T) ltraj 2%:R^-1 = Ok sp /\
  get_pose (@tExp T) (@tLog T) (@tinv T) sp 2%:R = Ok (Some (tExp (2%:R *: lw), 2%:R)).
Proof.
have incr : increasing_stamps ltraj by rewrite /increasing_stamps /= !ltr_nat.
have rn : behead ltraj <> [::] by [].
have md : 0 < 2%:R^-1 :> T by rewrite invr_gt0 ltr0n.
have [sp [E [dtE _] _ cE _]] := C65_construction (@tExp T) (@tLog T) (@tinv T) (p0 := lpose 0) (rest := behead ltraj) incr rn md.
have d1 : sp_dt sp = 1.
  by rewrite dtE /= subr0 divff ?pnatr_eq0 //; apply/max_idPr; rewrite invf_le1 ?ltr0n // ler1n.
have n5 : size (sp_ctrl sp) = 5%N.
  rewrite (sz cE) d1; apply/eqP; rewrite eqn_leq; apply/andP; split.
    by rewrite leqNgt arange_lenP ?ltr01 //= add0r mulr1 ltxx.
  by rewrite arange_lenP ?ltr01 //= add0r mulr1 ltr_nat.
have tE q : List.In q (lpose 0 :: behead ltraj) -> q.1 = motion (@tExp T) 1%:M lw (lpose 0).2 q.2.
  by rewrite /=; do 6 (case=> [<-|]; first by rewrite /motion mul1mx subr0).
have g1 : tG (1%:M : 'M[T]_(3 + 1)) by exists 0; rewrite tExp0.
exists sp; split=> //; have := C64_constant_velocity (@translation_laws T) (X0 := 1%:M) (w := lw) (t := 2%:R) g1 tE _ incr rn md E.
rewrite /motion mul1mx subr0; apply.
- by move=> i _ /=; rewrite tLogK.
- by rewrite tLogK.
- by rewrite d1 /= add0r ler1n.
- by rewrite n5 d1 /= add0r mulr1 ltr_nat.
Qed.
End Line.
Print Assumptions C64_constant_velocity_rates.
Print Assumptions C65_control_points.
Print Assumptions C64_constant_velocity.
