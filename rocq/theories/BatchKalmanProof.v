(** C90, filter side: along a linear history the batch cost of a trajectory is the
    filter's quadratic in the last state, plus a constant, plus a non-negative rest
    that can be brought to zero in exactly one way for each last state. *)
From mathcomp Require Import all_ssreflect all_algebra.
From Coq Require Import Permutation.
From Verif Require Import Base LinAlg Tac EkfModel EkfProps CholModel CholProof ResidualModel ResidualProps ProblemModel BatchKalmanModel MarginalProof.
Set Implicit Arguments.
Unset Strict Implicit.
Unset Printing Implicit Defensive.
Import Order.Theory GRing.Theory Num.Theory.
Local Open Scope ring_scope.

Section Filter.
Variable R : rcfType.
Variable n : nat.
Variable U : Type.
Variable ustamp : U -> option R.
Variable chi2_99 : nat -> R.
Notation cV := 'cV[R]_n.
Notation pstate := (pstate R cV).
Notation measurement := (measurement R cV n).
Notation event := (event R n U).
Variable pm : process_model R cV n U.

(** The process model is affine with constant noise: x' = F x + b, covariance Q. *)
Definition linear_process (F Q : U -> R -> 'M[R]_n) (b : U -> R -> cV) : Prop :=
  forall s u dt, [/\ sval (pm_eval pm s u dt) = F u dt *m sval s + b u dt,
                     pm_jac pm s u dt = F u dt & pm_cov pm s u dt = Q u dt].
(** The measurement is affine with constant noise: y = H x + h, covariance Rm. *)
Definition linear_measurement (y : measurement) (H : 'M[R]_(m_dim y, n)) (h : 'cV[R]_(m_dim y)) (Rm : 'M[R]_(m_dim y)) : Prop :=
  forall s, [/\ m_eval y s = Some (H *m sval s + h), m_jac y s = H & m_cov y s = Rm].

(** A history starting at time t: predictions over dt >= 0 with positive definite
    process noise; measurements affine with positive definite noise, taken at the
    current time (or unstamped). *)
Fixpoint linear_history (Q : U -> R -> 'M[R]_n) (t : R) (evs : seq event) : Prop :=
  match evs with
  | [::] => True
  | Predict u dt :: r => [/\ 0 <= dt, pd (Q u dt) & linear_history Q (t + dt) r]
  | Correct y :: r =>
      [/\ exists H h Rm, @linear_measurement y H h Rm /\ pd Rm,
          m_stamp y = None \/ m_stamp y = Some t & linear_history Q t r]
  end.
(** The times of the states: one per prediction, plus the first. *)
Fixpoint times (t : R) (evs : seq event) : seq R :=
  match evs with
  | [::] => [:: t]
  | Predict _ dt :: r => t :: times (t + dt) r
  | Correct _ :: r => times t r
  end.
(** Number of predictions. *)
Definition steps (evs : seq event) : nat := count (fun ev => if ev is Predict _ _ then true else false) evs.

(** The Mahalanobis cost of the trajectory x k, x k.+1, ... (states at times t, ...)
    under the models' own predictions of motion and measurements. *)
Fixpoint history_cost (k : nat) (t : R) (evs : seq event) (x : nat -> cV) : R :=
  match evs with
  | [::] => 0
  | Predict u dt :: r =>
      let s := PState (x k) (Some t) in
      mahalanobis (pm_cov pm s u dt) (x k.+1 - sval (pm_eval pm s u dt)) + history_cost k.+1 (t + dt) r x
  | Correct y :: r =>
      let s := PState (x k) (Some t) in
      (if m_eval y s is Some yc then mahalanobis (m_cov y s) (m_val y - yc) else 0) + history_cost k t r x
  end.
(** The cost of the whole trajectory, with its Gaussian prior on the first state. *)
Definition trajectory_cost (x0 : cV) (P0 : 'M[R]_n) (t0 : R) (evs : seq event) (x : nat -> cV) : R :=
  mahalanobis P0 (x 0%N - x0) + history_cost 0 t0 evs x.

Lemma last_times a t evs : last a (times t evs) = last t (times t evs).
Proof. by elim: evs a t => [|[u dt|m] r IH] a t //=; rewrite IH [RHS]IH. Qed.

Lemma mahaE m (P : 'M[R]_m) e : mahalanobis P e = qf (invmx P) e.
Proof. by []. Qed.

Lemma history_cost_ext k t evs x y : (forall j, (k <= j)%N -> x j = y j) -> history_cost k t evs x = history_cost k t evs y.
Proof.
elim: evs k t => [|[u dt|m] r IH] k t h //=.
  by rewrite !h ?leqnSn // IH // => j lt; apply: h; exact: leq_trans (leqnSn k) lt.
by rewrite !h // IH.
Qed.

Section Linear.
Variables (F Q : U -> R -> 'M[R]_n) (b : U -> R -> cV).
Hypothesis lin : linear_process F Q b.

Lemma kf_cost evs k t xh (P : 'M[R]_n) : pd P -> linear_history Q t evs ->
  exists xf c (D : (nat -> cV) -> R),
  [/\ kf_run ustamp chi2_99 pm (Est (PState xh (Some t)) P) evs = Ok xf,
      pd (est_cov xf) /\ sstamp (est_state xf) = Some (last t (times t evs)),
      forall x, mahalanobis P (x k - xh) + history_cost k t evs x =
        mahalanobis (est_cov xf) (x (k + steps evs)%N - sval (est_state xf)) + c + D x,
      (forall x, 0 <= D x) /\ (forall x y, (forall j, (k <= j <= k + steps evs)%N -> x j = y j) -> D x = D y) &
      (forall v, exists2 x, x (k + steps evs)%N = v & D x = 0) /\
      (forall x y, D x = 0 -> D y = 0 -> x (k + steps evs)%N = y (k + steps evs)%N ->
         forall j, (k <= j <= k + steps evs)%N -> x j = y j)].
Proof.
elim: evs k t xh P => [|[u dt|y] r IH] k t xh P hP.
- move=> _; exists (Est (PState xh (Some t)) P), 0, (fun _ => 0); split=> //=.
  + by move=> x; rewrite addn0 !addr0.
  + split=> [v|x y _ _]; first by exists (fun _ => v).
    by rewrite /steps /= addn0 => e j /andP [h1 h2]; have -> : j = k by apply/eqP; rewrite eqn_leq h2 h1.
- case=> dt0 hQ hr.
  have [e1 e2 e3] := lin (PState xh (Some t)) u dt.
  pose S := F u dt *m P *m (F u dt)^T + Q u dt; pose xp := F u dt *m xh + b u dt.
  have hS : pd S by apply: pdD_psd => //; apply: psd_congr (pd_psd hP).
  have ep : ekf_predict ustamp pm (Est (PState xh (Some t)) P) (Some u) (Some dt) None = Ok (Est (PState xp (Some (t + dt))) S).
    by rewrite /ekf_predict /= ltNge dt0 /= e1 e2 e3 /symmetrize (symmetrize_id (pd_sym hS)).
  have [xf [c [D [er [hp hs] hc [D0 Dx] [hre hon]]]]] := IH k.+1 (t + dt) xp S hS hr.
  pose K := P *m (F u dt)^T *m invmx S; pose Pp := (1%:M - K *m F u dt) *m P.
  have sq (x : nat -> cV) : mahalanobis P (x k - xh) + mahalanobis (Q u dt) (x k.+1 - (F u dt *m x k + b u dt)) =
     mahalanobis S (x k.+1 - xp) + qf (invmx Pp) ((x k - xh) - K *m (x k.+1 - xp)).
    have := complete_square (F u dt) (x k - xh) (x k.+1 - xp) hP hQ; rewrite /= -/S -/K -/Pp -!mahaE => <-.
    congr (_ + mahalanobis _ _); rewrite /xp mulmxBr; zmod.
  have hPp : pd Pp.
    have sP := pd_sym hP; have e := post_info (pd_unit hS) (pd_unit hP) (pd_unit hQ).
    have hL : pd (invmx P + (F u dt)^T *m invmx (Q u dt) *m F u dt).
      rewrite addrC; apply: pdD_psd; last exact: pd_inv.
      by rewrite -{2}[F u dt]trmxK; apply: psd_congr; apply: pd_psd; apply: pd_inv.
    have -> : Pp = invmx (invmx P + (F u dt)^T *m invmx (Q u dt) *m F u dt).
      by rewrite -[RHS]mul1mx -e mulmxK ?(pd_unit hL).
    exact: pd_inv.
  exists xf, c, (fun x => D x + qf (invmx Pp) ((x k - xh) - K *m (x k.+1 - xp))); split.
  + by rewrite /kf_run /= ep.
  + by rewrite /= last_times.
  + move=> x; have [_ _ e3'] := lin (PState (x k) (Some t)) u dt; have [e1' _ _] := lin (PState (x k) (Some t)) u dt.
    rewrite /= e3' e1' addrA sq [_ + _ + history_cost _ _ _ _]addrAC hc /= -!addrA.
    by rewrite addSnnS.
  + split=> [x|x y h]; first by rewrite addr_ge0 ?D0 // qf_inv_ge0.
    have hj j : (k <= j <= k.+1 + steps r)%N -> x j = y j by rewrite addSnnS; exact: h.
    rewrite (Dx x y) ?hj ?leqnn ?leqnSn ?leq_addr // ?addSn ?ltnS ?leq_addr ?(leq_trans (leq_addr _ _) (leqnSn _)) // => j /andP [l1 l2].
    by apply: hj; rewrite l2 (leq_trans (leqnSn k) l1).
  rewrite /steps /= -/(steps r) -addSnnS; split.
    move=> v; have [x xv dx] := hre v.
    pose x' j := if j == k then xh + K *m (x k.+1 - xp) else x j.
    exists x'; first by rewrite /x' -xv; case: eqP => // e; move: (leq_addr (steps r) k.+1); rewrite e ltnn.
    have -> : D x' = 0.
      by rewrite (Dx x' x) // => j /andP [lt _]; rewrite /x'; case: eqP => // e; move: lt; rewrite e ltnn.
    rewrite {1}/x' eqxx {1}/x' -[k.+1 == k]/(k.+1 == k) gtn_eqF // [xh + _]addrC addrK subrr.
    by rewrite /qf mulmx0 mxE addr0.
  move=> x y dx dy ef.
  have parts z : D z + qf (invmx Pp) ((z k - xh) - K *m (z k.+1 - xp)) = 0 -> D z = 0 /\ z k = xh + K *m (z k.+1 - xp).
    move/eqP; rewrite paddr_eq0 ?D0 ?qf_inv_ge0 // => /andP [/eqP -> /eqP /(qf_inv_eq0 hPp) /eqP].
    by rewrite subr_eq0 subr_eq addrC => /eqP ->.
  have [dx' kx] := parts x dx; have [dy' ky] := parts y dy.
  have same := hon x y dx' dy' ef.
  move=> j /andP [lo hi]; move: lo; rewrite leq_eqVlt => /orP [/eqP <-|lt]; last by apply: same; rewrite lt.
  by rewrite kx ky same // leqnn leq_addr.
case=> [[H [h [Rm [ly hR]]]] st hr].
have [e1 e2 e3] := ly (PState xh (Some t)).
pose S := H *m P *m H^T + Rm; pose K := P *m H^T *m invmx S; pose Pp := (1%:M - K *m H) *m P.
pose z := m_val y - (H *m xh + h).
have ec : ekf_correct (@vec_add R n) ustamp pm chi2_99 (Est (PState xh (Some t)) P) y None None false = Ok (Est (PState (xh + K *m z) (Some t)) Pp).
  have sync : in_sync (U := U) (Est (PState xh (Some t)) P) y None by rewrite /in_sync; case: st => -> //=; left.
  have hR' : pd (m_cov y (jac_point (Est (PState xh (Some t)) P) None)) by rewrite /jac_point /= e3.
  have := correct_ok (@vec_add R n) ustamp pm chi2_99 sync e1 (pd_psd hP) hR'.
  by rewrite /jac_point /= e2 e3.
have hS : pd S by apply: pdD_psd => //; apply: psd_congr (pd_psd hP).
have hPp : pd Pp.
  have sP := pd_sym hP; have e := post_info (pd_unit hS) (pd_unit hP) (pd_unit hR).
  have hL : pd (invmx P + H^T *m invmx Rm *m H).
    rewrite addrC; apply: pdD_psd; last exact: pd_inv.
    by rewrite -{2}[H]trmxK; apply: psd_congr; apply: pd_psd; apply: pd_inv.
  have -> : Pp = invmx (invmx P + H^T *m invmx Rm *m H).
    by rewrite -[RHS]mul1mx -e mulmxK ?(pd_unit hL).
  exact: pd_inv.
have [xf [c [D [er hp hc hD hre]]]] := IH k t (xh + K *m z) Pp hPp hr.
exists xf, (c + mahalanobis S z), D; split=> //; first by rewrite /kf_run /= ec.
move=> x /=; have [e1' _ e3'] := ly (PState (x k) (Some t)).
rewrite e1' e3' /= addrA.
have sq : mahalanobis P (x k - xh) + mahalanobis Rm (m_val y - (H *m x k + h)) = mahalanobis S z + mahalanobis Pp (x k - (xh + K *m z)).
  have := complete_square H (x k - xh) z hP hR; rewrite /= -/S -/K -/Pp -!mahaE.
  have -> : x k - xh - K *m z = x k - (xh + K *m z) by zmod.
  move=> <-; congr (_ + mahalanobis _ _); rewrite /z mulmxBr; zmod.
rewrite sq -addrA hc /steps /=.
zmod.
Qed.

(** C90, in terms of trajectories alone *)
Lemma kf_minimises x0 (P0 : 'M[R]_n) t0 evs : pd P0 -> linear_history Q t0 evs ->
  exists xf, kf_run ustamp chi2_99 pm (Est (PState x0 (Some t0)) P0) evs = Ok xf /\
   (exists2 x, x (steps evs) = sval (est_state xf) & forall x', trajectory_cost x0 P0 t0 evs x <= trajectory_cost x0 P0 t0 evs x') /\
   (forall x, (forall x', trajectory_cost x0 P0 t0 evs x <= trajectory_cost x0 P0 t0 evs x') -> x (steps evs) = sval (est_state xf)).
Proof.
move=> hP hh; have [xf [c [D [er [hp _] hc [D0 _] [hre _]]]]] := kf_cost 0 x0 hP hh.
have [x xe dx] := hre (sval (est_state xf)); rewrite add0n in xe hc.
have cx : trajectory_cost x0 P0 t0 evs x = c.
  by rewrite /trajectory_cost hc xe subrr dx /mahalanobis mulmx0 mxE add0r addr0.
have le x' : c <= trajectory_cost x0 P0 t0 evs x'.
  by rewrite /trajectory_cost hc [_ + c]addrC -addrA ler_addl addr_ge0 ?D0 // mahaE qf_inv_ge0.
exists xf; split=> //; split; first by exists x => // x'; rewrite cx.
move=> y hy; have := hy x; rewrite cx /trajectory_cost hc [_ + c]addrC -addrA ger_addl mahaE => l.
have : qf (invmx (est_cov xf)) (y (steps evs) - sval (est_state xf)) + D y == 0 by rewrite eq_le l addr_ge0 ?D0 ?qf_inv_ge0.
rewrite paddr_eq0 ?D0 ?qf_inv_ge0 // => /andP [/eqP /(qf_inv_eq0 hp) /eqP]; by rewrite subr_eq0 => /eqP ->.
Qed.
End Linear.
End Filter.
