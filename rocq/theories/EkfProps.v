(** C15-C20: ExtendedKalmanFilter;  C21-C22: IteratedKalmanFilter. *)
From mathcomp Require Import all_ssreflect all_algebra.
From Verif Require Import Base Tac LinAlg CompositeProof EkfModel.
Set Implicit Arguments.
Unset Strict Implicit.
Unset Printing Implicit Defensive.
Import Order.Theory GRing.Theory Num.Theory.
Local Open Scope ring_scope.

Section Thms.
Variable R : realFieldType.
Variables (V : Type) (n : nat).
Variable plus : V -> 'cV[R]_n -> V.
Variable U : Type.
Variable ustamp : U -> option R.
Variable pm : process_model R V n U.
Variable chi2_99 : nat -> R.
Notation est := (est R V n).
Notation pstate := (pstate R V).
Notation measurement := (measurement R V n).
Notation predict := (ekf_predict ustamp pm).
Notation correct := (ekf_correct plus ustamp pm chi2_99).

(** The state at which covariances are evaluated: x_jac if given. *)
Definition jac_point (x : est) (x_jac : option pstate) : pstate :=
  if x_jac is Some s then s else est_state x.

(** No prediction is needed before fusing y: it has no stamp, or the stamp of
    the state, or it is not older than the state and there is no input. *)
Definition in_sync (x : est) (y : measurement) (u : option U) : Prop :=
  match m_stamp y, sstamp (est_state x) with
  | None, _ => True
  | Some ty, Some tx => ty = tx \/ (tx <= ty /\ u = None)
  | Some _, None => False
  end.

(** *** C15 *)
Theorem C15_predict_covariance x u dt t x_jac :
  sstamp (est_state x) = Some t -> 0 <= dt ->
  psd (est_cov x) -> psd (pm_cov pm (jac_point x x_jac) u dt) ->
  exists x',
    [/\ predict x (Some u) (Some dt) x_jac = Ok x',
        let A := pm_jac pm (est_state x) u dt in
        est_cov x' = A *m est_cov x *m A^T + pm_cov pm (jac_point x x_jac) u dt,
        psd (est_cov x'),
        sval (est_state x') = sval (pm_eval pm (est_state x) u dt) &
        sstamp (est_state x') = Some (t + dt)].
Proof.
move=> ht hdt hP hQ; eexists; split.
- by rewrite /ekf_predict ht /= ltNge hdt /=.
- have hs : psd (pm_jac pm (est_state x) u dt *m est_cov x *m (pm_jac pm (est_state x) u dt)^T + pm_cov pm (jac_point x x_jac) u dt).
    by apply: psdD => //; apply: psd_congr.
  by rewrite /= /symmetrize symmetrize_id //; case: hs.
- rewrite /= /symmetrize symmetrize_id; first by apply: psdD => //; apply: psd_congr.
  by apply: psd_sym; apply: psdD => //; apply: psd_congr.
- by [].
- by [].
Qed.

(** The covariance is symmetric whatever A, P, Q are. *)
Theorem C15_predict_symmetric x u dt x_jac x' :
  predict x (Some u) dt x_jac = Ok x' -> (est_cov x')^T = est_cov x'.
Proof.
rewrite /ekf_predict; case: (match _ with Some t => Ok t | None => _ end) => // t /=.
case: (match dt with Some t => Ok t | None => _ end) => // d /=; case: ifP => // _ [<-] /=.
by rewrite /symmetrize linearZ /= linearD /= trmxK addrC.
Qed.

Theorem C15_negative_dt_raises x u dt x_jac :
  dt < 0 -> sstamp (est_state x) != None ->
  predict x u (Some dt) x_jac = Raise RuntimeError.
Proof. by move=> h; rewrite /ekf_predict; case: (sstamp _) => //= t _; rewrite h. Qed.

Theorem C15_no_input_unchanged x dt x_jac t :
  sstamp (est_state x) = Some t -> 0 <= dt -> predict x None (Some dt) x_jac = Ok x.
Proof. by move=> ht h; rewrite /ekf_predict ht /= ltNge h. Qed.

(** With dt omitted, the step is the difference of the stamps. *)
Theorem C15_default_dt x u t tu x_jac :
  sstamp (est_state x) = Some t -> ustamp u = Some tu ->
  predict x (Some u) None x_jac = predict x (Some u) (Some (tu - t)) x_jac.
Proof. by move=> ht hu; rewrite /ekf_predict ht /= hu. Qed.

(** An unstamped state takes the stamp of the input; no stamp at all raises. *)
Theorem C15_unstamped_state x u dt x_jac tu :
  sstamp (est_state x) = None -> ustamp u = Some tu -> 0 <= dt ->
  exists2 x', predict x (Some u) (Some dt) x_jac = Ok x' & sstamp (est_state x') = Some (tu + dt).
Proof.
move=> hx hu hdt; eexists; first by rewrite /ekf_predict hx hu /= ltNge hdt /=.
by [].
Qed.

Theorem C15_no_stamp_raises x u dt x_jac :
  sstamp (est_state x) = None -> ustamp u = None ->
  predict x (Some u) dt x_jac = Raise ValueError.
Proof. by move=> hx hu; rewrite /ekf_predict hx hu. Qed.

(** *** correct: decomposition *)
Lemma advance_sync x y u : in_sync x y u -> ekf_advance ustamp pm (load_stamp x (m_stamp y)) y u = Ok x.
Proof.
rewrite /in_sync /load_stamp /ekf_advance; case: x => [[v [tx|]] P] /=; case: (m_stamp y) => [ty|] //=.
have h10 : 0 < e10 R by rewrite exprn_gt0 // ltr0n.
have h11 : 0 < em11 R by rewrite invr_gt0 exprn_gt0 // ltr0n.
case=> [->|[le ->]].
  rewrite subrr oppr_gt0 ltNge (ltW h10) /=; case: u => // u; by rewrite ltNge (ltW h11).
have -> : (ty - tx < - e10 R) = false.
  by apply/negbTE; rewrite -leNgt (@le_trans _ _ 0) ?oppr_le0 ?(ltW h10) // subr_ge0.
by [].
Qed.

(** A later measurement is first predicted to, then fused. *)
Theorem C16_predict_then_correct x y u tx ty x_jac rej :
  sstamp (est_state x) = Some tx -> m_stamp y = Some ty -> em11 R < ty - tx ->
  correct x y (Some u) x_jac rej =
  (xp <~ predict x (Some u) (Some (ty - tx)) None ;; correct xp y None x_jac rej).
Proof.
move=> hx hy h; have h11 : 0 < em11 R by rewrite invr_gt0 exprn_gt0 // ltr0n.
have h10 : 0 < e10 R by rewrite exprn_gt0 // ltr0n.
have hge : 0 < ty - tx by apply: lt_trans h.
rewrite /ekf_correct {1}/load_stamp hx {1}/ekf_advance hy hx h.
have -> : (ty - tx < - e10 R) = false.
  by apply/negbTE; rewrite -leNgt (@le_trans _ _ 0) ?oppr_le0 ?(ltW h10) // ltW.
rewrite {1 2}/ekf_predict hx /= ltNge (ltW hge) /=.
rewrite /load_stamp /= /ekf_advance hy /=.
have -> : tx + (ty - tx) = ty by rewrite addrCA subrr addr0.
by rewrite subrr oppr_gt0 ltNge (ltW h10).
Qed.

Section Correct.
Variables (x : est) (y : measurement) (u : option U) (x_jac : option pstate).
Let G := m_jac y (est_state x).
Let P := est_cov x.
Let Rm := m_cov y (jac_point x x_jac).
Let S := G *m P *m G^T + Rm.

(** *** C20 *)
Theorem C20_gain :
  S \in unitmx -> P^T = P -> Rm^T = Rm ->
  kalman_gain S P G = Ok (P *m G^T *m invmx S).
Proof.
move=> uS sP sR; have sS : S^T = S := S_sym G sP sR.
by rewrite /kalman_gain sS /np_solve uS /= trmx_mul trmxK (inv_sym sS).
Qed.

Theorem C20_gain_singular : S \notin unitmx -> kalman_gain S P G = Raise LinAlgError.
Proof. by move=> h; rewrite /kalman_gain /np_solve unitmx_tr (negbTE h). Qed.

Hypothesis sync : in_sync x y u.

Lemma correct_ok yc : m_eval y (est_state x) = Some yc ->
  psd P -> pd Rm ->
  let K := P *m G^T *m invmx S in
  correct x y u x_jac false =
  Ok (Est (pplus plus (est_state x) (K *m (m_val y - yc))) ((1%:M - K *m G) *m P)).
Proof.
move=> he hP hR K; have sP := psd_sym hP; have sR := pd_sym hR.
have uS : S \in unitmx by apply: pd_unit; apply: pdD_psd => //; apply: psd_congr.
rewrite /ekf_correct advance_sync //= he /= -/(jac_point x x_jac) -/Rm -/G -/P -/S C20_gain //=.
by rewrite -/K /symmetrize symmetrize_id // (post_sym sP sR uS).
Qed.

(** *** C16 *)
Theorem C16_correct_covariance yc :
  m_eval y (est_state x) = Some yc -> psd (est_cov x) -> pd (m_cov y (jac_point x x_jac)) ->
  exists2 x', correct x y u x_jac false = Ok x' &
    psd (est_cov x') /\ loewner (est_cov x') (est_cov x).
Proof.
move=> he hP hR; eexists; first exact: (correct_ok he hP hR).
have sP := psd_sym hP; have sR := pd_sym hR.
have hS : pd S by apply: pdD_psd => //; apply: psd_congr.
have uS := pd_unit hS.
set K := P *m G^T *m invmx S; rewrite /= -/P.
split; last first.
  rewrite /loewner (post_KSK sP sR uS) opprB addrC subrK; exact: psd_congr (pd_psd hS).
have := joseph sP sR uS K; rewrite subrr mul0mx mul0mx addr0 => <-.
by apply: psdD; apply: psd_congr => //; apply: pd_psd.
Qed.

(** With outlier rejection on, the call still succeeds and the result is still valid. *)
Theorem C16_correct_covariance_rejecting yc :
  m_eval y (est_state x) = Some yc -> psd (est_cov x) -> pd (m_cov y (jac_point x x_jac)) ->
  exists2 x', correct x y u x_jac true = Ok x' &
    psd (est_cov x') /\ loewner (est_cov x') (est_cov x).
Proof.
move=> he hP hR; have hS : pd S by apply: pdD_psd => //; apply: psd_congr.
have [x' E [h1 h2]] := C16_correct_covariance he hP hR.
move: E; rewrite /ekf_correct advance_sync //= he /= -/(jac_point x x_jac) -/Rm -/G -/P -/S => E.
rewrite /check_outlier /np_solve (pd_unit hS) /=; case: ifP => _; last by exists x'.
by exists x => //; split=> //; apply: loewner_refl.
Qed.

(** *** C17 *)
Theorem C17_minimum_variance yc x' :
  m_eval y (est_state x) = Some yc -> psd (est_cov x) -> pd (m_cov y (jac_point x x_jac)) ->
  correct x y u x_jac false = Ok x' ->
  forall L : 'M[R]_(n, m_dim y),
    loewner (est_cov x')
      (let G := m_jac y (est_state x) in
       (1%:M - L *m G) *m est_cov x *m (1%:M - L *m G)^T + L *m m_cov y (jac_point x x_jac) *m L^T).
Proof.
move=> he hP hR; rewrite (correct_ok he hP hR) => -[<-] L /=.
have sP := psd_sym hP; have sR := pd_sym hR.
have hS : pd S by apply: pdD_psd => //; apply: psd_congr.
rewrite -/G -/P -/Rm -/S /loewner (joseph sP sR (pd_unit hS)) [X in psd (X - _)]addrC addrK.
exact: psd_congr (pd_psd hS).
Qed.

Theorem C17_information_form yc x' :
  m_eval y (est_state x) = Some yc -> pd (est_cov x) -> pd (m_cov y (jac_point x x_jac)) ->
  correct x y u x_jac false = Ok x' ->
  let G := m_jac y (est_state x) in
  let Rinv := invmx (m_cov y (jac_point x x_jac)) in
  [/\ pd (est_cov x'),
      invmx (est_cov x') = invmx (est_cov x) + G^T *m Rinv *m G &
      est_state x' = pplus plus (est_state x) (est_cov x' *m G^T *m Rinv *m (m_val y - yc))].
Proof.
move=> he hP hR; rewrite (correct_ok he (pd_psd hP) hR) => -[<-] /=.
have sP := pd_sym hP; have sR := pd_sym hR.
have hS : pd S by apply: pdD_psd => //; apply: psd_congr; apply: pd_psd.
have e := post_info (pd_unit hS) (pd_unit hP) (pd_unit hR).
rewrite -/G -/P -/Rm -/S; set P' := (1%:M - _ *m G) *m P.
have [uP' uI] := mulmx1_unit e.
have ei : invmx P' = invmx P + G^T *m invmx Rm *m G.
  by rewrite -[LHS]mulmx1 -e mulmxA mulVmx // mul1mx.
split=> //; last by rewrite (gain_info (pd_unit hS) (pd_unit hR)).
rewrite -[P']invmxK ei; apply: pd_inv; rewrite addrC; apply: pdD_psd; last exact: pd_inv.
have := psd_congr G^T (pd_psd (pd_inv hR)); by rewrite trmxK.
Qed.

(** *** C18 *)
Theorem C18_unavailable_unchanged rej :
  m_eval y (est_state x) = None -> correct x y u x_jac rej = Ok x.
Proof. by move=> he; rewrite /ekf_correct advance_sync //= he. Qed.

Theorem C18_outlier_unchanged yc :
  m_eval y (est_state x) = Some yc ->
  S \in unitmx ->
  chi2_99 (m_dim y) < ((m_val y - yc)^T *m (invmx S *m (m_val y - yc))) 0 0 ->
  correct x y u x_jac true = Ok x.
Proof.
move=> he uS h; rewrite /ekf_correct advance_sync //= he /= -/(jac_point x x_jac) -/Rm -/G -/P -/S.
by rewrite /check_outlier /np_solve uS /= h.
Qed.

(** An inlier is fused exactly as without the test. *)
Theorem C18_inlier_fused yc :
  m_eval y (est_state x) = Some yc ->
  S \in unitmx ->
  ((m_val y - yc)^T *m (invmx S *m (m_val y - yc))) 0 0 <= chi2_99 (m_dim y) ->
  correct x y u x_jac true = correct x y u x_jac false.
Proof.
move=> he uS h; rewrite /ekf_correct advance_sync //= he /= -/(jac_point x x_jac) -/Rm -/G -/P -/S.
by rewrite /check_outlier /np_solve uS /= ltNge h.
Qed.
End Correct.

(** *** C19: the stale check never fires within 1e10 s: a measurement up to 1e10
    seconds old is fused as if it carried the state's stamp. *)
Theorem C19_stale_measurement_fused_refuted x y u tx ty x_jac rej :
  sstamp (est_state x) = Some tx -> m_stamp y = Some ty ->
  ty < tx -> tx - e10 R <= ty ->
  correct x y u x_jac rej =
  correct x (Measurement (m_val y) (Some tx) (m_eval y) (m_jac y) (m_cov y)) u x_jac rej.
Proof.
move=> hx hy lt ge; have h10 : 0 < e10 R by rewrite exprn_gt0 // ltr0n.
have h11 : 0 < em11 R by rewrite invr_gt0 exprn_gt0 // ltr0n.
rewrite /ekf_correct /load_stamp hx /ekf_advance hy hx /= subrr oppr_gt0 [in RHS]ltNge (ltW h10) /=.
have -> : (ty - tx < - e10 R) = false by apply/negbTE; rewrite -leNgt ler_subr_addr addrC.
have -> : (em11 R < 0) = false by rewrite ltNge (ltW h11).
have -> // : (em11 R < ty - tx) = false.
by rewrite ltNge (@le_trans _ _ 0) ?(ltW h11) // subr_le0 ltW.
Qed.

Theorem C19_very_stale_raises_partial x y u tx ty x_jac rej :
  sstamp (est_state x) = Some tx -> m_stamp y = Some ty ->
  ty < tx - e10 R -> correct x y u x_jac rej = Raise RuntimeError.
Proof.
move=> hx hy lt; rewrite /ekf_correct /load_stamp hx /ekf_advance hy hx /=.
by rewrite ltr_subl_addr addrC lt.
Qed.
End Thms.

(** *** C68: the documented Jacobian evaluation point has no effect on the
    Jacobians: if the noise covariances do not depend on the state, x_jac is
    ignored altogether. *)
Section XJac.
Variable R : realFieldType.
Variables (V : Type) (n : nat).
Variable plus : V -> 'cV[R]_n -> V.
Variable U : Type.
Variable ustamp : U -> option R.
Variable pm : process_model R V n U.
Variable chi2_99 : nat -> R.

Theorem C68_x_jac_ignored_by_predict_refuted x u dt x_jac :
  (forall s s' v d, pm_cov pm s v d = pm_cov pm s' v d) ->
  ekf_predict ustamp pm x u dt x_jac = ekf_predict ustamp pm x u dt None.
Proof.
move=> h; rewrite /ekf_predict; case: (match _ with Some t => Ok t | None => _ end) => // t /=.
case: (match dt with Some t => Ok t | None => _ end) => // d /=; case: ifP => // _.
by case: u => // u; rewrite (h (if x_jac is Some s then s else est_state x) (est_state x)).
Qed.

Theorem C68_x_jac_ignored_by_correct_refuted x y u x_jac rej :
  (forall s s', m_cov y s = m_cov y s') ->
  ekf_correct plus ustamp pm chi2_99 x y u x_jac rej = ekf_correct plus ustamp pm chi2_99 x y u None rej.
Proof.
move=> h; rewrite /ekf_correct; case: (ekf_advance _ _ _ _ _) => // x1 /=.
by case: (m_eval _ _) => // yc; rewrite (h (if x_jac is Some s then s else est_state x1) (est_state x1)).
Qed.
End XJac.

(** *** IteratedKalmanFilter *)
Section Iekf.
Variable R : realFieldType.
Variables (V : Type) (n : nat).
Variable plus : V -> 'cV[R]_n -> V.
Variable U : Type.
Variable ustamp : U -> option R.
Variable pm : process_model R V n U.
Variable chi2_99 : nat -> R.
Variable minus : V -> V -> 'cV[R]_n.
Variable plus_jac : V -> 'cV[R]_n -> 'M[R]_n.
Variable norm : 'cV[R]_n -> R.
Variable step_tol : R.
Notation est := (est R V n).
Notation pstate := (pstate R V).
Notation measurement := (measurement R V n).
Notation correct ls := (iekf_correct plus ustamp pm chi2_99 minus plus_jac norm step_tol ls).
Notation iter ls := (iekf_iter plus chi2_99 minus plus_jac norm step_tol ls).

(** The MAP cost of a candidate state [s]: half the squared Mahalanobis
    distance to the prior plus that of the innovation, with noise covariance
    [Rm].  [None] when the model gives no measurement at [s]. *)
Definition cost (prior : est) (y : measurement) (Rm : 'M[R]_(m_dim y)) (s : pstate) : option R :=
  if m_eval y s is Some yc then
    let e := minus (sval s) (sval (est_state prior)) in
    let z := m_val y - yc in
    Some (2%:R^-1 * (qf (invmx (est_cov prior)) e + qf (invmx Rm) z))
  else None.

Lemma backtrack_accepts fuel att c a (s : pstate) : backtrack step_tol fuel att c a = Some (Ok (Some s)) ->
  exists alpha k, [/\ step_tol < alpha, att alpha = Ok (s, k) & k < c].
Proof.
elim: fuel a => [|fuel IH] a /=; first by case: ifP.
case: ifP => // ha; case E: (att a) => [[s1 k]|] //; case: ifP => [h [<-]|_ /IH //].
by exists a, k.
Qed.

(** C21: every accepted iteration strictly decreases the cost. *)
Theorem C21_iteration_decreases_cost fuel x y rej x_op x_new :
  iter true fuel x y rej x_op = Some (Ok (IAccepted x_new)) ->
  exists c_old c_new,
    [/\ cost x (m_cov y x_op) x_op = Some c_old, cost x (m_cov y x_op) x_new = Some c_new & c_new < c_old].
Proof.
rewrite /iekf_iter /cost /innovation; case: (m_eval y x_op) => [yc|] //=.
rewrite /np_inv; case: ifP => // uP; case: ifP => // uR /=.
case: (if rej then _ else _) => // -[] //=; case: (kalman_gain _ _ _) => // K /=; case: ifP => // _.
case Eb: (backtrack _ _ _ _ _) => [[[s|]|]|] // [Es].
have [alpha [k [_ Ea lt]]] := backtrack_accepts Eb.
move: Ea; rewrite /attempt /innovation; case Ey: (m_eval y _) => [yn|] //= [E1 E2].
move: lt; rewrite -E2 /map_cost => lt.
rewrite -Es -E1; do 2 eexists; split; [reflexivity | by rewrite Ey; reflexivity | exact: lt].
Qed.

Lemma iekf_loop_cost iters fuel x y rej x_op o x_fin o' Rm c :
  (forall s, m_cov y s = Rm) -> cost x Rm x_op = Some c ->
  iekf_loop plus chi2_99 minus plus_jac norm step_tol true iters fuel x y rej x_op o = Some (Ok (x_fin, o')) ->
  exists2 c', cost x Rm x_fin = Some c' & c' <= c.
Proof.
move=> hR; elim: iters x_op o c => [|it IH] x_op o c hc /=; first by move=> [<- _]; exists c.
case E: (iter true fuel x y rej x_op) => [[[||x_new|]|]|] //=.
- by move=> [<- _]; exists c.
- by move=> [<- _]; exists c.
- have [co [cn [E1 E2 lt]]] := C21_iteration_decreases_cost E.
  rewrite hR in E1 E2; rewrite hc in E1; case: E1 => e1; rewrite -e1 in lt.
  by move=> /(IH _ _ _ E2) [c' E3 le]; exists c' => //; apply: le_trans le (ltW lt).
- by move=> [<- _]; exists c.
Qed.

(** C21: the returned state's cost never exceeds the prior's (noise covariance
    not depending on the state; prior already at the measurement's time). *)
Theorem C21_returned_cost max_iters fuel x y x_jac rej x' Rm c :
  m_stamp y = sstamp (est_state x) ->
  (forall s, m_cov y s = Rm) ->
  cost x Rm (est_state x) = Some c ->
  correct true max_iters fuel x y None x_jac rej = Some (Ok x') ->
  exists2 c', cost x Rm (est_state x') = Some c' & c' <= c.
Proof.
move=> hs hR hc; rewrite /iekf_correct.
have -> : iekf_advance ustamp pm (load_stamp x (m_stamp y)) y None = Ok x.
  rewrite /iekf_advance /load_stamp hs; case: x hs {hc} => [[v [t|]] P] //= _.
  by rewrite subrr ltxx.
case E: (iekf_loop _ _ _ _ _ _ _ _ _ _ _ _ _ _) => [[[x_op [[]|]]|]|] //.
  by move=> [<-] /=; exists c.
have [c' h1 h2] := iekf_loop_cost hR hc E.
by case: (kalman_gain _ _ _) => //= K [<-]; exists c'.
Qed.

(** C21: on an outlier (first iteration) the state and a symmetric covariance
    are returned unchanged. *)
Theorem C21_outlier_unchanged max_iters fuel ls x y yc x_jac :
  m_stamp y = sstamp (est_state x) -> (0 < max_iters)%N ->
  est_cov x \in unitmx -> m_cov y (est_state x) \in unitmx -> (est_cov x)^T = est_cov x ->
  m_eval y (est_state x) = Some yc ->
  minus (sval (est_state x)) (sval (est_state x)) = 0 -> plus_jac (sval (est_state x)) 0 = 1%:M ->
  (m_cov y (est_state x))^T = m_cov y (est_state x) ->
  let G := m_jac y (est_state x) in
  let S := G *m est_cov x *m G^T + m_cov y (est_state x) in
  S \in unitmx -> chi2_99 (m_dim y) < ((m_val y - yc)^T *m (invmx S *m (m_val y - yc))) 0 0 ->
  correct ls max_iters fuel x y None x_jac true = Some (Ok x).
Proof.
move=> hs; case: max_iters => // it _ uP uR sP he h0 hJ sR G S uS hchi; rewrite /iekf_correct.
have -> : iekf_advance ustamp pm (load_stamp x (m_stamp y)) y None = Ok x.
  rewrite /iekf_advance /load_stamp hs; case: x hs {uP uR sP he h0 hJ sR G S uS hchi} => [[v [t|]] P] //= _.
  by rewrite subrr ltxx.
rewrite /= /iekf_iter /innovation he /= /np_inv uP uR /= h0 hJ mul1mx trmx1 mulmx1.
rewrite {1}/symmetrize symmetrize_id; last by apply: S_sym.
rewrite /check_outlier /np_solve -/G -/S uS /= hchi /=.
by congr (Some (Ok _)); rewrite /symmetrize symmetrize_id //; case: (x).
Qed.

(** C21: the covariance returned is symmetric PSD whenever the prior is and the
    measurement noise is positive definite. *)
Theorem C21_covariance_psd max_iters fuel ls x y u x_jac rej x' xp :
  psd (est_cov xp) -> iekf_advance ustamp pm (load_stamp x (m_stamp y)) y u = Ok xp ->
  (forall s, pd (m_cov y s)) ->
  correct ls max_iters fuel x y u x_jac rej = Some (Ok x') -> psd (est_cov x').
Proof.
move=> hP hx hR; rewrite /iekf_correct hx.
case E: (iekf_loop _ _ _ _ _ _ _ _ _ _ _ _ _ _) => [[[x_op [[]|]]|]|] //.
  by move=> [<-] /=; rewrite /symmetrize symmetrize_id //; case: hP.
set xj := (if x_jac is Some s then s else x_op).
set G := m_jac y xj; set J := plus_jac _ _; set P := J *m est_cov xp *m J^T.
have hP' : psd P by apply: psd_congr.
have sP := psd_sym hP'; have sR := pd_sym (hR xj).
have hS : pd (G *m P *m G^T + m_cov y xj) by apply: pdD_psd => //; apply: psd_congr.
rewrite {1}/symmetrize symmetrize_id; last exact: S_sym.
rewrite (C20_gain (x := Est x_op P) (y := Measurement (m_val y) None (m_eval y) (fun _ => G) (m_cov y)) (x_jac := Some xj)) //=; last exact: pd_unit.
move=> [<-] /=; set K := P *m G^T *m _.
rewrite /symmetrize symmetrize_id; last by apply: post_sym => //; apply: pd_unit.
have := joseph sP sR (pd_unit hS) K; rewrite subrr mul0mx mul0mx addr0 => <-.
by apply: psdD; apply: psd_congr => //; apply: pd_psd.
Qed.

(** The iterated filter with max_iters = 0 always crashes (refutes "all iteration limits"). *)
Theorem C21_zero_iterations_refuted fuel ls x y x_jac rej :
  m_stamp y = sstamp (est_state x) ->
  correct ls 0 fuel x y None x_jac rej = Some (Raise UnboundLocalError).
Proof.
move=> hs; rewrite /iekf_correct.
have -> // : iekf_advance ustamp pm (load_stamp x (m_stamp y)) y None = Ok x.
rewrite /iekf_advance /load_stamp hs; case: x hs => [[v [t|]] P] //= _.
by rewrite subrr ltxx.
Qed.

(** C69: a model that returns None at the estimate (documented as "the measurement
    will not be fused") crashes the iterated filter. *)
Theorem C69_iekf_none_measurement_refuted max_iters fuel ls x y x_jac rej :
  m_stamp y = sstamp (est_state x) -> (0 < max_iters)%N ->
  m_eval y (est_state x) = None ->
  correct ls max_iters fuel x y None x_jac rej = Some (Raise AttributeError).
Proof.
move=> hs; case: max_iters => // it _ he; rewrite /iekf_correct.
have -> : iekf_advance ustamp pm (load_stamp x (m_stamp y)) y None = Ok x.
  rewrite /iekf_advance /load_stamp hs; case: x hs {he} => [[v [t|]] P] //= _.
  by rewrite subrr ltxx.
by rewrite /= /iekf_iter /innovation he.
Qed.

(** C19: the iterated filter does refuse every stale measurement. *)
Theorem C19_iekf_stale_raises max_iters fuel ls x y u tx ty x_jac rej :
  sstamp (est_state x) = Some tx -> m_stamp y = Some ty -> ty < tx ->
  correct ls max_iters fuel x y u x_jac rej = Some (Raise RuntimeError).
Proof.
by move=> hx hy lt; rewrite /iekf_correct /load_stamp hx /iekf_advance hy hx subr_lt0 lt.
Qed.

(** C22, negative tolerance: the search never ends if no trial decreases the cost. *)
Theorem C22_negative_tolerance_diverges fuel (att : R -> result (pstate * R)) c a :
  step_tol < 0 -> 0 < a ->
  (forall alpha, exists2 r, att alpha = Ok r & c <= r.2) ->
  backtrack step_tol fuel att c a = None.
Proof.
move=> ht; elim: fuel a => [|fuel IH] a ha H /=; first by rewrite (lt_trans ht ha).
rewrite (lt_trans ht ha); have [[s k] -> /= le] := H a; rewrite ltNge le /= IH //.
by rewrite mulr_gt0 // divr_gt0 // ltr0n.
Qed.
End Iekf.

Section Termination.
Variable R : archiFieldType.
Variables (V : Type) (n : nat).

Lemma geometric_below (tol : R) : 0 < tol -> exists N, (9%:R / 10%:R : R) ^+ N <= tol.
Proof.
move=> ht; set q : R := 10%:R / 9%:R.
have hq : q = 1 + 9%:R^-1.
  have n9 : 9%:R != 0 :> R by rewrite pnatr_eq0.
  by apply: (mulIf n9); rewrite /q mulfVK // mulrDl mulVf // mul1r -(natrD _ 9 1).
have bern k : 1 + k%:R / 9%:R <= q ^+ k.
  elim: k => [|k IH]; first by rewrite mul0r addr0 expr0.
  rewrite exprS; apply: le_trans (ler_wpmul2l _ IH); last by rewrite hq addr_ge0 ?ler01 ?invr_ge0 ?ler0n.
  rewrite hq mulrDl mul1r mulrDr mulr1 -[k.+1]addn1 natrD mulrDl mul1r.
  rewrite -!addrA ler_add2l ler_add2l ler_addl.
  by rewrite mulr_ge0 ?invr_ge0 ?ler0n // mulr_ge0 ?invr_ge0 ?ler0n.
have [N lt] : exists N, (9%:R * tol^-1) < N%:R :> R.
  by exists (Num.bound (9%:R * tol^-1)); apply: archi_boundP; rewrite mulr_ge0 ?ler0n ?invr_ge0 ?ltW.
exists N.
have q0 : 0 < q by rewrite divr_gt0 ?ltr0n.
have -> : (9%:R / 10%:R : R) = q^-1 by rewrite /q invf_div.
rewrite exprVn -[tol]invrK lef_pinv ?posrE ?invr_gt0 ?exprn_gt0 //.
apply: le_trans (bern N); apply: (@le_trans _ _ (N%:R / 9%:R)); last by rewrite ler_addr ler01.
by rewrite ler_pdivl_mulr ?ltr0n // mulrC ltW.
Qed.

Lemma backtrack_terminates (tol : R) N att c a :
  0 < tol -> a * (9%:R / 10%:R) ^+ N <= tol -> backtrack (V := V) tol N att c a <> None.
Proof.
move=> ht; elim: N a => [|N IH] a /=; first by rewrite expr0 mulr1 leNgt => /negbTE ->.
rewrite exprS mulrA => le; case: ifP => // _; case: (att a) => // -[s k]; case: ifP => // _.
exact: IH.
Qed.

Lemma iekf_terminates_at (plus : V -> 'cV[R]_n -> V) U (ustamp : U -> option R) (pm : process_model R V n U)
   chi2_99 minus plus_jac norm (tol : R) ls fuel max_iters x y u x_jac rej :
  0 < tol -> (9%:R / 10%:R : R) ^+ fuel <= tol ->
  iekf_correct plus ustamp pm chi2_99 minus plus_jac norm tol ls max_iters fuel x y u x_jac rej <> None.
Proof.
move=> ht hf; rewrite /iekf_correct; case: (iekf_advance _ _ _ _ _) => // xp.
suff H : forall x_op o, iekf_loop plus chi2_99 minus plus_jac norm tol ls max_iters fuel xp y rej x_op o <> None.
  by case E: (iekf_loop _ _ _ _ _ _ _ _ _ _ _ _ _ _) => [[[s [[]|]]|]|] //; have := H _ _ E.
elim: max_iters => // it IH x_op o /=.
case E: (iekf_iter _ _ _ _ _ _ _ _ _ _ _ _) => [[[||s|]|]|] //.
move: E; rewrite /iekf_iter.
case: (bind _ _) => // -[//|[[[Pi Ri] c] dx]].
case: ls {IH} => //.
case E: (backtrack _ _ _ _ _) => [[[s|]|]|] //.
by have := @backtrack_terminates tol fuel _ _ 1 ht _ E; rewrite mul1r.
Qed.

(** C22: for every positive tolerance there is ONE bound on the number of
    backtracking steps, whatever the models, states and cost: the call
    terminates. *)
Theorem C22_line_search_terminates (tol : R) : 0 < tol ->
  exists fuel, forall (plus : V -> 'cV[R]_n -> V) U (ustamp : U -> option R) (pm : process_model R V n U)
    chi2_99 minus plus_jac norm ls max_iters x y u x_jac rej,
  iekf_correct plus ustamp pm chi2_99 minus plus_jac norm tol ls max_iters fuel x y u x_jac rej <> None.
Proof.
move=> ht; have [N hN] := geometric_below ht; exists N => *.
exact: iekf_terminates_at.
Qed.
End Termination.

(** Witnesses: a constant-velocity filter on 'cV_2 with position measurements;
    the hypotheses of C15-C18 hold, with nontrivial Jacobians. *)
Section Witness.
Let F := [realFieldType of rat].
Let V := 'cV[F]_2.
Definition w_A (dt : F) : 'M[F]_2 := \matrix_(i, j) (if (i == 0) && (j == 1) then dt else (i == j)%:R).
Definition w_pm : process_model F V 2 F :=
  ProcessModel (fun s u dt => PState (w_A dt *m sval s + dt *: const_mx u) (sstamp s))
    (fun s u dt => w_A dt) (fun s u dt => dt *: 1%:M).
Definition w_y (t : option F) : measurement F V 2 :=
  @Measurement F V 2 1 (const_mx 3%:R) t
    (fun s => Some (const_mx (sval s 0 0))) (fun _ => delta_mx 0 0) (fun _ => 1%:M).
Definition w_x : est F V 2 := Est (PState (const_mx 1) (Some 0)) 1%:M.

Example C15_witness_hyps u dt : 0 <= dt ->
  psd (est_cov w_x) /\ psd (pm_cov w_pm (est_state w_x) u dt).
Proof. by move=> h; split; [apply: pd_psd; apply: pd1 | apply: psdZ => //; apply: pd_psd; apply: pd1]. Qed.

Example C16_witness_hyps :
  in_sync (U := F) w_x (w_y (Some 0)) (Some 1) /\
  m_eval (w_y (Some 0)) (est_state w_x) <> None /\
  pd (m_cov (w_y (Some 0)) (est_state w_x)) /\ pd (est_cov w_x).
Proof. by split; [left | split=> //; split; apply: pd1]. Qed.

(** the state does move: the corrected position is 2 (halfway between 1 and 3) *)
Example C16_witness_moves (chi : nat -> F) :
  exists2 x', ekf_correct (fun (v : V) d => v + d) (fun _ : F => None) w_pm chi w_x (w_y (Some 0)) None None false = Ok x' &
    sval (est_state x') 0 0 = 2%:R /\ est_cov x' 0 0 = 1 / 2%:R.
Proof.
have hs : in_sync (U := F) w_x (w_y (Some 0)) None by left.
have hR : pd (m_cov (w_y (Some 0)) (jac_point w_x None)) by apply: pd1.
eexists; first exact: (correct_ok (fun (v : V) d => v + d) (fun _ : F => None) w_pm chi hs (erefl _) (pd_psd (pd1 _ _)) hR).
have e1 : (delta_mx 0 0 : 'M[F]_(1,2)) *m 1%:M *m (delta_mx 0 0)^T + 1%:M = 2%:R *: (1%:M : 'M[F]_1).
  rewrite mulmx1 trmx_delta mul_delta_mx; apply/matrixP => i j; rewrite !ord1 !mxE /=.
  by vm_compute.
rewrite /= e1.
have -> : invmx (2%:R *: 1%:M : 'M[F]_1) = 2%:R^-1 *: 1%:M.
  rewrite invmxZ ?unitfE // ?invmx1 //.
  by rewrite scalemx1 unitmxE det_scalar unitfE.
rewrite mul1mx trmx_delta -scalemxAr mulmx1; split.
  rewrite !mxE big_ord1 !mxE big_ord1 !mxE /=; by vm_compute.
rewrite !mulmx1 -scalemxAl mul_delta_mx !mxE /=; by vm_compute.
Qed.
End Witness.

Print Assumptions C15_predict_covariance.
Print Assumptions C16_correct_covariance.
Print Assumptions C16_predict_then_correct.
Print Assumptions C17_minimum_variance.
Print Assumptions C17_information_form.
Print Assumptions C18_outlier_unchanged.
Print Assumptions C19_stale_measurement_fused_refuted.
Print Assumptions C20_gain.
Print Assumptions C21_returned_cost.
Print Assumptions C21_covariance_psd.
Print Assumptions C22_line_search_terminates.
