(** C78: what the IteratedKalmanFilter computes.  Every step is a Gauss-Newton step on the MAP cost,
    and on a linear measurement model the answer is that of the Kalman filter. *)
From mathcomp Require Import all_ssreflect all_algebra.
From Verif Require Import Base Tac LinAlg CompositeProof EkfModel EkfProps.
Set Implicit Arguments.
Unset Strict Implicit.
Unset Printing Implicit Defensive.
Import Order.Theory GRing.Theory Num.Theory.
Local Open Scope ring_scope.

Section Iekf.
Variable R : realFieldType.
Variables (V : Type) (n : nat).
Variable plus : V -> 'cV[R]_n -> V.
Variable U : Type.
Variable ustamp : U -> option R.
Variable pm : process_model R V n U.
Variable chi2_99 : nat -> R.
Variable minus : V -> V -> 'cV[R]_n.
Variable plus_jac : V -> 'cV[R]_n -> 'M[R]_n.
Variable norm : 'cV[R]_n -> R.
Variable step_tol : R.
Notation est := (est R V n).
Notation pstate := (pstate R V).
Notation measurement := (measurement R V n).
Notation iter ls := (iekf_iter plus chi2_99 minus plus_jac norm step_tol ls).

(** [dx] is a Gauss-Newton step at [s]: the normal equations of the cost
    1/2 |s - prior|^2_P + 1/2 |y - h(s)|^2_Rm, linearised at [s].  [J] is the Jacobian of plus at the
    deviation from the prior; its inverse is the Jacobian of that deviation. *)
Definition gauss_newton (prior : est) (y : measurement) (s : pstate) (dx : 'cV[R]_n) : Prop :=
  exists2 yc, m_eval y s = Some yc &
  let e := minus (sval s) (sval (est_state prior)) in
  let De := invmx (plus_jac (sval s) e) in
  let G := m_jac y s in
  let Pinv := invmx (est_cov prior) in
  let Rinv := invmx (m_cov y s) in
  (De^T *m Pinv *m De + G^T *m Rinv *m G) *m dx = - (De^T *m Pinv *m e) + G^T *m Rinv *m (m_val y - yc).

Lemma gn_algebra m (J : 'M[R]_n) (P : 'M[R]_n) (Rm : 'M[R]_m) (G : 'M[R]_(m, n)) (e : 'cV[R]_n) (z : 'cV[R]_m) :
  pd P -> pd Rm -> J \in unitmx ->
  let P1 := J *m P *m J^T in
  let S := G *m P1 *m G^T + Rm in
  let K := P1 *m G^T *m invmx S in
  let De := invmx J in
  (De^T *m invmx P *m De + G^T *m invmx Rm *m G) *m (- (J *m e) + K *m (z + G *m J *m e)) =
  - (De^T *m invmx P *m e) + G^T *m invmx Rm *m z.
Proof.
move=> hP hR uJ P1 S K De.
have hP1 : pd P1 by apply: pd_congr.
have hS : pd S by apply: pdD_psd => //; apply: psd_congr; apply: pd_psd.
have eP : De^T *m invmx P *m De = invmx P1.
  have uJt : J^T \in unitmx by rewrite unitmx_tr.
  have e1 : (De^T *m invmx P *m De) *m P1 = 1%:M.
    rewrite /P1 /De -!mulmxA (mulmxA (invmx J) J) mulVmx // mul1mx.
    by rewrite (mulmxA (invmx P) P) mulVmx ?pd_unit // mul1mx -trmx_mul mulmxV // trmx1.
  by rewrite -[LHS]mulmx1 -(mulmxV (pd_unit hP1)) mulmxA e1 mul1mx.
have eK : (invmx P1 + G^T *m invmx Rm *m G) *m K = G^T *m invmx Rm.
  have i1 := post_info (pd_unit hS) (pd_unit hP1) (pd_unit hR).
  have g1 := gain_info (P := P1) (G := G) (pd_unit hS) (pd_unit hR).
  rewrite -/S -/K in i1 g1.
  have i2 : (invmx P1 + G^T *m invmx Rm *m G) *m ((1%:M - K *m G) *m P1) = 1%:M by apply: mulmx1C.
  have -> : (invmx P1 + G^T *m invmx Rm *m G) *m K = (invmx P1 + G^T *m invmx Rm *m G) *m ((1%:M - K *m G) *m P1) *m (G^T *m invmx Rm).
    by rewrite -[in LHS]g1 !mulmxA.
  by rewrite i2 mul1mx.
rewrite eP mulmxDr [X in _ + X]mulmxA eK mulmxN mulmxDl mulmxDr.
have -> : De^T *m invmx P *m e = invmx P1 *m (J *m e).
  by rewrite -eP -!mulmxA (mulmxA (invmx J) J) mulVmx // mul1mx.
by mxexp; zmod.
Qed.

Lemma backtrack_step fuel att c a (s : pstate) : 0 <= step_tol -> 
  backtrack step_tol fuel att c a = Some (Ok (Some s)) ->
  exists alpha k, [/\ 0 < alpha, alpha <= a & att alpha = Ok (s, k)].
Proof.
move=> h0; elim: fuel a => [|fuel IH] a /=; first by case: ifP.
case: ifP => // ha; have a0 : 0 < a by apply: le_lt_trans ha.
case E: (att a) => [[s1 k]|] //; case: ifP => [h [<-]|_ /IH].
  by exists a, k.
move=> [alpha [k1 [h1 h2 h3]]]; exists alpha, k1; split=> //; apply: (le_trans h2).
by rewrite -[X in _ <= X]mulr1 ler_pmul2l // ler_pdivr_mulr ?ltr0n // mul1r ler_nat.
Qed.

(** C78: an iteration that moves the operating point moves it along a Gauss-Newton step, by a
    fraction in ]0, 1] of it (all of it without the line search). *)
Theorem C78_iteration_is_gauss_newton ls fuel x y rej x_op x_new :
  0 <= step_tol -> pd (est_cov x) -> pd (m_cov y x_op) ->
  plus_jac (sval x_op) (minus (sval x_op) (sval (est_state x))) \in unitmx ->
  iter ls fuel x y rej x_op = Some (Ok (IAccepted x_new)) ->
  exists alpha dx, [/\ gauss_newton x y x_op dx, 0 < alpha <= 1, ls = false -> alpha = 1 &
                       x_new = pplus plus x_op (alpha *: dx)].
Proof.
move=> h0 hP hR uJ; rewrite /iekf_iter /innovation.
set e := minus _ _; set J := plus_jac _ _; set G := m_jac y x_op; set Rm := m_cov y x_op.
case Ey: (m_eval y x_op) => [yc|] //=.
rewrite /np_inv (pd_unit hP) (pd_unit hR) /=.
have hP1 : pd (J *m est_cov x *m J^T) by apply: pd_congr.
have hS : pd (G *m (J *m est_cov x *m J^T) *m G^T + Rm).
  by apply: pdD_psd => //; apply: psd_congr; apply: pd_psd.
rewrite /symmetrize (symmetrize_id (pd_sym hS)).
case: (if rej then _ else _) => // -[] //=.
rewrite /kalman_gain (pd_sym hS) /np_solve (pd_unit hS) /=.
rewrite [in X in X = _ -> _]trmx_mul !trmxK (inv_sym (pd_sym hS)) => //.
set dx := - (J *m e) + _.
have gn : gauss_newton x y x_op dx.
  exists yc => //; have := @gn_algebra _ J (est_cov x) Rm G e (m_val y - yc) hP hR uJ.
  by rewrite /= -mulmxA.
case: ifP => // _; case: ls => /=; last first.
  by move=> [<-]; exists 1, dx; split=> //; rewrite ?ltr01 ?lexx // scale1r.
case Eb: (backtrack _ _ _ _ _) => [[[s|]|]|] // [<-].
have [alpha [k [a0 a1 Ea]]] := backtrack_step h0 Eb.
exists alpha, dx; split=> //; first by rewrite a0 a1.
by move: Ea; rewrite /attempt /innovation; case: (m_eval y _) => [yn|] //= [<-].
Qed.

(** C78: the iterations stop by themselves only where the Gauss-Newton step is below the tolerance
    (or when the line search fails, or on an outlier). *)
Theorem C78_small_step ls fuel x y rej x_op :
  pd (est_cov x) -> pd (m_cov y x_op) ->
  plus_jac (sval x_op) (minus (sval x_op) (sval (est_state x))) \in unitmx ->
  iter ls fuel x y rej x_op = Some (Ok (ISmall _ _)) ->
  exists2 dx, gauss_newton x y x_op dx & norm dx < step_tol.
Proof.
move=> hP hR uJ; rewrite /iekf_iter /innovation.
set e := minus _ _; set J := plus_jac _ _; set G := m_jac y x_op; set Rm := m_cov y x_op.
case Ey: (m_eval y x_op) => [yc|] //=.
rewrite /np_inv (pd_unit hP) (pd_unit hR) /=.
have hP1 : pd (J *m est_cov x *m J^T) by apply: pd_congr.
have hS : pd (G *m (J *m est_cov x *m J^T) *m G^T + Rm).
  by apply: pdD_psd => //; apply: psd_congr; apply: pd_psd.
rewrite /symmetrize (symmetrize_id (pd_sym hS)).
case: (if rej then _ else _) => // -[] //=.
rewrite /kalman_gain (pd_sym hS) /np_solve (pd_unit hS) /=.
rewrite trmx_mul !trmxK (inv_sym (pd_sym hS)).
set dx := - (J *m e) + _.
have gn : gauss_newton x y x_op dx.
  exists yc => //; have := @gn_algebra _ J (est_cov x) Rm G e (m_val y - yc) hP hR uJ.
  by rewrite /= -mulmxA.
case: ifP => [h _|_]; first by exists dx.
case: ls => //=; by case: (backtrack _ _ _ _ _) => [[[s|]|]|].
Qed.
End Iekf.

(** *** Linear measurements of a vector state *)
Section Linear.
Variable R : realFieldType.
Variable n : nat.
Notation V := 'cV[R]_n.
Variable U : Type.
Variable ustamp : U -> option R.
Variable pm : process_model R V n U.
Variable chi2_99 : nat -> R.
Variable norm : V -> R.
Variable step_tol : R.
Notation est := (est R V n).
Notation pstate := (pstate R V).
Notation measurement := (measurement R V n).
(** VectorState: plus, minus and the Jacobian of plus (states.py:36-52) *)
Let plus (v d : V) := v + d.
Let minus (v w : V) := v - w.
Let plus_jac (v d : V) : 'M[R]_n := 1%:M.
Notation ekf := (ekf_correct plus ustamp pm chi2_99).
Notation iekf ls := (iekf_correct plus ustamp pm chi2_99 minus plus_jac norm step_tol ls).
Notation iter ls := (iekf_iter plus chi2_99 minus plus_jac norm step_tol ls).

(** The parallel sum A - A (A + B)^-1 A is positive semidefinite. *)
Lemma parallel_sum m (A B : 'M[R]_m) : psd A -> psd B -> A + B \in unitmx ->
  psd (A - A *m invmx (A + B) *m A).
Proof.
move=> hA hB uS; set Si := invmx (A + B).
have sSi : Si^T = Si by apply: inv_sym; rewrite linearD /= (psd_sym hA) (psd_sym hB).
have eB : B *m Si = 1%:M - A *m Si.
  by rewrite -(mulmxV uS) mulmxDl addrC addKr.
have eB' : Si *m B = 1%:M - Si *m A.
  by rewrite -(mulVmx uS) mulmxDr addrC addKr.
have -> : A - A *m Si *m A = (B *m Si) *m A *m (B *m Si)^T + (A *m Si) *m B *m (A *m Si)^T.
  rewrite !trmx_mul sSi (psd_sym hA) (psd_sym hB).
  have -> : A *m Si *m B *m (Si *m A) = A *m (Si *m B) *m Si *m A by rewrite !mulmxA.
  rewrite eB eB'; mxexp; zmod.
by apply: psdD; apply: psd_congr.
Qed.

(** The Mahalanobis distance of the innovation does not grow. *)
Lemma mahalanobis_shrinks m (A B : 'M[R]_m) (z : 'cV[R]_m) : pd A -> psd B ->
  let z' := z - B *m invmx (B + A) *m z in
  is_true ((z'^T *m (invmx (B + A) *m z')) 0 0 <= (z^T *m (invmx (B + A) *m z)) 0 0).
Proof.
move=> hA hB; set S := B + A; move=> z'; have hS : pd S by apply: pdD_psd.
have uS := pd_unit hS; have sS := pd_sym hS.
have sSi := inv_sym sS.
pose w := invmx S *m z.
have ez : z = S *m w by rewrite /w mulmxA mulmxV // mul1mx.
have ez' : z' = A *m w by rewrite /z' -mulmxA -/w {1}ez /S mulmxDl addrC addKr.
have -> : (z^T *m (invmx S *m z)) 0 0 = qf S w.
  by rewrite -/w {1}ez trmx_mul sS /qf.
have -> : (z'^T *m (invmx S *m z')) 0 0 = qf (A *m invmx S *m A) w.
  by rewrite ez' trmx_mul (pd_sym hA) /qf !mulmxA.
have h1 := (psdD hB (parallel_sum (pd_psd hA) hB _)).
have e : A + B = S by rewrite addrC.
rewrite e in h1; case: (h1 uS) => _ /(_ w).
rewrite addrA -/S -[X in S - X]/(A *m invmx S *m A) -subr_ge0 => h; move: h.
by rewrite qfB subr_ge0 subr_ge0.
Qed.

Section One.
Variables (x : est) (y : measurement).
Variables (C : 'M[R]_(m_dim y, n)) (d : 'cV[R]_(m_dim y)) (Rm : 'M[R]_(m_dim y)).
Hypothesis lin : forall s, [/\ m_eval y s = Some (C *m sval s + d), m_jac y s = C & m_cov y s = Rm].
Hypothesis hP : pd (est_cov x).
Hypothesis hR : pd Rm.
Hypothesis htol : 0 < step_tol < 1.
Hypothesis norm0 : norm 0 = 0.
Let P := est_cov x.
Let xh := sval (est_state x).
Let S : 'M[R]_(m_dim y) := C *m P *m C^T + Rm.
Let K : 'M[R]_(n, m_dim y) := P *m C^T *m invmx S.
Let z0 : 'cV[R]_(m_dim y) := m_val y - (C *m xh + d).

Lemma hS : pd S. Proof. by apply: pdD_psd => //; apply: psd_congr; apply: pd_psd. Qed.

(** one iteration from any operating point *)
Lemma iter_linear ls fuel rej s :
  iter ls fuel x y rej s =
  (let z := m_val y - (C *m sval s + d) in
   let dx := K *m z0 - (sval s - xh) in
   if rej && (chi2_99 (m_dim y) < (z^T *m (invmx S *m z)) 0 0) then Some (Ok (IOutlier _ _)) else
   if norm dx < step_tol then Some (Ok (ISmall _ _)) else
   if ls then
     match backtrack step_tol fuel (attempt plus minus x (y := y) (invmx P) (invmx Rm) s dx) (map_cost (invmx P) (invmx Rm) (sval s - xh) z) 1 with
        | None => None
        | Some (Raise ex) => Some (Raise ex)
        | Some (Ok (Some x_new)) => Some (Ok (IAccepted x_new))
        | Some (Ok None) => Some (Ok (IRejected _ _))
        end
   else Some (Ok (IAccepted (pplus plus s dx)))).
Proof.
have [e1 e2 e3] := lin s.
rewrite /iekf_iter /innovation e1 e2 e3 /= /np_inv (pd_unit hP) (pd_unit hR) /=.
rewrite /plus_jac trmx1 mulmx1 !mul1mx -/P -/S /symmetrize (symmetrize_id (pd_sym hS)).
rewrite /check_outlier /kalman_gain (pd_sym hS) /np_solve (pd_unit hS) /=.
rewrite trmx_mul !trmxK (inv_sym (pd_sym hS)) -/K mulmx1.
have -> : - minus (sval s) xh + K *m (m_val y - (C *m sval s + d) + C *m minus (sval s) xh)
          = K *m z0 - (sval s - xh).
  by rewrite /minus /z0 addrC; congr (_ *m _ - _); mxexp; zmod.
case: rej => /=.
  case: ifP => //= _; by case: ifP.
by case: ifP.
Qed.

(** the full step from the prior mean decreases the cost strictly, unless it is zero *)
Lemma full_step_decreases : K *m z0 != 0 ->
  map_cost (invmx P) (invmx Rm) (K *m z0) (m_val y - (C *m (xh + K *m z0) + d)) <
  map_cost (invmx P) (invmx Rm) 0 z0.
Proof.
set dl := K *m z0 => dl0.
have i1 := post_info (pd_unit hS) (pd_unit hP) (pd_unit hR).
have g1 := gain_info (P := P) (G := C) (pd_unit hS) (pd_unit hR).
rewrite -/S -/K -/P in i1 g1.
pose A := invmx P + C^T *m invmx Rm *m C.
have eA : A *m dl = C^T *m invmx Rm *m z0.
  have i2 : A *m ((1%:M - K *m C) *m P) = 1%:M by apply: mulmx1C.
  have -> : A *m dl = A *m ((1%:M - K *m C) *m P) *m (C^T *m invmx Rm) *m z0.
    by rewrite /dl -[in LHS]g1 !mulmxA.
  by rewrite i2 mul1mx.
have hA : pd A.
  rewrite /A addrC; apply: pdD_psd; last exact: pd_inv.
  by have := psd_congr C^T (pd_psd (pd_inv hR)); rewrite trmxK.
have -> : m_val y - (C *m (xh + dl) + d) = z0 - C *m dl by rewrite /z0; mxexp; zmod.
rewrite /map_cost ltr_pmul2l ?invr_gt0 ?ltr0n // -subr_gt0.
have -> : ((0 : V)^T *m invmx P *m (0 : V)) 0 0 + (z0^T *m invmx Rm *m z0) 0 0
   - ((dl^T *m invmx P *m dl) 0 0 + ((z0 - C *m dl)^T *m invmx Rm *m (z0 - C *m dl)) 0 0) = qf A dl; last first.
  by case: hA => _; apply.
have e : z0^T *m invmx Rm *m (C *m dl) = dl^T *m A *m dl.
  have := congr1 trmx eA; rewrite !trmx_mul trmxK (inv_sym (pd_sym hR)) (pd_sym hA) => ->.
  by rewrite !mulmxA.
have e' : dl^T *m C^T *m invmx Rm *m z0 = dl^T *m A *m dl 
    by rewrite -[RHS]mulmxA eA !mulmxA.
clearbody dl; clearbody z0.
have -> : (z0 - C *m dl)^T *m invmx Rm *m (z0 - C *m dl) =
   z0^T *m invmx Rm *m z0 - z0^T *m invmx Rm *m (C *m dl) - dl^T *m C^T *m invmx Rm *m z0
   + dl^T *m (C^T *m invmx Rm *m C) *m dl.
  by rewrite [(z0 - C *m dl)^T]linearB /= trmx_mul; mxexp; zmod.
rewrite e e' mulmx0 /qf /A mulmxDr mulmxDl !mxE.
rng.
Qed.

Lemma iekf_advance_sync u : in_sync x y u -> iekf_advance ustamp pm (load_stamp x (m_stamp y)) y u = Ok x.
Proof.
rewrite /in_sync /load_stamp /iekf_advance; case: x => [[v [tx|]] Q] /=; case: (m_stamp y) => [ty|] //=.
case=> [->|[le ->]]; first by rewrite subrr ltxx; case: u.
by rewrite subr_lt0 ltNge le.
Qed.

Lemma post_linear : symmetrize ((1%:M - K *m C) *m P) = (1%:M - K *m C) *m P.
Proof. by rewrite /symmetrize symmetrize_id // (post_sym (pd_sym hP) (pd_sym hR) (pd_unit hS)). Qed.

Lemma gain_linear : kalman_gain S P C = Ok K.
Proof.
by rewrite /kalman_gain (pd_sym hS) /np_solve (pd_unit hS) /= trmx_mul trmxK (inv_sym (pd_sym hS)).
Qed.

Lemma ekf_linear u x_jac rej : in_sync x y u ->
  ekf x y u x_jac rej =
  Ok (if rej && (chi2_99 (m_dim y) < (z0^T *m (invmx S *m z0)) 0 0) then x
      else Est (pplus plus (est_state x) (K *m z0)) ((1%:M - K *m C) *m P)).
Proof.
move=> sync; have [e1 e2 _] := lin (est_state x); have [_ _ e3] := lin (jac_point x x_jac).
have ez : m_val y - (C *m sval (est_state x) + d) = z0 by [].
rewrite /ekf_correct (advance_sync _ _ sync) [bind _ _]/= e1 e2 -/(jac_point x x_jac) e3 -/P -/S ez.
rewrite gain_linear [bind (Ok K) _]/= post_linear /check_outlier /np_solve (pd_unit hS) /=.
case: rej => //=; by case: ifP.
Qed.

Notation loop ls := (iekf_loop plus chi2_99 minus plus_jac norm step_tol ls).
Lemma finish_linear ls iters fuel u x_jac rej s : in_sync x y u ->
  loop ls iters fuel x y rej (est_state x) None = Some (Ok (s, Some false)) ->
  iekf ls iters fuel x y u x_jac rej = Some (Ok (Est s ((1%:M - K *m C) *m P))).
Proof.
move=> sync hl; rewrite /iekf_correct (iekf_advance_sync sync) hl.
case: (lin (if x_jac is Some s' then s' else s)) => _ -> ->.
rewrite /plus_jac trmx1 mulmx1 mul1mx -/P -/S.
have -> : symmetrize S = S by rewrite /symmetrize (symmetrize_id (pd_sym hS)).
by rewrite gain_linear /= post_linear.
Qed.

(** the second iteration, at the full step, stops *)
Lemma second_iter ls fuel rej s :
  sval s = xh + K *m z0 -> rej && (chi2_99 (m_dim y) < (z0^T *m (invmx S *m z0)) 0 0) = false ->
  iter ls fuel x y rej s = Some (Ok (ISmall _ _)).
Proof.
move=> es hout; rewrite iter_linear es /=.
have ed : xh + K *m z0 - xh = K *m z0 by rewrite addrC addKr.
rewrite ed subrr norm0; have [-> _] := andP htol.
case: ifP => // /andP [hr h]; move: hout; rewrite hr /= => /negbT; rewrite -leNgt => h2.
have := @mahalanobis_shrinks _ Rm (C *m P *m C^T) z0 hR (psd_congr C (pd_psd hP)).
rewrite -/S /=.
have -> : z0 - C *m P *m C^T *m invmx S *m z0 = m_val y - (C *m (xh + K *m z0) + d).
  have -> : C *m P *m C^T *m invmx S *m z0 = C *m (K *m z0) by rewrite /K !mulmxA.
  rewrite (mulmxDr C xh (K *m z0)) /z0 -addrA -opprD; congr (_ - _); rewrite -!addrA; congr (_ + _); exact: addrC.
by move=> h3; have := lt_le_trans h (le_trans h3 h2); rewrite ltxx.
Qed.

Lemma linear_equals_kalman ls max_iters fuel u x_jac rej xe :
  in_sync x y u -> ekf x y u x_jac rej = Ok xe ->
  iekf ls max_iters.+1 fuel.+1 x y u x_jac rej =
  Some (Ok (Est (if norm (sval (est_state xe) - xh) < step_tol then est_state x else est_state xe) (est_cov xe))).
Proof.
move=> sync; have [t0 t1] := andP htol.
rewrite (ekf_linear _ _ sync) => -[<-] {xe}.
have ez : m_val y - (C *m sval (est_state x) + d) = z0 by [].
have exh : sval (est_state x) - xh = 0 by rewrite subrr.
have it1 := iter_linear ls fuel.+1 rej (est_state x); rewrite ez exh subr0 in it1.
rewrite /= in it1; move: it1; case: ifP => [hout|hout] it1.
  rewrite /iekf_correct (iekf_advance_sync sync) /= it1 exh norm0 t0; congr (Some (Ok _)).
  by rewrite /symmetrize (symmetrize_id (pd_sym hP)); case: (x).
have ed : xh + K *m z0 - xh = K *m z0 by rewrite addrC addKr.
rewrite [sval _]/= -/xh [plus _ _]/(xh + K *m z0) ed; move: it1; case: ifP => htol1 it1.
  by apply: finish_linear => //=; rewrite it1.
have dl0 : K *m z0 != 0 by apply/eqP => h; move: htol1; rewrite h norm0 t0.
have it2 : iter ls fuel.+1 x y rej (est_state x) = Some (Ok (IAccepted (pplus plus (est_state x) (K *m z0)))).
  rewrite it1; case: (ls) => //=.
  rewrite t1 /attempt scale1r /innovation.
  have [-> _ _] := lin (pplus plus (est_state x) (K *m z0)) => /=.
  by rewrite /minus /plus -/xh ed full_step_decreases.
apply: finish_linear => //.
rewrite [LHS]/= it2; case: max_iters => [|mi] //=.
by rewrite second_iter.
Qed.

(** C78: on a linear measurement the iterated filter returns the estimate of the Kalman filter, with
    or without the line search, whatever the number of iterations, except that the mean is left where
    it was when the Kalman step is shorter than the tolerance. *)
Theorem C78_linear_equals_kalman ls max_iters fuel u x_jac rej : in_sync x y u ->
  exists xe, ekf x y u x_jac rej = Ok xe /\
    iekf ls max_iters.+1 fuel.+1 x y u x_jac rej =
    Some (Ok (Est (if norm (sval (est_state xe) - sval (est_state x)) < step_tol then est_state x
                   else est_state xe) (est_cov xe))).
Proof.
move=> sync; eexists; split; first exact: ekf_linear.
by apply: linear_equals_kalman => //; apply: ekf_linear.
Qed.
End One.
End Linear.

(** Witness: the position measurement of EkfProps.w_y is linear; the iterated filter with its line
    search moves the position from 1 to 2. *)
Section Witness.
Let F := [realFieldType of rat].
Let V := 'cV[F]_2.
Definition w_norm (v : V) : F := `|v 0 0| + `|v 1 0|.

Lemma w_tol01 : 0 < (1 / 10%:R : F) < 1.
Proof. by rewrite divr_gt0 ?ltr01 ?ltr0n //= ltr_pdivr_mulr ?ltr0n // mul1r ltr1n. Qed.

Example C78_witness_hyps :
  (forall s, [/\ m_eval (w_y (Some 0)) s = Some ((delta_mx 0 0 : 'M[F]_(1, 2)) *m sval s + 0),
                 m_jac (w_y (Some 0)) s = delta_mx 0 0 & m_cov (w_y (Some 0)) s = 1%:M]) /\
  [/\ pd (est_cov w_x), pd (1%:M : 'M[F]_1), 0 < (1 / 10%:R : F) < 1, w_norm 0 = 0 &
      in_sync (U := F) w_x (w_y (Some 0)) None].
Proof.
split; last by split; [exact: pd1|exact: pd1|exact: w_tol01|by rewrite /w_norm !mxE normr0 addr0|by left].
move=> s; split=> //=; congr Some; rewrite addr0; apply/matrixP => i j.
by rewrite !ord1 !mxE big_ord_recl big_ord1 !mxE /= mul1r mul0r addr0.
Qed.

Example C78_witness_moves (chi : nat -> F) :
  exists2 x', iekf_correct (fun (v : V) d => v + d) (fun _ : F => None) w_pm chi
                (fun v w => v - w) (fun _ _ => 1%:M) w_norm (1 / 10%:R) true 5 9 w_x (w_y (Some 0)) None None false
              = Some (Ok x') & sval (est_state x') 0 0 = 2%:R.
Proof.
have [hl [hP hR ht hn hs]] := C78_witness_hyps.
have [xe [e1 e2]] := @C78_linear_equals_kalman _ 2 F (fun _ => None) w_pm chi w_norm (1 / 10%:R) w_x (w_y (Some 0)) _ 0 _ hl hP hR ht hn true 4 8 None None false hs.
have [x' e1' [e3 _]] := C16_witness_moves chi.
have e : x' = xe by move: e1'; rewrite e1 => -[->].
rewrite e in e3.
eexists; first exact: e2.
case: ifP => [h|_]; last exact: e3.
exfalso; move: h; rewrite ltNge => /negP; apply; rewrite /w_norm.
have -> : (sval (est_state xe) - sval (est_state w_x)) 0 0 = 1.
  rewrite mxE e3 mxE mxE -[2%:R]/(1 + 1) addrK; reflexivity.
have [_ h] := andP w_tol01.
by rewrite normr1; apply: (le_trans (ltW h)); rewrite ler_addl normr_ge0.
Qed.
End Witness.

Print Assumptions C78_iteration_is_gauss_newton.
Print Assumptions C78_small_step.
Print Assumptions C78_linear_equals_kalman.
