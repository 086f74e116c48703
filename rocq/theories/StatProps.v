(** C94: on linear systems the covariance the filter reports is the covariance of its error. *)
From mathcomp Require Import all_ssreflect all_algebra.
From Verif Require Import Base LinAlg Tac EkfModel EkfProps MixtureModel ResultModel BatchKalmanModel BatchKalmanProof BatchKalmanProps StatModel.
Set Implicit Arguments.
Unset Strict Implicit.
Unset Printing Implicit Defensive.
Import Order.Theory GRing.Theory Num.Theory.
Local Open Scope ring_scope.

Section Expect.
Variables (R : realFieldType) (Om : Type) (pr : expectation R Om).
Notation mean := (mean pr).
Notation cross := (cross pr).
Notation sqv := (square_vector pr).

Lemma integrable1 : integrable pr (fun=> 1).
Proof. exact: square_integrable (square1 pr). Qed.
Lemma E0 : pr (fun=> 0) = 0.
Proof. by rewrite -[RHS](mul0r (pr (fun=> 1))) -EZ; [apply: E_ext => w; rewrite mul0r|exact: integrable1]. Qed.
Lemma integrable0 : integrable pr (fun=> 0).
Proof. by apply: integrable_ext (integrableZ 0 integrable1) => w; rewrite mul0r. Qed.
Lemma E_const c : pr (fun=> c) = c.
Proof. by rewrite -[RHS]mulr1 -(E1 pr) -EZ; [apply: E_ext => w; rewrite mulr1|exact: integrable1]. Qed.
Lemma square0 : square pr (fun=> 0).
Proof. by apply: square_ext (squareZ 0 (square1 pr)) => w; rewrite mul0r. Qed.

Lemma sum_rule (I : Type) (s : seq I) (f : I -> Om -> R) : (forall i, integrable pr (f i)) ->
  integrable pr (fun w => \sum_(i <- s) f i w) /\ pr (fun w => \sum_(i <- s) f i w) = \sum_(i <- s) pr (f i).
Proof.
move=> h; elim: s => [|i s [IH1 IH2]].
  rewrite big_nil; split; first by apply: integrable_ext integrable0 => w; rewrite big_nil.
  by rewrite -[RHS]E0; apply: E_ext => w; rewrite big_nil.
split; first by apply: integrable_ext (integrableD (h i) IH1) => w; rewrite big_cons.
by rewrite big_cons -IH2 -ED //; apply: E_ext => w; rewrite big_cons.
Qed.
Lemma square_sum (I : Type) (s : seq I) (f : I -> Om -> R) : (forall i, square pr (f i)) ->
  square pr (fun w => \sum_(i <- s) f i w).
Proof.
move=> h; elim: s => [|i s IH]; first by apply: square_ext square0 => w; rewrite big_nil.
by apply: square_ext (squareD (h i) IH) => w; rewrite big_cons.
Qed.

Lemma not_empty : ~ (Om -> False).
Proof. by move=> none; have /eqP := E1 pr; rewrite (E_ext pr (g := fun=> 0)) ?E0 1?eq_sym ?oner_eq0 // => w; case: (none w). Qed.

Definition intm p q (A : Om -> 'M[R]_(p, q)) : Prop := forall i j, integrable pr (fun w => A w i j).
Lemma mean_ext p q (A B : Om -> 'M[R]_(p, q)) : (forall w, A w = B w) -> mean A = mean B.
Proof. by move=> h; apply/matrixP => i j; rewrite !mxE; apply: E_ext => w; rewrite h. Qed.
Lemma intm_ext p q (A B : Om -> 'M[R]_(p, q)) : (forall w, A w = B w) -> intm A -> intm B.
Proof. by move=> h hA i j; apply: integrable_ext (hA i j) => w; rewrite h. Qed.
Lemma intmD p q (A B : Om -> 'M[R]_(p, q)) : intm A -> intm B -> intm (fun w => A w + B w).
Proof. by move=> hA hB i j; apply: integrable_ext (integrableD (hA i j) (hB i j)) => w; rewrite mxE. Qed.
Lemma meanD p q (A B : Om -> 'M[R]_(p, q)) : intm A -> intm B -> mean (fun w => A w + B w) = mean A + mean B.
Proof. by move=> hA hB; apply/matrixP => i j; rewrite !mxE -ED //; apply: E_ext => w; rewrite mxE. Qed.
Lemma intmMl p q r (M : 'M[R]_(r, p)) (A : Om -> 'M[R]_(p, q)) : intm A -> intm (fun w => M *m A w).
Proof.
move=> hA i j; have [h _] := sum_rule (index_enum (ordinal_finType p)) (f := fun k w => M i k * A w k j) (fun k => integrableZ _ (hA k j)).
by apply: integrable_ext h => w; rewrite mxE.
Qed.
Lemma meanMl p q r (M : 'M[R]_(r, p)) (A : Om -> 'M[R]_(p, q)) : intm A -> mean (fun w => M *m A w) = M *m mean A.
Proof.
move=> hA; apply/matrixP => i j; rewrite !mxE.
have [_ h] := sum_rule (index_enum (ordinal_finType p)) (f := fun k w => M i k * A w k j) (fun k => integrableZ _ (hA k j)).
transitivity (pr (fun w => \sum_k M i k * A w k j)); first by apply: E_ext => w; rewrite mxE.
by rewrite h; apply: eq_bigr => k _; rewrite EZ // mxE.
Qed.
Lemma meanT p q (A : Om -> 'M[R]_(p, q)) : mean (fun w => (A w)^T) = (mean A)^T.
Proof. by apply/matrixP => i j; rewrite !mxE; apply: E_ext => w; rewrite mxE. Qed.
Lemma intmT p q (A : Om -> 'M[R]_(p, q)) : intm A -> intm (fun w => (A w)^T).
Proof. by move=> h i j; apply: integrable_ext (h j i) => w; rewrite mxE. Qed.
Lemma intmMr p q r (M : 'M[R]_(q, r)) (A : Om -> 'M[R]_(p, q)) : intm A -> intm (fun w => A w *m M).
Proof. by move=> h; apply: intm_ext (intmT (intmMl M^T (intmT h))) => w; rewrite trmx_mul !trmxK. Qed.
Lemma meanMr p q r (M : 'M[R]_(q, r)) (A : Om -> 'M[R]_(p, q)) : intm A -> mean (fun w => A w *m M) = mean A *m M.
Proof.
move=> h; rewrite -[RHS]trmxK trmx_mul -meanT -meanMl; last exact: intmT.
by rewrite -meanT; apply: mean_ext => w; rewrite trmx_mul !trmxK.
Qed.
Lemma mean_const p q (A : 'M[R]_(p, q)) : mean (fun=> A) = A.
Proof. by apply/matrixP => i j; rewrite !mxE E_const. Qed.

Lemma sqv_int p (a : Om -> 'cV[R]_p) : sqv a -> intm a.
Proof. by move=> h i j; rewrite ord1; exact: square_integrable. Qed.
Lemma sqv_cross p q (a : Om -> 'cV[R]_p) (b : Om -> 'cV[R]_q) : sqv a -> sqv b -> intm (fun w => a w *m (b w)^T).
Proof.
move=> ha hb i j; apply: integrable_ext (squareM (ha i) (hb j)) => w.
by rewrite mxE big_ord1 mxE.
Qed.
Lemma sqvD p (a b : Om -> 'cV[R]_p) : sqv a -> sqv b -> sqv (fun w => a w + b w).
Proof. by move=> ha hb i; apply: square_ext (squareD (ha i) (hb i)) => w; rewrite mxE. Qed.
Lemma sqv_ext p (a b : Om -> 'cV[R]_p) : (forall w, a w = b w) -> sqv a -> sqv b.
Proof. by move=> h ha i; apply: square_ext (ha i) => w; rewrite h. Qed.
Lemma sqvM p q (M : 'M[R]_(q, p)) (a : Om -> 'cV[R]_p) : sqv a -> sqv (fun w => M *m a w).
Proof.
move=> ha i; have h := square_sum (index_enum (ordinal_finType p)) (f := fun k w => M i k * a w k 0) (fun k => squareZ _ (ha k)).
by apply: square_ext h => w; rewrite mxE.
Qed.
Lemma cross_ext p q (a a' : Om -> 'cV[R]_p) (b b' : Om -> 'cV[R]_q) : (forall w, a w = a' w) -> (forall w, b w = b' w) -> cross a b = cross a' b'.
Proof. by move=> h1 h2; apply: mean_ext => w; rewrite h1 h2. Qed.
Lemma crossT p q (a : Om -> 'cV[R]_p) (b : Om -> 'cV[R]_q) : cross b a = (cross a b)^T.
Proof. by rewrite /cross -meanT; apply: mean_ext => w; rewrite trmx_mul trmxK. Qed.
Lemma crossMl p q r (M : 'M[R]_(r, p)) (a : Om -> 'cV[R]_p) (b : Om -> 'cV[R]_q) : sqv a -> sqv b ->
  cross (fun w => M *m a w) b = M *m cross a b.
Proof. by move=> ha hb; rewrite /cross -meanMl; [apply: mean_ext => w; rewrite mulmxA|exact: sqv_cross]. Qed.
Lemma crossDl p q (a a' : Om -> 'cV[R]_p) (b : Om -> 'cV[R]_q) : sqv a -> sqv a' -> sqv b ->
  cross (fun w => a w + a' w) b = cross a b + cross a' b.
Proof. by move=> h1 h2 hb; rewrite /cross -meanD; [apply: mean_ext => w; rewrite mulmxDl|exact: sqv_cross|exact: sqv_cross]. Qed.

(** Affine combinations A a + B b of uncorrelated vectors *)
Section Two.
Variables (p q r : nat) (A : 'M[R]_(r, p)) (B : 'M[R]_(r, q)) (a : Om -> 'cV[R]_p) (b : Om -> 'cV[R]_q).
Hypotheses (ha : sqv a) (hb : sqv b).
Let s w := A *m a w + B *m b w.
Lemma sqv_comb : sqv s.
Proof. by apply: sqvD; apply: sqvM. Qed.
Lemma mean_comb : mean s = A *m mean a + B *m mean b.
Proof. by rewrite meanD ?meanMl //; first [exact: sqv_int|exact: intmMl (sqv_int _)]. Qed.
Lemma cross_comb_l m (z : Om -> 'cV[R]_m) : sqv z -> cross s z = A *m cross a z + B *m cross b z.
Proof. by move=> hz; rewrite crossDl ?crossMl //; apply: sqvM. Qed.
Lemma cross_comb : cross a b = 0 -> cross s s = A *m cross a a *m A^T + B *m cross b b *m B^T.
Proof.
move=> ab; rewrite cross_comb_l; last exact: sqv_comb.
rewrite [cross a _]crossT [cross b _]crossT !cross_comb_l // [cross b a]crossT ab trmx0 !mulmx0 addr0 add0r.
by rewrite !trmx_mul -!crossT !mulmxA.
Qed.
End Two.
Lemma mean_tr p (A : Om -> 'M[R]_p) : intm A -> pr (fun w => \tr (A w)) = \tr (mean A).
Proof.
move=> hA; have [_ h] := sum_rule (index_enum (ordinal_finType p)) (f := fun k w => A w k k) (fun k => hA k k).
by rewrite /mxtrace h; apply: eq_bigr => k _; rewrite mxE.
Qed.
(** E[a^T A a] = tr (A E[a a^T]) *)
Lemma mean_quadratic p (A : 'M[R]_p) (a : Om -> 'cV[R]_p) : sqv a ->
  pr (fun w => ((a w)^T *m (A *m a w)) 0 0) = \tr (A *m cross a a).
Proof.
move=> ha; rewrite /cross -meanMl; last exact: sqv_cross.
rewrite -mean_tr; last exact: intmMl (sqv_cross ha ha).
by apply: E_ext => w; rewrite [in RHS]mulmxA [RHS]mxtrace_mulC trace_mx11.
Qed.
End Expect.

Section Filter.
Variables (R : rcfType) (n : nat) (U Om : Type) (pr : expectation R Om).
Variable ustamp : U -> option R.
Variable chi2_99 : nat -> R.
Notation cV := 'cV[R]_n.
Notation measurement := (measurement R cV n).
Notation step := (sim_step R n U Om).
Variable pm : process_model R cV n U.
Notation run := (kf_run ustamp chi2_99 pm).
Notation mean := (mean pr).
Notation cross := (cross pr).
Notation sqv := (square_vector pr).

(** [a] is uncorrelated with every disturbance of the steps. *)
Fixpoint uncorrelated p (a : Om -> 'cV[R]_p) (s : seq step) : Prop :=
  match s with
  | [::] => True
  | Move _ _ w :: r => cross a w = 0 /\ uncorrelated a r
  | Sense _ v :: r => cross a v = 0 /\ uncorrelated a r
  end.
(** The disturbances are uncorrelated with one another. *)
Fixpoint white (s : seq step) : Prop :=
  match s with
  | [::] => True
  | Move _ _ w :: r => uncorrelated w r /\ white r
  | Sense _ v :: r => uncorrelated v r /\ white r
  end.
(** Every step is as its model says: the disturbance of a motion has mean zero and the
    covariance Q(u, dt), the one of a measurement mean zero and the measurement model's
    (positive definite) covariance; measurements are affine, taken at the current time. *)
Fixpoint as_modelled (Q : U -> R -> 'M[R]_n) (t : R) (s : seq step) : Prop :=
  match s with
  | [::] => True
  | Move u dt w :: r => [/\ 0 <= dt, psd (Q u dt), noise pr (Q u dt) w & as_modelled Q (t + dt) r]
  | Sense y v :: r =>
      [/\ exists H h Rm, [/\ @linear_measurement R n y H h Rm, pd Rm & noise pr Rm v],
          m_stamp y = None \/ m_stamp y = Some t & as_modelled Q t r]
  end.

Lemma uncorrelated_comb p q r (A : 'M[R]_(r, p)) (B : 'M[R]_(r, q)) (a : Om -> 'cV[R]_p) (b : Om -> 'cV[R]_q) (d : Om -> 'cV[R]_r) s Q t :
  sqv a -> sqv b -> as_modelled Q t s -> (forall w, d w = A *m a w + B *m b w) ->
  uncorrelated a s -> uncorrelated b s -> uncorrelated d s.
Proof.
move=> ha hb + hd; elim: s t => [|[u dt w|y v] s IH] t //=.
  case=> _ _ [hw _ _] hs [a1 a2] [b1 b2]; split; last exact: (IH (t + dt)).
  by rewrite (cross_ext pr hd (fun=> erefl)) cross_comb_l // a1 b1 !mulmx0 addr0.
case=> [[H [h [Rm [_ _ [hv _ _]]]]] _ hs] [a1 a2] [b1 b2]; split; last exact: (IH t).
by rewrite (cross_ext pr hd (fun=> erefl)) cross_comb_l // a1 b1 !mulmx0 addr0.
Qed.
Lemma runS x ev r x' : kf_step ustamp chi2_99 pm x ev = Ok x' -> run x (ev :: r) = run x' r.
Proof. by move=> e; rewrite /kf_run [foldM _ _ _]/foldM -/foldM e. Qed.

Section Linear.
Variables (F Q : U -> R -> 'M[R]_n) (b : U -> R -> cV).
Hypothesis lin : linear_process pm F Q b.

(** One step of the filter on simulated data: same new covariance in every outcome, and the
    error is a combination of the old error and the disturbance. *)
Lemma move_step u dt (w : cV) t (x xh : cV) (P : 'M[R]_n) : 0 <= dt -> psd P -> psd (Q u dt) ->
  kf_step ustamp chi2_99 pm (Est (PState xh (Some t)) P) (Predict n u dt) =
    Ok (Est (PState (F u dt *m xh + b u dt) (Some (t + dt))) (F u dt *m P *m (F u dt)^T + Q u dt)) /\
  sval (pm_eval pm (PState x (Some t)) u dt) + w - (F u dt *m xh + b u dt) = F u dt *m (x - xh) + 1%:M *m w.
Proof.
move=> dt0 hP hQ; have [e1 e2 e3] := lin (PState xh (Some t)) u dt; have [f1 _ _] := lin (PState x (Some t)) u dt.
have hS : psd (F u dt *m P *m (F u dt)^T + Q u dt) by apply: psdD => //; exact: psd_congr.
split; first by rewrite /= /ekf_predict /= ltNge dt0 /= e1 e2 e3 /symmetrize (symmetrize_id (psd_sym hS)).
by rewrite f1 /= mul1mx mulmxBr; zmod.
Qed.

Lemma sense_step (y : measurement) (H : 'M[R]_(m_dim y, n)) h Rm (v : 'cV[R]_(m_dim y)) t (x xh : cV) (P : 'M[R]_n) :
  linear_measurement H h Rm -> pd Rm -> m_stamp y = None \/ m_stamp y = Some t -> psd P ->
  let K := P *m H^T *m invmx (H *m P *m H^T + Rm) in
  let xh' := xh + K *m (H *m (x - xh) + v) in
  kf_step ustamp chi2_99 pm (Est (PState xh (Some t)) P) (Correct U (observed (PState x (Some t)) v)) =
    Ok (Est (PState xh' (Some t)) ((1%:M - K *m H) *m P)) /\
  x - xh' = (1%:M - K *m H) *m (x - xh) + (- K) *m v.
Proof.
move=> ly hR st hP K xh'.
have [e1 e2 e3] := ly (PState xh (Some t)); have [f1 _ _] := ly (PState x (Some t)).
have eD : H *m x + h + v - (H *m xh + h) = H *m (x - xh) + v by rewrite mulmxBr; zmod.
split; last first.
  by rewrite /xh' mulmxDr mulmxA mulNmx mulmxBl mul1mx; zmod.
pose x0 := Est (PState xh (Some t)) P; pose y0 := observed (PState x (Some t)) v.
have sync : in_sync x0 y0 (None : option U) by rewrite /in_sync /=; case: st => ->; [|left].
have hR' : pd (m_cov y0 (jac_point x0 None)) by rewrite /jac_point /= e3.
have := correct_ok (@vec_add R n) ustamp pm chi2_99 sync e1 hP hR'.
by rewrite /jac_point /= e2 e3 f1 eD.
Qed.

Lemma post_psd m (H : 'M[R]_(m, n)) (P : 'M[R]_n) (Rm : 'M[R]_m) : psd P -> pd Rm ->
  let K := P *m H^T *m invmx (H *m P *m H^T + Rm) in
  (1%:M - K *m H) *m P *m (1%:M - K *m H)^T + (- K) *m Rm *m (- K)^T = (1%:M - K *m H) *m P /\ psd ((1%:M - K *m H) *m P).
Proof.
move=> hP hR K; have hS : pd (H *m P *m H^T + Rm) by apply: pdD_psd => //; exact: psd_congr.
have := joseph (psd_sym hP) (pd_sym hR) (pd_unit hS) K; rewrite subrr mul0mx mul0mx addr0 => e.
rewrite mulNmx linearN /= mulmxN mulNmx opprK; split=> //.
by rewrite -e; apply: psdD; apply: psd_congr => //; exact: pd_psd.
Qed.

Lemma run_stats s t (X xh : Om -> cV) (P : 'M[R]_n) : psd P -> noise pr P (fun om => X om - xh om) ->
  uncorrelated (fun om => X om - xh om) s -> white s -> as_modelled Q t s ->
  exists (P' : 'M[R]_n) (xf : Om -> cV),
  [/\ psd P',
      forall om, run (Est (PState (xh om) (Some t)) P) (simulate pm om (X om) t s).1 = Ok (Est (PState (xf om) (Some (end_time t s))) P'),
      noise pr P' (fun om => (simulate pm om (X om) t s).2 - xf om) &
      forall p (g : Om -> 'cV[R]_p), sqv g -> cross (fun om => X om - xh om) g = 0 -> uncorrelated g s ->
        cross (fun om => (simulate pm om (X om) t s).2 - xf om) g = 0].
Proof.
elim: s t X xh P => [|[u dt w|y v] s IH] t X xh P hP he /=.
- by move=> _ _ _; exists P, xh; split.
- case=> u1 u2 [w1 w2] [dt0 hQ hw hs]; have [sw mw cw] := hw; have [se me ce] := he.
  pose Y om := sval (pm_eval pm (PState (X om) (Some t)) u dt) + w om.
  pose yh om := F u dt *m xh om + b u dt.
  have st om := move_step (w om) t (X om) (xh om) dt0 hP hQ.
  have ext om : Y om - yh om = F u dt *m (X om - xh om) + 1%:M *m w om by have [_] := st om.
  have hS : psd (F u dt *m P *m (F u dt)^T + Q u dt) by apply: psdD => //; exact: psd_congr.
  have hY : noise pr (F u dt *m P *m (F u dt)^T + Q u dt) (fun om => Y om - yh om).
    split; first by apply: sqv_ext (sqv_comb (F u dt) 1%:M se sw) => om; rewrite ext.
      by rewrite (mean_ext pr ext) mean_comb // me mw !mulmx0 addr0.
    by rewrite (cross_ext pr ext ext) cross_comb // ce cw mul1mx trmx1 mulmx1.
  have uY := uncorrelated_comb se sw hs ext u2 w1.
  have [P' [xf [h1 h2 h3 h4]]] := IH _ Y yh _ hS hY uY w2 hs.
  exists P', xf; split=> //.
    by move=> om; have [e _] := st om; rewrite (runS _ e) h2.
  move=> p g hg eg [g1 g2]; apply: h4 => //.
  by rewrite (cross_ext pr ext (fun=> erefl)) cross_comb_l // eg [cross w g]crossT g1 trmx0 !mulmx0 addr0.
case=> u1 u2 [v1 v2] [[H [h [Rm [ly hR hv]]]] st hs]; have [sv mv cv] := hv; have [se me ce] := he.
pose K := P *m H^T *m invmx (H *m P *m H^T + Rm).
pose yh om := xh om + K *m (H *m (X om - xh om) + v om).
have sp om := sense_step (v om) (X om) (xh om) ly hR st hP.
have ext om : X om - yh om = (1%:M - K *m H) *m (X om - xh om) + (- K) *m v om by have [_] := sp om.
have [eJ hS] := post_psd H hP hR.
have hY : noise pr ((1%:M - K *m H) *m P) (fun om => X om - yh om).
  split; first by apply: sqv_ext (sqv_comb (1%:M - K *m H) (- K) se sv) => om; rewrite ext.
    by rewrite (mean_ext pr ext) mean_comb // me mv !mulmx0 addr0.
  by rewrite (cross_ext pr ext ext) cross_comb // ce cv eJ.
have uY := uncorrelated_comb se sv hs ext u2 v1.
have [P' [xf [h1 h2 h3 h4]]] := IH _ X yh _ hS hY uY v2 hs.
exists P', xf; split=> //.
  by move=> om; have [e _] := sp om; rewrite (runS _ e) h2.
move=> p g hg eg [g1 g2]; apply: h4 => //.
by rewrite (cross_ext pr ext (fun=> erefl)) cross_comb_l // eg [cross v g]crossT g1 trmx0 !mulmx0 addr0.
Qed.
Lemma uncorrelated_cat p (a : Om -> 'cV[R]_p) s r : uncorrelated a (s ++ r) <-> uncorrelated a s /\ uncorrelated a r.
Proof. by elim: s => [|[u dt w|y v] s IH] /=; rewrite ?IH; tauto. Qed.
Lemma white_cat s r : white (s ++ r) -> white s /\ white r.
Proof. by elim: s => [|[u dt w|y v] s IH] //= [/uncorrelated_cat [h _] /IH []]. Qed.
Lemma as_modelled_cat t s r : as_modelled Q t (s ++ r) -> as_modelled Q t s /\ as_modelled Q (end_time t s) r.
Proof.
elim: s t => [|[u dt w|y v] s IH] t //=; first by case=> h1 h2 h3 /IH [h4 h5].
by case=> h1 h2 /IH [h4 h5].
Qed.
(** the disturbance of a later step is uncorrelated with the earlier ones *)
Lemma white_moveP s u dt w r : white (s ++ Move u dt w :: r) -> uncorrelated w s /\ white (s ++ r).
Proof.
elim: s => [|[u' dt' w'|y' v'] s IH] //=; first by case.
  case=> /uncorrelated_cat [h1 [h2 h3]] /IH [h4 h5]; split; first by rewrite crossT h2 trmx0.
  by split=> //; apply/uncorrelated_cat.
case=> /uncorrelated_cat [h1 [h2 h3]] /IH [h4 h5]; split; first by rewrite crossT h2 trmx0.
by split=> //; apply/uncorrelated_cat.
Qed.
Lemma white_senseP s y v r : white (s ++ @Sense R n U Om y v :: r) -> uncorrelated v s /\ white (s ++ r).
Proof.
elim: s => [|[u' dt' w'|y' v'] s IH] //=; first by case.
  case=> /uncorrelated_cat [h1 [h2 h3]] /IH [h4 h5]; split; first by rewrite crossT h2 trmx0.
  by split=> //; apply/uncorrelated_cat.
case=> /uncorrelated_cat [h1 [h2 h3]] /IH [h4 h5]; split; first by rewrite crossT h2 trmx0.
by split=> //; apply/uncorrelated_cat.
Qed.
Lemma later_uncorrelated (e e1 : Om -> cV) s t r :
  (forall p (g : Om -> 'cV[R]_p), sqv g -> cross e g = 0 -> uncorrelated g s -> cross e1 g = 0) ->
  uncorrelated e (s ++ r) -> white (s ++ r) -> as_modelled Q t r -> uncorrelated e1 r.
Proof.
move=> h /uncorrelated_cat [_ er]; elim: r t er => [|[u dt w|y v] r IH] t //=.
  case=> e1w er /white_moveP [ws hw] [_ _ [sw _ _] hr]; split; first exact: h.
  exact: (IH _ er hw hr).
case=> e1w er /white_senseP [ws hw] [[H [hh [Rm [_ _ [sv _ _]]]]] _ hr]; split; first exact: h.
exact: (IH _ er hw hr).
Qed.
Lemma simulate_cat (om : Om) x t (s r : seq step) : simulate pm om x t (s ++ r) =
  let a := simulate pm om x t s in let c := simulate pm om a.2 (end_time t s) r in (a.1 ++ c.1, c.2).
Proof.
elim: s x t => [|[u dt w|y v] s IH] x t /=; first exact: surjective_pairing.
  by rewrite IH.
by rewrite IH.
Qed.
Lemma end_time_cat t (s r : seq step) : end_time t (s ++ r) = end_time (end_time t s) r.
Proof. by elim: s t => [|[u dt w|y v] s IH] t /=. Qed.
Lemma run_cat x0 e1 e2 x1 : run x0 e1 = Ok x1 -> run x0 (e1 ++ e2) = run x1 e2.
Proof.
rewrite /kf_run; elim: e1 x0 => [|ev e1 IH] x0; first by case=> ->.
by rewrite cat_cons ![foldM _ _ (_ :: _)]/foldM -/foldM; case: (kf_step _ _ _ _ _) => //= a; exact: IH.
Qed.

(** The innovation and its covariance reported by ekf.correct(..., output_details=True) when
    the run along [s] is followed by a measurement with the sensor [y], disturbed by [v]. *)
Definition innovation (x0 : est R cV n) (x : cV) t (s : seq step) (y : measurement) (v : 'cV[R]_(m_dim y)) (om : Om) :
  result (option ('cV[R]_(m_dim y) * 'M[R]_(m_dim y))) :=
  xf <~ run x0 (simulate pm om x t s).1 ;;
  d <~ ekf_correct_details (@vec_add R n) ustamp chi2_99 pm xf
     (observed (PState (simulate pm om x t s).2 (Some (end_time t s))) v) None false ;;
  Ok d.2.

Lemma details_ok (y : measurement) (H : 'M[R]_(m_dim y, n)) h Rm (v : 'cV[R]_(m_dim y)) t (x xh : cV) (P : 'M[R]_n) :
  linear_measurement H h Rm -> pd Rm -> m_stamp y = None \/ m_stamp y = Some t -> psd P ->
  (d <~ ekf_correct_details (@vec_add R n) ustamp chi2_99 pm (Est (PState xh (Some t)) P) (observed (PState x (Some t)) v) None false ;; Ok d.2)
  = Ok (Some (H *m (x - xh) + 1%:M *m v, H *m P *m H^T + Rm)).
Proof.
move=> ly hR st hP.
have hS : pd (H *m P *m H^T + Rm) by apply: pdD_psd => //; exact: psd_congr.
have [e1 e2 e3] := ly (PState xh (Some t)); have [f1 _ _] := ly (PState x (Some t)).
have eD : H *m x + h + v - (H *m xh + h) = H *m (x - xh) + 1%:M *m v by rewrite mul1mx mulmxBr; zmod.
pose x0 := Est (PState xh (Some t)) P; pose y0 := observed (PState x (Some t)) v.
have sync : in_sync x0 y0 (None : option U) by rewrite /in_sync /=; case: st => ->; [|left].
rewrite /ekf_correct_details (advance_sync _ _ sync) /= e1 /= e2 e3 f1 eD.
have := C20_gain (x := x0) (y := y0) (x_jac := None).
by rewrite /jac_point /= e2 e3 => /(_ (pd_unit hS) (psd_sym hP) (pd_sym hR)) ->.
Qed.

(** A truth [X] and a first estimate [xh] (random or not) whose error has mean zero and the
    covariance handed to the filter; disturbances of the sizes the models state,
    uncorrelated with one another and with the first error. *)
Definition well_modelled t (s : seq step) (X xh : Om -> cV) (P0 : 'M[R]_n) : Prop :=
  [/\ psd P0, noise pr P0 (fun om => X om - xh om), uncorrelated (fun om => X om - xh om) s, white s & as_modelled Q t s].

(** *** The covariance the filter reports is the same in every outcome and is the covariance
    of its error; the error has mean zero. *)
Theorem C94_error_covariance t s X xh P0 : well_modelled t s X xh P0 ->
  exists (P : 'M[R]_n) (xf : Om -> cV),
  [/\ forall om, run (Est (PState (xh om) (Some t)) P0) (simulate pm om (X om) t s).1 = Ok (Est (PState (xf om) (Some (end_time t s))) P),
      mean (fun om => (simulate pm om (X om) t s).2 - xf om) = 0 &
      cross (fun om => (simulate pm om (X om) t s).2 - xf om) (fun om => (simulate pm om (X om) t s).2 - xf om) = P].
Proof. by case=> h1 h2 h3 h4 h5; have [P [xf [_ e [_ m c] _]]] := run_stats h1 h2 h3 h4 h5; exists P, xf. Qed.

(** *** The NEES of GaussianResult has expectation n, whatever the models and the history
    (what MonteCarloResult.expected_nees states), as soon as it is defined. *)
Theorem C94_expected_nees t s X xh P0 xf (P : 'M[R]_n) : well_modelled t s X xh P0 ->
  (forall om, run (Est (PState (xh om) (Some t)) P0) (simulate pm om (X om) t s).1 = Ok (Est (xf om) P)) ->
  P \in unitmx ->
  exists2 nees : Om -> R,
    (forall om, rmap (@g_nees R n) (gaussian_result ((simulate pm om (X om) t s).2 - sval (xf om)) P) = Ok (nees om)) &
    pr nees = n%:R.
Proof.
case=> h1 h2 h3 h4 h5 hr uP; have [P' [xf' [_ e [se _ ce] _]]] := run_stats h1 h2 h3 h4 h5.
pose err om := (simulate pm om (X om) t s).2 - sval (xf om).
have same om : xf om = PState (xf' om) (Some (end_time t s)) /\ P = P' by have := e om; rewrite hr => -[-> ->].
have eP : P = P'.
  by apply/eqP; case: (eqVneq P P') => // /eqP ne; exfalso; apply: (not_empty pr) => om; case: ne; have [] := same om.
exists (fun om => ((err om)^T *m (invmx P *m err om)) 0 0).
  by move=> om; rewrite /gaussian_result /np_solve uP.
have ext om : err om = (simulate pm om (X om) t s).2 - xf' om by rewrite /err (same om).1.
have sq : sqv err by apply: sqv_ext se => om; rewrite ext.
by rewrite mean_quadratic // (cross_ext pr ext ext) ce -eP mulVmx // mxtrace1.
Qed.

(** *** The innovation of the next measurement has mean zero and the covariance S the filter
    computes for it (the same in every outcome); the statistic its outlier test thresholds
    (z^T S^-1 z) has expectation equal to the dimension of the measurement. *)
Theorem C94_innovation t s X xh P0 (y : measurement) (v : Om -> 'cV[R]_(m_dim y)) :
  well_modelled t (s ++ [:: Sense U v]) X xh P0 ->
  exists (z : Om -> 'cV[R]_(m_dim y)) (S : 'M[R]_(m_dim y)),
  [/\ forall om, innovation (Est (PState (xh om) (Some t)) P0) (X om) t s (v om) om = Ok (Some (z om, S)),
      mean z = 0, cross z z = S &
      exists2 nis : Om -> R,
        forall om (c : R), check_outlier (fun=> c) (z om) S = Ok (c < nis om) & pr nis = (m_dim y)%:R].
Proof.
case=> h1 h2 h3 h4 h5; have [h5a] := as_modelled_cat h5 => /= -[[H [h [Rm [ly hR hv]]]] st _].
have [vs _] := white_senseP h4; have [h4a _] := white_cat h4.
move/uncorrelated_cat: h3 => [h3a /= [h3b _]].
have [P [xf [hP e [se me ce] tr]]] := run_stats h1 h2 h3a h4a h5a.
have [sv mv cv] := hv.
pose err om := (simulate pm om (X om) t s).2 - xf om.
pose S := H *m P *m H^T + Rm; pose z om := H *m err om + 1%:M *m v om.
have hS : pd S by apply: pdD_psd => //; exact: psd_congr.
have ev : cross err v = 0 by apply: tr.
have cz : cross z z = S by rewrite cross_comb // ce cv mul1mx trmx1 mulmx1.
exists z, S; split=> //.
- by move=> om; rewrite /innovation e; exact: details_ok.
- by rewrite mean_comb // me mv !mulmx0 addr0.
exists (fun om => ((z om)^T *m (invmx S *m z om)) 0 0).
  by move=> om c; rewrite /check_outlier /np_solve (pd_unit hS).
by rewrite mean_quadratic ?cz ?mulVmx ?pd_unit ?mxtrace1 //; exact: sqv_comb.
Qed.

(** *** Innovations of different measurements are uncorrelated. *)
Theorem C94_innovations_white t s1 s2 X xh P0 (y1 y2 : measurement)
  (v1 : Om -> 'cV[R]_(m_dim y1)) (v2 : Om -> 'cV[R]_(m_dim y2)) :
  well_modelled t (s1 ++ Sense U v1 :: s2 ++ [:: Sense U v2]) X xh P0 ->
  exists z1 S1 z2 S2,
  [/\ forall om, innovation (Est (PState (xh om) (Some t)) P0) (X om) t s1 (v1 om) om = Ok (Some (z1 om, S1)),
      forall om, innovation (Est (PState (xh om) (Some t)) P0) (X om) t (s1 ++ Sense U v1 :: s2) (v2 om) om = Ok (Some (z2 om, S2)) &
      cross z1 z2 = 0].
Proof.
case=> h1 h2 h3 h4 h5; have [h5a] := as_modelled_cat h5 => /= -[[H [h [Rm [ly hR hv]]]] st h5b].
have [v1s h4b] := white_senseP h4; have [h4a [h4c h4d]] := white_cat h4.
have h3' := h3; move/uncorrelated_cat: h3 => [h3a /= [h3b h3c]].
have [P [xf [hP e he tr]]] := run_stats h1 h2 h3a h4a h5a.
have [se me ce] := he; have [sv mv cv] := hv.
pose err om := (simulate pm om (X om) t s1).2 - xf om.
pose S := H *m P *m H^T + Rm; pose z1 om := H *m err om + 1%:M *m v1 om.
pose K := P *m H^T *m invmx S.
pose yh om := xf om + K *m (H *m (err om) + v1 om).
have hS : pd S by apply: pdD_psd => //; exact: psd_congr.
have ev : cross err v1 = 0 by apply: tr.
have sp om := sense_step (v1 om) (simulate pm om (X om) t s1).2 (xf om) ly hR st hP.
have ext om : (simulate pm om (X om) t s1).2 - yh om = (1%:M - K *m H) *m err om + (- K) *m v1 om by have [_] := sp om.
have [eJ hP1] := post_psd H hP hR.
have hY : noise pr ((1%:M - K *m H) *m P) (fun om => (simulate pm om (X om) t s1).2 - yh om).
  split; first by apply: sqv_ext (sqv_comb (1%:M - K *m H) (- K) se sv) => om; rewrite ext.
    by rewrite (mean_ext pr ext) mean_comb // me mv !mulmx0 addr0.
  by rewrite (cross_ext pr ext ext) cross_comb // ce cv eJ.
have sz1 : sqv z1 by exact: sqv_comb.
have er : uncorrelated err (s2 ++ [:: Sense U v2]).
  by apply: (later_uncorrelated tr _ h4b h5b); apply/uncorrelated_cat.
have uY := uncorrelated_comb se sv h5b ext er h4c.
have uz : uncorrelated z1 (s2 ++ [:: Sense U v2]) by apply: (uncorrelated_comb (A := H) (B := 1%:M) se sv h5b _ er h4c).
have ez : cross (fun om => (simulate pm om (X om) t s1).2 - yh om) z1 = 0.
  rewrite (cross_ext pr ext (fun=> erefl)) cross_comb_l // [cross err z1]crossT [cross v1 z1]crossT !cross_comb_l //.
  rewrite [cross v1 err]crossT ev ce cv trmx0 !mulmx0 addr0 add0r mul1mx trmx_mul (psd_sym hP) (pd_sym hR).
  rewrite mulmxBl mul1mx mulNmx -mulmxA -addrA -opprD -[X in _ - X]mulmxDr.
  by rewrite mulmxA -/S /K mulmxKV ?pd_unit // subrr.
have [h5c] := as_modelled_cat h5b => /= -[[H2 [hh2 [Rm2 [ly2 hR2 [sv2 mv2 cv2]]]]] st2 _].
move/uncorrelated_cat: (uz) => [uz1 /= [uz2 _]]; move/uncorrelated_cat: (uY) => [uY1 _].
have [h4e _] := white_cat h4d.
have [P2 [xf2 [hP2 e2 [se2 me2 ce2] tr2]]] := run_stats hP1 hY uY1 h4e h5c.
exists z1, S, (fun om => H2 *m ((simulate pm om (simulate pm om (X om) t s1).2 (end_time t s1) s2).2 - xf2 om) + 1%:M *m v2 om).
exists (H2 *m P2 *m H2^T + Rm2); split.
- by move=> om; rewrite /innovation e; exact: details_ok.
- move=> om; rewrite /innovation simulate_cat /= (run_cat _ (e om)) (runS _ (sp om).1) e2 /=.
  rewrite end_time_cat /=.
  exact: details_ok.
rewrite crossT cross_comb_l // [cross v2 z1]crossT uz2 tr2 // trmx0 !mulmx0 addr0 trmx0 //.
Qed.
End Linear.
End Filter.

(** ** An expectation: a finite weighted sample *)
Section Finite.
Variables (R : realFieldType) (Om : Type) (l : seq (Om * R)).
Definition sample_mean (f : Om -> R) : R := \sum_(o <- l) o.2 * f o.1.
Lemma sample_ext f g : (forall w, f w = g w) -> sample_mean f = sample_mean g.
Proof. by move=> h; apply: eq_bigr => o _; rewrite h. Qed.
Lemma sampleD f g : True -> True -> sample_mean (fun w => f w + g w) = sample_mean f + sample_mean g.
Proof. by move=> _ _; rewrite /sample_mean -big_split /=; apply: eq_bigr => o _; rewrite mulrDr. Qed.
Lemma sampleZ a f : True -> sample_mean (fun w => a * f w) = a * sample_mean f.
Proof. by move=> _; rewrite /sample_mean mulr_sumr; apply: eq_bigr => o _; rewrite mulrCA. Qed.
Definition finite_expectation (one : sample_mean (fun=> 1) = 1) : expectation R Om :=
  @Expectation R Om sample_mean (fun=> True) (fun=> True) sample_ext (fun _ _ _ _ => I) (fun _ _ _ _ => I) (fun _ _ _ => I)
    sampleD sampleZ one I (fun _ _ _ _ => I) (fun _ _ _ _ => I) (fun _ _ _ => I) (fun _ _ => I) (fun _ _ _ _ => I).
End Finite.

(** ** A walk observed once: three independent fair signs (first error, disturbance of the
    motion, disturbance of the measurement). *)
Section Witness.
Variable R : rcfType.
Variable chi : nat -> R.
Definition outcome : Type := (bool * bool * bool)%type.
Definition outcomes : seq outcome := [seq (p, c) | p <- [seq (a, b) | a <- [:: true; false], b <- [:: true; false]], c <- [:: true; false]].
Definition eighth : R := 8%:R^-1.
Definition fair : seq (outcome * R) := [seq (o, eighth) | o <- outcomes].
Lemma eighth8 : eighth + eighth + eighth + eighth + eighth + eighth + eighth + eighth = 1.
Proof.
have e : eighth *+ 8 = 1 by rewrite -[LHS]mulr_natr /eighth mulVf // pnatr_eq0.
by rewrite -[RHS]e !mulrS mulr0n; zmod.
Qed.
Lemma fair1 : sample_mean fair (fun=> 1) = 1.
Proof. by rewrite /sample_mean /fair /= !big_cons big_nil /= !mulr1 -[RHS]eighth8; zmod. Qed.
Definition coin : expectation R outcome := finite_expectation fair1.
Definition sg (b : bool) : R := if b then 1 else -1.
Definition col1 (x : R) : 'cV[R]_1 := const_mx x.
Lemma mean_col1 (a : outcome -> R) : mean coin (fun o => col1 (a o)) = col1 (coin a).
Proof. by apply/matrixP => i j; rewrite !mxE; apply: E_ext => w; rewrite mxE. Qed.
Lemma cross_col1 (a b : outcome -> R) : cross coin (fun o => col1 (a o)) (fun o => col1 (b o)) = const_mx (coin (fun o => a o * b o)).
Proof. by apply/matrixP => i j; rewrite !mxE; apply: E_ext => w; rewrite mxE big_ord1 !mxE. Qed.
Lemma coinE (f : outcome -> R) : coin f = eighth * (f (true, true, true) + f (true, true, false) + f (true, false, true) + f (true, false, false)
  + f (false, true, true) + f (false, true, false) + f (false, false, true) + f (false, false, false)).
Proof. by rewrite /coin /= /sample_mean /fair /= !big_cons big_nil /= !mulrDr; zmod. Qed.
Definition first_error (o : outcome) := o.1.1.
Definition motion_sign (o : outcome) := o.1.2.
Definition sensor_sign (o : outcome) := o.2.
Ltac coins := rewrite coinE /sg /first_error /motion_sign /sensor_sign /= ?mulr1 ?mul1r ?mulrN1 ?mulN1r ?opprK.
Lemma sign_noise (f : outcome -> bool) : coin (fun o => sg (f o)) = 0 -> noise coin 1%:M (fun o => col1 (sg (f o))).
Proof.
move=> f0; split; first by [].
  by rewrite mean_col1 f0; apply/matrixP => i j; rewrite !mxE.
rewrite cross_col1 (E_ext coin (g := fun=> 1)); last by move=> w; rewrite /sg; case: (f w); rewrite ?mulrN1 ?opprK ?mulr1.
by apply/matrixP => i j; rewrite !mxE (E1 coin) !ord1.
Qed.
Definition walk : seq (sim_step R 1 R outcome) :=
  [:: Move (1 : R) 1 (fun o => col1 (sg (motion_sign o))); Sense R (y := line_y R) (fun o => col1 (sg (sensor_sign o)))].
Example C94_witness : well_modelled coin (fun _ _ => 1%:M) 0 walk (fun o => col1 (sg (first_error o))) (fun=> 0) 1%:M /\
  linear_process (line_pm R) (fun _ _ => 1%:M) (fun _ _ => 1%:M) (fun u dt => (u * dt)%:M).
Proof.
have n1 : noise coin 1%:M (fun o => col1 (sg (motion_sign o))) by apply: sign_noise; coins; rewrite -[RHS](mulr0 eighth); congr (_ * _); zmod.
have n2 : noise coin 1%:M (fun o => col1 (sg (sensor_sign o))) by apply: sign_noise; coins; rewrite -[RHS](mulr0 eighth); congr (_ * _); zmod.
have n0 : noise coin 1%:M (fun o => col1 (sg (first_error o))) by apply: sign_noise; coins; rewrite -[RHS](mulr0 eighth); congr (_ * _); zmod.
have c01 : cross coin (fun o => col1 (sg (first_error o))) (fun o => col1 (sg (motion_sign o))) = 0.
  rewrite cross_col1; have -> : coin (fun o => sg (first_error o) * sg (motion_sign o)) = 0; last by apply/matrixP => i j; rewrite !mxE.
  by coins; rewrite -[RHS](mulr0 eighth); congr (_ * _); zmod.
have c02 : cross coin (fun o => col1 (sg (first_error o))) (fun o => col1 (sg (sensor_sign o))) = 0.
  rewrite cross_col1; have -> : coin (fun o => sg (first_error o) * sg (sensor_sign o)) = 0; last by apply/matrixP => i j; rewrite !mxE.
  by coins; rewrite -[RHS](mulr0 eighth); congr (_ * _); zmod.
have c12 : cross coin (fun o => col1 (sg (motion_sign o))) (fun o => col1 (sg (sensor_sign o))) = 0.
  rewrite cross_col1; have -> : coin (fun o => sg (motion_sign o) * sg (sensor_sign o)) = 0; last by apply/matrixP => i j; rewrite !mxE.
  by coins; rewrite -[RHS](mulr0 eighth); congr (_ * _); zmod.
have e0 o : col1 (sg (first_error o)) - 0 = col1 (sg (first_error o)) by rewrite subr0.
have ps1 : psd (1%:M : 'M[R]_1) by apply: pd_psd; exact: pd1.
split; last by move=> s u dt; split=> //=; rewrite mul1mx.
split=> //.
- have [h1 h2 h3] := n0; split=> //; first by rewrite (mean_ext coin e0).
  by rewrite (cross_ext coin e0 e0).
- split; first by rewrite (cross_ext coin e0 (fun=> erefl)).
  by split=> //; rewrite (cross_ext coin e0 (fun=> erefl)).
- split; rewrite ?ler01 //; split=> //; last by right; rewrite /= add0r.
  by exists 1%:M, 0, 1%:M; split=> //; [move=> s; split=> //=; rewrite mul1mx addr0|exact: pd1].
Qed.
End Witness.

Print Assumptions C94_error_covariance.
Print Assumptions C94_expected_nees.
Print Assumptions C94_innovation.
Print Assumptions C94_innovations_white.
