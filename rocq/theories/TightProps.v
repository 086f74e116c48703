(** Theorems added after mutation testing (seeded/LOG.jsonl): each pins down an aspect that an
    earlier theorem mentioned only through the model's own definition.
    C23 sizes of the three sigma-point rules, C25 the tolerance of mean_state, C27 the likelihoods of
    the mode weights, C30/C34 unknown keys, C44/C47 the bias walk, copies and new increments,
    C50 the covariance of a velocity measurement, C62 negative indices. *)
From mathcomp Require Import all_ssreflect all_algebra.
From Verif Require Import ModelsModel.
From Verif Require Import Base Tac LinAlg CompositeProof EkfModel EkfProps SigmaModel SigmaProps MixtureModel MixtureProps
  ProblemModel ProblemProof ProblemProps ProblemProps3 PreintModel PreintProps ResultModel ResultProps.
Set Implicit Arguments.
Unset Strict Implicit.
Unset Printing Implicit Defensive.
Import Order.Theory GRing.Theory Num.Theory.
Local Open Scope ring_scope.

(** ** C23 *)
(** The unscented rule uses 2n+1 points, the cubature rule 2n points of equal weight, the
    Gauss-Hermite rule 3^n points. *)
Theorem C23_number_of_points (R : rcfType) n :
  [/\ size (generate_sigmapoints R n Unscented) = (2 * n).+1,
      size (generate_sigmapoints R n Cubature) = (2 * n)%N,
      (forall p, p \in generate_sigmapoints R n Cubature -> p.1 = (2 * n)%:R^-1) &
      size (generate_sigmapoints R n GaussHermite) = (3 ^ n)%N].
Proof.
have sz (T : Type) (f : 'I_n -> T) : size [seq f i | i <- enum 'I_n] = n by rewrite size_map size_enum_ord.
split; rewrite /generate_sigmapoints.
- rewrite /unscented; set l := _ ++ _; rewrite -[LHS]/((size l).+1).
  by rewrite size_cat !sz mul2n -addnn.
- by rewrite /cubature size_cat !sz mul2n -addnn.
- by move=> p; rewrite mem_cat => /orP [] /mapP [i _ ->] /=; rewrite div1r -natrM.
- by rewrite size_map size_iota.
Qed.

(** ** C25 *)
(** mean_state stops at the first pass whose correction has norm at most 1e-6, or after 51 passes. *)
Theorem C25_stops_at_tolerance (R : realFieldType) (X : Type) n (plus : X -> 'cV[R]_n -> X) minus (norm : 'cV[R]_n -> R) (xs : seq (R * X)) w0 x0 :
  let corr x := \sum_(p <- (w0, x0) :: xs) p.1 *: minus p.2 x in
  let pass k := iter k (fun x => plus x (corr x)) x0 in
  exists k, [/\ (k <= 50)%N, mean_state plus minus norm ((w0, x0) :: xs) = Ok (pass k.+1),
     forall j, (j < k)%N -> 10%:R ^- 6 < norm (corr (pass j)) &
     (k < 50)%N -> norm (corr (pass k)) <= 10%:R ^- 6].
Proof.
move=> corr pass; rewrite /mean_state -[51%N]/(50%N.+1); move: 50%N => K.
have emE : em6 R = 10%:R ^- 6 by [].
have ce x : mean_err minus ((w0, x0) :: xs) x = corr x by rewrite /mean_err foldl_sum add0r.
have gen m x : let ps k := iter k (fun x => plus x (corr x)) x in
  exists k, [/\ (k <= m)%N, mean_loop plus minus norm m.+1 ((w0, x0) :: xs) x = ps k.+1,
     forall j, (j < k)%N -> em6 R < norm (corr (ps j)) &
     (k < m)%N -> norm (corr (ps k)) <= em6 R].
  elim: m x => [|m IH] x ps.
    by exists 0%N; split=> //; rewrite [mean_loop _ _ _ _ _ _]/= ce; case: ifP.
  rewrite [mean_loop _ _ _ _ _ _]/= ce; case: ifP => h; last first.
    by exists 0%N; split=> // _; rewrite leNgt h.
  have [k [h1 h2 h3 h4]] := IH (plus x (corr x)).
  exists k.+1; split=> //.
  - by rewrite -[if _ < _ then _ else _]/(mean_loop plus minus norm m.+1 ((w0, x0) :: xs) (plus x (corr x))) h2 -iterSr.
  - by case=> [|j] lj //; rewrite /ps iterSr; exact: h3.
  - by move=> lk; rewrite /ps iterSr; exact: h4.
by rewrite -emE; have [k [h1 h2 h3 h4]] := gen K x0; exists k; rewrite h2.
Qed.
Print Assumptions C25_stops_at_tolerance.

(** ** C27 *)
Section Imm.
Variables (R : realFieldType) (V : Type) (n N : nat).
Variable plus : V -> 'cV[R]_n -> V.
Variable U : Type.
Variable ustamp : U -> option R.
Variable chi2_99 : nat -> R.
Variable gauss_pdf : forall m, 'cV[R]_m -> 'M[R]_m -> R.
Variables (pms : 'I_N -> process_model R V n U) (reject : 'I_N -> bool) (Pi : 'M[R]_N).
Notation correct := (imm_correct plus ustamp chi2_99 gauss_pdf pms reject Pi).
Notation at_measurement x y u i := (ekf_advance ustamp (pms i) (load_stamp (mx_states x i) (m_stamp y)) y u).

(** Innovation and innovation covariance of a measurement at an estimate *)
Definition innovation (y : measurement R V n) (x : est R V n) (yc : 'cV[R]_(m_dim y)) : 'cV[R]_(m_dim y) := m_val y - yc.
Definition innovation_cov (y : measurement R V n) (x : est R V n) : 'M[R]_(m_dim y) :=
  m_jac y (est_state x) *m est_cov x *m (m_jac y (est_state x))^T + m_cov y (est_state x).

(** An IMM correction succeeds whenever every mode's own correction does and every mode predicts a
    measurement: a mode that rejects it as an outlier keeps its estimate and is weighted like the
    others.  The new weight of mode i is its predicted probability times the density of its innovation
    at the estimate before correction, normalised (unless all these products are below 1e-8). *)
Theorem C27_imm_weights x y u (x1 : 'I_N -> est R V n) (yc : 'I_N -> 'cV[R]_(m_dim y)) (xn : 'I_N -> est R V n) :
  (forall i, at_measurement x y u i = Ok (x1 i)) ->
  (forall i, m_eval y (est_state (x1 i)) = Some (yc i)) ->
  (forall i, ekf_correct plus ustamp (pms i) chi2_99 (mx_states x i) y u None (reject i) = Ok (xn i)) ->
  exists2 x', correct x y u = Ok x' &
   (forall i, mx_states x' i = xn i) /\
   let post i := gauss_pdf (innovation (x1 i) (yc i)) (innovation_cov y (x1 i)) * \sum_k Pi k i * mx_probs x k in
   forall i j, 10%:R ^- 8 < post j -> mx_probs x' i = post i / \sum_k post k.
Proof.
move=> h1 h2 h3.
have hd i : ekf_correct_details plus ustamp chi2_99 (pms i) (mx_states x i) y u (reject i) =
    Ok (xn i, Some (innovation (x1 i) (yc i), innovation_cov y (x1 i))).
  have := h3 i; rewrite -details_fst /ekf_correct_details h1 /= h2.
  rewrite -/(innovation (x1 i) (yc i)) -/(innovation_cov y (x1 i)).
  case: (if reject i then _ else _) => //= -[] /=; first by move=> [<-].
  by case: (kalman_gain _ _ _) => //= K [<-].
have hm i : correct_mode plus ustamp chi2_99 (fun m z S => Ok (gauss_pdf z S)) (pms i) (reject i) (mx_states x i) y u =
    Ok (xn i, gauss_pdf (innovation (x1 i) (yc i)) (innovation_cov y (x1 i))).
  by rewrite /correct_mode hd.
rewrite /imm_correct (mapM_enum_ok hm) /=; eexists; first reflexivity.
have sz i : nth (mx_states x i, 0) [seq (xn j, gauss_pdf (innovation (x1 j) (yc j)) (innovation_cov y (x1 j))) | j <- enum 'I_N] i =
    (xn i, gauss_pdf (innovation (x1 i) (yc i)) (innovation_cov y (x1 i))).
  by rewrite (nth_map i) ?size_enum_ord // nth_ord_enum.
split; [by move=> i /=; rewrite sz|move=> i j lt].
rewrite /= (C27_bayes i (j := j)); last by rewrite sz.
by rewrite sz; congr (_ / _); apply: eq_bigr => k _; rewrite sz.
Qed.
End Imm.

(** Two modes, the first of which rejects the measurement. *)
Section ImmWitness.
Notation F := [realFieldType of rat].
Definition y9 : measurement F 'cV[F]_1 1 :=
  @Measurement _ _ _ 1 (const_mx 9%:R) None (fun s => Some (sval s)) (fun _ => 1%:M) (fun _ => 1%:M).
Definition pm0 : process_model F 'cV[F]_1 1 unit := ProcessModel (fun s _ _ => s) (fun _ _ _ => 1%:M) (fun _ _ _ => 0).
Example C27_imm_weights_instance (pdf : forall m, 'cV[F]_m -> 'M[F]_m -> F) :
  exists x', imm_correct (fun x d : 'cV[F]_1 => x + d) (fun _ => None) (fun=> 0) pdf (fun=> pm0) (fun i : 'I_2 => i == 0) Pi2 x2 y9 None = Ok x' /\
    mx_states x' 0 = mx_states x2 0.
Proof.
pose corr i := ekf_correct (fun x d : 'cV[F]_1 => x + d) (fun _ : unit => None) pm0 (fun=> 0) (mx_states x2 i) y9 None None (i == 0).
have u (i : nat) : (1%:M : 'M[F]_1) *m (i.+1%:R)%:M *m 1%:M^T + 1%:M = (i.+2%:R)%:M.
  by rewrite trmx1 mulmx1 mul1mx -raddfD /= -[i.+2]addn1 natrD.
have un (i : nat) : ((i.+2%:R)%:M : 'M[F]_1) \in unitmx by rewrite unitmxE det_scalar expr1 unitfE pnatr_eq0.
have c0 : corr 0 = Ok (mx_states x2 0).
  rewrite /corr /ekf_correct /= /check_outlier /np_solve u un /=.
  have h : 0 < ((const_mx 9%:R - 0%:R%:M)^T *m (invmx 2%:R%:M *m (const_mx 9%:R - 0%:R%:M : 'cV[F]_1))) 0 0.
    rewrite invmx_scalar mul_scalar_mx -scalemxAr !mxE big_ord1 !mxE /=.
    by vm_compute.
  by rewrite h.
have c1 : exists x, corr 1 = Ok x.
  rewrite /corr /ekf_correct /= /kalman_gain /np_solve u tr_scalar_mx un /=; by eexists.
have [xb eb] := c1.
have hx i : corr i = Ok (if i == 0 then mx_states x2 0 else xb).
  case: eqP => [->|]; first exact: c0.
  move=> i0; have -> : i = 1 by apply: val_inj; case: i i0 => -[|[|//]] lt //= h; case: h; exact: val_inj.
  exact: eb.
have [x' e [s _]] := @C27_imm_weights F _ 1 2 (fun x d : 'cV[F]_1 => x + d) unit (fun _ => None) (fun=> 0) pdf (fun=> pm0) (fun i : 'I_2 => i == 0) Pi2 x2 y9 None
  (mx_states x2) (fun i => (i%:R)%:M) _ (fun i => erefl) (fun i => erefl) hx.
by exists x'; split=> //; rewrite s.
Qed.
End ImmWitness.

(** ** C34 *)
(** A residual that mentions a key which is not a variable of the problem makes solve raise KeyError. *)
Theorem C34_unknown_key_raises (R : rcfType) (K : eqType) (V : Type) (dof : V -> nat) (plus : V -> seq R -> V) (p : problem R K V) r k :
  List.In r (p_resids p) -> k \in r_keys r -> k \notin unzip1 (p_init p) ->
  solve dof plus p = Raise KeyError.
Proof.
move=> hr hk hn; rewrite /solve.
have dk : dindex (p_init p) k = Raise KeyError.
  by rewrite /dindex; elim: (p_init p) hn => //= -[k' v] l IH; rewrite inE negb_or eq_sym => /andP [/negbTE -> /IH].
have hm (l : seq K) : k \in l -> mapM (dindex (p_init p)) l = Raise KeyError.
  elim: l => // a l IH; rewrite inE => /orP [/eqP <-|/IH h] /=; first by rewrite dk.
  by rewrite h /dindex; case: (dget _ _).
have -> // : forall i, residual_slices (p_init p) (p_resids p) i = Raise KeyError.
elim: (p_resids p) hr => // a l IH /= [->|/IH h] i; first by rewrite hm.
suff: mapM (dindex (p_init p)) (r_keys a) = Raise KeyError \/ is_ok (mapM (dindex (p_init p)) (r_keys a)).
  by case=> [->//|]; case: mapM => //= _ _; rewrite h.
elim: (r_keys a) => [|b m hb] /=; first by right.
have [[v ->]|->] : (exists v, dindex (p_init p) b = Ok v) \/ dindex (p_init p) b = Raise KeyError; last by left.
  by rewrite /dindex; case: (dget _ _) => [v|]; [left; exists v|right].
by case: hb => [->|]; [left|case: mapM => // ? _; right].
Qed.

(** A chain of two variables with an additional residual on a variable 7 that was never added. *)
Example C34_unknown_key_instance (R : rcfType) : solve (@sdof R) (@splus R)
  (add_residual (chain R GN 3) [:: anchor 7 (0 : R)] (inl (l2_loss R))) = Raise KeyError.
Proof. by apply: (@C34_unknown_key_raises _ _ _ _ _ _ (anchor 7 (0 : R)) 7%N); [right; right; left| |]. Qed.

(** ** C44, C47: increments of a linear model with a bias *)
Section Bias.
Variables (R : realFieldType) (n m : nat).
Notation input := (vinput R 'cV[R]_m).
Variable sm : input -> R -> 'M[R]_n.
Variable im : input -> R -> 'M[R]_(n, m).
Notation iu := (fun u : input => Some (vi_stamp u)).

(** The covariance of one increment: the input noise enters through the input matrix and the bias
    random walk through dt, so a walk of covariance Qb contributes dt^2 Qb; the preintegrated model
    reports the same covariance after a single step. *)
Theorem C44_bias_walk_covariance (Qu Qb : 'M[R]_m) b (u : input) dt :
  let Q := block_mx Qu 0 0 Qb in
  let B := im (VIn (vi_val u - b) (vi_stamp u)) dt in
  br_cov (brmi_increment sm im Q (brmi0 n b) u dt) = block_mx (B *m Qu *m B^T) 0 0 (dt ^+ 2 *: Qb) /\
  forall x t, pm_cov (bias_model sm im Q) (PState (col_mx x b) t) u dt = block_mx (B *m Qu *m B^T) 0 0 (dt ^+ 2 *: Qb).
Proof.
move=> Q B.
have E : B_full B dt *m Q *m (B_full B dt)^T = block_mx (B *m Qu *m B^T) 0 0 (dt ^+ 2 *: Qb).
  rewrite /B_full /Q tr_block_mx !trmx0 tr_scalar_mx !mulmx_block !(mulmx0, mul0mx, addr0, add0r).
  by rewrite -scalemx1 -!scalemxAl mul1mx -!scalemxAr mulmx1 scalerA expr2.
by split=> [|x t]; rewrite /= ?col_mxKd /= -/B ?mulmx0 ?mul0mx ?add0r.
Qed.

(** A copy of an increment carries the updated bias: it predicts like the original. *)
Theorem C47_bias_copy (Q : 'M[R]_(m + m)) b b' steps x :
  let r := brmi_update_bias (accumulate (brmi_increment sm im Q) (brmi0 n b) steps) b' in
  [/\ br_new (brmi_copy r) = b', brmi_value (brmi_copy r) = brmi_value r,
      preint_bias_evaluate (brmi_copy r) x = preint_bias_evaluate r x &
      br_cov (brmi_copy r) = br_cov r /\ br_stamps (brmi_copy r) = br_stamps r].
Proof. by []. Qed.

(** new(b) starts over with the requested bias, new() with the original one: whatever was accumulated
    before, the steps that follow give what they give from scratch. *)
Theorem C47_bias_new (Q : 'M[R]_(m + m)) b b' steps steps' :
  let r := accumulate (brmi_increment sm im Q) (brmi0 n b) steps in
  accumulate (brmi_increment sm im Q) (brmi_new r (Some b')) steps' = accumulate (brmi_increment sm im Q) (brmi0 n b') steps' /\
  accumulate (brmi_increment sm im Q) (brmi_new r None) steps' = accumulate (brmi_increment sm im Q) (brmi0 n b) steps'.
Proof. by split=> //; rewrite /brmi_new /= (brmi_const sm im Q b steps).1. Qed.
End Bias.

(** ** C50 *)
(** The covariance of an AbsoluteVelocity measurement: a number R means R times the identity, and is
    refused for a state without velocity; a matrix is used as it is. *)
Theorem C50_velocity_covariance (R : rcfType) n a d (x : pose R n a d) (c : R) (M : 'M[R]_n) :
  [/\ forall S, vel_cov (inl c) x = Ok S -> forall i j, S i j = if i == j then c else 0,
      is_ok (vel_cov (inl c) x) = isSome (p_vel x) & vel_cov (inr M) x = Ok M].
Proof.
split=> //; rewrite /vel_cov; case: (p_vel x) => //= v S [<-] i j.
by rewrite mxE; case: eqP; rewrite ?mulr1n ?mulr0n.
Qed.

(** ** C62 *)
(** Negative indices count from the end, on either axis, alone or in a list; an index outside
    [-N, N) raises IndexError. *)
Lemma np_index_neg N (i : nat) : (i < N)%N -> np_index N (i%:Z - N%:Z) = np_index N i%:Z.
Proof.
move=> h; rewrite np_index_nat // /np_index.
have neg : i%:Z - N%:Z < 0 by rewrite subr_lt0 ltz_nat.
rewrite leNgt neg /= -subr_ge0 opprK subrK le0z_nat /=.
by [].
Qed.
Theorem C62_negative_index (R : rcfType) N D (err : nat -> nat -> R) cov k (i : nat) (l : seq nat) :
  [/\ (i < N)%N -> getitem N D err cov (KInt (i%:Z - N%:Z)) k = getitem N D err cov (KInt i%:Z) k,
      (i < D)%N -> getitem N D err cov k (KInt (i%:Z - D%:Z)) = getitem N D err cov k (KInt i%:Z),
      all (fun n => n < N)%N l ->
        getitem N D err cov (KList [seq n%:Z - N%:Z | n <- l]) k = getitem N D err cov (KList [seq n%:Z | n <- l]) k &
      all (fun n => n < D)%N l ->
        getitem N D err cov k (KList [seq n%:Z - D%:Z | n <- l]) = getitem N D err cov k (KList [seq n%:Z | n <- l])].
Proof.
have hl M (s : seq nat) : all (fun n => n < M)%N s -> mapM (np_index M) [seq n%:Z - M%:Z | n <- s] = mapM (np_index M) [seq n%:Z | n <- s].
  by elim: s => //= n s IH /andP [h /IH ->]; rewrite np_index_neg.
split=> h; rewrite /getitem.
- by case: k => [j|a b s|l'] /=; rewrite np_index_neg.
- by case: k => [j|a b s|l'] /=; rewrite np_index_neg.
- by case: k => [j|a b s|l'] /=; rewrite hl.
- by case: k => [j|a b s|l'] /=; rewrite hl.
Qed.
Theorem C62_index_out_of_range (R : rcfType) N D (err : nat -> nat -> R) cov (i : int) k2 ds : ~~ (- N%:Z <= i < N%:Z) ->
  selects D k2 ds -> getitem N D err cov (KInt i) k2 = Raise IndexError.
Proof.
move=> h h2; rewrite /getitem (selects_list h2) /=.
suff -> : np_index N i = Raise IndexError by [].
rewrite /np_index; move: h; case: (leP 0 i) => i0.
  have -> : - N%:Z <= i by rewrite (le_trans _ i0) // oppr_le0.
  by case: (i < N%:Z) => //= _; rewrite andbF.
by rewrite (lt_le_trans i0) ?le0z_nat // andbT; case: (_ <= i).
Qed.

(** Witnesses. *)
Example C62_negative_instance (R : rcfType) : let g k := getitem 3 2 (fun t d => (t + d)%:R : R) (fun t i j => (i == j)%:R) (KSlice None None None) k in
  g (KList [:: - 1%:Z]) = g (KList [:: 1%:Z]).
Proof.
have [_ _ _] := C62_negative_index 3 2 (fun t d => (t + d)%:R : R) (fun t i j => (i == j)%:R) (KSlice None None None) 0 [:: 1%N].
exact.
Qed.
Print Assumptions C27_imm_weights.
Print Assumptions C34_unknown_key_raises.
Print Assumptions C62_negative_index.
Print Assumptions C62_index_out_of_range.
Print Assumptions C44_bias_walk_covariance.
Print Assumptions C50_velocity_covariance.
