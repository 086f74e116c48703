(** C93, mixture filters: modes that agree stay in agreement, and are then a plain EKF. *)
From mathcomp Require Import all_ssreflect all_algebra.
From Verif Require Import Base LinAlg CompositeProof EkfModel EkfProps MixtureModel MixtureProps.
Set Implicit Arguments.
Unset Strict Implicit.
Unset Printing Implicit Defensive.
Import Order.Theory GRing.Theory Num.Theory.
Local Open Scope ring_scope.

Section Same.
Variables (R : realFieldType) (V : Type) (n N : nat).
Variable plus : V -> 'cV[R]_n -> V.
Variable minus : V -> V -> 'cV[R]_n.
Variable plus_jac : V -> 'cV[R]_n -> 'M[R]_n.
Variable minus_jac : V -> V -> 'M[R]_n.
Variable U : Type.
Variable ustamp : U -> option R.
Variable chi2_99 : nat -> R.
Variable gauss_pdf : forall m, 'cV[R]_m -> 'M[R]_m -> R.
Variables (pm : process_model R V n U) (rej : bool) (Pi : 'M[R]_N).
Notation est := (est R V n).
Notation mixture := (mixture R V n N).
Notation measurement := (measurement R V n).

(** What plus and minus must satisfy at every state (all the package's states do: C02, C03, C66). *)
Definition origin_laws : Prop := forall v : V,
  [/\ minus v v = 0, plus v 0 = v, minus_jac v v = 1%:M & plus_jac v 0 = 1%:M].

(** The methods called along a run: predict, correct, and (IMM only) interaction. *)
Inductive call := Pred (u : option U) (dt : option R) | Corr (y : measurement) (u : option U) | Mix.
(** the extended Kalman filter; it has no interaction *)
Definition ekf_call (x : est) (c : call) : result est :=
  match c with
  | Pred u dt => ekf_predict ustamp pm x u dt None
  | Corr y u => ekf_correct plus ustamp pm chi2_99 x y u None rej
  | Mix => Ok x
  end.
(** the interacting-model filter, all of whose N filters are this same filter *)
Definition imm_call (x : mixture) (c : call) : result mixture :=
  match c with
  | Pred u dt => imm_predict ustamp (fun=> pm) x u dt
  | Corr y u => imm_correct plus ustamp chi2_99 gauss_pdf (fun=> pm) (fun=> rej) Pi x y u
  | Mix => imm_interaction plus minus plus_jac minus_jac Pi x
  end.
(** the Gaussian-sum filter *)
Definition gsf_call (x : mixture) (c : call) : result mixture :=
  match c with
  | Pred u dt => imm_predict ustamp (fun=> pm) x u dt
  | Corr y u => gsf_correct plus ustamp chi2_99 gauss_pdf pm rej x y u
  | Mix => Ok x
  end.
(** every measurement can be predicted from every state *)
Definition available (c : call) : Prop := if c is Corr y _ then forall s, m_eval y s <> None else True.
Definition scalar_measurement (c : call) : Prop := if c is Corr y _ then m_dim y = 1%N else True.

Lemma ekf_mix_corr_mix e y u : foldM ekf_call e [:: Mix; Corr y u; Mix] = ekf_correct plus ustamp pm chi2_99 e y u None rej.
Proof. by rewrite /=; case: (ekf_correct _ _ _ _ _ _ _ _ _). Qed.

Hypothesis N0 : (0 < N)%N.
Hypothesis laws : origin_laws.
Hypothesis pdf_ge0 : forall m (z : 'cV[R]_m) S, 0 <= gauss_pdf z S.

Lemma mixing_same w (xs : seq est) (X : est) : size w = size xs -> \sum_(a <- w) a = 1 ->
  (forall k d, (k < size xs)%N -> nth d xs k = X) ->
  gaussian_mixing plus minus plus_jac minus_jac w xs = Ok X.
Proof.
move=> sz w1 same.
have ne : xs <> [::] by move=> e; move: w1 sz; rewrite e; case: w => //= /esym/eqP; rewrite big_nil oner_eq0.
have [i [Xp [ai il Xi ->]]] := mixing_ok plus minus plus_jac minus_jac ne sz.
have eX : Xp = X by rewrite -(Xi X) same.
have s1 : \sum_(p <- zip w xs) p.1 = 1 by rewrite -w1 -(big_map fst xpredT id) -/unzip1 unzip1_zip // sz.
have sumE (Z : lmodType R) (G : est -> Z) : \sum_(p <- zip w xs) p.1 *: G p.2 = G X.
  rewrite -[RHS]scale1r -s1 scaler_suml (big_nth (0, X)) [RHS](big_nth (0, X)) !big_mkord; apply: eq_bigr => k _.
  by rewrite nth_zip //= same //; apply: leq_trans (ltn_ord k) _; rewrite size_zip sz minnn.
have [mx px mj pj] := laws (sval (est_state X)).
rewrite eX /= (sumE _ (fun p => minus (sval (est_state p)) (sval (est_state X)))) mx.
rewrite (sumE _ (fun p => minus_jac (sval (est_state p)) (sval (est_state X)) *m est_cov p *m
      (minus_jac (sval (est_state p)) (sval (est_state X)))^T +
      (minus (sval (est_state p)) (sval (est_state X)) - 0) *m (minus (sval (est_state p)) (sval (est_state X)) - 0)^T)).
rewrite mx mj subr0 mul0mx addr0 trmx1 mul1mx mulmx1 /update_X pj trmx1 mul1mx mulmx1 /pplus px.
by case: (X) => -[].
Qed.

(** All modes hold the same estimate, and their weights are probabilities. *)
Definition unanimous (x : mixture) (e : est) : Prop := (forall i, mx_states x i = e) /\ is_prob (mx_probs x).

Lemma predict_same x e u dt : unanimous x e ->
  match ekf_predict ustamp pm e u dt None with
  | Ok e' => exists2 x', imm_predict ustamp (fun=> pm) x u dt = Ok x' & unanimous x' e'
  | Raise ex => imm_predict ustamp (fun=> pm) x u dt = Raise ex
  end.
Proof.
case=> hs hp; rewrite /imm_predict; case E : (ekf_predict _ _ _ _ _ _) => [e'|ex].
  rewrite (mapM_enum_ok (g := fun=> e')); last by move=> i; rewrite hs E.
  eexists; first reflexivity.
  by split=> // i /=; rewrite nth_map_enum.
by rewrite (@mapM_raise _ _ _ ex) //; [move=> i; rewrite hs E|exact: enum_ne].
Qed.

Lemma mode_same (pdf : forall m, 'cV[R]_m -> 'M[R]_m -> result R) y u e : (forall s, m_eval y s <> None) ->
  (forall (z : 'cV[R]_(m_dim y)) S, pdf _ z S = Ok (gauss_pdf z S)) ->
  match ekf_correct plus ustamp pm chi2_99 e y u None rej with
  | Ok e' => exists2 l, 0 <= l & correct_mode plus ustamp chi2_99 pdf pm rej e y u = Ok (e', l)
  | Raise ex => correct_mode plus ustamp chi2_99 pdf pm rej e y u = Raise ex
  end.
Proof.
move=> av hp; rewrite -details_fst /correct_mode /ekf_correct_details.
case: (ekf_advance _ _ _ _ _) => //= x1; case E : (m_eval _ _) => [yc|] /=; last by case: (av _ E).
case: (if rej then _ else _) => //= -[] /=; first by rewrite hp /=; eexists; last reflexivity.
by case: (kalman_gain _ _ _) => //= K; rewrite hp /=; eexists; last reflexivity.
Qed.

Lemma run_same (step : mixture -> call -> result mixture) (ok : call -> Prop) :
  (forall x e c, ok c -> unanimous x e ->
     match ekf_call e c with
     | Ok e' => exists2 x', step x c = Ok x' & unanimous x' e'
     | Raise ex => step x c = Raise ex
     end) ->
  forall calls x e, (forall k d, (k < size calls)%N -> ok (nth d calls k)) -> unanimous x e ->
  match foldM ekf_call e calls with
  | Ok e' => exists2 x', foldM step x calls = Ok x' & unanimous x' e'
  | Raise ex => foldM step x calls = Raise ex
  end.
Proof.
move=> h; elim=> [|c r IH] x e hok hu /=; first by exists x.
have := h x e c (hok 0%N c isT) hu; case: (ekf_call e c) => [e'|ex] /=; last by move=> ->.
by case=> x' -> hu' /=; apply: IH => // k d lk; exact: (hok k.+1 d).
Qed.

Lemma combined x e : unanimous x e ->
  gaussian_mixing plus minus plus_jac minus_jac [seq mx_probs x i | i <- enum 'I_N] [seq mx_states x i | i <- enum 'I_N] = Ok e.
Proof.
case=> hs [_ h1]; apply: mixing_same; first by rewrite !size_map.
  by rewrite big_map big_enum.
move=> k d.
by rewrite size_map size_enum_ord => lk; rewrite (nth_map (Ordinal lk)) ?size_enum_ord.
Qed.

(** C93: an interacting-model filter whose modes are the same filter, started with the same
    estimate in every mode, does what that filter does, whatever the (possibly non-linear)
    models and the order of interaction, predict and correct calls: it fails when the
    filter fails, with the same exception, and otherwise every mode and the combined
    estimate are the filter's estimate, and the weights stay a probability vector. *)
Theorem C93_imm_identical_modes (x : mixture) (e : est) (calls : seq call) :
  row_stochastic Pi -> (forall i j, 0 < Pi i j) -> (forall i, mx_states x i = e) -> is_prob (mx_probs x) ->
  (forall k d, (k < size calls)%N -> available (nth d calls k)) ->
  match foldM ekf_call e calls with
  | Ok e' => exists2 x', foldM imm_call x calls = Ok x' &
      [/\ forall i, mx_states x' i = e', is_prob (mx_probs x') &
          gaussian_mixing plus minus plus_jac minus_jac
            [seq mx_probs x' i | i <- enum 'I_N] [seq mx_states x' i | i <- enum 'I_N] = Ok e']
  | Raise ex => foldM imm_call x calls = Raise ex
  end.
Proof.
move=> hPi hpos hs hp av.
have step y d c : available c -> unanimous y d ->
   match ekf_call d c with Ok e' => exists2 x', imm_call y c = Ok x' & unanimous x' e' | Raise ex => imm_call y c = Raise ex end.
  case: c => [u dt|m u|] a hu; first exact: predict_same.
    case: (hu) => hs' hp'.
    have := mode_same (pdf := fun m z S => Ok (gauss_pdf z S)) u d a (fun _ _ => erefl _).
    rewrite [ekf_call _ _]/= [imm_call _ _]/= /imm_correct.
    case: (ekf_correct _ _ _ _ _ _ _ _ _) => [e'|ex] H; last first.
      by rewrite (@mapM_raise _ _ _ ex) //; [move=> i; rewrite hs' H|exact: enum_ne].
    case: H => l l0 H; rewrite (mapM_enum_ok (g := fun=> (e', l))); last by move=> i; rewrite hs' H.
    eexists; first reflexivity.
    split=> [i|] /=; first by rewrite nth_map_enum.
    apply: C27_normalized => // i; rewrite nth_map_enum mulr_ge0 //.
    by case: (C26_predicted_probs hPi hp').
  case: (hu) => hs' hp'; rewrite /= /imm_interaction.
  have cpos j : predicted_probs Pi (mx_probs y) j != 0.
    have [i hi] : exists i, 0 < mx_probs y i.
      have : \sum_i mx_probs y i != 0 by rewrite hp'.2 oner_eq0.
      move=> nz; apply/existsP; apply: contraR nz; rewrite negb_exists => /forallP h.
      by rewrite big1 // => i _; apply/eqP; rewrite eq_le hp'.1 leNgt h.
    rewrite gt_eqF // /predicted_probs (bigD1 i) //= ltr_spaddl ?mulr_gt0 //.
    by apply: sumr_ge0 => k _; rewrite mulr_ge0 ?hp'.1 // ltW.
  rewrite (mapM_enum_ok (g := fun=> d)); last first.
    move=> j; apply: mixing_same; first by rewrite !size_map.
      by rewrite big_map big_enum /=; case: (C26_mixing_columns hPi hp' (cpos j)).
    by move=> k d0; rewrite size_map size_enum_ord => lk; rewrite (nth_map (Ordinal lk)) ?size_enum_ord.
  eexists; first reflexivity.
  by split=> // i /=; rewrite nth_map_enum.
have := run_same step av (conj hs hp); case: (foldM _ _ _) => // e' [x' hx hu]; exists x' => //.
by split; [exact: hu.1|exact: hu.2|exact: combined].
Qed.

(** C93: the Gaussian-sum filter started with the same estimate in every mode does what the
    extended Kalman filter does, on scalar measurements (it fails on others: C72). *)
Theorem C93_gsf_identical_modes (x : mixture) (e : est) (calls : seq call) :
  (forall i, mx_states x i = e) -> is_prob (mx_probs x) ->
  (forall k d, (k < size calls)%N -> available (nth d calls k) /\ scalar_measurement (nth d calls k)) ->
  match foldM ekf_call e calls with
  | Ok e' => exists2 x', foldM gsf_call x calls = Ok x' &
      [/\ forall i, mx_states x' i = e', is_prob (mx_probs x') &
          gaussian_mixing plus minus plus_jac minus_jac
            [seq mx_probs x' i | i <- enum 'I_N] [seq mx_states x' i | i <- enum 'I_N] = Ok e']
  | Raise ex => foldM gsf_call x calls = Raise ex
  end.
Proof.
move=> hs hp av.
have step y d c : available c /\ scalar_measurement c -> unanimous y d ->
   match ekf_call d c with Ok e' => exists2 x', gsf_call y c = Ok x' & unanimous x' e' | Raise ex => gsf_call y c = Raise ex end.
  case: c => [u dt|m u|] [a sc] hu; [exact: predict_same| |by exists y].
  case: (hu) => hs' hp'.
  have := mode_same (pdf := gsf_pdf gauss_pdf) u d a; rewrite {1}/gsf_pdf [m_dim m]sc eqxx => /(_ (fun _ _ => erefl _)).
  rewrite [ekf_call _ _]/= [gsf_call _ _]/= /gsf_correct.
  case: (ekf_correct _ _ _ _ _ _ _ _ _) => [e'|ex] H; last first.
    by rewrite (@mapM_raise _ _ _ ex) //; [move=> i; rewrite hs' H|exact: enum_ne].
  case: H => l l0 H; rewrite (mapM_enum_ok (g := fun=> (e', l))); last by move=> i; rewrite hs' H.
  eexists; first reflexivity.
  split=> [i|] /=; first by rewrite nth_map_enum.
  by apply: C27_normalized => // i; rewrite nth_map_enum mulr_ge0 //; case: hp'.
have := run_same step av (conj hs hp); case: (foldM _ _ _) => // e' [x' hx hu]; exists x' => //.
by split; [exact: hu.1|exact: hu.2|exact: combined].
Qed.
End Same.

(** Witness: two modes with weights 1/4, 3/4, uniform transitions, mixed and corrected; the single
    filter's estimate moves (EkfProps.C16_witness_moves). *)
Section Witness.
Let F := [realFieldType of rat].
Let V := 'cV[F]_2.
Definition two_modes : mixture F V 2 2 := Mixture (fun=> w_x) (fun i : 'I_2 => if i == 0 then 1 / 4%:R else 3%:R / 4%:R).
Definition half_Pi : 'M[F]_2 := const_mx (1 / 2%:R).
Definition mix_corr : seq (call F V 2 F) := [:: Mix _ _ _ _; Corr (w_y (Some 0)) None; Mix _ _ _ _].

Example C93_imm_witness_hyps :
  [/\ origin_laws (fun (v : V) d => v + d) (fun v w => v - w) (fun _ _ => 1%:M) (fun _ _ => 1%:M),
      row_stochastic half_Pi, forall i j, 0 < half_Pi i j, forall i, mx_states two_modes i = w_x &
      is_prob (mx_probs two_modes) /\ forall k d, (k < size mix_corr)%N -> available (nth d mix_corr k)].
Proof.
split.
- by move=> v; rewrite subrr addr0.
- by move=> i; split=> [j|]; rewrite ?big_ord_recl ?big_ord0 !mxE.
- by move=> i j; rewrite mxE.
- by [].
split; last by case=> [|[|[|k]]] d.
by split=> [i|]; [rewrite /=; case: ifP|rewrite big_ord_recl big_ord1].
Qed.

Example C93_imm_witness (chi : nat -> F) (pdf : forall m, 'cV[F]_m -> 'M[F]_m -> F) : (forall m z S, 0 <= pdf m z S) ->
  exists2 x', foldM (imm_call (fun (v : V) d => v + d) (fun v w => v - w) (fun _ _ => 1%:M) (fun _ _ => 1%:M) (fun _ : F => None)
                       chi pdf w_pm false half_Pi) two_modes mix_corr = Ok x' &
    forall i, sval (est_state (mx_states x' i)) 0 0 = 2%:R.
Proof.
move=> pdf0; have [laws hPi hpos hs [hp av]] := C93_imm_witness_hyps.
have [xe e [e2 _]] := C16_witness_moves chi.
have ef := ekf_mix_corr_mix (fun (v : V) d => v + d) (fun _ : F => None) chi w_pm false w_x (w_y (Some 0)) None.
rewrite e in ef.
have A := @C93_imm_identical_modes F V 2 2 (fun (v : V) d => v + d) (fun v w => v - w) (fun _ _ => 1%:M) (fun _ _ => 1%:M) F
  (fun _ : F => None) chi pdf w_pm false half_Pi isT laws pdf0 two_modes w_x mix_corr hPi hpos hs hp.
specialize (A av).
change (foldM (ekf_call (fun (v : V) d => v + d) (fun _ : F => None) chi w_pm false) w_x mix_corr = Ok xe) in ef.
rewrite -> ef in A.
destruct A as [x' e3 [h _ _]]; exists x'; first exact e3.
intro i; rewrite -> h; exact e2.
Qed.
End Witness.

Print Assumptions C93_imm_identical_modes.
Print Assumptions C93_gsf_identical_modes.
