(** C98: the mixture filters do not depend on the order in which their modes are listed. *)
From mathcomp Require Import all_ssreflect all_fingroup all_algebra.
From Verif Require Import Base LinAlg CompositeProof EkfModel EkfProps MixtureModel MixtureProps ImmAgreeProps.
Set Implicit Arguments.
Unset Strict Implicit.
Unset Printing Implicit Defensive.
Import Order.Theory GRing.Theory Num.Theory.
Local Open Scope ring_scope.

(** Both fail, or both succeed with results in relation [rel]. *)
Definition outcome A (rel : A -> A -> Prop) (r r' : result A) : Prop :=
  match r, r' with
  | Ok a, Ok b => rel a b
  | Raise _, Raise _ => True
  | _, _ => False
  end.

Lemma size_mapM A B (f : A -> result B) l r : mapM f l = Ok r -> size r = size l.
Proof.
elim: l r => [|a l IH] r /=; first by case=> <-.
by case: (f a) => //= b; case E : (mapM f l) => [q|] //= [<-] /=; rewrite (IH q).
Qed.

Section Modes.
Variables (N : nat) (N0 : (0 < N)%N) (s : {perm 'I_N}).

(** A loop over the modes, which are listed in another order. *)
Lemma modes_outcome A (f f' : 'I_N -> result A) : (forall i, f' i = f (s i)) ->
  outcome (fun r r' => forall (i : 'I_N) d d', nth d r' i = nth d' r (s i)) (mapM f (enum 'I_N)) (mapM f' (enum 'I_N)).
Proof.
have val (g : 'I_N -> result A) r : mapM g (enum 'I_N) = Ok r -> exists h, forall i, g i = Ok (h i) /\ forall d, nth d r i = h i.
  move=> e; have := size_mapM e; rewrite size_enum_ord; case: r e => [|d r] e sz; first by exfalso; move: N0; rewrite -[N]sz.
  exists (fun i => nth d (d :: r) i) => i; split; first exact: mapM_enum.
  by move=> d'; apply: set_nth_default; rewrite sz.
move=> e; case E : (mapM f _) => [r|x]; case E' : (mapM f' _) => [r'|x'] //=.
- move=> i d d'; have [h hE] := val _ _ E; have [h' hE'] := val _ _ E'.
  rewrite (hE' i).2 (hE (s i)).2.
  by have := (hE' i).1; rewrite e (hE (s i)).1; case.
- have [h hE] := val _ _ E.
  have E2 : mapM f' (enum 'I_N) = Ok (map (fun i => h (s i)) (enum 'I_N)).
    by apply: mapM_enum_ok => i; rewrite e (hE (s i)).1.
  by rewrite E2 in E'.
- have [h hE] := val _ _ E'.
  have E2 : mapM f (enum 'I_N) = Ok (map (fun i => h ((s^-1)%g i)) (enum 'I_N)).
    by apply: mapM_enum_ok => i; rewrite -{1}(permKV s i) -e (hE _).1.
  by rewrite E2 in E.
Qed.
End Modes.

Section Order.
Variables (R : realFieldType) (V : Type) (n N : nat).
Variable plus : V -> 'cV[R]_n -> V.
Variable minus : V -> V -> 'cV[R]_n.
Variable plus_jac : V -> 'cV[R]_n -> 'M[R]_n.
Variable minus_jac : V -> V -> 'M[R]_n.
Notation est := (est R V n).
Notation mixture := (mixture R V n N).
Notation measurement := (measurement R V n).
Notation mixing := (gaussian_mixing plus minus plus_jac minus_jac).

(** The weights and the estimates of the modes, as the lists gaussian_mixing takes. *)
Definition listed A (f : 'I_N -> A) : seq A := [seq f i | i <- enum 'I_N].
Definition heaviest (w : 'I_N -> R) (i : 'I_N) : Prop := forall k, w k <= w i.
(** gaussian_mixing expands about its heaviest component: when several share the greatest
    weight, they hold the same state. *)
Definition clear_reference (w : 'I_N -> R) (X : 'I_N -> est) : Prop :=
  forall i k, heaviest w i -> heaviest w k -> est_state (X i) = est_state (X k).

Definition about (w : 'I_N -> R) (X : 'I_N -> est) (ref : pstate R V) : est :=
  let mu Y := minus (sval (est_state Y)) (sval ref) in
  let J Y := minus_jac (sval (est_state Y)) (sval ref) in
  let m := \sum_i w i *: mu (X i) in
  let P := \sum_i w i *: (J (X i) *m est_cov (X i) *m (J (X i))^T + (mu (X i) - m) *m (mu (X i) - m)^T) in
  update_X plus plus_jac ref m P.
Definition harmless (w : 'I_N -> R) (X : 'I_N -> est) : Prop :=
  forall i k, heaviest w i -> heaviest w k -> about w X (est_state (X i)) = about w X (est_state (X k)).

Lemma clear_harmless w X : clear_reference w X -> harmless w X.
Proof. by move=> h i k hi hk; rewrite (h i k hi hk). Qed.

Lemma sum_listed (Z : lmodType R) (w : 'I_N -> R) (X : 'I_N -> est) (G : est -> Z) :
  \sum_(p <- zip (listed w) (listed X)) p.1 *: G p.2 = \sum_i w i *: G (X i).
Proof.
have -> : zip (listed w) (listed X) = [seq (w i, X i) | i <- enum 'I_N].
  by rewrite /listed; elim: (enum 'I_N) => //= a l ->.
by rewrite big_map big_enum.
Qed.

Lemma mixing_about w X : (0 < N)%N -> exists2 m, heaviest w m & mixing (listed w) (listed X) = Ok (about w X (est_state (X m))).
Proof.
move=> N0.
have sz : size (listed w) = size (listed X) by rewrite !size_map.
have ne : listed X <> [::] by move=> e; move: N0; rewrite -(size_enum_ord N) -(size_map X) -/(listed X) e.
have [i [Xp [ai il Xi ->]]] := mixing_ok plus minus plus_jac minus_jac ne sz.
have il' : (i < N)%N by move: il; rewrite size_map size_enum_ord.
have eX : Xp = X (Ordinal il') by rewrite -(Xi Xp) /listed (nth_map (Ordinal il')) ?size_enum_ord // (nth_ord_enum _ (Ordinal il')).
exists (Ordinal il').
  have wne : listed w != [::] by case: (listed w) sz ne => //; case: (listed X).
  have [i' [ai' li' mx _]] := argmax_spec wne; move: ai'; rewrite ai => -[ei].
  move=> k; have := mx k; rewrite -ei size_map size_enum_ord ltn_ord => /(_ isT).
  by rewrite /listed nth_map_enum (nth_map_enum w 0 (Ordinal il')).
rewrite -eX /about.
rewrite (sum_listed _ _ (fun p => minus (sval (est_state p)) (sval (est_state Xp)))).
by rewrite (sum_listed _ _ (fun p => minus_jac (sval (est_state p)) (sval (est_state Xp)) *m est_cov p *m
      (minus_jac (sval (est_state p)) (sval (est_state Xp)))^T +
      (minus (sval (est_state p)) (sval (est_state Xp)) - _) *m (minus (sval (est_state p)) (sval (est_state Xp)) - _)^T)).
Qed.

Variable s : {perm 'I_N}.

Lemma about_reorder w X w' X' ref : (forall i, w' i = w (s i)) -> (forall i, X' i = X (s i)) -> about w' X' ref = about w X ref.
Proof.
move=> ew eX; rewrite /about.
have sumE (Z : lmodType R) (G : est -> Z) : \sum_i w' i *: G (X' i) = \sum_i w i *: G (X i).
  by rewrite [RHS](reindex_inj (@perm_inj _ s)) /=; apply: eq_bigr => i _; rewrite ew eX.
rewrite (sumE _ (fun p => minus (sval (est_state p)) (sval ref))).
by rewrite (sumE _ (fun p => minus_jac (sval (est_state p)) (sval ref) *m est_cov p *m
      (minus_jac (sval (est_state p)) (sval ref))^T +
      (minus (sval (est_state p)) (sval ref) - _) *m (minus (sval (est_state p)) (sval ref) - _)^T)).
Qed.

Lemma mixing_reorder w X w' X' : (0 < N)%N -> (forall i, w' i = w (s i)) -> (forall i, X' i = X (s i)) -> harmless w X ->
  mixing (listed w') (listed X') = mixing (listed w) (listed X).
Proof.
move=> N0 ew eX h; have [m hm ->] := mixing_about w X N0; have [m' hm' ->] := mixing_about w' X' N0.
rewrite (about_reorder _ ew eX) eX; congr Ok; apply: h => // k.
by rewrite -[k](permKV s) -!ew.
Qed.

(** C98: mixing Gaussians listed in another order gives the same Gaussian, on any state, unless
    different states tie for the greatest weight. *)
Theorem C98_mixing w X w' X' : (0 < N)%N -> (forall i, w' i = w (s i)) -> (forall i, X' i = X (s i)) -> clear_reference w X ->
  mixing (listed w') (listed X') = mixing (listed w) (listed X).
Proof. by move=> N0 ew eX /clear_harmless; exact: mixing_reorder. Qed.

Variable U : Type.
Variable ustamp : U -> option R.
Variable chi2_99 : nat -> R.
Variable gauss_pdf : forall m, 'cV[R]_m -> 'M[R]_m -> R.
Variables (pms : 'I_N -> process_model R V n U) (rejs : 'I_N -> bool) (Pi : 'M[R]_N).
Variables (pm : process_model R V n U) (rej : bool).
Notation call := (call R V n U).

(** One call on the IMM filter whose modes have the models [pms], and on the GSF. *)
Definition imm_do (pms : 'I_N -> process_model R V n U) (rejs : 'I_N -> bool) (Pi : 'M[R]_N) (x : mixture) (c : call) : result mixture :=
  match c with
  | Pred u dt => imm_predict ustamp pms x u dt
  | Corr y u => imm_correct plus ustamp chi2_99 gauss_pdf pms rejs Pi x y u
  | Mix => imm_interaction plus minus plus_jac minus_jac Pi x
  end.
Definition gsf_do (x : mixture) (c : call) : result mixture :=
  match c with
  | Pred u dt => imm_predict ustamp (fun=> pm) x u dt
  | Corr y u => gsf_correct plus ustamp chi2_99 gauss_pdf pm rej x y u
  | Mix => Ok x
  end.

(** Mode i of the second mixture is mode s(i) of the first. *)
Definition reordered (x x' : mixture) : Prop :=
  forall i, mx_states x' i = mx_states x (s i) /\ mx_probs x' i = mx_probs x (s i).

Hypothesis N0 : (0 < N)%N.

Lemma outcome_bind A B (r r' : result A) (k k' : A -> result B) rel rel2 :
  outcome rel r r' -> (forall a b, rel a b -> outcome rel2 (k a) (k' b)) -> outcome rel2 (bind r k) (bind r' k').
Proof. by case: r => [a|e]; case: r' => [b|e'] //= h; exact. Qed.

Lemma run_outcome A B (f f' : A -> B -> result A) (rel : A -> A -> Prop) (l : seq B) : forall x x', rel x x' ->
  (forall pre c post y y', l = pre ++ c :: post -> foldM f x pre = Ok y -> rel y y' -> outcome rel (f y c) (f' y' c)) ->
  outcome rel (foldM f x l) (foldM f' x' l).
Proof.
elim: l => [|c l IH] x x' h st //=.
have := st [::] c l x x' erefl erefl h.
case E : (f x c) => [y|e]; case E' : (f' x' c) => [y'|e'] //= hy.
apply: IH => // pre d post z z' el ez hz; apply: (st (c :: pre) d post) => //=; first by rewrite el.
by rewrite E.
Qed.

Lemma predict_reordered ps ps' x x' u dt : (forall i, ps' i = ps (s i)) -> reordered x x' ->
  outcome reordered (imm_predict ustamp ps x u dt) (imm_predict ustamp ps' x' u dt).
Proof.
move=> ep h; apply: (outcome_bind (rel := fun r r' => forall (i : 'I_N) d d', nth d r' i = nth d' r (s i))).
  by apply: modes_outcome => // i; rewrite ep (h i).1.
by move=> r r' e i /=; split; [exact: e|exact: (h i).2].
Qed.

Lemma normalize_reordered (w w' : 'I_N -> R) i : (forall i, w' i = w (s i)) -> normalize_weights w' i = normalize_weights w (s i).
Proof.
move=> e; rewrite /normalize_weights.
have -> : [forall i, `|w' i| <= em8 R] = [forall i, `|w i| <= em8 R].
  apply/forallP/forallP => h k; last by rewrite e.
  by rewrite -[k](permKV s) -e.
case: ifP => _; first by [].
by rewrite e [in RHS](reindex_inj (@perm_inj _ s)) /=; congr (_ / _); apply: eq_bigr => k _.
Qed.

Lemma probs_reordered (Pi' : 'M[R]_N) mu mu' j : (forall i j, Pi' i j = Pi (s i) (s j)) -> (forall i, mu' i = mu (s i)) ->
  predicted_probs Pi' mu' j = predicted_probs Pi mu (s j).
Proof.
move=> eP em; rewrite /predicted_probs [RHS](reindex_inj (@perm_inj _ s)) /=.
by apply: eq_bigr => i _; rewrite eP em.
Qed.

Lemma correct_reordered (pdf : forall m, 'cV[R]_m -> 'M[R]_m -> result R) ps ps' rs rs' (post post' : R -> 'I_N -> R) x x' y u :
  (forall i, ps' i = ps (s i)) -> (forall i, rs' i = rs (s i)) -> (forall a i, post' a i = post a (s i)) -> reordered x x' ->
  outcome reordered
    (q <~ mapM (fun i => correct_mode plus ustamp chi2_99 pdf (ps i) (rs i) (mx_states x i) y u) (enum 'I_N) ;;
     let r i := nth (mx_states x i, 0) q i in
     Ok (Mixture (fun i : 'I_N => (r i).1) (normalize_weights (fun i : 'I_N => post (r i).2 i))))
    (q <~ mapM (fun i => correct_mode plus ustamp chi2_99 pdf (ps' i) (rs' i) (mx_states x' i) y u) (enum 'I_N) ;;
     let r i := nth (mx_states x' i, 0) q i in
     Ok (Mixture (fun i : 'I_N => (r i).1) (normalize_weights (fun i : 'I_N => post' (r i).2 i)))).
Proof.
move=> ep er eo h; apply: (outcome_bind (rel := fun r r' => forall (i : 'I_N) d d', nth d r' i = nth d' r (s i))).
  by apply: modes_outcome => // i; rewrite ep er (h i).1.
move=> r r' e; cbv zeta; rewrite /outcome => i /=; split; first by rewrite (e _ _ (mx_states x (s i), 0)).
by apply: normalize_reordered => k; rewrite eo (e _ _ (mx_states x (s k), 0)).
Qed.

Lemma interaction_reordered (Pi' : 'M[R]_N) x x' : (forall i j, Pi' i j = Pi (s i) (s j)) -> reordered x x' ->
  (forall j, harmless (fun i => mu_mix Pi (mx_probs x) i j) (mx_states x)) ->
  outcome reordered (imm_interaction plus minus plus_jac minus_jac Pi x) (imm_interaction plus minus plus_jac minus_jac Pi' x').
Proof.
move=> eP h hm; apply: (outcome_bind (rel := fun r r' => forall (i : 'I_N) d d', nth d r' i = nth d' r (s i))).
  apply: modes_outcome => // j; apply: mixing_reorder => // i; last exact: (h i).1.
  rewrite /mu_mix eP (h i).2; congr (1 / _ * _ * _).
  by apply: probs_reordered => // k; exact: (h k).2.
by move=> r r' e i /=; split; [exact: e|exact: (h i).2].
Qed.

Lemma imm_do_reordered pms' rejs' (Pi' : 'M[R]_N) x x' c :
  (forall i, pms' i = pms (s i)) -> (forall i, rejs' i = rejs (s i)) -> (forall i j, Pi' i j = Pi (s i) (s j)) ->
  reordered x x' -> (c = Mix _ _ _ _ -> forall j, harmless (fun i => mu_mix Pi (mx_probs x) i j) (mx_states x)) ->
  outcome reordered (imm_do pms rejs Pi x c) (imm_do pms' rejs' Pi' x' c).
Proof.
move=> ep er eP h; case: c => [u dt|y u|] hm; first exact: predict_reordered.
  apply: (@correct_reordered _ _ _ _ _ (fun a i => a * predicted_probs Pi (mx_probs x) i) (fun a i => a * predicted_probs Pi' (mx_probs x') i)) => // a i.
  by congr (_ * _); apply: probs_reordered => // k; exact: (h k).2.
by apply: interaction_reordered => //; exact: hm.
Qed.

(** C98: listing the modes of an IMM filter (its models, outlier switches, transition matrix,
    initial estimates and probabilities) in another order reorders every mode's estimate and
    probability and changes nothing else: the run fails if the first one does, and the combined
    estimate is the same. On general states this asks that different states never tie for the
    greatest weight when Gaussians are mixed. *)
Theorem C98_imm pms' rejs' (Pi' : 'M[R]_N) (x x' : mixture) (calls : seq call) :
  (forall i, pms' i = pms (s i)) -> (forall i, rejs' i = rejs (s i)) -> (forall i j, Pi' i j = Pi (s i) (s j)) ->
  reordered x x' ->
  (forall pre post y, calls = pre ++ Mix _ _ _ _ :: post -> foldM (imm_do pms rejs Pi) x pre = Ok y ->
     forall j, clear_reference (fun i => mu_mix Pi (mx_probs y) i j) (mx_states y)) ->
  outcome (fun y y' => reordered y y' /\
      (clear_reference (mx_probs y) (mx_states y) ->
       mixing (listed (mx_probs y')) (listed (mx_states y')) = mixing (listed (mx_probs y)) (listed (mx_states y))))
    (foldM (imm_do pms rejs Pi) x calls) (foldM (imm_do pms' rejs' Pi') x' calls).
Proof.
move=> ep er eP h hm.
have : outcome reordered (foldM (imm_do pms rejs Pi) x calls) (foldM (imm_do pms' rejs' Pi') x' calls).
  apply: run_outcome => // pre c post y y' el ey hy; apply: imm_do_reordered => // ec j.
  by apply: clear_harmless; apply: (hm pre post y) => //; rewrite el ec.
case: (foldM _ _ _) => [y|e]; case: (foldM _ _ _) => [y'|e'] //= hy; split=> // hc.
by apply: C98_mixing => // i; [exact: (hy i).2|exact: (hy i).1].
Qed.

(** C98: the same for the Gaussian-sum filter, which never mixes on its own. *)
Theorem C98_gsf (x x' : mixture) (calls : seq call) : reordered x x' ->
  outcome (fun y y' => reordered y y' /\
      (clear_reference (mx_probs y) (mx_states y) ->
       mixing (listed (mx_probs y')) (listed (mx_states y')) = mixing (listed (mx_probs y)) (listed (mx_states y))))
    (foldM gsf_do x calls) (foldM gsf_do x' calls).
Proof.
move=> h.
have : outcome reordered (foldM gsf_do x calls) (foldM gsf_do x' calls).
  apply: run_outcome => // pre c post y y' _ _ hy; case: c => [u dt|z u|] //=; first exact: predict_reordered.
  apply: (@correct_reordered _ _ _ _ _ (fun a i => mx_probs y i * a) (fun a i => mx_probs y' i * a)) => // a i.
  by rewrite (hy i).2.
case: (foldM _ _ _) => [y|e]; case: (foldM _ _ _) => [y'|e'] //= hy; split=> // hc.
by apply: C98_mixing => // i; [exact: (hy i).2|exact: (hy i).1].
Qed.
End Order.

(** Vector-space states: no side condition on the weights is left. *)
Section Vector.
Variables (R : realFieldType) (n N : nat).
Notation V := 'cV[R]_n.
Notation est := (est R V n).
Notation mixture := (mixture R V n N).
Notation vplus := (fun (v : V) (d : 'cV[R]_n) => v + d).
Notation vminus := (fun (v w : V) => v - w).
Notation vjac := (fun (_ _ : V) => 1%:M : 'M[R]_n).
Notation vmixing := (gaussian_mixing vplus vminus vjac vjac).
Variable U : Type.
Variable ustamp : U -> option R.
Variable chi2_99 : nat -> R.
Variable gauss_pdf : forall m, 'cV[R]_m -> 'M[R]_m -> R.
Hypothesis pdf_ge0 : forall m (z : 'cV[R]_m) S, 0 <= gauss_pdf z S.
Variables (pms : 'I_N -> process_model R V n U) (rejs : 'I_N -> bool) (Pi : 'M[R]_N).
Variables (pm : process_model R V n U) (rej : bool).
Variable s : {perm 'I_N}.
Hypothesis N0 : (0 < N)%N.
Notation call := (call R V n U).

Lemma about_vector (w : 'I_N -> R) (X : 'I_N -> est) ref : \sum_i w i = 1 ->
  about vplus vminus vjac vjac w X ref =
  let m := \sum_i w i *: sval (est_state (X i)) in
  Est (PState m (sstamp ref)) (\sum_i w i *: (est_cov (X i) + (sval (est_state (X i)) - m) *m (sval (est_state (X i)) - m)^T)).
Proof.
move=> w1; rewrite /about /update_X /pplus /= trmx1 mul1mx mulmx1.
have e : \sum_i w i *: (sval (est_state (X i)) - sval ref) = \sum_i w i *: sval (est_state (X i)) - sval ref.
  under eq_bigr do rewrite scalerBr; rewrite sumrB; congr (_ - _).
  by rewrite -scaler_suml w1 scale1r.
rewrite e addrC subrK; congr (Est _ _); apply: eq_bigr => i _; rewrite mul1mx mulmx1.
by rewrite opprB addrA subrK.
Qed.

Definition same_stamps (X : 'I_N -> est) : Prop := forall i k, sstamp (est_state (X i)) = sstamp (est_state (X k)).

Lemma vector_harmless (w : 'I_N -> R) (X : 'I_N -> est) : \sum_i w i = 1 -> same_stamps X ->
  harmless vplus vminus vjac vjac w X.
Proof. by move=> w1 st i k _ _; rewrite !about_vector // (st i k). Qed.

(** C98: on vectors with equal stamps the mixture of Gaussians never depends on their order. *)
Theorem C98_mixing_vector (w w' : 'I_N -> R) (X X' : 'I_N -> est) :
  (forall i, w' i = w (s i)) -> (forall i, X' i = X (s i)) -> \sum_i w i = 1 -> same_stamps X ->
  vmixing (listed w') (listed X') = vmixing (listed w) (listed X).
Proof. move=> ew eX w1 st; exact (mixing_reorder N0 ew eX (vector_harmless w1 st)). Qed.

Lemma predict_stamp p1 p2 (x1 x2 y1 y2 : est) u dt : sstamp (est_state x1) = sstamp (est_state x2) ->
  ekf_predict ustamp p1 x1 u dt None = Ok y1 -> ekf_predict ustamp p2 x2 u dt None = Ok y2 ->
  sstamp (est_state y1) = sstamp (est_state y2).
Proof.
rewrite /ekf_predict => e; rewrite e.
case: (match sstamp (est_state x2) with Some t => _ | None => _ end) => //= t.
case: (match dt with Some t => _ | None => _ end) => //= d.
by case: ifP => // _; case: u => [v|] [<-] [<-].
Qed.

Lemma advance_stamp p1 p2 (x1 x2 y1 y2 : est) (y : measurement R V n) u : sstamp (est_state x1) = sstamp (est_state x2) ->
  ekf_advance ustamp p1 x1 y u = Ok y1 -> ekf_advance ustamp p2 x2 y u = Ok y2 ->
  sstamp (est_state y1) = sstamp (est_state y2).
Proof.
rewrite /ekf_advance => e; rewrite e; case: (m_stamp y) => [ty|]; last by case=> <- [<-].
case: (sstamp (est_state x2)) => // tx /=; case: ifP => // _.
case: u => [v|]; last by case=> <- [<-].
by case: ifP => _; [exact: predict_stamp|case=> <- [<-]].
Qed.

Lemma correct_stamp p1 p2 r1 r2 (x1 x2 y1 y2 : est) (y : measurement R V n) u : sstamp (est_state x1) = sstamp (est_state x2) ->
  ekf_correct vplus ustamp p1 chi2_99 x1 y u None r1 = Ok y1 -> ekf_correct vplus ustamp p2 chi2_99 x2 y u None r2 = Ok y2 ->
  sstamp (est_state y1) = sstamp (est_state y2).
Proof.
have kept p r (x z : est) : ekf_correct vplus ustamp p chi2_99 x y u None r = Ok z ->
   exists2 a, ekf_advance ustamp p (load_stamp x (m_stamp y)) y u = Ok a & sstamp (est_state z) = sstamp (est_state a).
  rewrite /ekf_correct; case: (ekf_advance _ _ _ _ _) => //= a h; exists a => //; move: h.
  case: (m_eval _ _) => [yc|] /=; last by case=> <-.
  case: (if r then _ else _) => //= -[] /=; first by case=> <-.
  by case: (kalman_gain _ _ _) => //= K [<-].
move=> e /kept [a1 h1 ->] /kept [a2 h2 ->]; apply: advance_stamp h1 h2.
by rewrite /load_stamp e; case E : (sstamp (est_state x2)) => [t|] //=; rewrite E.
Qed.

(** What every reached mixture satisfies. *)
Definition proper (x : mixture) : Prop := is_prob (mx_probs x) /\ same_stamps (mx_states x).

Lemma proper_predict ps x u dt x' : proper x -> imm_predict ustamp ps x u dt = Ok x' -> proper x'.
Proof.
move=> [hp hs] /C27_predict_keeps_probabilities [ep es]; split; first by rewrite ep.
by move=> i k; apply: predict_stamp (hs i k) (es i) (es k).
Qed.

Lemma imm_proper : row_stochastic Pi -> (forall i j, 0 < Pi i j) -> forall x c x', proper x ->
  imm_do vplus vminus vjac vjac ustamp chi2_99 gauss_pdf pms rejs Pi x c = Ok x' -> proper x'.
Proof.
move=> hPi hpos x c x' hx; case: c => [u dt|y u|] /=; first exact: proper_predict.
  case: hx => hp hs /(C27_imm_correct pdf_ge0 N0 hPi hp) [es ep _]; split=> // i k.
  exact: correct_stamp (hs i k) (es i) (es k).
case: hx => hp hs; rewrite /imm_interaction; case E : (mapM _ _) => [r|] //= [<-]; split=> // i k /=.
have st j : sstamp (est_state (nth (mx_states x j) r j)) = sstamp (est_state (mx_states x i)).
  apply: C28_stamp (mapM_enum (mx_states x j) j E); first by rewrite !size_map.
  by move=> d m; rewrite size_map size_enum_ord => lm; rewrite (nth_map_enum _ _ (Ordinal lm)).
by rewrite !st.
Qed.

Lemma gsf_proper x c x' : proper x -> gsf_do vplus ustamp chi2_99 gauss_pdf pm rej x c = Ok x' -> proper x'.
Proof.
move=> hx; case: c => [u dt|y u|] /=; [exact: proper_predict| |by case=> <-].
case: hx => hp hs /(C27_gsf_correct_partial pdf_ge0 N0 hp) [es ep _]; split=> // i k.
exact: correct_stamp (hs i k) (es i) (es k).
Qed.

Lemma run_inv A B (f : A -> B -> result A) (P : A -> Prop) : (forall x b x', P x -> f x b = Ok x' -> P x') ->
  forall l x x', P x -> foldM f x l = Ok x' -> P x'.
Proof.
move=> h; elim=> [|b l IH] x x' hx /=; first by case=> <-.
by case E : (f x b) => [y|] //=; apply: IH; exact: h hx E.
Qed.

Lemma weights_sum mu : row_stochastic Pi -> (forall i j, 0 < Pi i j) -> is_prob mu ->
  forall j, \sum_i mu_mix Pi mu i j = 1.
Proof.
move=> hPi hpos hp j; suff cj : predicted_probs Pi mu j != 0 by case: (C26_mixing_columns hPi hp cj).
have [i hi] : exists i, 0 < mu i.
  have : \sum_i mu i != 0 by rewrite hp.2 oner_eq0.
  move=> nz; apply/existsP; apply: contraR nz; rewrite negb_exists => /forallP h.
  by rewrite big1 // => i _; apply/eqP; rewrite eq_le hp.1 leNgt h.
rewrite gt_eqF // /predicted_probs (bigD1 i) //= ltr_spaddl ?mulr_gt0 //.
by apply: sumr_ge0 => k _; rewrite mulr_ge0 ?hp.1 // ltW.
Qed.

(** C98: an IMM filter on vectors, started from probabilities and estimates of one time. *)
Theorem C98_imm_vector pms' rejs' (Pi' : 'M[R]_N) (x x' : mixture) (calls : seq call) :
  row_stochastic Pi -> (forall i j, 0 < Pi i j) -> is_prob (mx_probs x) -> same_stamps (mx_states x) ->
  (forall i, pms' i = pms (s i)) -> (forall i, rejs' i = rejs (s i)) -> (forall i j, Pi' i j = Pi (s i) (s j)) ->
  reordered s x x' ->
  outcome (fun y y' => reordered s y y' /\
       vmixing (listed (mx_probs y')) (listed (mx_states y')) = vmixing (listed (mx_probs y)) (listed (mx_states y)))
    (foldM (imm_do vplus vminus vjac vjac ustamp chi2_99 gauss_pdf pms rejs Pi) x calls)
    (foldM (imm_do vplus vminus vjac vjac ustamp chi2_99 gauss_pdf pms' rejs' Pi') x' calls).
Proof.
move=> hPi hpos hp hs ep er eP h.
have inv := run_inv (imm_proper hPi hpos).
set f := imm_do vplus vminus vjac vjac ustamp chi2_99 gauss_pdf pms rejs Pi in inv *.
set f' := imm_do _ _ _ _ _ _ _ pms' rejs' Pi'.
have : outcome (reordered s) (foldM f x calls) (foldM f' x' calls).
  apply: (run_outcome h) => pre c post y y' el ey hy; apply: imm_do_reordered => [|i|i|i k||ec j]; [exact N0|exact: ep|exact: er|exact: eP|exact hy|].
  have [yp ys] := inv _ _ _ (conj hp hs) ey.
  exact (vector_harmless (weights_sum hPi hpos yp j) ys).
case E : (foldM f x calls) => [y|e]; case: (foldM f' x' calls) => [y'|e'] //= hy; split=> //.
have [yp ys] := inv _ _ _ (conj hp hs) E.
exact (C98_mixing_vector (fun i => (hy i).2) (fun i => (hy i).1) yp.2 ys).
Qed.

(** C98: a Gaussian-sum filter on vectors. *)
Theorem C98_gsf_vector (x x' : mixture) (calls : seq call) : is_prob (mx_probs x) -> same_stamps (mx_states x) ->
  reordered s x x' ->
  outcome (fun y y' => reordered s y y' /\
       vmixing (listed (mx_probs y')) (listed (mx_states y')) = vmixing (listed (mx_probs y)) (listed (mx_states y)))
    (foldM (gsf_do vplus ustamp chi2_99 gauss_pdf pm rej) x calls)
    (foldM (gsf_do vplus ustamp chi2_99 gauss_pdf pm rej) x' calls).
Proof.
move=> hp hs h.
have inv := run_inv gsf_proper.
have := C98_gsf vplus vminus vjac vjac ustamp chi2_99 gauss_pdf pm rej N0 calls h.
case E : (foldM _ x calls) => [y|e]; case: (foldM _ x' calls) => [y'|e'] //= [hy _]; split=> //.
have [yp ys] := inv _ _ _ (conj hp hs) E.
exact (C98_mixing_vector (fun i => (hy i).2) (fun i => (hy i).1) yp.2 ys).
Qed.
End Vector.

Lemma interaction_succeeds (R : realFieldType) n N (Pi : 'M[R]_N) (x : mixture R 'cV[R]_n n N) :
  row_stochastic Pi -> (forall i j, 0 < Pi i j) -> is_prob (mx_probs x) -> same_stamps (mx_states x) -> (0 < N)%N ->
  exists2 y, imm_interaction (fun (v : 'cV[R]_n) d => v + d) (fun v w => v - w) (fun _ _ => 1%:M) (fun _ _ => 1%:M) Pi x = Ok y &
    forall j, sval (est_state (mx_states y j)) = \sum_i mu_mix Pi (mx_probs x) i j *: sval (est_state (mx_states x i)).
Proof.
move=> hPi hpos hp hs N0.
pose m j := about (fun (v : 'cV[R]_n) d => v + d) (fun v w => v - w) (fun _ _ => 1%:M) (fun _ _ => 1%:M)
   (fun i => mu_mix Pi (mx_probs x) i j) (mx_states x) (est_state (mx_states x (Ordinal N0))).
exists (Mixture (fun j => nth (mx_states x j) (map m (enum 'I_N)) j) (mx_probs x)).
  rewrite /imm_interaction (mapM_enum_ok (g := m)) // => j.
  have [k _ ->] := mixing_about (fun (v : 'cV[R]_n) d => v + d) (fun v w => v - w) (fun _ _ => 1%:M) (fun _ _ => 1%:M)
     (fun i => mu_mix Pi (mx_probs x) i j) (mx_states x) N0.
  by rewrite /m (about_vector _ _ (weights_sum hPi hpos hp j)) (about_vector _ _ (weights_sum hPi hpos hp j)) (hs k (Ordinal N0)).
by move=> j; rewrite [mx_states _ j]/mx_states nth_map_enum /m (about_vector _ _ (weights_sum hPi hpos hp j)).
Qed.

(** Witness: two modes with different estimates, weights 1/4 and 3/4 and asymmetric transitions,
    listed in both orders; mixing the modes succeeds and moves the estimates of both. *)
Section Witness.
Let F := [realFieldType of rat].
Let V := 'cV[F]_1.
Definition swap : {perm 'I_2} := tperm 0 1.
Definition mode_at (v w : F) (i : 'I_2) : est F V 1 * F :=
  if i == 0 then (Est (PState (const_mx v) (Some 0)) 1%:M, w) else (Est (PState (const_mx 5%:R) (Some 0)) 1%:M, 1 - w).
Definition apart : mixture F V 1 2 := Mixture (fun i => (mode_at 1 (1 / 4%:R) i).1) (fun i => (mode_at 1 (1 / 4%:R) i).2).
Definition apart_swapped : mixture F V 1 2 := Mixture (fun i => mx_states apart (swap i)) (fun i => mx_probs apart (swap i)).
Definition lazy_Pi : 'M[F]_2 := \matrix_(i, j) (if i == j then (if i == 0 then 3%:R / 4%:R else 1 / 3%:R) else if i == 0 then 1 / 4%:R else 2%:R / 3%:R).

Example C98_witness_hyps :
  [/\ row_stochastic lazy_Pi, forall i j, 0 < lazy_Pi i j, is_prob (mx_probs apart), same_stamps (mx_states apart) &
      reordered swap apart apart_swapped /\ apart_swapped.(mx_probs) 0 = 3%:R / 4%:R].
Proof.
have I2 (P : 'I_2 -> Prop) : P 0 -> P 1 -> forall i, P i.
  by move=> p0 p1 i; case: (unliftP 0 i) => [j|] -> //; rewrite (ord1 j); have -> : lift 0 0 = 1 :> 'I_2 by apply: val_inj.
split.
- by apply: (I2 _); split=> [|]; rewrite ?big_ord_recl ?big_ord0 ?mxE //; apply: (I2 _); rewrite mxE.
- by apply: (I2 _); apply: (I2 _); rewrite mxE.
- by split; [apply: (I2 _)|rewrite big_ord_recl big_ord1].
- by apply: (I2 _); apply: (I2 _).
by split=> //; rewrite /= tpermL.
Qed.

(** The interaction of these modes succeeds: each becomes the Gaussian with the mixed moments. *)
Example C98_witness_runs (ustamp : F -> option F) chi pdf pms rejs :
  let m j := \sum_i mu_mix lazy_Pi (mx_probs apart) i j *: sval (est_state (mx_states apart i)) in
  exists2 y, foldM (imm_do (fun (v : V) d => v + d) (fun v w => v - w) (fun _ _ => 1%:M) (fun _ _ => 1%:M) ustamp chi pdf pms rejs lazy_Pi)
      apart [:: Mix F V 1 F] = Ok y & forall j, sval (est_state (mx_states y j)) = m j.
Proof.
move=> m; have [hPi hpos hp hs _] := C98_witness_hyps.
have [y e h] := interaction_succeeds hPi hpos hp hs isT.
by exists y => //; change (foldM (imm_do (fun (v : V) d => v + d) (fun v w => v - w) (fun _ _ => 1%:M) (fun _ _ => 1%:M) ustamp chi pdf pms rejs lazy_Pi)
      apart [:: Mix F V 1 F]) with (bind (imm_interaction (fun (v : V) d => v + d) (fun v w => v - w) (fun _ _ => 1%:M) (fun _ _ => 1%:M) lazy_Pi apart) Ok); rewrite e.
Qed.
End Witness.

Print Assumptions C98_mixing.
Print Assumptions C98_imm.
Print Assumptions C98_gsf.
Print Assumptions C98_mixing_vector.
Print Assumptions C98_imm_vector.
Print Assumptions C98_gsf_vector.
