(** C26-C28: Gaussian mixing, interacting multiple model filter, Gaussian sum filter. *)
From mathcomp Require Import all_ssreflect all_algebra.
From Verif Require Import Base Tac LinAlg EkfModel EkfProps SigmaProps MixtureModel.
Set Implicit Arguments.
Unset Strict Implicit.
Unset Printing Implicit Defensive.
Import Order.Theory GRing.Theory Num.Theory.
Local Open Scope ring_scope.

(** *** Specification vocabulary *)
Section Spec.
Variable R : realFieldType.
Definition is_prob N (p : 'I_N -> R) : Prop := (forall i, 0 <= p i) /\ \sum_i p i = 1.
Definition row_stochastic N (Pi : 'M[R]_N) : Prop := forall i, is_prob (fun j => Pi i j).
(** Mean and covariance of the mixture sum_i w_i N(x_i, P_i) of vector states. *)
Definition mix_mean n (l : seq (R * est R 'cV[R]_n n)) : 'cV[R]_n :=
  \sum_(p <- l) p.1 *: sval (est_state p.2).
Definition mix_cov n (l : seq (R * est R 'cV[R]_n n)) : 'M[R]_n :=
  \sum_(p <- l) p.1 *: (est_cov p.2 +
      (sval (est_state p.2) - mix_mean l) *m (sval (est_state p.2) - mix_mean l)^T).
End Spec.

Lemma foldl_congr (A B : Type) (f g : A -> B -> A) (s : seq B) a : (forall x y, f x y = g x y) -> foldl f a s = foldl g a s.
Proof. by move=> e; elim: s a => //= b s IH a; rewrite e. Qed.

Section Argmax.
Variable R : realFieldType.
(** argmax returns the position of the first largest entry *)
Lemma argmax_from_spec (pre s : seq R) b bi : (bi < size pre)%N -> nth 0 pre bi = b ->
  (forall j, (j < size pre)%N -> nth 0 pre j <= b) -> (forall j, (j < bi)%N -> nth 0 pre j < b) ->
  let k := argmax_from b bi (size pre) s in let l := pre ++ s in
  [/\ (k < size l)%N, forall j, (j < size l)%N -> nth 0 l j <= nth 0 l k & forall j, (j < k)%N -> nth 0 l j < nth 0 l k].
Proof.
elim: s pre b bi => [|a s IH] pre b bi lt eb mx fst /=; first by rewrite cats0 lt eb.
have sz : size (rcons pre a) = (size pre).+1 by rewrite size_rcons.
case: ifP => ba; rewrite -sz -cat_rcons; apply: IH; rewrite ?sz ?nth_rcons ?ltnn ?eqxx ?ltnS //.
- by move=> j; rewrite ltnS leq_eqVlt nth_rcons => /orP [/eqP ->|lj]; rewrite ?ltnn ?eqxx // lj (le_trans (mx _ lj)) // ltW.
- by move=> j lj; rewrite nth_rcons lj (le_lt_trans (mx _ lj)).
- exact: ltnW.
- by rewrite lt.
- move=> j; rewrite ltnS leq_eqVlt nth_rcons => /orP [/eqP ->|lj]; first by rewrite ltnn eqxx leNgt ba.
  by rewrite lj mx.
- by move=> j lj; rewrite nth_rcons (ltn_trans lj lt) fst.
Qed.

Lemma argmax_spec (s : seq R) : s != [::] -> exists i, [/\ argmax s = Ok i, (i < size s)%N,
  forall j, (j < size s)%N -> nth 0 s j <= nth 0 s i & forall j, (j < i)%N -> nth 0 s j < nth 0 s i].
Proof.
case: s => // a s _; exists (argmax_from a 0 1 s).
have [||||k1 k2 k3] := @argmax_from_spec [:: a] s a 0 => //; by case.
Qed.
Lemma argmax_ok (s : seq R) : s != [::] -> exists2 i, argmax s = Ok i & (i < size s)%N.
Proof. by move/argmax_spec => [i [? ? _ _]]; exists i. Qed.
End Argmax.

Section Mixing.
Variables (R : realFieldType) (V : Type) (n : nat).
Variable plus : V -> 'cV[R]_n -> V.
Variable minus : V -> V -> 'cV[R]_n.
Variable plus_jac : V -> 'cV[R]_n -> 'M[R]_n.
Variable minus_jac : V -> V -> 'M[R]_n.
Notation est := (est R V n).
Notation mixing := (gaussian_mixing plus minus plus_jac minus_jac).

Lemma zip_map2 (T A B : Type) (w : seq R) (f : T -> A) (g : T -> B) xs :
  zip (zip w (map f xs)) (map g xs) = [seq (p.1, f p.2, g p.2) | p <- zip w xs].
Proof. by elim: w xs => [|a w IH] [|x xs] //=; rewrite IH. Qed.
Lemma zip_mapr (T A : Type) (w : seq R) (f : T -> A) xs : zip w (map f xs) = [seq (p.1, f p.2) | p <- zip w xs].
Proof. by elim: w xs => [|a w IH] [|x xs] //=; rewrite IH. Qed.

Lemma vectorspace_ok w (xs : seq est) (f : est -> 'cV[R]_n) g : xs <> [::] ->
  gaussian_mixing_vectorspace w (map f xs) (map g xs) =
  let m := \sum_(p <- zip w xs) p.1 *: f p.2 in
  Ok (m, \sum_(p <- zip w xs) p.1 *: (g p.2 + (f p.2 - m) *m (f p.2 - m)^T)).
Proof.
move=> ne.
have -> : gaussian_mixing_vectorspace w (map f xs) (map g xs) =
   Ok (let x_bar := foldl (fun acc wx => acc + wx.1 *: wx.2) 0 (zip w (map f xs)) in
       (x_bar, foldl (fun acc wxP => acc + wxP.1.1 *: wxP.2 + wxP.1.1 *: ((wxP.1.2 - x_bar) *m (wxP.1.2 - x_bar)^T)) 0
                 (zip (zip w (map f xs)) (map g xs)))) by case: xs ne.
have e : foldl (fun acc wx => acc + wx.1 *: wx.2) 0 (zip w (map f xs)) = \sum_(p <- zip w xs) p.1 *: f p.2.
  by rewrite foldl_sum add0r zip_mapr big_map.
rewrite e /=; congr (Ok (_, _)); set m := \sum_(_ <- _) _.
rewrite (foldl_congr (g := fun acc wxP => acc + wxP.1.1 *: (wxP.2 + (wxP.1.2 - m) *m (wxP.1.2 - m)^T))).
  by rewrite foldl_sum add0r zip_map2 big_map.
by move=> a b; rewrite scalerDr addrA.
Qed.

(** Shape of every result of gaussian_mixing: the reference state is one of the inputs. *)
Lemma mixing_ok w (xs : seq est) : xs <> [::] -> size w = size xs ->
  exists i, exists Xp : est, [/\ argmax w = Ok i, (i < size xs)%N, (forall d, nth d xs i = Xp) &
   mixing w xs = Ok (
     let mu X := minus (sval (est_state X)) (sval (est_state Xp)) in
     let Jinv X := minus_jac (sval (est_state X)) (sval (est_state Xp)) in
     let m := \sum_(p <- zip w xs) p.1 *: mu p.2 in
     let P := \sum_(p <- zip w xs) p.1 *: (Jinv p.2 *m est_cov p.2 *m (Jinv p.2)^T + (mu p.2 - m) *m (mu p.2 - m)^T) in
     update_X plus plus_jac (est_state Xp) m P)].
Proof.
move=> ne sz.
have wne : w != [::] by case: w sz ne => //; case: xs.
have [i ai il] := argmax_ok wne; rewrite sz in il.
case e : (drop i xs) => [|Xp r].
  by move: il; rewrite ltnNge -subn_eq0 -size_drop e.
have nthE d : nth d xs i = Xp by rewrite -[i]addn0 -nth_drop e.
exists i, Xp; split=> //; rewrite /gaussian_mixing ai /= /py_nth e /=.
by rewrite vectorspace_ok.
Qed.

(** C28: for any kind of state, non-negative weights and PSD covariances give a
    PSD covariance. *)
Theorem C28_covariance_psd w (xs : seq est) x' :
  size w = size xs -> all (fun a => 0 <= a) w -> (forall k d, (k < size xs)%N -> psd (est_cov (nth d xs k))) ->
  mixing w xs = Ok x' -> psd (est_cov x').
Proof.
move=> sz w0 ps.
have [->|ne] : xs = [::] \/ xs <> [::] by case: xs {sz ps}; [left|right].
  by rewrite /gaussian_mixing; case: (argmax w) => //= i; rewrite /py_nth.
have [i [Xp [_ _ _ ->]]] := mixing_ok ne sz; case=> <- /=; apply: psd_congr.
set f := fun p : R * est => _.
have : forall m, psd (\sum_(p <- zip w xs) p.1 *: (minus_jac (sval (est_state p.2)) (sval (est_state Xp)) *m est_cov p.2 *m (minus_jac (sval (est_state p.2)) (sval (est_state Xp)))^T +
     (minus (sval (est_state p.2)) (sval (est_state Xp)) - m) *m (minus (sval (est_state p.2)) (sval (est_state Xp)) - m)^T)).
  move=> m; elim: w xs sz w0 ps {ne f} => [|a w IH] [|x xs] //=; rewrite ?big_nil => sz w0 ps; try exact: psd0.
  rewrite big_cons; apply: psdD.
    apply: psdZ; first by case/andP: w0.
    by apply: psdD; [apply: psd_congr; exact: (ps 0%N x)|exact: psd_outer].
  apply: IH; [by case: sz|by case/andP: w0|by move=> k d lt; exact: (ps k.+1 d)].
exact.
Qed.

(** C28: mixing with all the weight on one component returns that component
    (any state with x - x = 0, x + 0 = x and identity Jacobians there). *)
Theorem C28_single_component w (xs : seq est) k (X : est) :
  size w = size xs -> (k < size xs)%N -> (forall d, nth d xs k = X) ->
  (forall i, nth 0 w i = (i == k)%:R) ->
  minus (sval (est_state X)) (sval (est_state X)) = 0 -> plus (sval (est_state X)) 0 = sval (est_state X) ->
  minus_jac (sval (est_state X)) (sval (est_state X)) = 1%:M -> plus_jac (sval (est_state X)) 0 = 1%:M ->
  mixing w xs = Ok X.
Proof.
move=> sz lk Xk wk mx px mj pj.
have ne : xs <> [::] by case: xs lk {sz Xk}.
have [i [Xp [ai il Xi ->]]] := mixing_ok ne sz.
have ik : i = k.
  have wne : w != [::] by case: w sz ne {wk ai} => //; case: (xs).
  have [i' [ai' il' big _]] := argmax_spec wne.
  move: ai; rewrite ai' => -[?]; subst i'.
  have := big k; rewrite sz !wk eqxx => /(_ lk).
  by case: eqP => // _; rewrite lern0.
have eX : Xp = X by rewrite -(Xi X) ik Xk.
rewrite eX /=.
have sumE (Z : lmodType R) (F : est -> Z) : \sum_(p <- zip w xs) p.1 *: F p.2 = F X.
  rewrite (big_nth (0, X)) size_zip sz minnn (bigD1_seq k) ?mem_index_iota ?iota_uniq //=.
  rewrite nth_zip //= wk eqxx scale1r Xk big1_seq ?addr0 // => j /andP [jk _].
  by rewrite nth_zip //= wk (negbTE jk) scale0r.
rewrite (sumE _ (fun p => minus (sval (est_state p)) (sval (est_state X)))) mx.
rewrite (sumE _ (fun p => minus_jac (sval (est_state p)) (sval (est_state X)) *m est_cov p *m
      (minus_jac (sval (est_state p)) (sval (est_state X)))^T +
      (minus (sval (est_state p)) (sval (est_state X)) - 0) *m (minus (sval (est_state p)) (sval (est_state X)) - 0)^T)).
rewrite mx mj subr0 mul0mx addr0 trmx1 mul1mx mulmx1 /update_X pj trmx1 mul1mx mulmx1 /pplus px.
by case: (X) => -[].
Qed.

(** C28: the result's stamp is that of the component with the largest weight;
    in particular a common stamp is kept. *)
Theorem C28_stamp w (xs : seq est) x' t :
  size w = size xs -> (forall d k, (k < size xs)%N -> sstamp (est_state (nth d xs k)) = t) ->
  mixing w xs = Ok x' -> sstamp (est_state x') = t.
Proof.
move=> sz st.
have [->|ne] : xs = [::] \/ xs <> [::] by case: xs {sz st}; [left|right].
  by rewrite /gaussian_mixing; case: (argmax w) => //= i; rewrite /py_nth.
have [i [Xp [_ il Xi ->]]] := mixing_ok ne sz; case=> <- /=.
by rewrite -(Xi Xp); exact: st.
Qed.

(** Empty mixtures raise. *)
Theorem C28_empty_raises : mixing [::] [::] = Raise ValueError.
Proof. by []. Qed.
End Mixing.

(** *** C28 on vector states *)
Section VecMixing.
Variables (R : realFieldType) (n : nat).
Notation vest := (est R 'cV[R]_n n).
Definition vmixing := gaussian_mixing (fun x d : 'cV[R]_n => x + d) (fun a b => a - b)
   (fun _ _ => 1%:M : 'M[R]_n) (fun _ _ => 1%:M).

(** C28: exactly the mean and covariance of the mixture, whichever component is
    used as reference. *)
Theorem C28_vector_moments w (xs : seq vest) :
  size w = size xs -> \sum_(a <- w) a = 1 ->
  exists t, vmixing w xs = Ok (Est (PState (mix_mean (zip w xs)) t) (mix_cov (zip w xs))).
Proof.
move=> sz w1.
have ne : xs <> [::].
  by move=> e; move: w1 sz; rewrite e; case: w => //= /esym/eqP; rewrite big_nil oner_eq0.
have [i [Xp [_ _ _ e]]] := mixing_ok (fun x d : 'cV[R]_n => x + d) (fun a b => a - b)
   (fun _ _ => 1%:M : 'M[R]_n) (fun _ _ => 1%:M) ne sz.
exists (sstamp (est_state Xp)); rewrite /vmixing e /update_X /pplus /=.
set r := sval (est_state Xp).
have s1 : \sum_(p <- zip w xs) p.1 = 1.
  by rewrite -w1 -(big_map fst xpredT id) -/unzip1 unzip1_zip // sz.
have -> : \sum_(p <- zip w xs) p.1 *: (sval (est_state p.2) - r) = mix_mean (zip w xs) - r.
  under eq_bigr do rewrite scalerBr.
  by rewrite sumrB -scaler_suml s1 scale1r.
rewrite addrCA subrr addr0 trmx1 mul1mx mulmx1; congr (Ok (Est _ _)).
rewrite /mix_cov; apply: eq_bigr => p _; rewrite mul1mx mulmx1.
by congr (_ *: (_ + _ *m _^T)); zmod.
Qed.

Lemma mix_cov_second (l : seq (R * vest)) : \sum_(p <- l) p.1 = 1 ->
  mix_cov l + mix_mean l *m (mix_mean l)^T =
  \sum_(p <- l) p.1 *: (est_cov p.2 + sval (est_state p.2) *m (sval (est_state p.2))^T).
Proof.
move=> w1; rewrite /mix_cov; set m := mix_mean l.
have e (p : R * vest) : p.1 *: (est_cov p.2 + (sval (est_state p.2) - m) *m (sval (est_state p.2) - m)^T) =
  p.1 *: (est_cov p.2 + sval (est_state p.2) *m (sval (est_state p.2))^T)
  - (p.1 *: sval (est_state p.2)) *m m^T - m *m (p.1 *: sval (est_state p.2))^T + p.1 *: (m *m m^T).
  rewrite linearB /= mulmxBl !mulmxBr linearZ /= -scalemxAl -scalemxAr -!scalerBr -scalerDr.
  by congr (_ *: _); zmod.
under eq_bigr do rewrite e.
rewrite big_split /= !sumrB -scaler_suml w1 scale1r -mulmx_suml -mulmx_sumr -linear_sum /= -/(mix_mean l) -/m.
by rewrite !subrK.
Qed.
End VecMixing.

(** *** C26: interaction *)
Section Interaction.
Variables (R : realFieldType) (N : nat) (Pi : 'M[R]_N) (mu : 'I_N -> R).
Hypotheses (hPi : row_stochastic Pi) (hmu : is_prob mu).
Notation c := (predicted_probs Pi mu).

(** C26: the predicted mode probabilities are a probability vector. *)
Theorem C26_predicted_probs : is_prob c.
Proof.
split=> [j|]; first by apply: sumr_ge0 => i _; rewrite mulr_ge0 //; [case: (hPi i)|case: hmu].
rewrite /predicted_probs exchange_big /=; under eq_bigr do rewrite -mulr_suml.
by rewrite (eq_bigr mu) ?hmu.2 // => i _; rewrite (hPi i).2 mul1r.
Qed.

(** C26: every column of the mixing probabilities with non-zero predicted
    probability is a probability vector. *)
Theorem C26_mixing_columns j : c j != 0 -> is_prob (fun i => mu_mix Pi mu i j).
Proof.
move=> cj; have c0 : 0 <= c j by case: C26_predicted_probs.
split=> [i|]; rewrite /mu_mix.
  by rewrite div1r !mulr_ge0 ?invr_ge0 //; [case: (hPi i)|case: hmu].
by under eq_bigr do rewrite -mulrA; rewrite -mulr_sumr div1r mulVf.
Qed.

(** C26: total probability: sum_j mu_mix(i,j) c_j = mu_i. *)
Theorem C26_total_probability i : \sum_j mu_mix Pi mu i j * c j = mu i.
Proof.
rewrite -[RHS]mul1r -(hPi i).2 mulr_suml; apply: eq_bigr => j _.
rewrite /mu_mix; case: (eqVneq (c j) 0) => [e|ne]; last first.
  by rewrite div1r -[X in X * c j]mulrA mulrAC mulVf // mul1r.
rewrite e mulr0; apply/esym/eqP; rewrite -[_ == 0]negbK; apply/negP => nz.
suff : 0 < c j by rewrite e ltxx.
rewrite /predicted_probs (bigD1 i) //= ltr_spaddl //.
  by rewrite lt_def nz mulr_ge0 //; [case: (hPi i)|case: hmu].
by apply: sumr_ge0 => k _; rewrite mulr_ge0 //; [case: (hPi k)|case: hmu].
Qed.
End Interaction.

Lemma mapM_enum_ok N A (f : 'I_N -> result A) (g : 'I_N -> A) : (forall i, f i = Ok (g i)) ->
  mapM f (enum 'I_N) = Ok (map g (enum 'I_N)).
Proof. exact: mapM_ok. Qed.

Lemma nth_map_enum N A (g : 'I_N -> A) d (i : 'I_N) : nth d (map g (enum 'I_N)) i = g i.
Proof. by rewrite (nth_map i) ?size_enum_ord // nth_ord_enum. Qed.

Lemma mapM_all A B (f : A -> result B) (s : seq A) r k d d' : mapM f s = Ok r -> (k < size s)%N -> f (nth d s k) = Ok (nth d' r k).
Proof.
elim: s r k => //= a s IH r k; case e : (f a) => [b|] //=; case e' : (mapM f s) => [bs|] //= [<-].
by case: k => //= k lt; exact: IH.
Qed.
Lemma mapM_enum N A (f : 'I_N -> result A) r d (i : 'I_N) : mapM f (enum 'I_N) = Ok r -> f i = Ok (nth d r i).
Proof. by move=> e; have := mapM_all i d e (k := i); rewrite size_enum_ord nth_ord_enum => /(_ (ltn_ord i)). Qed.
Lemma mapM_raise A B (f : A -> result B) e (s : seq A) : (forall a, f a = Raise e) -> s <> [::] -> mapM f s = Raise e.
Proof. by case: s => //= a s -> // _. Qed.
Lemma enum_ne N : (0 < N)%N -> enum 'I_N <> [::].
Proof. by move=> N0 e; move: N0; rewrite -(size_enum_ord N) e. Qed.

Section InteractionVec.
Variables (R : realFieldType) (N n : nat) (Pi : 'M[R]_N) (x : mixture R 'cV[R]_n n N).
Hypotheses (hPi : row_stochastic Pi) (hmu : is_prob (mx_probs x)).
Notation c := (predicted_probs Pi (mx_probs x)).
Notation interaction := (imm_interaction (fun x d : 'cV[R]_n => x + d) (fun a b => a - b)
   (fun _ _ => 1%:M : 'M[R]_n) (fun _ _ => 1%:M)).
Notation wcol j := [seq (mu_mix Pi (mx_probs x) i j, mx_states x i) | i <- enum 'I_N].

(** C26 on vector states: if no predicted probability vanishes, interaction
    succeeds, leaves the mode probabilities alone, and gives mode j the mean and
    covariance of the mixture with weights mu_mix(., j). *)
Theorem C26_interaction_vector : (forall j, c j != 0) ->
  exists x', [/\ interaction Pi x = Ok x', mx_probs x' = mx_probs x &
    forall j, sval (est_state (mx_states x' j)) = mix_mean (wcol j) /\ est_cov (mx_states x' j) = mix_cov (wcol j)].
Proof.
move=> cne.
have col j : exists t, vmixing [seq mu_mix Pi (mx_probs x) i j | i <- enum 'I_N] [seq mx_states x i | i <- enum 'I_N] =
    Ok (Est (PState (mix_mean (wcol j)) t) (mix_cov (wcol j))).
  have [||t ->] := @C28_vector_moments R n [seq mu_mix Pi (mx_probs x) i j | i <- enum 'I_N] [seq mx_states x i | i <- enum 'I_N].
  - by rewrite !size_map.
  - by rewrite big_map big_enum /= (C26_mixing_columns hPi hmu (cne j)).2.
  by exists t; rewrite zip_map.
have [g gE] : exists g : 'I_N -> est R 'cV[R]_n n, forall j,
   vmixing [seq mu_mix Pi (mx_probs x) i j | i <- enum 'I_N] [seq mx_states x i | i <- enum 'I_N] = Ok (g j) /\
   (sval (est_state (g j)) = mix_mean (wcol j) /\ est_cov (g j) = mix_cov (wcol j)).
  exists (fun j => if vmixing [seq mu_mix Pi (mx_probs x) i j | i <- enum 'I_N] [seq mx_states x i | i <- enum 'I_N] is Ok e then e else mx_states x j).
  by move=> j; have [t ->] := col j.
exists (Mixture (fun j => nth (mx_states x j) (map g (enum 'I_N)) j) (mx_probs x)); split=> //.
  by rewrite /imm_interaction (mapM_enum_ok (g := g)) // => j; case: (gE j).
by move=> j /=; rewrite nth_map_enum; case: (gE j).
Qed.

(** C26 on vector states: interaction preserves the overall mean and the overall
    second moment of the mixture, the modes now carrying the predicted
    probabilities. *)
Theorem C26_interaction_preserves_moments x' : (forall j, c j != 0) -> interaction Pi x = Ok x' ->
  \sum_j c j *: sval (est_state (mx_states x' j)) = \sum_i mx_probs x i *: sval (est_state (mx_states x i)) /\
  \sum_j c j *: (est_cov (mx_states x' j) + sval (est_state (mx_states x' j)) *m (sval (est_state (mx_states x' j)))^T) =
  \sum_i mx_probs x i *: (est_cov (mx_states x i) + sval (est_state (mx_states x i)) *m (sval (est_state (mx_states x i)))^T).
Proof.
move=> cne; have [x1 [-> _ h]] := C26_interaction_vector cne; case=> <-.
have swap (Z : lmodType R) (F : 'I_N -> Z) :
   \sum_j c j *: (\sum_i mu_mix Pi (mx_probs x) i j *: F i) = \sum_i mx_probs x i *: F i.
  under eq_bigr do rewrite scaler_sumr.
  rewrite exchange_big; apply: eq_bigr => i _.
  under eq_bigr do rewrite scalerA.
  by rewrite -scaler_suml -[in RHS](C26_total_probability hPi hmu i); congr (_ *: _); apply: eq_bigr => j _; rewrite mulrC.
have colsum j : \sum_(p <- wcol j) p.1 = 1 by rewrite big_map big_enum /= (C26_mixing_columns hPi hmu (cne j)).2.
split.
  rewrite -(swap _ (fun i => sval (est_state (mx_states x i)))); apply: eq_bigr => j _.
  by rewrite (h j).1 /mix_mean big_map big_enum.
rewrite -(swap _ (fun i => est_cov (mx_states x i) + sval (est_state (mx_states x i)) *m (sval (est_state (mx_states x i)))^T)).
apply: eq_bigr => j _; rewrite (h j).1 (h j).2 mix_cov_second ?colsum //.
by rewrite big_map big_enum.
Qed.
End InteractionVec.

(** *** C27: mode probabilities after a correction *)
Section Bayes.
Variables (R : realFieldType) (N : nat).
Hypothesis N0 : (0 < N)%N.

(** C27: whatever non-negative unnormalised weights, the result is a probability vector. *)
Theorem C27_normalized (w : 'I_N -> R) : (forall i, 0 <= w i) -> is_prob (normalize_weights w).
Proof.
move=> w0; have e10pos : 0 < em10 R by rewrite invr_gt0 exprn_gt0 // ltr0n.
have e8pos : 0 < em8 R by rewrite invr_gt0 exprn_gt0 // ltr0n.
rewrite /normalize_weights; set w' := if _ then _ else _.
have w'0 i : 0 <= w' i by rewrite /w'; case: ifP => _ //; apply: ltW.
have spos : 0 < \sum_j w' j.
  rewrite /w'; case: ifP => [_|/negbT]; first by rewrite sumr_const card_ord pmulrn_lgt0.
  rewrite negb_forall => /existsP [i]; rewrite -ltNge ger0_norm // => wi.
  by rewrite (bigD1 i) //= ltr_spaddl ?(lt_trans e8pos) //; apply: sumr_ge0.
split=> [i|]; first by rewrite divr_ge0 // ltW.
by rewrite -mulr_suml divff // gt_eqF.
Qed.

(** C27: Bayes' rule whenever some unnormalised weight exceeds 1e-8. *)
Theorem C27_bayes (w : 'I_N -> R) i j : 10%:R ^- 8 < w j ->
  normalize_weights w i = w i / \sum_k w k.
Proof.
move=> lt; rewrite /normalize_weights.
case: ifP => // /forallP /(_ j); rewrite leNgt.
by rewrite ger0_norm ?lt // ltW // (le_lt_trans _ lt) // invr_ge0 exprn_ge0 // ler0n.
Qed.

(** The promise (proportional to prior times likelihood) is broken otherwise: if
    all unnormalised weights are at most 1e-8 the result is uniform, even when one
    model is much more likely than another. *)
Theorem C27_small_weights_uniform_refuted (w : 'I_N -> R) i :
  (forall j, 0 <= w j <= 10%:R ^- 8) -> normalize_weights w i = N%:R^-1.
Proof.
move=> h; rewrite /normalize_weights.
have -> : [forall j, `|w j| <= em8 R] by apply/forallP => j; case/andP: (h j) => w0 ?; rewrite ger0_norm.
rewrite sumr_const card_ord -[em10 R *+ N]mulr_natr invfM mulrA divff ?mul1r //.
by rewrite gt_eqF // invr_gt0 exprn_gt0 // ltr0n.
Qed.
End Bayes.

Section FilterProps.
Variables (R : realFieldType) (V : Type) (n N : nat).
Variable plus : V -> 'cV[R]_n -> V.
Variable U : Type.
Variable ustamp : U -> option R.
Variable chi2_99 : nat -> R.
Variable gauss_pdf : forall m, 'cV[R]_m -> 'M[R]_m -> R.
Hypothesis pdf_ge0 : forall m (z : 'cV[R]_m) S, 0 <= gauss_pdf z S.
Variables (pms : 'I_N -> process_model R V n U) (reject : 'I_N -> bool) (Pi : 'M[R]_N).
Hypothesis N0 : (0 < N)%N.
Notation correct := (imm_correct plus ustamp chi2_99 gauss_pdf pms reject Pi).
Notation gcorrect pm rej := (gsf_correct plus ustamp chi2_99 gauss_pdf pm rej).

(** The estimate part of correct(..., output_details=True) is correct(...). *)
Lemma details_fst pm x y u rej :
  rmap fst (ekf_correct_details plus ustamp chi2_99 pm x y u rej) = ekf_correct plus ustamp pm chi2_99 x y u None rej.
Proof.
rewrite /ekf_correct_details /ekf_correct; case: (ekf_advance _ _ _ _ _) => //= x1.
case: (m_eval _ _) => //= yc; case: (if rej then _ else _) => //= -[] //=.
by case: (kalman_gain _ _ _).
Qed.

(** C27: on success, every mode is its own filter's correction and the mode
    probabilities form a probability vector, proportional to (predicted
    probability) x (likelihood of the mode's innovation) unless all these
    products are below 1e-8. *)
Theorem C27_imm_correct x y u x' : row_stochastic Pi -> is_prob (mx_probs x) ->
  correct x y u = Ok x' ->
  [/\ forall i, ekf_correct plus ustamp (pms i) chi2_99 (mx_states x i) y u None (reject i) = Ok (mx_states x' i),
      is_prob (mx_probs x') &
      exists z S, (forall i, ekf_correct_details plus ustamp chi2_99 (pms i) (mx_states x i) y u (reject i) =
                              Ok (mx_states x' i, Some (z i, S i))) /\
       let post i := gauss_pdf (z i) (S i) * predicted_probs Pi (mx_probs x) i in
       forall i j, 10%:R ^- 8 < post j -> mx_probs x' i = post i / \sum_k post k].
Proof.
move=> hPi hmu; rewrite /imm_correct; case e : (mapM _ _) => [rs|] //= [<-] /=.
set r := fun i : 'I_N => nth (mx_states x i, 0) rs i.
have re i : correct_mode plus ustamp chi2_99 (fun m z S => Ok (gauss_pdf z S)) (pms i) (reject i) (mx_states x i) y u = Ok (r i).
  exact: (mapM_enum (mx_states x i, 0) i e).
have ex i : exists zS, ekf_correct_details plus ustamp chi2_99 (pms i) (mx_states x i) y u (reject i) = Ok ((r i).1, Some zS) /\
    (r i).2 = gauss_pdf zS.1 zS.2.
  have := re i; rewrite /correct_mode; case: (ekf_correct_details _ _ _ _ _ _ _ _) => //= -[x1 [zS|]] //= [<-].
  by exists zS.
have r2 i : 0 <= (r i).2 by have [zS [_ ->]] := ex i.
have cp := C26_predicted_probs hPi hmu.
split.
- by move=> i; rewrite -details_fst; have [zS [-> _]] := ex i.
- by apply: C27_normalized => // i; apply: mulr_ge0; [exact: r2|exact: cp.1].
have [zS zSE] : exists zS : 'I_N -> _, forall i, ekf_correct_details plus ustamp chi2_99 (pms i) (mx_states x i) y u (reject i) = Ok ((r i).1, Some (zS i)) /\
    (r i).2 = gauss_pdf (zS i).1 (zS i).2.
  exists (fun i => if ekf_correct_details plus ustamp chi2_99 (pms i) (mx_states x i) y u (reject i) is Ok (_, Some zS) then zS else (0, 0)).
  by move=> i; have [zS [-> ?]] := ex i.
exists (fun i => (zS i).1), (fun i => (zS i).2); split.
  by move=> i; rewrite (zSE i).1; case: (zS i).
move=> i j /= lt; rewrite (C27_bayes i (j := j)) //; last by rewrite (zSE j).2.
by rewrite (zSE i).2; congr (_ / _); apply: eq_bigr => k _; rewrite (zSE k).2.
Qed.

(** C69: one mode whose model returns None makes the IMM raise KeyError. *)
Theorem C69_imm_none_measurement_refuted x y u :
  (forall i x1, ekf_advance ustamp (pms i) (load_stamp (mx_states x i) (m_stamp y)) y u = Ok x1 ->
      m_eval y (est_state x1) = None) ->
  (forall i, is_ok (ekf_advance ustamp (pms i) (load_stamp (mx_states x i) (m_stamp y)) y u)) ->
  correct x y u = Raise KeyError.
Proof.
move=> none ok; rewrite /imm_correct (mapM_raise (e := KeyError)) //; last exact: enum_ne.
move=> i; rewrite /correct_mode /ekf_correct_details.
have := ok i; have := none i; case: (ekf_advance _ _ _ _ _) => //= x1 h _.
by rewrite (h x1 erefl).
Qed.

(** C72: GaussianSumFilter.correct on a measurement of dimension other than one
    never succeeds: ValueError, unless something raised earlier. *)
Theorem C72_gsf_vector_measurement_refuted pm rej (x : mixture R V n N) y u : m_dim y <> 1%N ->
  ~~ is_ok (gcorrect pm rej x y u).
Proof.
move=> m1; rewrite /gsf_correct; case e : (mapM _ _) => [rs|] //=.
have := mapM_enum (mx_states x (Ordinal N0), 0) (Ordinal N0) e.
rewrite /correct_mode; case: (ekf_correct_details _ _ _ _ _ _ _ _) => //= -[x1 [zS|]] //=.
by rewrite /gsf_pdf; case: eqP.
Qed.

Theorem C72_gsf_vector_measurement_raises_refuted pm rej (x : mixture R V n N) y u : m_dim y <> 1%N ->
  (forall i, exists x1 zS, ekf_correct_details plus ustamp chi2_99 pm (mx_states x i) y u rej = Ok (x1, Some zS)) ->
  gcorrect pm rej x y u = Raise ValueError.
Proof.
move=> m1 h; rewrite /gsf_correct (mapM_raise (e := ValueError)) //; last exact: enum_ne.
move=> i; rewrite /correct_mode; have [x1 [zS ->]] /= := h i.
by rewrite /gsf_pdf; case: eqP.
Qed.

(** C27 / C72: on scalar measurements the Gaussian sum filter follows Bayes' rule. *)
Theorem C27_gsf_correct_partial pm rej (x : mixture R V n N) y u x' : is_prob (mx_probs x) ->
  gcorrect pm rej x y u = Ok x' ->
  [/\ forall i, ekf_correct plus ustamp pm chi2_99 (mx_states x i) y u None rej = Ok (mx_states x' i),
      is_prob (mx_probs x') &
      exists z S, (forall i, ekf_correct_details plus ustamp chi2_99 pm (mx_states x i) y u rej =
                              Ok (mx_states x' i, Some (z i, S i))) /\
       let post i := mx_probs x i * gauss_pdf (z i) (S i) in
       forall i j, 10%:R ^- 8 < post j -> mx_probs x' i = post i / \sum_k post k].
Proof.
move=> hmu; rewrite /gsf_correct; case e : (mapM _ _) => [rs|] //= [<-] /=.
set r := fun i : 'I_N => nth (mx_states x i, 0) rs i.
have re i : correct_mode plus ustamp chi2_99 (gsf_pdf gauss_pdf) pm rej (mx_states x i) y u = Ok (r i).
  exact: (mapM_enum (mx_states x i, 0) i e).
have ex i : exists zS, ekf_correct_details plus ustamp chi2_99 pm (mx_states x i) y u rej = Ok ((r i).1, Some zS) /\
    (r i).2 = gauss_pdf zS.1 zS.2.
  have := re i; rewrite /correct_mode; case: (ekf_correct_details _ _ _ _ _ _ _ _) => //= -[x1 [zS|]] //=.
  by rewrite /gsf_pdf; case: ifP => //= _ [<-]; exists zS.
have r2 i : 0 <= (r i).2 by have [zS [_ ->]] := ex i.
split.
- by move=> i; rewrite -details_fst; have [zS [-> _]] := ex i.
- by apply: C27_normalized => // i; apply: mulr_ge0; [exact: hmu.1|exact: r2].
have [zS zSE] : exists zS : 'I_N -> _, forall i, ekf_correct_details plus ustamp chi2_99 pm (mx_states x i) y u rej = Ok ((r i).1, Some (zS i)) /\
    (r i).2 = gauss_pdf (zS i).1 (zS i).2.
  exists (fun i => if ekf_correct_details plus ustamp chi2_99 pm (mx_states x i) y u rej is Ok (_, Some zS) then zS else (0, 0)).
  by move=> i; have [zS [-> ?]] := ex i.
exists (fun i => (zS i).1), (fun i => (zS i).2); split.
  by move=> i; rewrite (zSE i).1; case: (zS i).
move=> i j /= lt; rewrite (C27_bayes i (j := j)) //; last by rewrite (zSE j).2.
by rewrite (zSE i).2; congr (_ / _); apply: eq_bigr => k _; rewrite (zSE k).2.
Qed.

(** predict: every mode is its own filter's prediction; probabilities unchanged. *)
Theorem C27_predict_keeps_probabilities x u dt x' : imm_predict ustamp pms x u dt = Ok x' ->
  mx_probs x' = mx_probs x /\
  forall i, ekf_predict ustamp (pms i) (mx_states x i) u dt None = Ok (mx_states x' i).
Proof.
rewrite /imm_predict; case e : (mapM _ _) => [rs|] //= [<-]; split=> // i /=.
exact: (mapM_enum (mx_states x i) i e).
Qed.
End FilterProps.

(** *** Witnesses (two modes, rational scalars) *)
Lemma pow10_lt1 (R : realFieldType) : 10%:R ^- 8 < 1%:R :> R.
Proof. by rewrite mulr1n invf_lt1 ?exprn_gt0 ?ltr0n // exprn_egt1 // ltr1n. Qed.
Lemma pow10_le (R : realFieldType) k : (0 : R) <= 10%:R ^- (8 + k) <= (10%:R ^- 8 : R).
Proof.
rewrite invr_ge0 exprn_ge0 ?ler0n //= lef_pinv ?posrE ?exprn_gt0 ?ltr0n //.
by rewrite ler_weexpn2l ?leq_addr // ler1n.
Qed.
Section Witness.
Notation F := [realFieldType of rat].
Definition Pi2 : 'M[F]_2 := \matrix_(i, j) (if i == j then 9%:R / 10%:R else 1 / 10%:R).
Definition mu2 (i : 'I_2) : F := if i == 0 then 1 / 4%:R else 3%:R / 4%:R.
Definition x2 : mixture F 'cV[F]_1 1 2 :=
  Mixture (fun i => Est (PState (i%:R)%:M (Some 0)) ((i.+1%:R)%:M)) mu2.

Example C26_witness_stochastic : row_stochastic Pi2.
Proof.
move=> i; split=> [j|]; first by rewrite mxE; case: ifP.
rewrite !big_ord_recl big_ord0 !mxE.
by case: i => -[|[|//]] lt; apply/eqP; vm_compute.
Qed.
Example C26_witness_prob : is_prob (mx_probs x2).
Proof.
split=> [j|]; first by rewrite /= /mu2; case: ifP.
by rewrite !big_ord_recl big_ord0; apply/eqP; vm_compute.
Qed.
Example C26_witness_nonzero j : predicted_probs Pi2 (mx_probs x2) j != 0.
Proof.
rewrite /predicted_probs !big_ord_recl big_ord0 !mxE.
by case: j => -[|[|//]] lt; vm_compute.
Qed.
(** hence C26_interaction_preserves_moments applies to it and the interaction is defined *)
Example C26_witness_interaction : is_ok (imm_interaction (fun x d : 'cV[F]_1 => x + d) (fun a b => a - b)
   (fun _ _ => 1%:M : 'M[F]_1) (fun _ _ => 1%:M) Pi2 x2).
Proof. by have [x' [-> _ _]] := C26_interaction_vector C26_witness_stochastic C26_witness_prob C26_witness_nonzero. Qed.

(** C27: two likely modes are weighted by Bayes' rule ... *)
Example C27_witness : normalize_weights (fun i : 'I_2 => (i.+1%:R : F)) 1 = 2%:R / 3%:R.
Proof.
rewrite (C27_bayes 1 (j := 0)); last first.
  exact: pow10_lt1.
by rewrite !big_ord_recl big_ord0; apply/eqP; vm_compute.
Qed.
(** ... but a mode 10^4 times more likely than the other gets probability 1/2 when
    both densities are small. *)
Example C27_witness_refuted : normalize_weights (fun i : 'I_2 => if i == 0 then 10%:R ^- 13 else 10%:R ^- 9 : F) 0 = 2%:R^-1.
Proof.
apply: C27_small_weights_uniform_refuted.
by move=> j; case: ifP => _; [exact: (pow10_le _ 5)|exact: (pow10_le _ 1)].
Qed.
End Witness.

Print Assumptions C26_interaction_preserves_moments.
Print Assumptions C27_imm_correct.
Print Assumptions C27_gsf_correct_partial.
Print Assumptions C28_vector_moments.
Print Assumptions C28_covariance_psd.
Print Assumptions C28_single_component.
Print Assumptions C72_gsf_vector_measurement_raises_refuted.
