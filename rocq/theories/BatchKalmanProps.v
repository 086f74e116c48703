(** C90: on linear problems the batch solution's last state is the Kalman filter's. *)
From mathcomp Require Import all_ssreflect all_algebra.
From Coq Require Import Permutation.
From Verif Require Import Base LinAlg Tac EkfModel EkfProps CholModel CholProof ResidualModel ResidualProps ProblemModel ProblemProof ProblemProps ProblemProps2 ProblemProps3 ProblemProps4 BatchKalmanModel MarginalProof BatchKalmanProof BatchKalmanProof2.
Set Implicit Arguments.
Unset Strict Implicit.
Unset Printing Implicit Defensive.
Import Order.Theory GRing.Theory Num.Theory.
Local Open Scope ring_scope.

Section Props.
Variable R : rcfType.
Variable n : nat.
Variable U : Type.
Variable ustamp : U -> option R.
Variable chi2_99 : nat -> R.
Notation cV := 'cV[R]_n.
Notation event := (event R n U).
Notation problem := (problem R nat_eqType cV).
Variable pm : process_model R cV n U.
Variables (F Q : U -> R -> 'M[R]_n) (b : U -> R -> cV).

(** The batch problem of a history: one free variable per time step, keyed 0, 1, ...,
    with any initial guess; the prior, one process residual per prediction and one
    measurement residual per measurement, added in any order, all with the L2 loss. *)
Definition batch_problem (p : problem) (x0 : cV) (P0 : 'M[R]_n) (t0 : R) (evs : seq event) : Prop :=
  [/\ p_const p = [::], unzip1 (p_init p) = iota 0 (steps evs).+1,
      exists2 L, prior_init P0 = Ok L &
        Permutation (p_resids p)
          (prior_residual (nth 0 (times t0 evs)) L (PState x0 (Some t0)) :: event_residuals pm (nth 0 (times t0 evs)) 0 evs) &
      p_losses p = nseq (size (p_resids p)) (l2_loss R)].

Section One.
Variables (p : problem) (x0 : cV) (P0 : 'M[R]_n) (t0 : R) (evs : seq event).
Hypothesis lin : linear_process pm F Q b.
Hypothesis hP : pd P0.
Hypothesis hh : linear_history Q t0 evs.
Hypothesis bp : batch_problem p x0 P0 t0 evs.
Notation K := (steps evs).
Notation dofv := (@vec_dof R n).
Notation plusv := (@vec_plus R n).

Lemma In_nth' (T : Type) (x : T) (s : seq T) q : (q < size s)%N -> List.In (nth x s q) s.
Proof. by elim: s q => [|a s IH] [|q] //= lt; [left|right; apply: IH]. Qed.

Lemma dget_ext (T : eqType) (V : Type) (s s' : seq (T * V)) : uniq (unzip1 s) -> unzip1 s' = unzip1 s ->
  (forall k, k \in unzip1 s -> dget s' k = dget s k) -> s' = s.
Proof.
elim: s s' => [|[k v] s IH] [|[k' v'] s'] //= /andP [ni u] [ek es] h.
have := h k; rewrite inE eqxx ek eqxx /= => /(_ isT) [->]; congr (_ :: _); apply: IH => // j jin.
have := h j; rewrite inE jin orbT ek => /(_ isT); case: eqP => // e; by move: ni; rewrite e jin.
Qed.

Lemma resid_cases r : List.In r (p_resids p) ->
  affine plusv r /\ uniq (r_keys r) /\ all (fun j => (j <= K)%N) (r_keys r).
Proof.
have [_ _ [L _ pr] _] := bp => /(Permutation_in _ pr) [<-|hin]; first by split=> //; exact: prior_affine.
have [|a1 [a2 a3]] := history_residuals lin hh _ hin; first by move=> j _; rewrite add0n.
by split=> //; split=> //; apply/allP => j jin; have := allP a3 j jin; rewrite add0n => /andP [].
Qed.

Lemma bp_wf : well_formed p.
Proof.
have [_ ek _ el] := bp; split; rewrite ?ek ?iota_uniq ?el ?size_nseq // => q r0 lq.
have [_ [h1 h2]] := resid_cases (In_nth' r0 lq).
by split=> // j jin; rewrite mem_iota add0n ltnS; exact: (allP h2).
Qed.
Lemma bp_affine : affine_problem plusv p.
Proof.
have [_ _ _ el] := bp; split=> [q r0 lq|q l0]; first by have [] := resid_cases (In_nth' r0 lq).
by rewrite el size_nseq => lq; rewrite nth_nseq lq.
Qed.

Lemma bp_cost vars x : (forall j, (j <= K)%N -> dget vars j = Some (x j)) ->
  total_cost p vars = 2%:R^-1 * trajectory_cost pm x0 P0 t0 evs x.
Proof.
move=> hv; have [_ _ [L eL pr] el] := bp.
rewrite /total_cost el zip_nseq_sum (sum_permutation _ pr) big_cons (prior_cost _ _ _ hP eL (hv 0%N isT)) mulrDr.
by congr (_ + _); apply: (history_sum lin hh) => j lj; rewrite add0n // hv.
Qed.

(** values of the initial guess *)
Definition guess (j : nat) : cV := if dget (p_init p) (j : nat_eqType) is Some v then v else 0.
Lemma dget_init j : (j <= K)%N -> dget (p_init p) (j : nat_eqType) = Some (guess j).
Proof.
move=> lj; have : j \in unzip1 (p_init p) by have [_ -> _ _] := bp; rewrite mem_iota add0n ltnS.
by rewrite -dget_isSome /guess; case: (dget _ _).
Qed.
Lemma dget_moved (d : nat_eqType -> seq R) j : (j <= K)%N -> dget (moved plusv (p_const p) d (p_init p)) j = Some (plusv (guess j) (d j)).
Proof.
move=> lj; have := dget_init lj; have [-> _ _ _] := bp.
elim: (p_init p) => [|[k v] r IH] //=; case: eqP => [->|_]; last exact: IH.
by case=> ->.
Qed.
Lemma free_all : free_vars p = p_init p.
Proof. by rewrite /free_vars; have [-> _ _ _] := bp; rewrite filter_predT. Qed.
Lemma size_init : size (p_init p) = K.+1.
Proof. by have [_ e _ _] := bp; rewrite -(size_map fst) -/(unzip1 _) e size_iota. Qed.
Lemma cols_before i : (i <= K.+1)%N -> columns_before dofv p i = (i * n)%N.
Proof.
move=> li; rewrite /columns_before free_all.
have -> : [seq dofv kv.2 | kv <- p_init p] = nseq K.+1 n by rewrite -size_init; elim: (p_init p) => //= a s ->.
by rewrite take_nseq // sumn_nseq mulnC.
Qed.
Lemma num_cols : num_columns dofv p = (K.+1 * n)%N.
Proof. by rewrite -(cols_before (leqnn _)) /columns_before free_all /num_columns free_all take_oversize // size_map size_init. Qed.
Lemma slice_of j : (j <= K)%N -> dget (slices_of dofv p) (j : nat_eqType) = Some ((j * n)%N, (j * n + n)%N).
Proof.
move=> lj; have [_ ek _ _] := bp; have [u _ _] := bp_wf.
have li : (j < size (free_vars p))%N by rewrite free_all size_init.
have := vslices_nth dofv (p_slices p) 0 (0%N : nat_eqType, 0 : cV) u li.
rewrite /= -/(free_vars p) -/(slices_of dofv p) add0n -[offset _ _ _ _]/(columns_before dofv p j) cols_before ?(leqW lj) //.
have -> : (nth (0%N, 0) (free_vars p) j).1 = j by rewrite free_all -(nth_map _ 0%N) ?size_init // -/(unzip1 _) ek nth_iota.
by [].
Qed.

Notation N := (num_columns dofv p).
Lemma idx_lt j (c : 'I_n) : (j <= K)%N -> (j * n + c < N)%N.
Proof. by move=> lj; rewrite num_cols mulSn addnC -addSn leq_add // leq_mul2r lj orbT. Qed.

(** block j of a stacked displacement *)
Definition block (dx : 'cV[R]_N) (j : nat) : cV := \col_(c < n) (if insub (j * n + c)%N is Some i then dx i 0 else 0).
Lemma moved_block (dx : 'cV[R]_N) j : (j <= K)%N ->
  plusv (guess j) (dkey (slices_of dofv p) dx j) = guess j + block dx j.
Proof.
move=> lj; rewrite /vec_plus /dkey slice_of //; congr (_ + _); apply/matrixP => c z; rewrite !mxE /= /pslice addKn.
rewrite nth_take // nth_drop; have li := idx_lt c lj.
by rewrite insubT /dlist (nth_map (Ordinal li)) ?size_enum_ord //; congr (dx _ _); apply: val_inj; rewrite /= nth_enum_ord.
Qed.
Lemma block_inj (dx dy : 'cV[R]_N) : (forall j, (j <= K)%N -> block dx j = block dy j) -> dx = dy.
Proof.
move=> h; apply/matrixP => i z; rewrite !ord1; have li := ltn_ord i; rewrite {2}num_cols in li.
have n0 : (0 < n)%N by move: (leq_ltn_trans (leq0n _) li); rewrite muln_gt0.
have lj : (i %/ n <= K)%N by rewrite -ltnS ltn_divLR.
have lc : (i %% n < n)%N by rewrite ltn_pmod.
have := congr1 (fun v : cV => v (Ordinal lc) 0) (h _ lj); rewrite !mxE /= -divn_eq.
by rewrite valK.
Qed.

Definition lastblock : 'M[R]_(n, N) := \matrix_(c, i) ((i : nat) == (K * n + c)%N)%:R.
Lemma lastblockE dx : lastblock *m dx = block dx K.
Proof.
apply/matrixP => c z; rewrite !mxE ord1; have li := idx_lt c (leqnn K); rewrite insubT.
rewrite (bigD1 (Ordinal li)) //= !mxE eqxx mul1r big1 ?addr0 // => i ne.
rewrite !mxE; case: eqP => [e|]; last by rewrite mul0r.
by case/eqP: ne; apply: val_inj.
Qed.

Lemma assembled (x : nat -> cV) : exists dx : 'cV[R]_N, forall j, (j <= K)%N -> guess j + block dx j = x j.
Proof.
have [u _ _] := bp_wf.
pose d (j : nat_eqType) : seq R := [seq (x j - guess j) c 0 | c <- enum 'I_n].
have [|dx e] := assemble (dof := dofv) plusv (d := d) u.
  by move=> k v _ _; rewrite size_map size_enum_ord.
exists dx => j lj; rewrite -moved_block //.
have := congr1 (fun vs => dget vs (j : nat_eqType)) e; rewrite !dget_moved // => -[->].
rewrite /vec_plus; apply/matrixP => c z; rewrite !mxE (nth_map c) ?size_enum_ord // nth_ord_enum !mxE !ord1.
by rewrite addrC subrK.
Qed.

Lemma agree : (0 < n)%N -> p_solver p = GN -> (0 < p_max_iters p)%N ->
  exists xf p', [/\ kf_run ustamp chi2_99 pm (Est (PState x0 (Some t0)) P0) evs = Ok xf, solve dofv plusv p = Ok p',
    dget (p_vars p') (K : nat_eqType) = Some (sval (est_state xf)),
    sstamp (est_state xf) = Some (last t0 (times t0 evs)) &
    p_cov p = None -> exists B, [/\ (get_covariance_block p' K K).1 = Ok (Some B), nrow B = n, ncol B = n &
       forall i j : 'I_n, ent B i j = est_cov xf i j]].
Proof.
move=> n0 gn it0.
have [xf [c [D [er [hp hs] hc [D0 Dx] [hre hon]]]]] := kf_cost ustamp chi2_99 lin 0 x0 hP hh.
rewrite add0n in hc Dx hre hon.
have wf := bp_wf; have af := bp_affine; have wa : wfa plusv p by [].
have [e [H [ec _]]] := C34_stacked dofv N wf (erefl (unzip1 (p_init p))).
have cost dx : total_cost p (moved plusv (p_const p) (dkey (slices_of dofv p) dx) (p_init p)) = 2%:R^-1 * n2 (e + H *m dx).
  have ev2 : unzip1 (moved plusv (p_const p) (dkey (slices_of dofv p) dx) (p_init p)) = unzip1 (p_init p) by rewrite unzip1_moved.
  have ec2 := affine_step dx wa (erefl _) ec; rewrite /= in ec2.
  by rewrite (cost_normsq wa ev2 ec2) n2E.
pose x_of dx j := guess j + block dx j.
have cost' dx : n2 (e + H *m dx) = trajectory_cost pm x0 P0 t0 evs (x_of dx).
  have h2 : (2%:R^-1 : R) != 0 by rewrite invr_eq0 pnatr_eq0.
  apply: (mulfI h2); rewrite -cost (bp_cost (x := x_of dx)) // => j lj.
  by rewrite dget_moved // moved_block.
have split d : n2 (e + H *m d) = qf (invmx (est_cov xf)) (guess K + lastblock *m d - sval (est_state xf)) + c + D (x_of d).
  by rewrite cost' /trajectory_cost hc lastblockE.
have reach v : exists2 d, guess K + lastblock *m d = v & D (x_of d) = 0.
  have [x xK Dx0] := hre v; have [dx hdx] := assembled x; exists dx; first by rewrite lastblockE hdx.
  by rewrite -Dx0; apply: Dx => j /andP [_ lj]; exact: hdx.
have only d d' : lastblock *m d = lastblock *m d' -> D (x_of d) = 0 -> D (x_of d') = 0 -> d = d'.
  rewrite !lastblockE => eb Dd Dd'; apply: block_inj => j lj; apply: (@addrI _ (guess j)).
  by apply: (hon (x_of d) (x_of d') Dd Dd' _ j) => //; rewrite /x_of eb.
have hA := normal_pd hp split (fun d => D0 (x_of d)) reach only.
have hB := block_covariance hp split (fun d => D0 (x_of d)) reach only.
have Npos : (0 < N)%N by rewrite num_cols muln_gt0.
have [p' es] := C33_succeeds gn it0 wf af Npos ec (pd_unit hA).
have [_ ev' _] := C31_constants_and_init es.
pose val j : cV := if dget (p_vars p') (j : nat_eqType) is Some v then v else 0.
have hval j : (j <= K)%N -> dget (p_vars p') (j : nat_eqType) = Some (val j).
  move=> lj; have : j \in unzip1 (p_vars p') by rewrite ev'; have [_ -> _ _] := bp; rewrite mem_iota add0n ltnS.
  by rewrite -dget_isSome /val; case: (dget _ _).
have [dx hdx] := assembled val.
have cmin : forall d, n2 (e + H *m dx) <= n2 (e + H *m d).
  move=> d; rewrite cost'; have h2 : (0 : R) < 2%:R^-1 by rewrite invr_gt0 ltr0n.
  rewrite -(ler_pmul2l h2) -cost -(bp_cost (x := x_of dx) (vars := p_vars p')); last by move=> j lj; rewrite hval // /x_of hdx.
  apply: (C33_global_minimum gn it0 wf af es) => k v gk _; rewrite /dkey.
  have kin : (k <= K)%N.
    have : k \in unzip1 (p_init p) by rewrite -dget_isSome gk.
    by have [_ -> _ _] := bp; rewrite mem_iota add0n ltnS.
  rewrite slice_of // /pslice addKn /= size_take size_drop /dlist size_map size_enum_ord num_cols.
  have -> : (K.+1 * n - k * n = (K.+1 - k) * n)%N by rewrite mulnBl.
  by rewrite subSn // mulSn; case: ltnP => // h; apply/eqP; rewrite eqn_leq h /= leq_addr.
have last_ok := minimiser_block hp split (fun d => D0 (x_of d)) reach cmin.
exists xf, p'; split=> //.
  by rewrite hval // -last_ok lastblockE hdx.
move=> pc; have [e' [H' [ec' ei]]] := C35_gn_information_affine gn wf af es.
have pv : p_vars p' = moved plusv (p_const p) (dkey (slices_of dofv p) dx) (p_init p).
  have [u _ _] := wf; apply: dget_ext; rewrite ?unzip1_moved ?ev' // => k.
  have [_ -> _ _] := bp; rewrite mem_iota add0n ltnS => lk.
  by rewrite hval // dget_moved // moved_block // hdx.
have eH : H' = H.
  by move: ec'; rewrite pv; have /= -> := affine_step dx wa (erefl _) ec; case.
rewrite {}eH in ei {ec'}.
have [u _ _] := wf.
have li : (K < size (free_vars p))%N by rewrite free_all size_init.
have := C35_block (0%N : nat_eqType, 0 : cV) u pc es ei (pd_unit hA) li li.
have eK : (nth (0%N : nat_eqType, 0 : cV) (free_vars p) K).1 = K.
  by rewrite free_all -(nth_map _ 0%N) ?size_init // -/(unzip1 _); have [_ -> _ _] := bp; rewrite nth_iota.
rewrite /= eK; case=> B [gB rB cB eB]; exists B; split=> // i j.
have lk := leqnn K.
rewrite (eB i j (Ordinal (idx_lt i lk)) (Ordinal (idx_lt j lk))) ?ltn_ord // ?cols_before //.
rewrite -hB.
have rowE' m (M : 'M[R]_(N, m)) r z : (lastblock *m M) r z = M (Ordinal (idx_lt r lk)) z.
  rewrite mxE (bigD1 (Ordinal (idx_lt r lk))) //= !mxE eqxx mul1r big1 ?addr0 // => k ne.
  by rewrite !mxE; case: eqP => [E|]; rewrite ?mul0r //; case/eqP: ne; apply: val_inj.
rewrite -mulmxA rowE' -[invmx _ *m _]trmxK mxE trmx_mul trmxK rowE' mxE; by [].
Qed.
End One.

(** C90: on a linear history the filter never fails, and its estimate is the last state of
    the trajectory of least cost (prior + process + measurement Mahalanobis terms): some
    trajectory of least cost ends there, and all of them do. *)
Theorem C90_filter_is_map_estimate x0 (P0 : 'M[R]_n) t0 (evs : seq event) :
  linear_process pm F Q b -> pd P0 -> linear_history Q t0 evs ->
  let cost := trajectory_cost pm x0 P0 t0 evs in
  exists xf, kf_run ustamp chi2_99 pm (Est (PState x0 (Some t0)) P0) evs = Ok xf /\
   (exists2 x, x (steps evs) = sval (est_state xf) & forall x', cost x <= cost x') /\
   (forall x, (forall x', cost x <= cost x') -> x (steps evs) = sval (est_state xf)).
Proof. by move=> lin hP hh; exact: (kf_minimises ustamp chi2_99 lin x0 hP hh). Qed.

(** C90: Gauss-Newton on the batch problem of the same history, from any initial guess,
    succeeds; the value it returns for the last state is the filter's, and the covariance
    block it reports for that state is the filter's covariance. *)
Theorem C90_batch_equals_filter (p : problem) x0 (P0 : 'M[R]_n) t0 (evs : seq event) :
  (0 < n)%N -> linear_process pm F Q b -> pd P0 -> linear_history Q t0 evs ->
  batch_problem p x0 P0 t0 evs -> p_solver p = GN -> (0 < p_max_iters p)%N ->
  exists xf p',
  [/\ kf_run ustamp chi2_99 pm (Est (PState x0 (Some t0)) P0) evs = Ok xf,
      solve (@vec_dof R n) (@vec_plus R n) p = Ok p',
      dget (p_vars p') (steps evs : nat_eqType) = Some (sval (est_state xf)),
      sstamp (est_state xf) = Some (last t0 (times t0 evs)) &
      p_cov p = None ->
      exists B, [/\ (get_covariance_block p' (steps evs) (steps evs)).1 = Ok (Some B), nrow B = n, ncol B = n &
        forall i j : 'I_n, ent B i j = est_cov xf i j]].
Proof. by move=> n0 lin hP hh bp gn it0; exact: (agree lin hP hh bp n0 gn it0). Qed.
End Props.

(** Witness: a point on a line moves at speed u for one second, then its position is
    measured.  All variances are 1; starting from 0 with u = 1 and y = 3, both estimators
    give 7/3 with variance 2/3. *)
Section Witness.
Variable R : rcfType.
Notation V := 'cV[R]_1.
Definition line_pm : process_model R V 1 R :=
  ProcessModel (fun s u dt => PState (sval s + (u * dt)%:M) (sstamp s)) (fun _ _ _ => 1%:M) (fun _ _ _ => 1%:M).
Definition line_y : measurement R V 1 :=
  @Measurement R V 1 1 (3%:R)%:M (Some 1) (fun s => Some (sval s)) (fun _ => 1%:M) (fun _ => 1%:M).
Definition line_evs : seq (event R 1 R) := [:: Predict _ 1 1; Correct _ line_y].
Definition line_problem (L : 'M[R]_1) : problem R nat_eqType V :=
  let rs := prior_residual (nth 0 (times 0 line_evs)) L (PState 0 (Some 0)) :: event_residuals line_pm (nth 0 (times 0 line_evs)) 0 line_evs in
  Problem GN 100 None None None 0 [:: (0%N : nat_eqType, 0); (1%N : nat_eqType, (5%:R)%:M)] [::] [::] [::] rs
    (nseq (size rs) (l2_loss R)) None None [::].

Example C90_witness (chi : nat -> R) : exists L,
  [/\ linear_process line_pm (fun _ _ => 1%:M) (fun _ _ => 1%:M) (fun u dt => (u * dt)%:M),
      pd (1%:M : 'M[R]_1), linear_history (fun _ _ => 1%:M) 0 line_evs,
      batch_problem line_pm (line_problem L) 0 1%:M 0 line_evs &
      kf_run (fun _ => None) chi line_pm (Est (PState 0 (Some 0)) 1%:M) line_evs =
        Ok (Est (PState (7%:R / 3%:R)%:M (Some 1)) (2%:R / 3%:R)%:M)].
Proof.
have [L [eL _ _ _]] := C37_sqrt_information (@pd1 R 1).
have h3 : (3%:R : R) != 0 by rewrite pnatr_eq0.
exists L; split.
- by move=> s u dt; split=> //=; rewrite mul1mx.
- exact: pd1.
- split; rewrite ?ler01 //; first exact: pd1.
  split=> //; last by right; rewrite /= add0r.
  by exists 1%:M, 0, 1%:M; split; [move=> s; split=> //=; rewrite mul1mx addr0|exact: pd1].
- by split=> //; exists L.
rewrite /kf_run /= /ekf_predict /= ltr10 /= !add0r ?mul1mx ?trmx1 ?mulmx1 ?mulr1.
have e2 : symmetrize (1%:M + 1%:M : 'M[R]_1) = (2%:R)%:M.
  by rewrite /symmetrize symmetrize_id; [rewrite -raddfD|rewrite linearD /= trmx1].
have e3 : (2%:R + 1 : R) = 3%:R by rewrite -[X in _ + X]/(1%:R) -natrD.
have sync : in_sync (U := R) (Est (PState (1%:M : V) (Some 1)) (2%:R)%:M) line_y None by left.
have h2 : pd ((2%:R)%:M : 'M[R]_1) by rewrite -[2%:R]mulr1 -scale_scalar_mx; apply: pdZ; [rewrite ltr0n|exact: pd1].
have := correct_ok (@vec_add R 1) (fun _ => None) line_pm chi sync (erefl _) (pd_psd h2) (@pd1 R 1).
rewrite e2 /= => -> /=; rewrite /jac_point /= trmx1 mul1mx !mulmx1 -raddfD /= e3 invmx_scalar -!scalar_mxM.
have e31 : (3%:R - 1 : R) = 2%:R by rewrite -e3 addrK.
rewrite -!raddfB /= -!scalar_mxM e31 /pplus /= /vec_add -raddfD /=; congr (Ok (Est (PState _%:M _) _%:M)).
  apply: (mulIf h3); rewrite mulrDl mul1r mulrAC !divfK // -!natrM -natrD; by [].
apply: (mulIf h3); rewrite mulrAC mulrBl mul1r !divfK //; rewrite -e3 [2%:R + 1]addrC addrK mul1r; by [].
Qed.
End Witness.

Print Assumptions C90_filter_is_map_estimate.
Print Assumptions C90_batch_equals_filter.
