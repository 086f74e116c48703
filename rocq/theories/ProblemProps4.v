(** C79: which iterates Gauss-Newton goes through and when it stops; C34: adding residuals. *)
From mathcomp Require Import all_ssreflect all_algebra.
From Verif Require Import Base Tac LinAlg CompositeProof SigmaProps MixtureProps ProblemModel ProblemProof ProblemProps ProblemProps2 ProblemProps3.
Set Implicit Arguments.
Unset Strict Implicit.
Unset Printing Implicit Defensive.
Import Order.Theory GRing.Theory Num.Theory.
Local Open Scope ring_scope.

Section Run.
Variables (R : rcfType) (K : eqType) (V : Type).
Variables (dof : V -> nat) (plus : V -> seq R -> V).
Notation problem := (problem R K V).
Notation residual := (residual R K V).
Notation variables := (seq (K * V)).
Notation solve := (solve dof plus).
Implicit Types p : problem.

(** the documented tolerances, for two successive costs, the norm of the step between them and the
    largest entry of the gradient after it *)
Definition stop_criterion p (c_prev c step grad : R) : Prop :=
  [\/ exists2 t, p_step_tol p = Some t & step < t,
      exists2 t, p_ftol p = Some t & (if c != 0 then `|c - c_prev| / c else 0) < t,
      c = 0 \/ step = 0 |
      exists2 t, p_gradient_tol p = Some t & grad < t].

(** the Euclidean norm, and the largest absolute entry *)
Definition is_norm n (v : 'cV[R]_n) (s : R) : Prop := 0 <= s /\ s ^+ 2 = \sum_i v i 0 ^+ 2.
Definition is_maxabs n (v : 'rV[R]_n) (g : R) : Prop := (forall j, `|v 0 j| <= g) /\ exists j, `|v 0 j| = g.
Lemma cnormP n (v : 'cV[R]_n) : is_norm v (cnorm v).
Proof. by split; rewrite ?sqrtr_ge0 // sqr_sqrtr // sumr_ge0 // => i _; exact: sqr_ge0. Qed.
Lemma bigmaxP (I : eqType) (l : seq I) (f : I -> R) : (forall i, 0 <= f i) -> l != [::] ->
  (forall i, i \in l -> f i <= \big[Num.max/0]_(i <- l) f i) /\ exists i, f i = \big[Num.max/0]_(i <- l) f i.
Proof.
move=> f0; elim: l => // a l IH _; rewrite big_cons.
case: (eqVneq l [::]) => [->|/IH [IH1 [k IH2]]].
  by rewrite big_nil max_l //; split; [move=> i; rewrite inE => /eqP ->|exists a].
split=> [i|].
  by rewrite inE le_maxr => /orP [/eqP ->|/IH1 ->]; rewrite ?lexx ?orbT.
by case: (leP (f a) (\big[Num.max/0]_(i <- l) f i)) => _; [exists k|exists a].
Qed.
Lemma maxabsP n (v : 'rV[R]_n) g : maxabs v = Ok g -> is_maxabs v g.
Proof.
rewrite /maxabs; case: eqP => // /eqP n0 [<-].
have ne : index_enum [finType of 'I_n] != [::].
  have i0 : 'I_n by apply: (@Ordinal n 0); rewrite lt0n.
  by apply/eqP => z; have := mem_index_enum i0; rewrite z.
have [h1 h2] := @bigmaxP _ (index_enum [finType of 'I_n]) (fun j => `|v 0 j|) (fun j => normr_ge0 _) ne.
by split=> // j; apply: h1; rewrite mem_index_enum.
Qed.

(** [vars'] is [vars] moved by the solution of the normal equations at [vars] *)
Definition gn_step p n (vars vars' : variables) (step grad : R) : Prop :=
  exists e H (dx : 'cV[R]_n) e' H',
  [/\ compute_of dof p (num_rows p) n vars = Ok (e, H, total_cost p vars),
      H^T *m H \in unitmx /\ H^T *m H *m dx = - (H^T *m e),
      correct_states plus (p_const p) (slices_of dof p) dx vars = Ok vars',
      compute_of dof p (num_rows p) n vars' = Ok (e', H', total_cost p vars') &
      is_norm dx step /\ is_maxabs (e'^T *m H') grad].

Lemma is_convergedP p c_prev c step grad :
  is_converged (p_step_tol p) (p_ftol p) (p_gradient_tol p) (Some `|c - c_prev|) c (Some step) (Some grad) <->
  stop_criterion p c_prev c step grad.
Proof.
rewrite /is_converged; split.
  case/or4P.
  - by case E: (p_step_tol p) => [t|] // h; apply: Or41; exists t.
  - by case E: (p_ftol p) => [t|] // h; apply: Or42; exists t.
  - by move=> /eqP h; apply: Or43; left.
  - case/orP => [/eqP h|]; first by apply: Or43; right.
    by case E: (p_gradient_tol p) => [t|] // h; apply: Or44; exists t.
case=> [[t -> ->]|[t -> ->]|[->|->]|[t -> ->]]; rewrite ?eqxx ?orbT //.
Qed.

Lemma gn_loop_run p n it (vars : variables) costs e (H : 'M[R]_(num_rows p, n)) dc dx grad A r :
  compute_of dof p (num_rows p) n vars = Ok (e, H, total_cost p vars) ->
  gn_loop plus p (slices_of dof p) (rranges (p_resids p) 0) it vars (total_cost p vars :: costs) e H dc dx grad A = Ok r ->
  exists (xs : seq variables) (sg : seq (R * R)),
   let path := vars :: xs in
   let stop i := if i is j.+1 then
       stop_criterion p (total_cost p (nth vars path j)) (total_cost p (nth vars path i)) (nth (0, 0) sg j).1 (nth (0, 0) sg j).2
     else is_true (is_converged (p_step_tol p) (p_ftol p) (p_gradient_tol p) dc (total_cost p vars) dx grad) in
   [/\ (size xs = size sg /\ (size xs <= it)%N) /\ (xs = [::] -> r.2 = A),
       r.1.1 = last vars xs,
       r.1.2 = rev (map (total_cost p) xs) ++ total_cost p vars :: costs,
       forall i, (i < size xs)%N -> gn_step p n (nth vars path i) (nth vars path i.+1) (nth (0, 0) sg i).1 (nth (0, 0) sg i).2 /\ ~ stop i &
       (size xs < it)%N -> stop (size xs)].
Proof.
elim: it vars costs e H dc dx grad A => [|it IH] vars costs e H dc dx grad A ec /=.
  by move=> [<-]; exists [::], [::]; split.
case Ec: (is_converged _ _ _ _ _ _ _); first by move=> [<-]; exists [::], [::]; split.
rewrite /spsolve; case: ifP => // uA.
set d := invmx _ *m _.
case Ev: (correct_states _ _ _ _ _) => [vars'|] //=.
rewrite -/(compute_of dof p (num_rows p) n).
case Ec': (compute_of _ _ _ _ _) => [[[e' H'] c']|] //=.
have ec2 := compute_cost Ec'; rewrite /= in ec2; subst c'.
case Eg: (maxabs _) => [g|] //= hr.
have [xs [sg [[[s1 s2] _] h1 h2 h3 h4]]] := IH _ _ _ _ _ _ _ _ Ec' hr.
exists (vars' :: xs), ((cnorm d, g) :: sg); split.
- by rewrite /= s1; rewrite s1 in s2; rewrite ltnS s2.
- by rewrite h1.
- by rewrite h2 /= rev_cons cat_rcons.
- case=> [|i] li.
    split=> //=.
    exists e, H, d, e', H'; split=> //; last by split; [exact: cnormP|exact: maxabsP].
    by split=> //; rewrite /d mulmxA mulmxV // mul1mx.
  rewrite /= ltnS in li; have [g1 g2] := h3 i li.
  have l1 : (i < size (vars' :: xs))%N by rewrite /= ltnS ltnW.
  have l2 : (i.+1 < size (vars' :: xs))%N by rewrite /= ltnS.
  rewrite -[nth vars [:: vars, vars' & xs] i.+1]/(nth vars (vars' :: xs) i).
  rewrite (set_nth_default vars' vars l1) (set_nth_default vars' vars l2); split; first exact: g1.
  move=> st; apply: g2; move: st; case: (i) li l1 l2 => [|j] li l1 l2.
    by rewrite -is_convergedP.
  rewrite -[nth vars [:: vars, vars' & xs] j.+1]/(nth vars (vars' :: xs) j).
  by rewrite (set_nth_default vars' vars (ltnW l1)).
- move=> /= li; rewrite ltnS in li; have := h4 li; case ej: (size xs) => [|j].
    by case: xs ej {h1 h2 h3 h4 s1 s2 li} => // _; rewrite -is_convergedP.
  have l1 : (j < size (vars' :: xs))%N by rewrite /= ej ltnS ltnW.
  have l2 : (j.+1 < size (vars' :: xs))%N by rewrite /= ej.
  rewrite -[nth vars [:: vars, vars' & xs] j.+1]/(nth vars (vars' :: xs) j).
  by rewrite (set_nth_default vars' vars l1) (set_nth_default vars' vars l2).
Qed.

(** C79: a successful Gauss-Newton solve goes through N >= 1 iterates after the initial guess: each is
    the previous one moved by the solution of the normal equations there; the run stops at the first
    iterate meeting one of the tolerances, or at the iteration limit; the cost history lists the costs
    of the iterates in order (the last one twice). *)
Theorem C79_gauss_newton_run p p' : p_solver p = GN -> solve p = Ok p' ->
  exists (xs : seq variables) (sg : seq (R * R)),
   let x i := nth (p_init p) (p_init p :: xs) i in
   let stop i := stop_criterion p (total_cost p (x i)) (total_cost p (x i.+1)) (nth (0, 0) sg i).1 (nth (0, 0) sg i).2 in
   [/\ (0 < size xs <= p_max_iters p)%N,
       p_vars p' = last (p_init p) xs,
       p_history p' = rcons [seq total_cost p v | v <- p_init p :: xs] (total_cost p (p_vars p')),
       forall i, (i < size xs)%N -> gn_step p (num_columns dof p) (x i) (x i.+1) (nth (0, 0) sg i).1 (nth (0, 0) sg i).2 &
       (forall i, (i.+1 < size xs)%N -> ~ stop i) /\ ((size xs < p_max_iters p)%N -> stop (size xs).-1)].
Proof.
move=> gn es; have [n [[[e H] c] [r [[[e' H'] c'] [A [[en e1 e2 e3 e4] [ev eh _]]]]]]] := solve_gn_unfold gn es.
have := compute_cost e1; rewrite /= => ec; subst c.
have := compute_cost e3; rewrite /= => ec; subst c'.
have [xs [sg [[[s1 s2] s3] h1 h2 h3 h4]]] := gn_loop_run e1 e2.
have s0 : (0 < size xs)%N by case: (xs) s3 => // /(_ (erefl _)); rewrite e4.
exists xs, sg; rewrite -en; split.
- by rewrite s0.
- by rewrite ev h1.
- by rewrite eh h2 ev rev_cons rev_cat revK.
- by move=> i li; have [] := h3 i li.
- split=> [i li|li]; first by have [_] := h3 i.+1 li.
  by move: (h4 li); case: (size xs) s0.
Qed.

(** *** Adding residuals *)
(** C34: residuals added with one loss are all charged with that loss, and with a list of as many
    losses the i-th with the i-th; nothing else changes. *)
Theorem C34_add_residual p (rs : seq residual) (ls : loss R + seq (loss R)) (vars : variables) r0 l0 :
  size (p_losses p) = size (p_resids p) -> (if ls is inr l then size l = size rs else True) ->
  let p' := add_residual p rs ls in
  let loss_of i := match ls with inl l => l | inr l => nth l0 l i end in
  size (p_losses p') = size (p_resids p') /\
  total_cost p' vars = total_cost p vars +
    \sum_(i < size rs) l_loss (loss_of i) (rnorm vars (nth r0 rs i)).
Proof.
move=> sz hl p' loss_of.
have sl : size (match ls with inl l => nseq (size rs) l | inr l => l end) = size rs.
  by case: (ls) hl => [l|l] //; rewrite size_nseq.
split; first by rewrite /= !size_cat sz sl.
rewrite /total_cost /= zip_cat // big_cat; congr (_ + _).
rewrite (big_nth (r0, l0)) size_zip sl minnn big_mkord; apply: eq_bigr => i _.
rewrite nth_zip ?sl //=; congr (l_loss _ _).
by rewrite /loss_of; case: (ls) => // l; rewrite nth_nseq ltn_ord.
Qed.

(** *** Levenberg-Marquardt *)
(** An iterate: variables, damping, its growth factor, and the largest entry of the gradient at the
    point tried last. *)
Record lm_state := LmState { lm_vars : variables; lm_mu : R; lm_nu : R; lm_grad : option R }.

(** Nielsen's damping update for the gain ratio actual/predicted decrease *)
Definition lm_factor (actual predicted : R) : R :=
  let rho := actual / predicted in
  if predicted == 0 then 3%:R^-1 else Num.max 3%:R^-1 (1 - (2%:R * rho - 1) ^+ 3).
Lemma lm_factorE num den : damping_factor num den = lm_factor num den.
Proof. by rewrite /damping_factor /lm_factor div1r. Qed.

(** One iteration: solve the damped normal equations at the current variables; move if and only if
    the cost decreases, adapting the damping to the gain ratio; otherwise increase the damping. *)
Definition lm_transition p n (s s' : lm_state) : Prop :=
  exists e (H : 'M[R]_(num_rows p, n)),
  compute_of dof p (num_rows p) n (lm_vars s) = Ok (e, H, total_cost p (lm_vars s)) /\
  let A := H^T *m H + (lm_mu s)%:M in
  let b := H^T *m e in
  if A \in unitmx then
    exists dx trial e' H' g,
    [/\ A *m dx = - b, correct_states plus (p_const p) (slices_of dof p) dx (lm_vars s) = Ok trial,
        compute_of dof p (num_rows p) n trial = Ok (e', H', total_cost p trial), is_maxabs (e'^T *m H') g &
        s' = (if total_cost p trial < total_cost p (lm_vars s)
              then LmState trial
                    (lm_mu s * lm_factor (total_cost p (lm_vars s) - total_cost p trial)
                        (2%:R^-1 * (dx^T *m (lm_mu s *: dx - b)) 0 0))
                    2%:R (Some g)
              else LmState (lm_vars s) (lm_mu s * lm_nu s) (2%:R * lm_nu s) (Some g))]
  else s' = LmState (lm_vars s) (lm_mu s * lm_nu s) (2%:R * lm_nu s) None.

(** The tolerances for the step computed at [s]; no step when the system is singular. *)
Definition lm_stop p n (s : lm_state) (c_prev : R) : Prop :=
  exists e (H : 'M[R]_(num_rows p, n)),
  compute_of dof p (num_rows p) n (lm_vars s) = Ok (e, H, total_cost p (lm_vars s)) /\
  let A := H^T *m H + (lm_mu s)%:M in
  let c := total_cost p (lm_vars s) in
  [\/ A \in unitmx /\ exists dx step, [/\ A *m dx = - (H^T *m e), is_norm dx step &
        step = 0 \/ exists2 t, p_step_tol p = Some t & step < t],
      exists2 t, p_ftol p = Some t & (if c != 0 then `|c - c_prev| / c else 0) < t,
      c = 0 |
      exists t g, [/\ p_gradient_tol p = Some t, lm_grad s = Some g & g < t]].

Lemma gain_acceptsE (num den : R) : 0 <= den -> gain_accepts num den = (0 < num).
Proof.
rewrite /gain_accepts le_eqVlt => /orP [/eqP <-|d0]; first by rewrite eqxx.
by rewrite gt_eqF // pmulr_lgt0 // invr_gt0.
Qed.

Lemma lm_loop_run p n it (s : lm_state) costs e (H : 'M[R]_(num_rows p, n)) r :
  compute_of dof p (num_rows p) n (lm_vars s) = Ok (e, H, total_cost p (lm_vars s)) ->
  0 <= lm_mu s -> 0 <= lm_nu s ->
  lm_loop plus p (slices_of dof p) (rranges (p_resids p) 0) (num_rows p) it (lm_vars s) (total_cost p (lm_vars s) :: costs)
    (H^T *m H) (H^T *m e) (lm_mu s) (lm_nu s) (total_cost p (lm_vars s))
    (delta_of (total_cost p (lm_vars s) :: costs)) (lm_grad s) = Ok r ->
  exists ss : seq lm_state,
   [/\ (size ss <= it)%N, r.1.1 = lm_vars (last s ss),
       forall i, (i < size ss)%N -> lm_transition p n (nth s (s :: ss) i) (nth s (s :: ss) i.+1) &
       (size ss < it)%N -> exists c_prev rest, r.1.2 = total_cost p r.1.1 :: c_prev :: rest /\ lm_stop p n (last s ss) c_prev].
Proof.
elim: it s costs e H => [|it IH] s costs e H ec m0 n0.
  by move=> [<-]; exists [::]; split.
rewrite [lm_loop _ _ _ _ _ _ _ _ _ _ _ _ _ _ _]/=.
case Ec: (is_converged _ _ _ _ _ _ _).
  move=> [<-]; exists [::]; split=> // _; case: costs Ec => [|c_prev rest] //= Ec.
  exists c_prev, rest; split=> //; exists e, H; split=> //=.
  move: Ec => /or4P [].
  - rewrite /spsolve; case: (p_step_tol p) => [t|] //; case: ifP => //= uA lt; apply: Or41; split=> //.
    eexists; eexists; split; [|exact: cnormP|by right; exists t; [by []|exact: lt]].
    by rewrite mulmxA mulmxV // mul1mx.
  - by case: (p_ftol p) => [t|] // lt; apply: Or42; exists t.
  - by move/eqP => z; apply: Or43.
  - case/orP; last first.
      by case: (p_gradient_tol p) => [t|] //; case E: (lm_grad s) => [g|] // lt; apply: Or44; exists t, g.
    rewrite /spsolve; case: ifP => //= uA /eqP z; apply: Or41; split=> //.
    eexists; eexists; split; [|exact: cnormP|by left; exact: z].
    by rewrite mulmxA mulmxV // mul1mx.
clear Ec; rewrite -/(delta_of (total_cost p (lm_vars s) :: costs)).
have Dd (x : option R) : (if x is Some d then Some d else x) = x by case: x.
rewrite Dd; set dc := delta_of _.
have next s1 (ss : seq lm_state) i : (i < size ss)%N ->
    lm_transition p n (nth s1 (s1 :: ss) i) (nth s1 (s1 :: ss) i.+1) ->
    lm_transition p n (nth s (s :: s1 :: ss) i.+1) (nth s (s :: s1 :: ss) i.+2).
  move=> li; have l1 : (i < size (s1 :: ss))%N by rewrite /= ltnS ltnW.
  have l2 : (i.+1 < size (s1 :: ss))%N by rewrite /= ltnS.
  rewrite -[nth s [:: s, s1 & ss] i.+1]/(nth s (s1 :: ss) i) -[nth s [:: s, s1 & ss] i.+2]/(nth s (s1 :: ss) i.+1).
  by rewrite (set_nth_default s1 s l1) (set_nth_default s1 s l2).
case ed : (spsolve _ _) => [d|]; last first.
  pose s1 := LmState (lm_vars s) (lm_mu s * lm_nu s) (2%:R * lm_nu s) None.
  have m1 : 0 <= lm_mu s1 by rewrite mulr_ge0.
  have n1 : 0 <= lm_nu s1 by rewrite mulr_ge0 ?ler0n.
  move=> hr; have [ss [h1 h2 h3 h4]] := IH s1 costs e H ec m1 n1 hr.
  exists (s1 :: ss); split=> //.
  case=> [|i] li; last by apply: next => //; exact: h3.
  exists e, H; split; first exact: ec.
  by move: ed; rewrite /spsolve /=; case: ifP.
case Ev: (correct_states _ _ _ _ _) => [trial|] //=.
rewrite -/(compute_of dof p (num_rows p) n).
case Ee: (compute_of _ _ _ _ _) => [[[e' H'] c']|] //=.
have ec2 := compute_cost Ee; rewrite /= in ec2; subst c'.
case Eg: (maxabs _) => [g|] //=.
have hden := lm_denominator (normal_psd H) m0 ed.
rewrite (gain_acceptsE _ hden) subr_gt0.
have [uA Ad] : H^T *m H + (lm_mu s)%:M \in unitmx /\ (H^T *m H + (lm_mu s)%:M) *m d = - (H^T *m e).
  by move: ed; rewrite /spsolve; case: ifP => // uA [<-]; split=> //; rewrite mulmxA mulmxV // mul1mx.
case: ifP => lt hr.
  pose s1 := LmState trial (lm_mu s * damping_factor (total_cost p (lm_vars s) - total_cost p trial)
     ((2%:R^-1 *: (d^T *m (lm_mu s *: d - H^T *m e))) 0 0)) 2%:R (Some g).
  have m1 : 0 <= lm_mu s1 by rewrite mulr_ge0 // damping_ge0.
  have n1 : 0 <= lm_nu s1 by rewrite ler0n.
  have [ss [h1 h2 h3 h4]] := IH s1 (total_cost p (lm_vars s) :: costs) e' H' Ee m1 n1 hr.
  exists (s1 :: ss); split=> //.
  case=> [|i] li; last by apply: next => //; exact: h3.
  exists e, H; split; first exact: ec.
  rewrite /= uA; exists d, trial, e', H', g; split=> //; first exact: maxabsP.
  by rewrite lt /s1 lm_factorE mxE.
pose s1 := LmState (lm_vars s) (lm_mu s * lm_nu s) (2%:R * lm_nu s) (Some g).
have m1 : 0 <= lm_mu s1 by rewrite mulr_ge0.
have n1 : 0 <= lm_nu s1 by rewrite mulr_ge0 ?ler0n.
have [ss [h1 h2 h3 h4]] := IH s1 costs e H ec m1 n1 hr.
exists (s1 :: ss); split=> //.
case=> [|i] li; last by apply: next => //; exact: h3.
exists e, H; split; first exact: ec.
by rewrite /= uA; exists d, trial, e', H', g; split=> //; [exact: maxabsP|rewrite lt].
Qed.

Lemma amax_diagP n (A : 'M[R]_n) d : amax_diag A = Ok d -> (forall i, A i i <= d) /\ (exists i, A i i = d).
Proof.
rewrite /amax_diag; case: eqP => // /eqP n0 [<-]; rewrite -lt0n in n0.
rewrite (@insubT _ (fun k => k < n)%N _ _ n0); set i0 : 'I_n := Sub _ _.
have h (l : seq 'I_n) : (forall i, i \in l -> A i i <= \big[Num.max/A i0 i0]_(i <- l) A i i) /\
    exists i, A i i = \big[Num.max/A i0 i0]_(i <- l) A i i.
  elim: l => [|a l [IH1 [k IH2]]]; first by rewrite big_nil; split=> //; exists i0.
  rewrite big_cons; split=> [i|].
    by rewrite inE le_maxr => /orP [/eqP ->|/IH1 ->]; rewrite ?lexx ?orbT.
  by case: (leP (A a a) (\big[Num.max/A i0 i0]_(i <- l) A i i)) => _; [exists k|exists a].
have [h1 h2] := h (index_enum [finType of 'I_n]).
by split=> // i; apply: h1; rewrite mem_index_enum.
Qed.

(** C79: a successful Levenberg-Marquardt solve is a sequence of damped steps from the initial guess,
    each accepted exactly when it decreases the cost; it ends at the iteration limit or when one of
    the tolerances is met (never before two costs are recorded). *)
Theorem C79_levenberg_marquardt_run p p' : p_solver p = LM -> 0 <= p_tau p -> solve p = Ok p' ->
  exists (s : lm_state) (ss : seq lm_state) e (H : 'M[R]_(num_rows p, num_columns dof p)) d,
  [/\ [/\ lm_vars s = p_init p, compute_of dof p (num_rows p) _ (p_init p) = Ok (e, H, total_cost p (p_init p)),
        (forall i, (H^T *m H) i i <= d) /\ (exists i, (H^T *m H) i i = d), lm_mu s = p_tau p * d & lm_nu s = 2%:R],
      (size ss <= p_max_iters p)%N, p_vars p' = lm_vars (last s ss),
      forall i, (i < size ss)%N -> lm_transition p (num_columns dof p) (nth s (s :: ss) i) (nth s (s :: ss) i.+1) &
      (size ss < p_max_iters p)%N -> exists pre c_prev,
        let c := total_cost p (p_vars p') in
        p_history p' = rcons (rcons (rcons pre c_prev) c) c /\ lm_stop p (num_columns dof p) (last s ss) c_prev].
Proof.
move=> lm t0 es; have [n [[[e H] c] [d [r [[[e' H'] c'] [[en e1 e2 e3 e4] [ev eh _]]]]]]] := solve_lm_unfold lm es.
have := compute_cost e1; rewrite /= => ec; subst c.
have := compute_cost e4; rewrite /= => ec; subst c'.
pose s := LmState (p_init p) (p_tau p * d) 2%:R None.
rewrite -en; have m0 : 0 <= lm_mu s by rewrite mulr_ge0 // (amax_diag_ge0 e2).
have n0 : 0 <= lm_nu s by rewrite ler0n.
have [ss [h1 h2 h3 h4]] := @lm_loop_run p n _ s [::] e H r e1 m0 n0 e3.
exists s, ss, e, H, d; split=> //; [by split=> //; exact: amax_diagP|by rewrite ev|].
move=> li; have [c_prev [rest [er st]]] := h4 li.
by exists (rev rest), c_prev; split=> //; rewrite eh er ev !rev_cons.
Qed.
End Run.

(** Witness: ProblemProps3.chain_gn and chain_lm solve. *)
Example C79_witness (R : rcfType) : (exists p', solve (@sdof R) (@splus R) (chain R GN 3) = Ok p') /\
  (exists p', solve (@sdof R) (@splus R) (chain R LM 7) = Ok p') /\ 0 <= p_tau (chain R LM 7).
Proof. by split; [exact: chain_gn|split; [exact: chain_lm|exact: ler01]]. Qed.

Print Assumptions C79_gauss_newton_run.
Print Assumptions C79_levenberg_marquardt_run.
Print Assumptions C34_add_residual.
