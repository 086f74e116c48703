(** C30-C35, C73: the nonlinear least-squares problem and its solvers. *)
From mathcomp Require Import all_ssreflect all_algebra.
From Verif Require Import Base Tac LinAlg CompositeProof SigmaProps MixtureProps ProblemModel ProblemProof.
Set Implicit Arguments.
Unset Strict Implicit.
Unset Printing Implicit Defensive.
Import Order.Theory GRing.Theory Num.Theory.
Local Open Scope ring_scope.

Section Props.
Variables (R : rcfType) (K : eqType) (V : Type).
Variables (dof : V -> nat) (plus : V -> seq R -> V).
Notation problem := (problem R K V).
Notation residual := (residual R K V).
Notation solve := (solve dof plus).
Implicit Types p : problem.

(** *** Histories of API calls *)
Inductive op :=
| OAdd (k : K) (v : V)
| OConst (ks : seq K)
| OResid (rs : seq residual) (ls : loss R + seq (loss R))
| OSolve
| OCov (k1 k2 : K).
Definition apply (p : problem) (o : op) : problem :=
  match o with
  | OAdd k v => add_variable p k v
  | OConst ks => set_variables_constant p ks
  | OResid rs ls => add_residual p rs ls
  | OSolve => if solve p is Ok p' then p' else p
  | OCov k1 k2 => (get_covariance_block p k1 k2).2
  end.
(** Problem(solver, max_iters, step_tol, ftol, gradient_tol, tau) *)
Definition new_problem s it st ft gt tau : problem :=
  Problem s it st ft gt tau [::] [::] [::] [::] [::] [::] None None [::].
Definition reachable (p : problem) : Prop :=
  exists s it st ft gt tau (ops : seq op), p = foldl apply (new_problem s it st ft gt tau) ops.

(** variables that are optimised, in insertion order *)
Definition free_vars (p : problem) : seq (K * V) := [seq kv <- p_init p | kv.1 \notin p_const p].
(** number of columns before the i-th free variable *)
Definition columns_before (p : problem) (i : nat) : nat := sumn (take i [seq dof kv.2 | kv <- free_vars p]).
Definition num_columns (p : problem) : nat := sumn [seq dof kv.2 | kv <- free_vars p].

Lemma solve_frame p p' : solve p = Ok p' ->
  [/\ p_init p' = p_init p, p_const p' = p_const p, p_resids p' = p_resids p, p_losses p' = p_losses p &
      p_slices p' = (variable_slices dof (p_const p) (p_init p) (p_slices p) 0).1] /\ p_cov p' = p_cov p.
Proof. by rewrite /solve; case: (residual_slices _ _ _) => //= rsl; case: (match p_solver p with GN => _ | LM => _ end) => //= r [<-]. Qed.

Lemma compute_cov_frame (p : problem) : [/\ p_init (compute_covariance p) = p_init p, p_const (compute_covariance p) = p_const p,
   p_resids (compute_covariance p) = p_resids p, p_losses (compute_covariance p) = p_losses p & p_slices (compute_covariance p) = p_slices p].
Proof. by rewrite /compute_covariance; case: (p_info p) => [[n A]|] //; case: ifP. Qed.

(** C30: whatever the history of calls, the keys of a problem are distinct. *)
Theorem C30_keys_distinct p : reachable p -> uniq (unzip1 (p_init p)).
Proof.
case=> s [it [st [ft [gt [tau [ops ->]]]]]].
have : uniq (unzip1 (p_init (new_problem s it st ft gt tau))) by [].
elim: ops (new_problem _ _ _ _ _ _) => //= o ops IH q u; apply: IH.
case: o => //=; first by move=> k v; apply: uniq_dset.
- by case e : (solve q) => [p'|] //; have [[-> _ _ _ _] _] := solve_frame e.
- move=> k1 k2; rewrite /get_covariance_block /=; case: (p_cov q) => //.
  by have [-> _ _ _ _] := compute_cov_frame q.
Qed.

(** C30: after solve, the i-th free variable owns the columns
    [columns_before i, columns_before i + dof), and the information matrix has
    num_columns rows. *)
Theorem C30_columns p p' i kv0 : uniq (unzip1 (p_init p)) -> solve p = Ok p' -> (i < size (free_vars p))%N ->
  let kv := nth kv0 (free_vars p) i in
  dget (p_slices p') kv.1 = Some (columns_before p i, (columns_before p i + dof kv.2)%N).
Proof.
move=> u e lt /=; have [[_ _ _ _ ->] _] := solve_frame e.
by rewrite (vslices_nth dof (p_slices p) 0 kv0 u lt).
Qed.

Theorem C30_number_of_columns p p' : solve p = Ok p' ->
  exists A : 'M[R]_(num_columns p), p_info p' = Some (existT _ (num_columns p) A).
Proof.
rewrite /solve; case: (residual_slices _ _ _) => //= rsl; case: (match p_solver p with GN => _ | LM => _ end) => //= r [<-] /=.
have e := vslices_size dof (p_const p) (p_init p) (p_slices p) 0; rewrite add0n -/(num_columns p) in e.
by case: r => x; rewrite e => A; exists A.
Qed.

(** C30: every column belongs to exactly one free variable. *)
Lemma sumn_split (s : seq nat) c : (c < sumn s)%N ->
  exists i, [/\ (i < size s)%N, (sumn (take i s) <= c)%N & (c < sumn (take i s) + nth 0%N s i)%N].
Proof.
elim: s c => [|a s IH] c //= lt; have [l|l] := ltnP c a; first by exists 0%N.
have [|i [h1 h2 h3]] := IH (c - a)%N; first by rewrite ltn_subLR.
by exists i.+1; split=> //=; rewrite -?leq_subRL // -addnA -ltn_subLR.
Qed.
Lemma sumn_take_mono (s : seq nat) i j : (i < j)%N -> (sumn (take i s) + nth 0%N s i <= sumn (take j s))%N.
Proof.
elim: s i j => [|a s IH] i j //=; first by rewrite nth_nil.
case: j => // j; case: i => [_|i] /=; first by rewrite add0n leq_addr.
by rewrite ltnS -addnA leq_add2l; exact: IH.
Qed.

Theorem C30_partition p c kv0 : (c < num_columns p)%N ->
  exists! i, (i < size (free_vars p))%N /\
    (columns_before p i <= c < columns_before p i + dof (nth kv0 (free_vars p) i).2)%N.
Proof.
rewrite /num_columns /columns_before => /sumn_split [i []]; rewrite size_map => lt lo hi.
exists i; split.
  by split=> //; rewrite lo /=; move: hi; rewrite (nth_map kv0).
move=> j [ltj /andP [loj hij]]; rewrite -(nth_map kv0 0%N (fun kv => dof kv.2)) // in hij.
have [ij|ji|//] := ltngtP i j.
  by have := leq_trans (leq_trans hi (sumn_take_mono _ ij)) loj; rewrite ltnn.
by have := leq_trans (leq_trans hij (sumn_take_mono _ ji)) lo; rewrite ltnn.
Qed.

(** C30: a constant variable has no columns in a freshly solved problem ... *)
Theorem C30_constants_no_columns p p' k : p_slices p = [::] -> solve p = Ok p' -> k \in p_const p ->
  dget (p_slices p') k = None.
Proof.
move=> e0 e kc; have [[_ _ _ _ ->] _] := solve_frame e.
by rewrite vslices_other ?e0 // mem_free kc andbF.
Qed.
(** ... but one that was free in an earlier solve keeps its old columns, which
    now belong to other variables. *)
Theorem C30_stale_columns_refuted p p' k s : solve p = Ok p' -> k \in p_const p -> dget (p_slices p) k = Some s ->
  dget (p_slices p') k = Some s.
Proof.
move=> e kc g; have [[_ _ _ _ ->] _] := solve_frame e.
by rewrite vslices_other ?g // mem_free kc andbF.
Qed.

(** Re-adding a key keeps its position and replaces its value. *)
Theorem C30_readding_keeps_order (p : problem) k v : k \in unzip1 (p_init p) ->
  unzip1 (p_init (add_variable p k v)) = unzip1 (p_init p) /\ dget (p_init (add_variable p k v)) k = Some v.
Proof. by move=> kin; rewrite /= unzip1_dset kin dget_dset eqxx. Qed.

(** *** C31: constants and the initial guess *)
Section Frame.
Variable consts : seq K.
Definition same_frame (vars vars' : seq (K * V)) : Prop :=
  unzip1 vars' = unzip1 vars /\ forall k, k \in consts -> dget vars' k = dget vars k.
Lemma same_frame_refl v : same_frame v v. Proof. by split. Qed.
Lemma same_frame_trans a b c : same_frame a b -> same_frame b c -> same_frame a c.
Proof. by move=> [e1 h1] [e2 h2]; split; [rewrite e2|move=> k kc; rewrite h2 // h1]. Qed.
Lemma correct_frame sl n (dx : 'cV[R]_n) vars vars' :
  correct_states plus consts sl dx vars = Ok vars' -> same_frame vars vars'.
Proof.
elim: vars vars' => [|[k v] vars IH] vars'; rewrite /correct_states /=; first by case=> <-.
case e1 : (if _ then _ else _) => [kv|] //=; case e2 : (mapM _ _) => [r|] //= [<-].
have [h1 h2] := IH _ e2.
have [ek ev] : kv.1 = k /\ (k \in consts -> kv.2 = v).
  by move: e1; case: ifP => [_ [<-]|_] //; case: (dindex _ _) => //= s [<-].
case: kv ek ev {e1} => k1 v1 /= ek ev; split=> [|k' kc /=]; first by rewrite /= ek h1.
by rewrite ek; case: eqP => [e|_]; [rewrite ev // e|exact: h2].
Qed.
End Frame.

Lemma gn_frame p sl rsl m n it vars costs e H dc dx g A r :
  gn_loop plus p sl rsl (m := m) (n := n) it vars costs e H dc dx g A = Ok r -> same_frame (p_const p) vars r.1.1.
Proof.
elim: it vars costs e H dc dx g A => [|it IH] vars costs e H dc dx g A /=; first by case=> <-.
case: ifP => _; first by case=> <-.
case: (spsolve _ _) => // d; case ec : (correct_states _ _ _ _ _) => [vars'|] //=.
case: (compute_error_jac_cost _ _ _ _ _ _ _ _) => //= ehc; case: (maxabs _) => //= gn.
by move=> /IH; exact: same_frame_trans (correct_frame ec).
Qed.
Lemma lm_frame p sl rsl m n it vars costs A b mu nu pc dc g r :
  lm_loop plus p sl rsl m (n := n) it vars costs A b mu nu pc dc g = Ok r -> same_frame (p_const p) vars r.1.1.
Proof.
elim: it vars costs A b mu nu pc dc g => [|it IH] vars costs A b mu nu pc dc g /=; first by case=> <-.
case: ifP => _; first by case=> <-.
case: (spsolve _ _) => [d|]; last by move=> /IH.
case ec : (correct_states _ _ _ _ _) => [vars'|] //=.
case: (compute_error_jac_cost _ _ _ _ _ _ _ _) => //= ehc; case: (maxabs _) => //= gn.
case: ifP => _ /IH //; exact: same_frame_trans (correct_frame ec).
Qed.

(** C31: solve never changes the initial guess, keeps the same keys in the same
    order, and leaves every constant variable at its initial value. *)
Theorem C31_constants_and_init p p' : solve p = Ok p' ->
  [/\ p_init p' = p_init p, unzip1 (p_vars p') = unzip1 (p_init p) &
      forall k, k \in p_const p -> dget (p_vars p') k = dget (p_init p) k].
Proof.
move=> e; have [[-> _ _ _ _] _] := solve_frame e.
suff [? ?] : same_frame (p_const p) (p_init p) (p_vars p') by [].
move: e; rewrite /solve; case: (residual_slices _ _ _) => //= rsl; case: (p_solver p).
  rewrite /solve_gn; case: (compute_error_jac_cost _ _ _ _ _ _ _ _) => //= ehc.
  case el : (gn_loop _ _ _ _ _ _ _ _ _ _ _ _ _) => [r|] //=.
  case: (compute_error_jac_cost _ _ _ _ _ _ _ _) => //= ehc'; case: (r.2) => //= A [<-] /=.
  exact: gn_frame el.
rewrite /solve_lm; case: (compute_error_jac_cost _ _ _ _ _ _ _ _) => //= ehc; case: (amax_diag _) => //= d.
case el : (lm_loop _ _ _ _ _ _ _ _ _ _ _ _ _ _ _) => [r|] //=.
case: (compute_error_jac_cost _ _ _ _ _ _ _ _) => //= ehc' [<-] /=.
exact: lm_frame el.
Qed.

(** *** C34 *)
(** A problem the solver can evaluate: distinct keys, one loss per residual, and
    residual keys that are distinct and known. *)
Definition well_formed (p : problem) : Prop :=
  [/\ uniq (unzip1 (p_init p)), size (p_losses p) = size (p_resids p) &
      forall q r0, (q < size (p_resids p))%N ->
        uniq (r_keys (nth r0 (p_resids p) q)) /\ {subset r_keys (nth r0 (p_resids p) q) <= unzip1 (p_init p)}].
Definition slices_of (p : problem) := (variable_slices dof (p_const p) (p_init p) (p_slices p) 0).1.
Definition num_rows (p : problem) : nat := sumn [seq r_dim r | r <- p_resids p].
(** Total cost: sum over residuals of loss(norm(error)) *)
Definition total_cost (p : problem) (vars : seq (K * V)) : R :=
  \sum_(rl <- zip (p_resids p) (p_losses p)) rcost vars rl.1 rl.2.
Definition compute_of (p : problem) m n :=
  compute_error_jac_cost (p_resids p) (p_losses p) (p_const p) (slices_of p) (rranges (p_resids p) 0) m n.

Lemma slices_disjoint p ks : uniq (unzip1 (p_init p)) -> {subset ks <= unzip1 (p_init p)} ->
  disjoint_cols (p_const p) (slices_of p) ks /\ has_slices (p_const p) (slices_of p) ks.
Proof.
move=> u sub; split=> [k k' j|k].
  move=> kin kin' /andP [kc h] /andP [kc' h'].
  have fk x : x \in ks -> x \notin p_const p -> exists i, (i < size (free_vars p))%N /\ forall kv0, (nth kv0 (free_vars p) i).1 = x.
    move=> xin xc; have xf : x \in unzip1 (free_vars p) by rewrite mem_free sub // xc.
    exists (index x (unzip1 (free_vars p))); rewrite -(size_map fst) index_mem; split=> // kv0.
    by rewrite -(nth_map _ x) ?nth_index // -(size_map fst) index_mem.
  have [i [li ei]] := fk k kin kc; have [i' [li' ei']] := fk k' kin' kc'.
  case f : (free_vars p) => [|kv0 t]; first by move: li; rewrite f.
  have /= := vslices_nth dof (p_slices p) 0 kv0 u li; have /= := vslices_nth dof (p_slices p) 0 kv0 u li'.
  rewrite !add0n -/(slices_of p) (ei' kv0) (ei kv0) => g' g; move: h h'; rewrite g g' /in_range /=.
  move=> h h'; have cl : (j < num_columns p)%N.
    case/andP: h => _ h; apply: leq_trans h _; rewrite /offset -/(free_vars p).
    rewrite -(nth_map kv0 0%N (fun kv => dof kv.2)) // /num_columns.
    rewrite -[X in (_ <= sumn X)%N](cat_take_drop i) sumn_cat leq_add2l.
    by rewrite (drop_nth 0%N) ?size_map //= leq_addr.
  have [x [_ un]] := C30_partition kv0 cl.
  by rewrite -(ei kv0) -(ei' kv0) -(un i) // -(un i').
by move=> kin kc; apply: vslices_free; rewrite mem_free sub.
Qed.

Lemma wf_known p vars : well_formed p -> unzip1 vars = unzip1 (p_init p) ->
  forall q r0, (q < size (p_resids p))%N -> known (p_const p) (slices_of p) vars (nth r0 (p_resids p) q).
Proof.
move=> [u _ h] ev q r0 lt; have [ur sub] := h q r0 lt.
by have [d s] := slices_disjoint u sub; split; rewrite ?ev.
Qed.

Lemma wf_rsl p : well_formed p -> residual_slices (p_init p) (p_resids p) 0 = Ok (rranges (p_resids p) 0, num_rows p).
Proof. by move=> wf; rewrite (residual_slices_ok (consts := p_const p) (slices := slices_of p)) // ; exact: wf_known. Qed.

(** C34: on a well-formed problem, evaluation succeeds at every assignment of the
    variables; the cost is the sum of the losses; rows of residual q hold its
    weighted error and, in the columns of each of its free variables, its
    weighted Jacobian block, zeros elsewhere. *)
Theorem C34_stacked p vars n : well_formed p -> unzip1 vars = unzip1 (p_init p) ->
  exists e H, [/\ compute_of p (num_rows p) n vars = Ok (e, H, total_cost p vars) &
    forall q r0 l0 a (i : 'I_(num_rows p)), (q < size (p_resids p))%N ->
      let r := nth r0 (p_resids p) q in let l := nth l0 (p_losses p) q in
      (a < r_dim r)%N -> i = (sumn (take q [seq r_dim r | r <- p_resids p]) + a)%N :> nat ->
      e i 0 = Num.sqrt (l_weight l (rnorm vars r)) * r_err r (rvs vars r) a /\
      forall j : 'I_n, H i j =
        \sum_(jk <- zip (iota 0 (size (r_keys r))) (r_keys r))
          if hits (p_const p) (slices_of p) jk.2 j
          then Num.sqrt (l_weight l (rnorm vars r)) * r_jac r (rvs vars r) jk.1 a (j - first_col (slices_of p) jk.2)%N
          else 0].
Proof.
move=> wf ev; have [_ sz _] := wf.
have [e [H [eq h]]] := compute_ok (num_rows p) n sz (wf_known wf ev).
exists e, H; split=> // q r0 l0 a i lq r l la ei.
by apply: h => //; rewrite ei /row_of /total_dim map_take.
Qed.

(** C34: at most one term of that sum is non-zero: distinct free variables have
    distinct columns. *)
Theorem C34_blocks_disjoint p k k' j : well_formed p -> k \in unzip1 (p_init p) -> k' \in unzip1 (p_init p) ->
  hits (p_const p) (slices_of p) k j -> hits (p_const p) (slices_of p) k' j -> k = k'.
Proof.
move=> [u _ _] ki ki' h h'; have [d _] := slices_disjoint u (ks := unzip1 (p_init p)) (fun _ x => x).
exact: d h h'.
Qed.

(** C34: rows: every row belongs to one residual. *)
Theorem C34_rows_covered p (i : nat) r0 : (i < num_rows p)%N ->
  exists q a, [/\ (q < size (p_resids p))%N, (a < r_dim (nth r0 (p_resids p) q))%N &
     i = (sumn (take q [seq r_dim r | r <- p_resids p]) + a)%N].
Proof.
move=> lt; have [q [a [h1 h2 ->]]] := row_split r0 lt.
by exists q, a; split=> //; rewrite /row_of /total_dim map_take.
Qed.
End Props.

Print Assumptions C30_keys_distinct.
Print Assumptions C30_columns.
Print Assumptions C30_number_of_columns.
Print Assumptions C30_partition.
Print Assumptions C30_constants_no_columns.
Print Assumptions C30_stale_columns_refuted.
Print Assumptions C30_readding_keeps_order.
Print Assumptions C31_constants_and_init.
Print Assumptions C34_stacked.
Print Assumptions C34_blocks_disjoint.
Print Assumptions C34_rows_covered.
