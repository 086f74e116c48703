(** C34 (limits), C35, C73, and concrete problems meeting the hypotheses of
    C30-C35. *)
From mathcomp Require Import all_ssreflect all_algebra.
From Verif Require Import Base Tac LinAlg CompositeProof SigmaProps MixtureProps ProblemModel ProblemProof ProblemProps ProblemProps2.
Set Implicit Arguments.
Unset Strict Implicit.
Unset Printing Implicit Defensive.
Import Order.Theory GRing.Theory Num.Theory.
Local Open Scope ring_scope.

Section Cov.
Variables (R : rcfType) (K : eqType) (V : Type).
Variables (dof : V -> nat) (plus : V -> seq R -> V).
Notation problem := (problem R K V).
Notation residual := (residual R K V).
Notation solve := (solve dof plus).
Implicit Types p : problem.

(** *** C34: two ways the stacking differs from the promise *)
(** Residuals beyond the end of the list of losses are silently dropped. *)
Theorem C34_short_loss_list_refuted (rs : seq residual) (ls : seq (loss R)) (vars : seq (K * V)) consts sl rsl m n : (size ls <= size rs)%N ->
  compute_error_jac_cost rs ls consts sl rsl m n vars = compute_error_jac_cost (take (size ls) rs) ls consts sl rsl m n vars.
Proof.
move=> le; rewrite /compute_error_jac_cost.
have -> // : zip rs ls = zip (take (size ls) rs) ls.
elim: rs ls {rsl} le => [|r rs IH] [|l ls] //= le; by rewrite IH.
Qed.
(** A residual that names the same free variable twice keeps only the last
    Jacobian block, where the derivative is the sum of the two. *)
Theorem C34_duplicate_key_refuted p (r : residual) k v n :
  p_init p = [:: (k, v)] -> p_const p = [::] -> p_resids p = [:: r] -> p_losses p = [:: l2_loss R] ->
  r_keys r = [:: k; k] -> n = dof v ->
  exists e (H : 'M[R]_(num_rows p, n)) c, compute_of dof p (num_rows p) n (p_init p) = Ok (e, H, c) /\
    forall i j, H i j = r_jac r [:: v; v] 1 i j.
Proof.
move=> ei ec er el ek en; rewrite /compute_of /compute_error_jac_cost er el /=.
have es : dget (slices_of dof p) k = Some (0%N, dof v).
  rewrite /slices_of ei /= ec in_nil /=; by rewrite dget_dset eqxx.
rewrite {1}/place_residual /= ek ei /= /dindex /= eqxx /= /place_jacobian ec /= /dindex es /=.
eexists _, _, _; split; first by reflexivity.
move=> i j; rewrite !mxE /in_range /= !subn0 sqrtr1 !mul1r.
have -> : (i < r_dim r)%N by move: (ltn_ord i); rewrite {2}/num_rows er /= addn0.
by have -> : (j < dof v)%N by move: (ltn_ord j); rewrite {2}en.
Qed.

(** *** C35 *)
Lemma ment_ord n (A : 'M[R]_n) (i j : 'I_n) : ment A i j = A i j.
Proof.
rewrite /ment; case: insubP => [i' _ ei|]; last by rewrite ltn_ord.
case: insubP => [j' _ ej|]; last by rewrite ltn_ord.
by congr (A _ _); apply: val_inj.
Qed.
Lemma columns_le p i kv0 : (i < size (free_vars p))%N ->
  (columns_before dof p i + dof (nth kv0 (free_vars p) i).2 <= num_columns dof p)%N.
Proof.
move=> li; rewrite /columns_before /num_columns -[X in (_ <= sumn X)%N](cat_take_drop i) sumn_cat leq_add2l.
by rewrite (drop_nth 0%N) ?size_map //= (nth_map kv0) // leq_addr.
Qed.
(** First query after a solve of a problem whose covariance was never computed:
    the block of the inverse information matrix at the two variables' columns. *)
Theorem C35_block p p' (A : 'M[R]_(num_columns dof p)) i j kv0 : uniq (unzip1 (p_init p)) -> p_cov p = None ->
  solve p = Ok p' -> p_info p' = Some (existT _ _ A) -> A \in unitmx ->
  (i < size (free_vars p))%N -> (j < size (free_vars p))%N ->
  let kv := nth kv0 (free_vars p) i in let kv' := nth kv0 (free_vars p) j in
  exists B, [/\ (get_covariance_block p' kv.1 kv'.1).1 = Ok (Some B), nrow B = dof kv.2, ncol B = dof kv'.2 &
    forall a b (i' j' : 'I_(num_columns dof p)), (a < dof kv.2)%N -> (b < dof kv'.2)%N ->
      i' = (columns_before dof p i + a)%N :> nat -> j' = (columns_before dof p j + b)%N :> nat ->
      ent B a b = invmx A i' j'].
Proof.
move=> u cn es ei un li lj kv kv'; have [_ ec] := solve_frame es.
have g1 := C30_columns kv0 u es li; have g2 := C30_columns kv0 u es lj; rewrite /= in g1 g2.
rewrite /get_covariance_block ec cn /=.
have [_ _ _ _ esl] := compute_cov_frame p'; rewrite !esl /kv /kv' g1 g2.
have -> : p_cov (compute_covariance p') = Some (existT _ (num_columns dof p) (invmx A)).
  by rewrite /compute_covariance ei un.
have h1 := columns_le kv0 li; have h2 := columns_le kv0 lj.
eexists; split; first by reflexivity.
- by rewrite /= !(minn_idPl _) ?addKn // (leq_trans _ h1) // leq_addr.
- by rewrite /= !(minn_idPl _) ?addKn // (leq_trans _ h2) // leq_addr.
by move=> a b i' j' la lb ea eb /=; rewrite -ea -eb ment_ord.
Qed.
(** An unknown (or never free) key gives None rather than an exception. *)
Theorem C35_unknown_key p k1 k2 : dget (p_slices p) k1 = None \/ dget (p_slices p) k2 = None ->
  (get_covariance_block p k1 k2).1 = Ok None.
Proof.
rewrite /get_covariance_block /=.
have -> : p_slices (if p_cov p is None then compute_covariance p else p) = p_slices p.
  by case: (p_cov p) => //; have [_ _ _ _ ->] := compute_cov_frame p.
by case=> ->; [|case: (dget _ _)].
Qed.
(** With Levenberg-Marquardt the information matrix is that of the linearisation
    at the returned variables. *)
Lemma lm_info p sl n it vars costs (H : 'M[R]_(num_rows p, n)) e c b mu nu pc dc g r :
  compute_error_jac_cost (p_resids p) (p_losses p) (p_const p) sl (rranges (p_resids p) 0) (num_rows p) n vars = Ok (e, H, c) ->
  lm_loop plus p sl (rranges (p_resids p) 0) (num_rows p) (n := n) it vars costs (H^T *m H) b mu nu pc dc g = Ok r ->
  exists e' H' c', compute_error_jac_cost (p_resids p) (p_losses p) (p_const p) sl (rranges (p_resids p) 0) (num_rows p) n r.1.1 = Ok (e', H', c')
    /\ r.2 = H'^T *m H'.
Proof.
elim: it vars costs H e c b mu nu pc dc g => [|it IH] vars costs H e c b mu nu pc dc g ec /=.
  by case=> <-; exists e, H, c.
case: ifP => _; first by case=> <-; exists e, H, c.
case: (spsolve _ _) => [d|]; last exact: IH ec.
case ev : (correct_states _ _ _ _ _) => [vars'|] //=.
case ee : (compute_error_jac_cost _ _ _ _ _ _ _ vars') => [[[e1 H1] c1]|] //=; case: (maxabs _) => //= gn.
by case: ifP => _; [apply: IH ee|apply: IH ec].
Qed.
Theorem C35_lm_information_at_solution p p' : p_solver p = LM -> solve p = Ok p' ->
  exists e H, compute_of dof p (num_rows p) (num_columns dof p) (p_vars p') = Ok (e, H, total_cost p (p_vars p')) /\
    p_info p' = Some (existT _ _ (H^T *m H)).
Proof.
move=> lm es; have [n [[[e H] c] [d [r [ehc' [[en e1 e2 e3 e4] [-> _ ->]]]]]]] := solve_lm_unfold lm es.
rewrite -en; rewrite /= in e3; have [e' [H' [c' [ec ->]]]] := lm_info e1 e3.
by exists e', H'; rewrite /compute_of ec -(compute_cost ec).
Qed.
(** Gauss-Newton stores the information matrix of the linearisation *before* its
    last update: after one iteration, that of the initial guess. *)
Theorem C35_gn_information_at_initial_guess_refuted p p' : p_solver p = GN -> p_max_iters p = 1%N -> solve p = Ok p' ->
  exists e H, compute_of dof p (num_rows p) (num_columns dof p) (p_init p) = Ok (e, H, total_cost p (p_init p)) /\
    p_info p' = Some (existT _ _ (H^T *m H)).
Proof.
move=> gn it es; have [n [[[e H] c] [r [ehc' [A [[en e1 e2 e3 e4] [_ _ ->]]]]]]] := solve_gn_unfold gn es.
exists e; rewrite -en; exists H; rewrite e1; have /= -> := compute_cost e1; split=> //.
move: e2; rewrite it /=; case: (spsolve _ _) => // d; case: (correct_states _ _ _ _ _) => //= v'.
case: (compute_error_jac_cost _ _ _ _ _ _ _ v') => //= x; case: (maxabs _) => //= g [er].
by move: e4; rewrite -er /= => -[<-].
Qed.
(** On affine problems the two coincide. *)
Theorem C35_gn_information_affine p p' : p_solver p = GN -> well_formed p -> affine_problem plus p -> solve p = Ok p' ->
  exists e H, compute_of dof p (num_rows p) (num_columns dof p) (p_vars p') = Ok (e, H, total_cost p (p_vars p')) /\
    p_info p' = Some (existT _ _ (H^T *m H)).
Proof.
move=> gn wf af es; have wa : wfa plus p by [].
have [n [[[e H] c] [r [[[e' H'] c'] [A [[en e1 e2 e3 e4] [-> _ ->]]]]]]] := solve_gn_unfold gn es.
rewrite -en; exists e', H'; rewrite e3; have /= -> := compute_cost e3; split=> //.
suff : r.2 = None \/ r.2 = Some (H'^T *m H') by rewrite e4; case=> // -[->].
have loop it vars costs e1' c1 dc dx g : unzip1 vars = unzip1 (p_init p) ->
   compute_of dof p (num_rows p) n vars = Ok (e1', H, c1) ->
   forall A, (A = None \/ A = Some (H^T *m H)) ->
   gn_loop plus p (slices_of dof p) (rranges (p_resids p) 0) it vars costs e1' H dc dx g A = Ok r ->
   (exists e2 c2, compute_of dof p (num_rows p) n r.1.1 = Ok (e2, H, c2)) /\ (r.2 = None \/ r.2 = Some (H^T *m H)).
  elim: it vars costs e1' c1 dc dx g => [|it IH] vars costs e1' c1 dc dx g ev ecv A0 hA /=.
    by case=> <-; split=> //; exists e1', c1.
  case: ifP => _; first by case=> <-; split=> //; exists e1', c1.
  case ed : (spsolve _ _) => [d|] //; have [u _ _] := wf; rewrite (correct_moved _ _ (slices_free dof u ev)) /=.
  rewrite -/(compute_of dof p (num_rows p) n).
  have ec' := affine_step d wa ev ecv; rewrite /= in ec'; rewrite ec' /=; case: (maxabs _) => //= gm.
  by apply: IH ec' _ _; rewrite ?unzip1_moved //; right.
have [[e2' [c2 ]]] := loop _ _ _ _ _ _ _ _ (erefl _) e1 None (or_introl (erefl _)) e2.
by rewrite e3 => -[_ -> _].
Qed.
(** A covariance computed before (from an earlier solve) is returned unchanged by
    every later query, whatever has been solved since. *)
Theorem C35_stale_covariance_refuted p p' k1 k2 n (C : 'M[R]_n) s1 s2 : p_cov p = Some (existT _ n C) -> solve p = Ok p' ->
  dget (p_slices p') k1 = Some s1 -> dget (p_slices p') k2 = Some s2 ->
  exists B, (get_covariance_block p' k1 k2).1 = Ok (Some B) /\ forall a b, ent B a b = ment C (s1.1 + a) (s2.1 + b).
Proof.
move=> ec es g1 g2; have [_ ec'] := solve_frame es.
by rewrite /get_covariance_block ec' ec /= g1 g2 ec' ec; eexists; split; first by reflexivity.
Qed.

(** ... and a successful query is what fills that cache. *)
Theorem C35_query_caches p k1 k2 n (A : 'M[R]_n) : p_cov p = None -> p_info p = Some (existT _ n A) -> A \in unitmx ->
  p_cov (get_covariance_block p k1 k2).2 = Some (existT _ n (invmx A)).
Proof. by move=> ec ei un; rewrite /get_covariance_block ec /= /compute_covariance ei un. Qed.

(** *** C73: no iterations allowed *)
Theorem C73_gn_zero_iterations_refuted p : p_solver p = GN -> p_max_iters p = 0%N -> well_formed p ->
  solve p = Raise UnboundLocalError.
Proof.
move=> gn it wf; rewrite /solve (wf_rsl dof wf) /= gn /solve_gn it -/(slices_of dof p).
have [e [H [ec _]]] := C34_stacked dof (variable_slices dof (p_const p) (p_init p) (p_slices p) 0).2 wf (erefl _).
by rewrite /compute_of in ec; rewrite ec /= ec.
Qed.
Theorem C73_lm_zero_iterations p : p_solver p = LM -> p_max_iters p = 0%N -> well_formed p -> (0 < num_columns dof p)%N ->
  exists p', [/\ solve p = Ok p', p_vars p' = p_init p & p_history p' = [:: total_cost p (p_init p); total_cost p (p_init p)]].
Proof.
move=> lm it wf n0; rewrite /solve (wf_rsl dof wf) /= lm /solve_lm it -/(slices_of dof p).
have := vslices_size dof (p_const p) (p_init p) (p_slices p) 0; rewrite add0n -/(num_columns dof p).
move: (variable_slices _ _ _ _ _).2 => n en.
have n0' : (n == 0%N) = false by rewrite en gtn_eqF.
have [e [H [ec _]]] := C34_stacked dof n wf (erefl _).
rewrite /compute_of in ec; rewrite ec /= /amax_diag n0' /= ec /=.
by eexists; split; first by reflexivity.
Qed.
End Cov.

(** *** Levenberg-Marquardt always returns *)
Section Total.
Variables (R : rcfType) (K : eqType) (V : Type).
Variables (dof : V -> nat) (plus : V -> seq R -> V).
Implicit Types p : problem R K V.
Lemma lm_loop_returns p n it vars costs A b mu nu pc dc g : well_formed p -> (0 < n)%N -> unzip1 vars = unzip1 (p_init p) ->
  exists r, lm_loop plus p (slices_of dof p) (rranges (p_resids p) 0) (num_rows p) (n := n) it vars costs A b mu nu pc dc g = Ok r
    /\ unzip1 r.1.1 = unzip1 (p_init p).
Proof.
move=> wf n0; elim: it vars costs A b mu nu pc dc g => [|it IH] vars costs A b mu nu pc dc g ev /=.
  by exists (vars, costs, A).
case: ifP => _; first by exists (vars, costs, A).
case: (spsolve _ _) => [d|]; last exact: IH.
have [u _ _] := wf; rewrite (correct_moved _ _ (slices_free dof u ev)) /=.
set vars' := moved _ _ _ _; have ev' : unzip1 vars' = unzip1 (p_init p) by rewrite unzip1_moved.
have [e [H [ec _]]] := C34_stacked dof n wf ev'; rewrite /compute_of in ec; rewrite ec /=.
rewrite /maxabs gtn_eqF //=; case: ifP => _; exact: IH.
Qed.
(** C32: on a well-formed problem with something to optimise, LM returns whatever
    the residuals are (a singular system is a rejected step). *)
Theorem C32_lm_returns p : p_solver p = LM -> well_formed p -> (0 < num_columns dof p)%N ->
  exists p', solve dof plus p = Ok p'.
Proof.
move=> lm wf n0; rewrite /solve (wf_rsl dof wf) /= lm /solve_lm -/(slices_of dof p).
have := vslices_size dof (p_const p) (p_init p) (p_slices p) 0; rewrite add0n -/(num_columns dof p).
move: (variable_slices _ _ _ _ _).2 => n en; rewrite -en in n0.
have [e [H [ec _]]] := C34_stacked dof n wf (erefl _).
rewrite /compute_of in ec; rewrite ec /= /amax_diag gtn_eqF //=.
set d := \big[_/_]_(_ < _) _.
have [r [-> ev]] := lm_loop_returns (p_max_iters p) [:: total_cost p (p_init p)] (H^T *m H) (H^T *m e) (p_tau p * d) 2%:R (total_cost p (p_init p)) None None wf n0 (erefl _).
have [e2 [H2 [ec2 _]]] := C34_stacked dof n wf ev; rewrite /compute_of in ec2; rewrite /= ec2 /=.
by eexists; reflexivity.
Qed.
End Total.

(** *** Concrete problems.  Keys are numbers, states are scalars. *)
Section Witness.
Variable R : rcfType.
Notation N := [eqType of nat].
Definition sdof (v : R) : nat := 1.
Definition splus (v : R) (d : seq R) : R := v + nth 0 d 0.
(** residual x_k - c *)
Definition anchor (k : nat) (c : R) : residual R N R :=
  Residual (K := N) [:: k] 1 (fun vs _ => nth 0 vs 0 - c) (fun _ _ _ c => (c == 0%N)%:R).
(** residual x_k' - x_k - c *)
Definition relative (k k' : nat) (c : R) : residual R N R :=
  Residual (K := N) [:: k; k'] 1 (fun vs _ => nth 0 vs 1 - nth 0 vs 0 - c)
    (fun _ j _ c => if j == 0%N then - (c == 0%N)%:R else (c == 0%N)%:R).
(** nonlinear residual x_k^2 - c *)
Definition square (k : nat) (c : R) : residual R N R :=
  Residual (K := N) [:: k] 1 (fun vs _ => nth 0 vs 0 ^+ 2 - c) (fun vs _ _ _ => 2%:R * nth 0 vs 0).

(** two variables, the first constant *)
Definition chain s it : problem R N R :=
  add_residual (add_residual (set_variables_constant (K := N)
    (add_variable (K := N) (add_variable (K := N) (new_problem N R s it None None None (1 : R)) 0%N 1) 1%N 0) [:: 0%N])
    [:: relative 0 1 5%:R] (inl (l2_loss R))) [:: anchor 1 2%:R] (inr [:: l2_loss R]).
Lemma chain_wf s it : well_formed (chain s it).
Proof. by split=> // -[|[|q]] r0 //= _; split=> // -[|[|x]]. Qed.
Lemma sum_first (d : seq R) (a : R) : \sum_(c < size d) (a * (c == 0%N :> nat)%:R) * nth 0 d c = a * nth 0 d 0.
Proof.
case: d => [|x d] /=; first by rewrite big_ord0 mulr0.
rewrite big_ord_recl /= mulr1 big1 ?addr0 // => i _; by rewrite mulr0 mul0r.
Qed.
Lemma chain_affine s it : affine_problem splus (chain s it).
Proof.
split=> -[|[|q]] r0 //= _.
- exists (fun j _ c => if j == 0%N then - (c == 0%N)%:R else (c == 0%N)%:R) => -[|v0 [|v1 [|? ?]]] //= _.
  split=> // -[|d0 [|d1 [|? ?]]] // a _ _; rewrite /= !big_cons big_nil /=.
  case: d0 => [d0|]; case: d1 => [d1|] /=; rewrite /shift /splus.
  + under eq_bigr do rewrite -mulN1r; under [in X in _ + (_ + (X + _))]eq_bigr do rewrite -[(_ == _)%:R]mul1r.
    by rewrite !sum_first; rng.
  + under eq_bigr do rewrite -mulN1r; by rewrite !sum_first; rng.
  + under eq_bigr do rewrite -[(_ == _)%:R]mul1r.
    by rewrite !sum_first; rng.
  + by rng.
- exists (fun j _ c => (c == 0%N)%:R) => -[|v0 [|? ?]] //= _.
  split=> // -[|d0 [|? ?]] // a _ _; rewrite /= !big_cons big_nil /=.
  case: d0 => [d0|] /=; rewrite /shift /splus; last by rng.
  under eq_bigr do rewrite -[(_ == _)%:R]mul1r.
  by rewrite !sum_first; rng.
Qed.

Example chain_lm it : exists p', solve sdof splus (chain LM it) = Ok p'.
Proof. by apply: C32_lm_returns => //; exact: chain_wf. Qed.
Example chain_gn : exists p', solve sdof splus (chain GN 3) = Ok p'.
Proof.
have [x [ex ux]] : exists x, compute_of sdof (chain GN 3) (num_rows (chain GN 3)) (num_columns sdof (chain GN 3)) (p_init (chain GN 3)) = Ok x
    /\ x.1.2^T *m x.1.2 \in unitmx.
  eexists; split; first by reflexivity.
  rewrite unitmxE det_mx11 mxE unitfE /= big_ord_recl big_ord_recl big_ord0 !mxE /= /in_range /= !sqrtr1 !mul1r addr0.
  by rewrite -[1 + 1]/(2%:R) pnatr_eq0.
apply: (C33_succeeds _ _ (chain_wf _ _) (chain_affine _ _) _ ex ux) => //.
Qed.

(** x^2 = 4 from x = 1, one Gauss-Newton iteration: x becomes 5/2, where the
    information is 25, but 4 is reported. *)
Definition sq s it : problem R N R :=
  add_residual (add_variable (K := N) (new_problem N R s it None None None (1 : R)) 0%N 1) [:: square 0 4%:R] (inl (l2_loss R)).
Example C35_gn_information_refuted_example : exists p' (A : 'M[R]_1) e (H : 'M[R]_(1, 1)) c,
  [/\ solve sdof splus (sq GN 1) = Ok p', p_info p' = Some (existT _ 1%N A), A 0 0 = 4%:R,
      compute_of sdof (sq GN 1) 1 1 (p_vars p') = Ok (e, H, c) & (H^T *m H) 0 0 = 25%:R].
Proof.
have cmp x : exists e H c, [/\ compute_of sdof (sq GN 1) 1 1 [:: (0%N, x)] = Ok (e, H, c), e = (x ^+ 2 - 4%:R)%:M & H = (2%:R * x)%:M].
  eexists _, _, _; split; first by reflexivity.
  - by apply/matrixP => i j; rewrite !ord1 !mxE /in_range /= sqrtr1 mul1r.
  - by apply/matrixP => i j; rewrite !ord1 !mxE /in_range /= sqrtr1 mul1r.
have [e [H [c [ec ee eH]]]] := cmp 1.
have n2 : 2%:R != 0 :> R by rewrite pnatr_eq0.
have n4 : 4%:R != 0 :> R by rewrite pnatr_eq0.
have [e' [H' [c' [ec' ee' eH']]]] := cmp (1 + (2%:R * 2%:R)^-1 * (2%:R * 3%:R)).
have eA : H^T *m H = (2%:R * 2%:R)%:M by rewrite eH tr_scalar_mx -scalar_mxM mulr1.
have eb : - (H^T *m e) = (2%:R * 3%:R)%:M.
  by apply/matrixP => i j; rewrite !ord1 eH ee tr_scalar_mx -scalar_mxM !mxE eqxx !mulr1n; rng.
have es : spsolve (H^T *m H) (- (H^T *m e)) = Some ((2%:R * 2%:R)^-1 * (2%:R * 3%:R))%:M.
  by rewrite /spsolve eA eb unitmxE det_scalar1 unitfE mulf_neq0 //= invmx_scalar -scalar_mxM.
eexists _, (H^T *m H), e', H', c'; split.
- rewrite /solve /= /solve_gn.
  have ec1 : compute_error_jac_cost (p_resids (sq GN 1)) (p_losses (sq GN 1)) (p_const (sq GN 1)) [:: (0%N, (0%N, 1%N))] [:: (0%N, 1%N)] 1 1 [:: (0%N, 1)] = Ok (e, H, c) := ec.
  rewrite /= in ec1; rewrite ec1 /= es /=.
  by reflexivity.
- by [].
- by rewrite eA mxE mulr1n -natrM.
- rewrite -ec' /=; congr (compute_of _ _ _ _ [:: (_, _)]).
  rewrite /splus /pslice drop0 nth_take // (nth_map ord0) ?size_enum_ord //.
  by rewrite mxE (_ : nth _ _ _ = 0 :> 'I_1) ?ord1.
have hx : 2%:R * (1 + (2%:R * 2%:R)^-1 * (2%:R * 3%:R)) = 5%:R :> R.
  by rewrite invfM -mulrA mulKf // mulrDr mulr1 mulVKf // -natrD.
by rewrite eH' hx tr_scalar_mx -scalar_mxM mxE mulr1n -natrM.
Qed.
End Witness.

Print Assumptions C34_short_loss_list_refuted.
Print Assumptions C34_duplicate_key_refuted.
Print Assumptions C35_block.
Print Assumptions C35_unknown_key.
Print Assumptions C35_lm_information_at_solution.
Print Assumptions C35_gn_information_at_initial_guess_refuted.
Print Assumptions C35_gn_information_affine.
Print Assumptions C35_stale_covariance_refuted.
Print Assumptions C35_query_caches.
Print Assumptions C73_gn_zero_iterations_refuted.
Print Assumptions C73_lm_zero_iterations.
Print Assumptions C32_lm_returns.
