(** C97: the answer of the batch solver does not depend on the frame the problem is written in. *)
From mathcomp Require Import all_ssreflect all_algebra.
From Verif Require Import Base LinAlg Tac EkfModel CholModel ResidualModel ResidualProps ProblemModel EquivarianceProps.
Set Implicit Arguments.
Unset Strict Implicit.
Unset Printing Implicit Defensive.
Import Order.Theory GRing.Theory Num.Theory.
Local Open Scope ring_scope.

Section Solver.
Variable R : rcfType.
Variable K : eqType.
Variables (V V' : Type) (dof : V -> nat) (dof' : V' -> nat) (plus : V -> seq R -> V) (plus' : V' -> seq R -> V').
(** [rel v v']: v and v' are the same state in the two frames; an increment means the same in both. *)
Variable rel : V -> V' -> Prop.
Hypothesis rel_dof : forall v v', rel v v' -> dof' v' = dof v.
Hypothesis rel_plus : forall v v' dx, rel v v' -> rel (plus v dx) (plus' v' dx).
Notation FA := List.Forall2.
Definition same_vars : seq (K * V) -> seq (K * V') -> Prop := FA (fun a b => b.1 = a.1 /\ rel a.2 b.2).

(** Two residuals are the same in the two frames: up to a rotation (or reflection) O of the error,
    which may depend on the point, they have the same errors and the same Jacobians. *)
Definition same_residual (r : residual R K V) (r' : residual R K V') : Prop :=
  [/\ r_keys r' = r_keys r, r_dim r' = r_dim r &
      forall vs vs', FA rel vs vs' -> size vs = size (r_keys r) -> exists O : 'M[R]_(r_dim r),
        [/\ O^T *m O = 1%:M,
            forall a : 'I_(r_dim r), r_err r' vs' a = \sum_b O a b * r_err r vs b &
            forall j (a : 'I_(r_dim r)) c, r_jac r' vs' j a c = \sum_b O a b * r_jac r vs j b c]].

Record same_problem (p : problem R K V) (p' : problem R K V') : Prop := SameProblem {
  sp_solver : p_solver p' = p_solver p; sp_iters : p_max_iters p' = p_max_iters p;
  sp_step : p_step_tol p' = p_step_tol p; sp_ftol : p_ftol p' = p_ftol p; sp_gtol : p_gradient_tol p' = p_gradient_tol p; sp_tau : p_tau p' = p_tau p;
  sp_init : same_vars (p_init p) (p_init p'); sp_vars : same_vars (p_vars p) (p_vars p');
  sp_slices : p_slices p' = p_slices p; sp_const : p_const p' = p_const p;
  sp_resids : FA same_residual (p_resids p) (p_resids p'); sp_losses : p_losses p' = p_losses p;
  sp_info : p_info p' = p_info p; sp_cov : p_cov p' = p_cov p; sp_history : p_history p' = p_history p }.

Lemma dget_related vars vars' k : same_vars vars vars' -> orelated rel (dget vars k) (dget vars' k).
Proof. by elim=> [|[a v] [a' v'] l l' [/= -> h] _ IH] /=; [right|case: ifP => _; [left|]]. Qed.
Lemma dindex_related vars vars' k : same_vars vars vars' -> related rel (dindex vars k) (dindex vars' k).
Proof. by move=> h; rewrite /dindex; case: (dget_related k h) => [v v' hv|]; [left|right]. Qed.
Lemma lookup_related vars vars' ks : same_vars vars vars' ->
  related (fun vs vs' => FA rel vs vs' /\ size vs = size ks) (mapM (dindex vars) ks) (mapM (dindex vars') ks).
Proof.
move=> h; elim: ks => [|k ks IH] /=; first by left; split=> //; constructor.
apply: (related_bind (dindex_related k h)) => v v' hv; apply: (related_bind IH) => vs vs' [hvs e].
by left; split; [constructor|rewrite /= e].
Qed.
Lemma variable_slices_same consts vars vars' sl i : same_vars vars vars' ->
  variable_slices dof' consts vars' sl i = variable_slices dof consts vars sl i.
Proof.
move=> h; elim: h sl i => [|[a v] [a' v'] l l' [/= -> hv] _ IH] sl i //=.
by rewrite (rel_dof hv) !IH.
Qed.
Lemma residual_slices_same vars vars' rs rs' i : same_vars vars vars' -> FA same_residual rs rs' ->
  residual_slices vars' rs' i = residual_slices vars rs i.
Proof.
move=> hv h; elim: h i => [|r r' l l' [hk hd _] _ IH] i //=; rewrite hk hd IH.
by case: (lookup_related (r_keys r) hv).
Qed.
Lemma correct_related consts sl n (dx : 'cV[R]_n) vars vars' : same_vars vars vars' ->
  related same_vars (correct_states plus consts sl dx vars) (correct_states plus' consts sl dx vars').
Proof.
rewrite /correct_states; elim=> [|[a v] [a' v'] l l' [/= -> hv] _ IH] /=; first by left; constructor.
apply: (related_bind (S := fun a b => b.1 = a.1 /\ rel a.2 b.2)).
  case: ifP => _; first by left.
  by case: (dindex sl a) => [s|e] /=; [left; split=> //; exact: rel_plus|right].
by move=> x x' hx; apply: (related_bind IH) => xs xs' hxs; left; constructor.
Qed.

(** *** Stacked residuals: the same normal equations *)
Section Block.
Variables (d : nat) (O : 'M[R]_d).
Hypothesis oO : O^T *m O = 1%:M.
Lemma gram_block (x y x' y' : nat -> R) : (forall a : 'I_d, x' a = \sum_b O a b * x b) -> (forall a : 'I_d, y' a = \sum_b O a b * y b) ->
  \sum_(a < d) x' a * y' a = \sum_(a < d) x a * y a.
Proof.
move=> hx hy.
have E (f g : nat -> R) : \sum_(a < d) f a * g a = ((\col_(i < d) f i)^T *m (\col_(i < d) g i)) 0 0.
  by rewrite mxE; apply: eq_bigr => i _; rewrite !mxE.
have M (f f' : nat -> R) : (forall a : 'I_d, f' a = \sum_b O a b * f b) -> \col_(i < d) f' i = O *m \col_(i < d) f i.
  by move=> h; apply/matrixP => i j; rewrite !mxE h; apply: eq_bigr => b _; rewrite !mxE.
by rewrite !E (M _ _ hx) (M _ _ hy) trmx_mul -mulmxA [O^T *m _]mulmxA oO mul1mx.
Qed.
End Block.
Definition acc_t := ((nat -> R) * (nat -> nat -> R) * seq R)%type.
Definition same_gram (N : nat) (A A' : acc_t) : Prop :=
  [/\ forall j l, \sum_(0 <= i < N) A'.1.2 i j * A'.1.2 i l = \sum_(0 <= i < N) A.1.2 i j * A.1.2 i l,
      forall j, \sum_(0 <= i < N) A'.1.2 i j * A'.1.1 i = \sum_(0 <= i < N) A.1.2 i j * A.1.1 i,
      forall i, (N <= i)%N -> [/\ A.1.1 i = 0, A'.1.1 i = 0 & forall j, A.1.2 i j = 0 /\ A'.1.2 i j = 0] &
      A'.2 = A.2].
Lemma same_gram_more N N' A A' : (N <= N')%N -> same_gram N A A' -> same_gram N' A A'.
Proof.
move=> le [h1 h2 h3 h4]; split=> //.
- move=> j l; rewrite !(big_cat_nat _ _ _ (leq0n N) le) /= h1; congr (_ + _); rewrite !big_nat; apply: eq_bigr => i /andP[hi _].
  by have [_ _ h] := h3 _ hi; have [-> ->] := h j; rewrite !mul0r.
- move=> j; rewrite !(big_cat_nat _ _ _ (leq0n N) le) /= h2; congr (_ + _); rewrite !big_nat; apply: eq_bigr => i /andP[hi _].
  by have [-> -> _] := h3 _ hi; rewrite !mulr0.
by move=> i hi; apply: h3; exact: leq_trans le hi.
Qed.
Lemma range_lt idx d i : (i < idx)%N -> in_range (idx, (idx + d)%N) i = false.
Proof. by move=> h; rewrite /in_range /= leqNgt h. Qed.
Lemma range_ge idx d i : (idx + d <= i)%N -> in_range (idx, (idx + d)%N) i = false.
Proof. by move=> h; rewrite /in_range /= [(i < _)%N]ltnNge h andbF. Qed.
Lemma range_in idx d (a : 'I_d) : in_range (idx, (idx + d)%N) (idx + a)%N.
Proof. by rewrite /in_range /= leq_addr ltn_add2l ltn_ord. Qed.

Lemma place_related vars vars' slices consts r r' (l : loss R) idx A A' : same_vars vars vars' -> same_residual r r' -> same_gram idx A A' ->
  related (same_gram (idx + r_dim r)%N) (place_residual vars slices consts A ((r, l), (idx, (idx + r_dim r)%N)))
                                        (place_residual vars' slices consts A' ((r', l), (idx, (idx + r_dim r)%N))).
Proof.
move=> hv [hk hd hr] [g1 g2 g3 g4]; rewrite /place_residual hk /= hd.
apply: (related_bind (lookup_related _ hv)) => vs vs' [hvs sz].
have [O [oO he hj]] := hr _ _ hvs sz; set d := r_dim r.
have eu : vnorm d (r_err r' vs') = vnorm d (r_err r vs).
  rewrite /vnorm; congr Num.sqrt; under eq_bigr => i _ do rewrite expr2.
  by under [in RHS]eq_bigr => i _ do rewrite expr2; exact: (gram_block oO).
rewrite eu; set u := vnorm d (r_err r vs); set w := Num.sqrt _.
pose P (H H' : nat -> nat -> R) := (forall (a : 'I_d) j, H' (idx + a)%N j = \sum_b O a b * H (idx + b)%N j) /\
  (forall i j, ~~ in_range (idx, (idx + d)%N) i -> H i j = A.1.2 i j /\ H' i j = A'.1.2 i j).
apply: (related_bind (S := P)).
  apply: related_foldM; last first.
    split=> // a j; have [_ _ h] := g3 (idx + a)%N (leq_addr _ _); have [_ ->] := h j.
    rewrite big1 // => b _; have [_ _ h'] := g3 (idx + b)%N (leq_addr _ _); by have [-> _] := h' j; rewrite mulr0.
  move=> H H' [k key] [hH1 hH2]; rewrite /place_jacobian /=; case: ifP => _; first by left; split.
  case: (dindex slices key) => [cs|e] /=; last by right.
  left; split=> [a j|i j ni]; last by rewrite (negbTE ni) /=; exact: hH2.
  rewrite range_in /=; case: ifP => cj.
    rewrite addKn hj mulr_sumr; apply: eq_bigr => b _.
    by rewrite range_in /= addKn mulrCA.
  by rewrite hH1; apply: eq_bigr => b _; rewrite range_in.
move=> H H' [hH1 hH2]; left.
pose e i := if in_range (idx, (idx + d)%N) i then w * r_err r vs (i - idx)%N else A.1.1 i.
pose e' i := if in_range (idx, (idx + d)%N) i then w * r_err r' vs' (i - idx)%N else A'.1.1 i.
have low i j : (i < idx)%N -> [/\ H i j = A.1.2 i j, H' i j = A'.1.2 i j, e i = A.1.1 i & e' i = A'.1.1 i].
  by move=> hi; have ni := range_lt d hi; have [] := hH2 i j; rewrite /e /e' ?ni.
have sp (F : nat -> R) : \sum_(0 <= i < idx + d) F i = \sum_(0 <= i < idx) F i + \sum_(a < d) F (idx + a)%N.
  rewrite (big_cat_nat _ _ _ (leq0n idx) (leq_addr d idx)) /=; congr (_ + _).
  have -> : \sum_(idx <= i < idx + d) F i = \sum_(0 + idx <= i < idx + d) F i by rewrite add0n.
  by rewrite big_addn addKn big_mkord; apply: eq_bigr => i _; rewrite addnC.
have he' (a : 'I_d) : e' (idx + a)%N = \sum_b O a b * e (idx + b)%N.
  by rewrite /e' range_in addKn he mulr_sumr; apply: eq_bigr => b _; rewrite /e range_in addKn mulrCA.
split=> /=.
- move=> j l0; rewrite !sp; congr (_ + _).
    have := g1 j l0; rewrite !big_nat => g.
    transitivity (\sum_(0 <= i < idx | (0 <= i < idx)%N) A'.1.2 i j * A'.1.2 i l0).
      by apply: eq_bigr => i /andP[_ hi]; have [_ -> _ _] := low i j hi; have [_ -> _ _] := low i l0 hi.
    rewrite g; apply: eq_bigr => i /andP[_ hi]; have [-> _ _ _] := low i j hi; by have [-> _ _ _] := low i l0 hi.
  by apply: (gram_block oO (x := fun a => H (idx + a)%N j) (y := fun a => H (idx + a)%N l0) (x' := fun a => H' (idx + a)%N j) (y' := fun a => H' (idx + a)%N l0)) => a; exact: hH1.
- move=> j; change (\sum_(0 <= i < idx + d) H' i j * e' i = \sum_(0 <= i < idx + d) H i j * e i); rewrite !sp; congr (_ + _).
    have := g2 j; rewrite !big_nat => g.
    transitivity (\sum_(0 <= i < idx | (0 <= i < idx)%N) A'.1.2 i j * A'.1.1 i).
      by apply: eq_bigr => i /andP[_ hi]; have [_ -> _ ->] := low i j hi.
    rewrite g; apply: eq_bigr => i /andP[_ hi]; by have [-> _ -> _] := low i j hi.
  by apply: (gram_block oO (x := fun a => H (idx + a)%N j) (y := fun a => e (idx + a)%N) (x' := fun a => H' (idx + a)%N j) (y' := fun a => e' (idx + a)%N)) => a; [exact: hH1|exact: he'].
- move=> i hi; rewrite (range_ge hi).
  have [z1 z2 z3] := g3 i (leq_trans (leq_addr _ _) hi); split=> // j.
  have [-> ->] := hH2 i j (negbT (range_ge hi)); exact: z3.
by rewrite g4.
Qed.

Lemma stack_related vars vars' slices consts rs rs' (ls : seq (loss R)) idx rsl m A A' : same_vars vars vars' -> FA same_residual rs rs' ->
  residual_slices vars rs idx = Ok (rsl, m) -> same_gram idx A A' ->
  related (same_gram m) (foldM (place_residual vars slices consts) A (zip (zip rs ls) rsl))
                        (foldM (place_residual vars' slices consts) A' (zip (zip rs' ls) rsl)).
Proof.
move=> hv h; elim: h ls idx rsl A A' => [|r r' l l' hr hl IH] ls idx rsl A A' /=.
  by case=> <- <- hg; case: (ls) => [|? ?]; left.
case: (mapM (dindex vars) (r_keys r)) => //= _; case er : (residual_slices _ _ _) => [[sl m']|] //= [<- e] hg; subst m'.
have le : (idx + r_dim r <= m)%N.
  move: er; clear; elim: l (idx + r_dim r)%N sl m => [|q l IH] i sl m /=; first by case=> _ ->.
  case: (mapM _ _) => //= _; case e : (residual_slices _ _ _) => [[sl' m']|] //= [_ <-].
  by apply: leq_trans (IH _ _ _ e); exact: leq_addr.
case: ls => [|lo ls] /=; first by left; apply: same_gram_more hg; exact: leq_trans (leq_addr _ _) le.
by apply: (related_bind (place_related slices consts lo hv hr hg)) => B B' hB; exact: (IH ls _ _ _ _ er hB).
Qed.

(** The linearised problem: the same normal equations and the same cost. *)
Definition same_linearisation m n (a b : 'cV[R]_m * 'M[R]_(m, n) * R) : Prop :=
  [/\ b.1.2^T *m b.1.2 = a.1.2^T *m a.1.2, b.1.2^T *m b.1.1 = a.1.2^T *m a.1.1 & b.2 = a.2].
Section Run.
Variables (p : problem R K V) (p' : problem R K V').
Hypothesis hp : same_problem p p'.
Variables (slices : seq (K * (nat * nat))) (rsl : seq (nat * nat)) (m n : nat).
Variables (vars0 : seq (K * V)).
Hypothesis hrsl : residual_slices vars0 (p_resids p) 0 = Ok (rsl, m).

Definition all_keys (vars : seq (K * V)) := [seq a.1 | a <- vars].
Lemma slices_keys vars (rs : seq (residual R K V)) i : all_keys vars = all_keys vars0 -> residual_slices vars rs i = residual_slices vars0 rs i.
Proof.
move=> e; have dE k : is_ok (dindex vars k) = is_ok (dindex vars0 k).
  rewrite /dindex; have: map fst vars = map fst vars0 by []; clear e; elim: (vars) (vars0) => [|[a v] l IH] [|[b w] l'] //= [-> e].
  by case: eqP => // _; exact: IH.
have mE ks : related (fun _ _ => True) (mapM (dindex vars) ks) (mapM (dindex vars0) ks).
  elim: ks => [|k ks IH] /=; first by left.
  apply: (related_bind (S := fun _ _ => True)); last by move=> *; apply: (related_bind IH) => *; left.
  by have := dE k; rewrite /dindex; case: (dget _ _) => [v|]; case: (dget _ _) => [v'|] //= _; [left|right].
elim: rs i => [|r rs IH] i //=; rewrite IH.
by case: (mE (r_keys r)).
Qed.
Lemma correct_keys (dx : 'cV[R]_n) vars vars1 : correct_states plus (p_const p) slices dx vars = Ok vars1 -> all_keys vars1 = all_keys vars.
Proof.
rewrite /correct_states; elim: vars vars1 => [|[a v] l IH] vars1 /=; first by case=> <-.
case: ifP => _ /=; last case: (dindex slices a) => [s|] //=.
  by case e : (mapM _ _) => [l1|] //= [<-] /=; rewrite (IH _ e).
by case e : (mapM _ _) => [l1|] //= [<-] /=; rewrite (IH _ e).
Qed.

Let compute := compute_error_jac_cost (p_resids p) (p_losses p) (p_const p) slices rsl m n.
Let compute' := compute_error_jac_cost (p_resids p') (p_losses p') (p_const p') slices rsl m n.
Definition good vars vars' := same_vars vars vars' /\ all_keys vars = all_keys vars0.
Lemma compute_related vars vars' : good vars vars' -> related (@same_linearisation m n) (compute vars) (compute' vars').
Proof.
move=> [hv hk]; rewrite /compute /compute' /compute_error_jac_cost (sp_losses hp) (sp_const hp).
apply: (related_bind (stack_related _ _ (p_losses p) hv (sp_resids hp) (idx := 0) (m := m) _ _)).
- by rewrite slices_keys.
- by split=> //= *; rewrite !big_geq.
move=> [[e H] cs] [[e' H'] cs'] [/= g1 g2 _ ->]; left; split=> //=.
  apply/matrixP => i j; rewrite !mxE; have := g1 i j; rewrite !big_mkord => g.
  by under eq_bigr => k _ do rewrite !mxE; under [RHS]eq_bigr => k _ do rewrite !mxE.
apply/matrixP => i j; rewrite !mxE; have := g2 i; rewrite !big_mkord => g.
by under eq_bigr => k _ do rewrite !mxE; under [RHS]eq_bigr => k _ do rewrite !mxE.
Qed.
Lemma step_related (dx : 'cV[R]_n) vars vars' : good vars vars' ->
  related good (correct_states plus (p_const p) slices dx vars) (correct_states plus' (p_const p') slices dx vars').
Proof.
move=> [hv hk]; rewrite (sp_const hp); have := correct_related (p_const p) slices dx hv.
case e : (correct_states plus _ _ _ _) => [v1|ex]; last by move=> h; inversion h; right.
by move=> h; inversion h; left; split=> //; rewrite (correct_keys e).
Qed.
Lemma grad_same (a b : 'cV[R]_m * 'M[R]_(m, n) * R) : same_linearisation a b -> maxabs (b.1.1^T *m b.1.2) = maxabs (a.1.1^T *m a.1.2).
Proof. by move=> [_ h _]; congr maxabs; apply: trmx_inj; rewrite !trmx_mul !trmxK. Qed.
Lemma same_lin_eq (a b : 'cV[R]_m * 'M[R]_(m, n) * R) : same_linearisation a b -> b.1.2^T *m b.1.2 = a.1.2^T *m a.1.2 /\ b.1.2^T *m b.1.1 = a.1.2^T *m a.1.1.
Proof. by case. Qed.

Definition same_out T (a : seq (K * V) * seq R * T) (b : seq (K * V') * seq R * T) : Prop := [/\ good a.1.1 b.1.1, b.1.2 = a.1.2 & b.2 = a.2].
Lemma gn_related it vars vars' costs (e : 'cV[R]_m) (H : 'M[R]_(m, n)) (e' : 'cV[R]_m) (H' : 'M[R]_(m, n)) dc dx g A : good vars vars' -> H'^T *m H' = H^T *m H -> H'^T *m e' = H^T *m e ->
  related (@same_out _) (gn_loop plus p slices rsl it vars costs e H dc dx g A) (gn_loop plus' p' slices rsl it vars' costs e' H' dc dx g A).
Proof.
elim: it vars vars' costs e H e' H' dc dx g A => [|it IH] vars vars' costs e H e' H' dc dx g A hv h1 h2 /=; first by left.
rewrite (sp_step hp) (sp_ftol hp) (sp_gtol hp); case: ifP => _; first by left.
rewrite h1 h2; case: (spsolve _ _) => [d|]; last by right.
apply: (related_bind (step_related d hv)) => v1 v1' hv1.
apply: (related_bind (compute_related hv1)) => a b hab; rewrite (grad_same hab).
case: (maxabs _) => [gr|ex] /=; last by right.
by have [_ _ ->] := hab; have [q1 q2] := same_lin_eq hab; exact: IH.
Qed.
Lemma solve_gn_related vars vars' : good vars vars' ->
  related (@same_out _) (solve_gn plus p slices rsl m n vars) (solve_gn plus' p' slices rsl m n vars').
Proof.
move=> hv; rewrite /solve_gn; apply: (related_bind (compute_related hv)) => a b hab.
have [_ _ ->] := hab; have [q1 q2] := same_lin_eq hab; rewrite (sp_iters hp).
apply: (related_bind (gn_related _ _ _ _ _ _ hv q1 q2)) => r r' [h1 h2 h3].
apply: (related_bind (compute_related h1)) => c c' [_ _ ->].
by rewrite h3; case: (r.2) => [A|]; [left; split=> //=; rewrite h2|right].
Qed.
Lemma lm_related it vars vars' costs (A : 'M[R]_n) (b : 'cV[R]_n) mu nu pc dc g : good vars vars' ->
  related (@same_out _) (lm_loop plus p slices rsl m it vars costs A b mu nu pc dc g) (lm_loop plus' p' slices rsl m it vars' costs A b mu nu pc dc g).
Proof.
elim: it vars vars' costs A b mu nu pc dc g => [|it IH] vars vars' costs A b mu nu pc dc g hv /=; first by left.
rewrite (sp_step hp) (sp_ftol hp) (sp_gtol hp); case: ifP => _; first by left.
case: (spsolve _ _) => [d|]; last exact: IH.
apply: (related_bind (step_related d hv)) => v1 v1' hv1.
apply: (related_bind (compute_related hv1)) => x y hxy; rewrite (grad_same hxy).
have [_ _ ->] := hxy; have [-> ->] := same_lin_eq hxy.
case: (maxabs _) => [gr|ex] /=; last by right.
by case: ifP => _; exact: IH.
Qed.
Lemma solve_lm_related vars vars' : good vars vars' ->
  related (@same_out _) (solve_lm plus p slices rsl m n vars) (solve_lm plus' p' slices rsl m n vars').
Proof.
move=> hv; rewrite /solve_lm; apply: (related_bind (compute_related hv)) => a b hab.
have [_ _ ->] := hab; have [-> ->] := same_lin_eq hab; rewrite (sp_iters hp) (sp_tau hp).
case: (amax_diag _) => [d|ex] /=; last by right.
apply: (related_bind (lm_related _ _ _ _ _ _ _ _ _ hv)) => r r' [h1 h2 h3].
apply: (related_bind (compute_related h1)) => c c' [_ _ ->].
by left; split=> //=; rewrite h2.
Qed.
End Run.

(** Problem.solve: the same iterates in the other frame, the same cost history and information matrix. *)
Theorem C97_solve p p' : same_problem p p' -> related same_problem (solve dof plus p) (solve dof' plus' p').
Proof.
move=> hp; rewrite /solve (residual_slices_same 0 (sp_init hp) (sp_resids hp)).
rewrite (sp_const hp) (sp_slices hp) (variable_slices_same _ _ _ (sp_init hp)) (sp_solver hp).
case er : (residual_slices _ _ _) => [[rsl m]|e] /=; last by right.
set sl := variable_slices _ _ _ _ _.
have hg : good (p_init p) (p_init p) (p_init p') by split=> //; exact: sp_init.
have h : related (same_out (p_init p) (T := 'M[R]_sl.2))
    (match p_solver p with GN => solve_gn plus p sl.1 rsl m sl.2 (p_init p) | LM => solve_lm plus p sl.1 rsl m sl.2 (p_init p) end)
    (match p_solver p with GN => solve_gn plus' p' sl.1 rsl m sl.2 (p_init p') | LM => solve_lm plus' p' sl.1 rsl m sl.2 (p_init p') end).
  by case: (p_solver p); [exact: (solve_gn_related hp sl.1 sl.2 er hg)|exact: (solve_lm_related hp sl.1 sl.2 er hg)].
apply: (related_bind h) => r r' [[h1 _] h2 h3]; left; case: hp => *; split=> //=.
by rewrite h3.
Qed.

(** Problem.get_covariance_block *)
Theorem C97_covariance p p' k1 k2 : same_problem p p' ->
  (get_covariance_block p' k1 k2).1 = (get_covariance_block p k1 k2).1 /\ same_problem (get_covariance_block p k1 k2).2 (get_covariance_block p' k1 k2).2.
Proof.
move=> hp.
have hc : same_problem (compute_covariance p) (compute_covariance p').
  rewrite /compute_covariance (sp_info hp); case: (p_info p) (sp_info hp) => [[n A]|] // e.
  by case: ifP => // _; case: hp => *; split.
rewrite /get_covariance_block (sp_cov hp).
have hq : same_problem (if p_cov p is None then compute_covariance p else p) (if p_cov p is None then compute_covariance p' else p') by case: (p_cov p).
by split=> //=; rewrite (sp_slices hq) (sp_cov hq).
Qed.
End Solver.

(** *** The residuals of navlie.batch.residuals *)
(** A residual object as Problem reads it (problem.py:412-441): evaluate(states) for the error,
    evaluate(states, [True, ...]) for the Jacobians; the states are the variables of the
    residual's keys with the stamps of those variables.  Simplified: a residual that raises reads
    as zeros. *)
Section AsResidual.
Variables (R : rcfType) (K : eqType) (V : Type) (n : nat).
Variable stamp : K -> option R.
Definition stamped (keys : seq K) (vs : seq V) : seq (pstate R V) := [seq PState vk.1 (stamp vk.2) | vk <- zip vs keys].
Definition residual_of (keys : seq K) m (evaluate : seq (pstate R V) -> option (seq bool) -> result (evaluated R n m)) : residual R K V :=
  Residual keys m
    (fun vs i => if evaluate (stamped keys vs) None is Ok (e, _) then if insub i is Some i' then e i' 0 else 0 else 0)
    (fun vs j a c =>
       if evaluate (stamped keys vs) (Some (nseq (size keys) true)) is Ok (_, Some js) then
         if nth None js j is Some J then if insub a is Some a' then if insub c is Some c' then J a' c' else 0 else 0 else 0
       else 0).
End AsResidual.

Section Residuals.
Variables (R : rcfType) (K : eqType) (V V' : Type) (n : nat) (U U' : Type).
Variables (minus : V -> V -> 'cV[R]_n) (minus' : V' -> V' -> 'cV[R]_n) (minus_jac : V -> V -> 'M[R]_n) (minus_jac' : V' -> V' -> 'M[R]_n).
Variables (rel : V -> V' -> Prop) (clk : R) (SU : U -> U' -> Prop).
Hypothesis rel_minus : forall a a' b b', rel a a' -> rel b b' -> minus' a' b' = minus a b.
Hypothesis rel_minus_jac : forall a a' b b', rel a a' -> rel b b' -> minus_jac' a' b' = minus_jac a b.
Variable stamp : K -> option R.
Let stamp' k := shift clk (stamp k).
Notation FA := List.Forall2.
Notation same_st := (same_state clk rel).

Definition moved_output m (O : 'M[R]_m) (a : evaluated R n m) (b : evaluated R n m) : Prop :=
  b.1 = O *m a.1 /\ orelated (FA (orelated (fun J J' : 'M[R]_(m, n) => J' = O *m J))) a.2 b.2.
Lemma residual_of_same keys m ev ev' :
  (forall ss ss', FA same_st ss ss' -> size ss = size keys -> exists O : 'M[R]_m, O^T *m O = 1%:M /\
     forall flags, related (moved_output O) (ev ss flags) (ev' ss' flags)) ->
  same_residual rel (residual_of stamp keys ev) (residual_of stamp' keys ev').
Proof.
move=> h; split=> // vs vs' hvs sz.
have hss : FA same_st (stamped stamp keys vs) (stamped stamp' keys vs').
  rewrite /stamped; elim: hvs keys {h sz} => [|v v' l l' hv _ IH] [|k ks] /=; constructor=> //; exact: IH.
have sz' : size (stamped stamp keys vs) = size keys by rewrite size_map size_zip sz minnn.
have [O [oO hO]] := h _ _ hss sz'.
exists O; split=> //= [a|j a c].
  case: (hO None) => [[e js] [e' js'] [/= -> _]|ex]; last by rewrite big1 // => b _; rewrite mulr0.
  by rewrite valK mxE; apply: eq_bigr => b _; rewrite valK.
have Z : 0 = \sum_(b < m) O a b * 0 by rewrite big1 // => b _; rewrite mulr0.
case: (hO (Some (nseq (size keys) true))) => [[e js] [e' js'] [/= _ hj]|ex] //.
case: hj => [s s' hs|] //.
have : orelated (fun J J' : 'M[R]_(m, n) => J' = O *m J) (nth None s j) (nth None s' j).
  by elim: hs j => [|x x' l l' hx _ IH] [|j] //=; right.
case=> [J J' ->|] //; rewrite valK.
case: (insub c) => [c'|]; last by rewrite big1 // => b _; case: (insub _) => [?|]; rewrite mulr0.
by rewrite mxE; apply: eq_bigr => b _; rewrite valK.
Qed.

Lemma nth_state ss ss' i : FA same_st ss ss' -> related same_st (py_nth ss i) (py_nth ss' i).
Proof.
move=> h; rewrite /py_nth; elim: h i => [|s s' l l' hs _ IH] i; first by case: i; right.
by case: i => [|i] /=; [left|exact: IH].
Qed.
Lemma one_moved m (e : 'cV[R]_m) js js' : orelated (FA (orelated eq)) js js' -> moved_output 1%:M (e, js) (e, js').
Proof.
move=> h; split; first by rewrite mul1mx.
by case: h => [s s' h|] /=; [left; elim: h => [|a b l l' hab _ IH]; constructor=> //; case: hab => [J J' <-|]; [left; rewrite mul1mx|right]|right].
Qed.
Lemma none_eq A (k : nat) : FA (orelated (@eq A)) (nseq k None) (nseq k None).
Proof. by elim: k => [|k IH] /=; constructor=> //; right. Qed.
Lemma some_eq A (o : option A) : orelated (@eq A) o o.
Proof. by case: o => [a|]; [left|right]. Qed.
Lemma FA_size A B (S : A -> B -> Prop) l l' : FA S l l' -> size l' = size l.
Proof. by elim=> // a b m m' _ _ /= ->. Qed.

(** PriorResidual: the same factor, around the same point *)
Theorem C97_prior k (L : 'M[R]_n) x0 x0' : same_st x0 x0' ->
  same_residual rel (residual_of stamp [:: k] (prior_evaluate minus minus_jac L x0)) (residual_of stamp' [:: k] (prior_evaluate minus' minus_jac' L x0')).
Proof.
move=> [h0 _]; apply: residual_of_same => ss ss' hss _; exists 1%:M; split=> [|flags]; first by rewrite trmx1 mulmx1.
rewrite /prior_evaluate; apply: (related_bind (nth_state 0 hss)) => x x' [hx _].
rewrite (rel_minus hx h0) (rel_minus_jac hx h0).
case: flags => [[|f fs]|]; left; apply: one_moved; try by right.
by left; constructor; [exact: some_eq|constructor].
Qed.
(** ProcessResidual: the same model (in the two frames) and the same input *)
Theorem C97_process (pm : process_model R V n U) (pm' : process_model R V' n U') k k2 u u' : same_process clk SU rel 1%:M pm pm' -> SU u u' ->
  same_residual rel (residual_of stamp [:: k; k2] (process_evaluate minus minus_jac pm u)) (residual_of stamp' [:: k; k2] (process_evaluate minus' minus_jac' pm' u')).
Proof.
move=> hpm su; apply: residual_of_same => ss ss' hss _; exists 1%:M; split=> [|flags]; first by rewrite trmx1 mulmx1.
rewrite /process_evaluate (FA_size hss); apply: (related_bind (nth_state 0 hss)) => x x' hx.
apply: (related_bind (nth_state 1 hss)) => y y' [hy ey].
have -> : ResidualModel.stamp_diff (sstamp y') (sstamp x') = ResidualModel.stamp_diff (sstamp y) (sstamp x).
  case: hx => _ ->; rewrite ey; case: (sstamp y) => [t|] //; case: (sstamp x) => [t0|] //=.
  by congr Ok; rewrite opprD addrACA subrr addr0.
case: (ResidualModel.stamp_diff _ _) => [dt|e] /=; last by right.
have [h1 h2 h3] := hpm _ _ _ _ dt hx su; rewrite h3 mul1mx trmx1 mulmx1.
case: (sqrt_info _) => [L|e] /=; last by right.
have -> : pm_jac pm' x' u' dt = pm_jac pm x u dt by move: h2; rewrite mul1mx mulmx1.
rewrite (rel_minus hy h1) (rel_minus_jac hy h1).
case: flags => [[|f fs]|]; try by left; apply: one_moved; right.
case: (py_nth fs 0) => [f1|e] /=; last by right.
by left; apply: one_moved; left; constructor; [exact: some_eq|constructor; [exact: some_eq|exact: none_eq]].
Qed.
(** MeasurementResidual: the measured quantity may be expressed in other coordinates *)
Theorem C97_measurement k (y : measurement R V n) (y' : measurement R V' n) : same_measurement clk rel 1%:M y y' -> (forall s, pd (m_cov y s)) ->
  same_residual rel (residual_of stamp [:: k] (measurement_evaluate y)) (residual_of stamp' [:: k] (measurement_evaluate y')).
Proof.
case=> m W w z t e j c e' j' c' uW hs hc; apply: (@residual_of_same [:: k] m) => ss ss' hss sz.
case: hss sz => [|x x' l l' hx hl] //= _.
have [eE eJ eC] := hs _ _ hx; rewrite mulmx1 in eJ.
have pdC : pd (c x) := hc x.
have pdC' : pd (c' x').
  by rewrite eC; exact: pd_congr.
have [L [eL hL _ _]] := C37_sqrt_information pdC.
have [L' [eL' hL' _ _]] := C37_sqrt_information pdC'.
have uC := pd_unit pdC; have uC' := pd_unit pdC'.
have uL : L \in unitmx by have : L *m L^T \in unitmx by [rewrite hL unitmx_inv]; rewrite unitmx_mul => /andP[].
have uL' : L' \in unitmx by have : L' *m L'^T \in unitmx by [rewrite hL' unitmx_inv]; rewrite unitmx_mul => /andP[].
exists (L'^T *m W *m invmx L^T); split.
  rewrite !trmx_mul !trmx_inv !trmxK -!mulmxA [L' *m (L'^T *m _)]mulmxA hL' eC inv_conj // -!mulmxA.
  rewrite [invmx W *m (W *m _)]mulmxA mulVmx // mul1mx [W^T *m (_ *m _)]mulmxA -trmx_mul mulVmx // trmx1 mul1mx.
  by rewrite -hL -mulmxA mulmxV ?unitmx_tr // mulmx1 mulVmx.
move=> flags; rewrite /measurement_evaluate /= eE.
case: (e x) => [a|] /=; last by right.
rewrite eL eL' /=.
have -> : L'^T *m (W *m z + w - (W *m a + w)) = L'^T *m W *m invmx L^T *m (L^T *m (z - a)).
  have -> : W *m z + w - (W *m a + w) = W *m (z - a) by rewrite mulmxBr opprD addrACA subrr addr0.
  by rewrite !mulmxA mulmxKV ?unitmx_tr.
have ej : - L'^T *m j' x' = L'^T *m W *m invmx L^T *m (- L^T *m j x).
  by rewrite !mulNmx mulmxN eJ !mulmxA mulmxKV ?unitmx_tr.
case: flags => [[|f fs]|]; try by left; split=> //; right.
left; split=> //=; left; constructor; first by case: f; [left|right].
rewrite (FA_size hl); elim: (_ - _)%N => [|k0 IH] /=; constructor=> //; right.
Qed.
End Residuals.

(** The same Problem object in another frame: same settings, every variable moved by g, residuals rs'. *)
Definition in_frame (R : rcfType) (K : eqType) (V V' : Type) (g : V -> V') (p : problem R K V) (rs' : seq (residual R K V')) : problem R K V' :=
  Problem (p_solver p) (p_max_iters p) (p_step_tol p) (p_ftol p) (p_gradient_tol p) (p_tau p)
    [seq (kv.1, g kv.2) | kv <- p_init p] [seq (kv.1, g kv.2) | kv <- p_vars p] (p_slices p) (p_const p) rs' (p_losses p)
    (p_info p) (p_cov p) (p_history p).

(** ** Vector states: another origin *)
Section Vector.
Variables (R : rcfType) (K : eqType) (n : nat) (U : Type) (b : 'cV[R]_n) (clk : R).
Notation V := 'cV[R]_n.
Definition translated (x x' : V) : Prop := x' = x + b.
(** VectorState: dof, plus, minus and minus_jacobian (lib/states.py:26-55) *)
Definition v_dof (_ : V) : nat := n.
Definition v_plus (v : V) (dx : seq R) : V := v + \col_i nth 0 dx i.
Definition v_minus (a c : V) : V := a - c.
Definition v_minus_jac (_ _ : V) : 'M[R]_n := 1%:M.
(** The residual objects of a problem on vector states, and the same in the other frame *)
Inductive translated_residual (stamp : K -> option R) : residual R K V -> residual R K V -> Prop :=
  | TranslatedPrior k (L : 'M[R]_n) v t : translated_residual stamp
      (residual_of stamp [:: k] (prior_evaluate v_minus v_minus_jac L (PState v t)))
      (residual_of (fun k => shift clk (stamp k)) [:: k] (prior_evaluate v_minus v_minus_jac L (PState (v + b) (shift clk t))))
  | TranslatedProcess k k2 (SU : U -> U -> Prop) (pm pm' : process_model R V n U) u u' : same_process clk SU translated 1%:M pm pm' -> SU u u' -> translated_residual stamp
      (residual_of stamp [:: k; k2] (process_evaluate v_minus v_minus_jac pm u))
      (residual_of (fun k => shift clk (stamp k)) [:: k; k2] (process_evaluate v_minus v_minus_jac pm' u'))
  | TranslatedMeasurement k (y y' : measurement R V n) : same_measurement clk translated 1%:M y y' -> (forall s, pd (m_cov y s)) -> translated_residual stamp
      (residual_of stamp [:: k] (measurement_evaluate y))
      (residual_of (fun k => shift clk (stamp k)) [:: k] (measurement_evaluate y')).
Lemma translated_same stamp r r' : translated_residual stamp r r' -> same_residual translated r r'.
Proof.
have hm a a' c c' : translated a a' -> translated c c' -> v_minus a' c' = v_minus a c.
  by move=> -> ->; rewrite /v_minus opprD addrACA subrr addr0.
case=> [k L v t|k k2 SU pm pm' u u' hpm su|k y y' hy hc].
- by apply: C97_prior => //; split.
- by apply: (C97_process hm) hpm su.
by apply: C97_measurement.
Qed.
Theorem C97_vector_origin stamp (p : problem R K V) rs' : List.Forall2 (translated_residual stamp) (p_resids p) rs' ->
  related (fun q q' => [/\ p_vars q' = [seq (kv.1, kv.2 + b) | kv <- p_vars q], p_history q' = p_history q, p_info q' = p_info q &
                        forall k1 k2, (get_covariance_block q' k1 k2).1 = (get_covariance_block q k1 k2).1])
    (solve v_dof v_plus p) (solve v_dof v_plus (in_frame (fun v => v + b) p rs')).
Proof.
move=> hr.
have sv (l : seq (K * V)) : same_vars translated l [seq (kv.1, kv.2 + b) | kv <- l] by elim: l => [|x l IH]; constructor.
have hp : same_problem translated p (in_frame (fun v => v + b) p rs').
  split=> //; try exact: sv.
  by elim: hr => [|r r' l l' h _ IH]; constructor=> //; exact: (translated_same h).
have hplus (v v' : V) dx : translated v v' -> translated (v_plus v dx) (v_plus v' dx) by move=> ->; rewrite /translated /v_plus addrAC.
have hdof (v v' : V) : translated v v' -> v_dof v' = v_dof v by [].
apply: related_map2 (C97_solve hdof hplus hp) => q q' hq; split; [|exact: sp_history hq|exact: sp_info hq|].
  by elim: (sp_vars hq) => [|[a v] [a' v'] l l' [/= -> ->] _ ->].
by move=> k1 k2; have [] := C97_covariance k1 k2 hq.
Qed.
End Vector.

(** The hypotheses are met: one state per landmark distance, a position sensor, and a prior, in a frame shifted by b. *)
Example C97_vector_witness (R : rcfType) (b z0 z v t : 'cV[R]_2) (stamp : nat_eqType -> option R) :
  let y w : measurement R 'cV[R]_2 2 := Measurement w (Some 1) (fun s => Some (sval s)) (fun _ => 1%:M) (fun _ => 1%:M) in
  let pm : process_model R 'cV[R]_2 2 'cV[R]_2 := ProcessModel (fun s u dt => PState (sval s + dt *: u) (sstamp s)) (fun _ _ _ => 1%:M) (fun _ _ _ => 1%:M) in
  List.Forall2 (translated_residual 'cV[R]_2 b 0 stamp)
    [:: residual_of stamp [:: 0%N : nat_eqType] (prior_evaluate (@v_minus R 2) (@v_minus_jac R 2) 1%:M (PState z0 None));
        residual_of stamp [:: 0%N : nat_eqType; 1%N : nat_eqType] (process_evaluate (@v_minus R 2) (@v_minus_jac R 2) pm v);
        residual_of stamp [:: 1%N : nat_eqType] (measurement_evaluate (y z))]
    [:: residual_of (fun k => shift 0 (stamp k)) [:: 0%N : nat_eqType] (prior_evaluate (@v_minus R 2) (@v_minus_jac R 2) 1%:M (PState (z0 + b) (shift 0 None)));
        residual_of (fun k => shift 0 (stamp k)) [:: 0%N : nat_eqType; 1%N : nat_eqType] (process_evaluate (@v_minus R 2) (@v_minus_jac R 2) pm v);
        residual_of (fun k => shift 0 (stamp k)) [:: 1%N : nat_eqType] (measurement_evaluate (y (z + b)))].
Proof.
move=> y pm; constructor; first exact: TranslatedPrior.
constructor.
  apply: (@TranslatedProcess _ _ _ _ _ _ _ 0%N 1%N eq pm pm v v) => // s s' u _ dt [hs ht] <-; split=> /=.
  - by rewrite /translated hs addrAC.
  - by [].
  by rewrite mul1mx trmx1 mulmx1.
constructor=> //; apply: (@TranslatedMeasurement _ _ _ _ _ _ _ 1%N (y z) (y (z + b))); last by move=> s; exact: pd1.
have -> : y (z + b) = @Measurement R 'cV[R]_2 2 2 (1%:M *m z + b) (shift 0 (Some 1)) (fun s => Some (sval s)) (fun _ => 1%:M) (fun _ => 1%:M).
  by rewrite mul1mx /= addr0.
apply: SameMeasurement; first exact: unitmx1.
move=> s s' [hs _]; split=> //; first by rewrite hs /= mul1mx.
by rewrite mul1mx trmx1 mulmx1.
Qed.
Print Assumptions C97_solve.
Print Assumptions C97_covariance.
Print Assumptions C97_prior.
Print Assumptions C97_process.
Print Assumptions C97_measurement.
Print Assumptions C97_vector_origin.
