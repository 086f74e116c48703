(** C32, C33, C35, C73: what the solvers return. *)
From mathcomp Require Import all_ssreflect all_algebra.
From Verif Require Import Base Tac LinAlg CompositeProof SigmaProps MixtureProps ProblemModel ProblemProof ProblemProps.
Set Implicit Arguments.
Unset Strict Implicit.
Unset Printing Implicit Defensive.
Import Order.Theory GRing.Theory Num.Theory.
Local Open Scope ring_scope.

Section Cost.
Variables (R : rcfType) (K : eqType) (V : Type).
Variables (dof : V -> nat) (plus : V -> seq R -> V).
Notation problem := (problem R K V).
Notation residual := (residual R K V).
Notation solve := (solve dof plus).
Implicit Types p : problem.

(** The cost returned by an evaluation that succeeds is the total cost. *)
Lemma place_costs (vars : seq (K * V)) sl consts (rs : seq residual) ls rsl acc acc' : size rsl = size rs ->
  foldM (place_residual vars sl consts) acc (zip (zip rs ls) rsl) = Ok acc' ->
  acc'.2 = acc.2 ++ [seq rcost vars rl.1 rl.2 | rl <- zip rs ls].
Proof.
elim: rs ls rsl acc => [|r rs IH] [|l ls] [|s rsl] acc //=; try by move=> _ [<-]; rewrite cats0.
case=> sz; rewrite {1}/place_residual /=.
case e1 : (mapM _ _) => [vs|] //=; case e2 : (foldM _ _ (zip (iota _ _) _)) => [H|] //= /(IH _ _ _ sz) ->.
by rewrite /= cat_rcons /rcost /rnorm /rvs e1.
Qed.
Lemma size_rranges (rs : seq residual) i : size (rranges rs i) = size rs.
Proof. by elim: rs i => //= r rs IH i; rewrite IH. Qed.
Lemma compute_cost p vars sl m n x :
  compute_error_jac_cost (p_resids p) (p_losses p) (p_const p) sl (rranges (p_resids p) 0) m n vars = Ok x ->
  x.2 = total_cost p vars.
Proof.
rewrite /compute_error_jac_cost; case e : (foldM _ _ _) => [acc|] //= [<-] /=.
by rewrite (place_costs (size_rranges _ _) e) /= big_map.
Qed.

(** *** C32 *)
Lemma normal_psd m n (H : 'M[R]_(m, n)) : psd (H^T *m H).
Proof. by have := psd_congr H^T (pd_psd (@pd1 R m)); rewrite mulmx1 trmxK. Qed.

Lemma lm_denominator n (A : 'M[R]_n) (b d : 'cV[R]_n) mu : psd A -> 0 <= mu ->
  spsolve (A + mu%:M) (- b) = Some d -> 0 <= (2%:R^-1 *: (d^T *m (mu *: d - b))) 0 0.
Proof.
move=> [_ pA] m0; rewrite /spsolve; case: ifP => // u [ed].
have eb : b = - ((A + mu%:M) *m d) by rewrite -ed mulmxA mulmxV // mul1mx opprK.
rewrite mxE mulr_ge0 ?invr_ge0 ?ler0n //.
have -> : d^T *m (mu *: d - b) = d^T *m A *m d + (2%:R * mu) *: (d^T *m 1%:M *m d).
  rewrite eb opprK mulmxDl mul_scalar_mx addrCA !mulmxDr -!scalemxAr mulmxA mulmx1.
  by rewrite mulrDl mul1r scalerDl.
rewrite mxE [in X in _ + X]mxE addr_ge0 ?mulr_ge0 ?ler0n //; first exact: pA.
by have [_ h] := pd_psd (@pd1 R n); exact: h.
Qed.
Lemma gain_accepts_pos (num den : R) : 0 <= den -> gain_accepts num den -> 0 < num.
Proof.
rewrite /gain_accepts le_eqVlt => /orP [/eqP <-|d0]; first by rewrite eqxx.
by rewrite gt_eqF // pmulr_lgt0 // invr_gt0.
Qed.
Lemma damping_ge0 (num den : R) : 0 <= damping_factor num den.
Proof.
have t : 0 <= 1 / 3%:R :> R by rewrite divr_ge0 ?ler01 ?ler0n.
by rewrite /damping_factor; case: ifP => // _; rewrite le_maxr t.
Qed.

(** costs, newest first, ending at the initial cost and strictly decreasing in time *)
Lemma lm_loop_costs p sl m n it vars costs A b mu nu pc dc g r :
  lm_loop plus p sl (rranges (p_resids p) 0) m (n := n) it vars costs A b mu nu pc dc g = Ok r ->
  psd A -> 0 <= mu -> 0 <= nu -> costs = total_cost p vars :: behead costs -> pc = total_cost p vars -> sorted <%R costs ->
  [/\ sorted <%R r.1.2, r.1.2 = total_cost p r.1.1 :: behead r.1.2 & last 0 r.1.2 = last 0 costs].
Proof.
elim: it vars costs A b mu nu pc dc g => [|it IH] vars costs A b mu nu pc dc g /=.
  by move=> [<-] _ _ _ e _ s /=.
case: ifP => _; first by move=> [<-] _ _ _ e _ s /=.
case ed : (spsolve _ _) => [d|]; last first.
  by move=> h pA m0 n0 hc hp; apply: IH h _ _ _ hc hp; rewrite ?mulr_ge0 ?ler0n.
case ec : (correct_states _ _ _ _ _) => [vars'|] //=.
case ee : (compute_error_jac_cost _ _ _ _ _ _ _ _) => [ehc|] //=; case: (maxabs _) => //= gn.
case: ifP => acc h pA m0 n0 hc hp; last by apply: IH h _ _ _ hc hp; rewrite ?mulr_ge0 ?ler0n.
have lt := gain_accepts_pos (lm_denominator pA m0 ed) acc.
move=> so; have [] := IH _ _ _ _ _ _ _ _ _ h.
- exact: normal_psd.
- by rewrite mulr_ge0 // damping_ge0.
- by rewrite ler0n.
- by rewrite (compute_cost ee).
- exact: compute_cost ee.
- move: so; rewrite hc /= => ->; rewrite andbT -hp -subr_gt0; exact: lt.
by move=> h1 h2 h3; split=> //; rewrite h3 hc.
Qed.

Lemma solve_lm_unfold p p' : p_solver p = LM -> solve p = Ok p' ->
  exists n ehc (d : R) r ehc',
    [/\ n = num_columns dof p,
        compute_error_jac_cost (p_resids p) (p_losses p) (p_const p) (slices_of dof p) (rranges (p_resids p) 0) (num_rows p) n (p_init p) = Ok ehc,
        amax_diag (ehc.1.2^T *m ehc.1.2) = Ok d,
        lm_loop plus p (slices_of dof p) (rranges (p_resids p) 0) (num_rows p) (p_max_iters p) (p_init p) [:: ehc.2]
           (ehc.1.2^T *m ehc.1.2) (ehc.1.2^T *m ehc.1.1) (p_tau p * d) 2%:R ehc.2 None None = Ok r &
        compute_error_jac_cost (p_resids p) (p_losses p) (p_const p) (slices_of dof p) (rranges (p_resids p) 0) (num_rows p) n r.1.1 = Ok ehc'] /\
    [/\ p_vars p' = r.1.1, p_history p' = rev (ehc'.2 :: r.1.2) & p_info p' = Some (existT _ n r.2)].
Proof.
rewrite /solve; case er : (residual_slices _ _ _) => [rsl|] //= es.
have := residual_slicesE er; rewrite add0n -/(num_rows p) => ->; rewrite es /=.
have := vslices_size dof (p_const p) (p_init p) (p_slices p) 0; rewrite add0n -/(num_columns dof p).
rewrite -/(slices_of dof p); move: (variable_slices _ _ _ _ _).2 => n en.
rewrite /solve_lm.
case e1 : (compute_error_jac_cost _ _ _ _ _ _ _ _) => [ehc|] //=; case e2 : (amax_diag _) => [d|] //=.
case e3 : (lm_loop _ _ _ _ _ _ _ _ _ _ _ _ _ _ _) => [r|] //=.
case e4 : (compute_error_jac_cost _ _ _ _ _ _ _ _) => [ehc'|] //= [<-] /=.
by exists n, ehc, d, r, ehc'.
Qed.
Lemma amax_diag_ge0 m n (H : 'M[R]_(m, n)) d : amax_diag (H^T *m H) = Ok d -> 0 <= d.
Proof.
have h i : 0 <= (H^T *m H) i i by rewrite mxE sumr_ge0 // => k _; rewrite mxE -expr2 sqr_ge0.
rewrite /amax_diag; case: ifP => // _ [<-].
have z : 0 <= (if insub 0%N is Some i0 then (H^T *m H) i0 i0 else 0) :> R by case: (insub _).
by elim/big_ind: _ => // x y x0 y0; rewrite le_maxr x0.
Qed.

(** C32: the recorded costs start at the cost of the initial guess, strictly
    decrease at every recorded step, and end (recorded twice) at the cost of the
    returned variables. *)
Theorem C32_lm_monotone p p' : p_solver p = LM -> 0 <= p_tau p -> solve p = Ok p' ->
  exists steps, [/\ p_history p' = rcons (total_cost p (p_init p) :: steps) (total_cost p (p_vars p')),
    sorted >%R (total_cost p (p_init p) :: steps) &
    last (total_cost p (p_init p)) steps = total_cost p (p_vars p')].
Proof.
move=> lm t0 e; have [n [ehc [d [r [ehc' [[en e1 e2 e3 e4] [-> -> _]]]]]]] := solve_lm_unfold lm e.
have [||||||s h la] := lm_loop_costs e3.
- exact: normal_psd.
- by rewrite mulr_ge0 // (amax_diag_ge0 e2).
- by rewrite ler0n.
- by rewrite (compute_cost e1).
- exact: compute_cost e1.
- by [].
rewrite (compute_cost e4); case ec : (r.1.2) s h la => [|c cs] // s [h] la.
have er : exists t, rev (c :: cs) = total_cost p (p_init p) :: t.
  move: la; rewrite /= (compute_cost e1) => <-.
  by rewrite (lastI c cs) rev_rcons; exists (rev (belast c cs)).
case: er => t er; exists t; rewrite rev_cons er; split=> //.
- by rewrite -er rev_sorted.
by have := congr1 (last 0) er; rewrite rev_cons last_rcons /= -h => ->.
Qed.
Theorem C32_lm_never_worse p p' : p_solver p = LM -> 0 <= p_tau p -> solve p = Ok p' ->
  sorted >=%R (p_history p') /\ total_cost p (p_vars p') <= total_cost p (p_init p).
Proof.
move=> lm t0 e; have [t [-> s la]] := C32_lm_monotone lm t0 e.
have s' : sorted >=%R (total_cost p (p_init p) :: t) by apply: sub_sorted s => a b; exact: ltW.
split; first by move: s'; rewrite /= rcons_path => ->; rewrite la /=.
rewrite -la; have tr : transitive (>=%R : rel R) by move=> y x z xy yz; exact: le_trans yz xy.
have := order_path_min tr s'.
case: t la {s s'} => [|c t] _; first by rewrite lexx.
by move=> /allP; apply; rewrite /= mem_last.
Qed.
End Cost.

(** *** C33: Gauss-Newton on affine problems *)
Section Affine.
Variables (R : rcfType) (K : eqType) (V : Type).
Variables (dof : V -> nat) (plus : V -> seq R -> V).
Notation problem := (problem R K V).
Notation residual := (residual R K V).
Notation solve := (solve dof plus).
Implicit Types p : problem.

(** displacement of a variable; None: not moved *)
Definition shift (v : V) (d : option (seq R)) : V := if d is Some d then plus v d else v.
(** A residual is affine when its Jacobians do not depend on the states and give
    its exact change under any displacement. *)
Definition affine (r : residual) : Prop :=
  exists J : nat -> nat -> nat -> R, forall (vs : seq V), size vs = size (r_keys r) ->
    (forall j a c, r_jac r vs j a c = J j a c) /\
    forall (ds : seq (option (seq R))) a, size ds = size vs -> (a < r_dim r)%N ->
      r_err r [seq shift vd.1 vd.2 | vd <- zip vs ds] a =
      r_err r vs a + \sum_(jd <- zip (iota 0 (size ds)) ds)
          (if jd.2 is Some d then \sum_(c < size d) J jd.1 a c * nth 0 d c else 0).
(** All residuals of p are affine, with the L2 loss. *)
Definition affine_problem p : Prop :=
  (forall q r0, (q < size (p_resids p))%N -> affine (nth r0 (p_resids p) q)) /\
  (forall q l0, (q < size (p_losses p))%N -> nth l0 (p_losses p) q = l2_loss R).
(** The variables displaced by d, constants excepted. *)
Definition moved (consts : seq K) (d : K -> seq R) (vars : seq (K * V)) : seq (K * V) :=
  [seq (kv.1, if kv.1 \in consts then kv.2 else plus kv.2 (d kv.1)) | kv <- vars].

Definition dlist n (dx : 'cV[R]_n) : seq R := [seq dx i 0 | i <- enum 'I_n].
Definition dkey (sl : seq (K * (nat * nat))) n (dx : 'cV[R]_n) (k : K) : seq R :=
  if dget sl k is Some s then pslice s.1 s.2 (dlist dx) else [::].

Lemma correct_moved consts sl n (dx : 'cV[R]_n) (vars : seq (K * V)) :
  (forall k, k \in unzip1 vars -> k \notin consts -> isSome (dget sl k)) ->
  correct_states plus consts sl dx vars = Ok (moved consts (dkey sl dx) vars).
Proof.
rewrite /correct_states /moved; elim: vars => [|[k v] vars IH] h //=.
rewrite IH; last by move=> x xi; apply: h; rewrite inE xi orbT.
case c : (k \in consts) => //=; have := h k; rewrite inE eqxx c => /(_ isT isT).
by rewrite /dindex /dkey; case: (dget sl k).
Qed.
Lemma unzip1_moved consts d (vars : seq (K * V)) : unzip1 (moved consts d vars) = unzip1 vars.
Proof. by rewrite /moved /unzip1 -map_comp; apply: eq_map. Qed.
Lemma dget_moved consts d (vars : seq (K * V)) k :
  dget (moved consts d vars) k = omap (fun v => if k \in consts then v else plus v (d k)) (dget vars k).
Proof. by rewrite /moved (dget_map (fun kv => if kv.1 \in consts then kv.2 else plus kv.2 (d kv.1))). Qed.
Lemma rvs_moved consts d (vars : seq (K * V)) (r : residual) : {subset r_keys r <= unzip1 vars} ->
  rvs (moved consts d vars) r =
  [seq shift vd.1 vd.2 | vd <- zip (rvs vars r) [seq (if k \in consts then None else Some (d k)) | k <- r_keys r]]
  /\ size (rvs vars r) = size (r_keys r).
Proof.
move=> sub; rewrite /rvs; have [vs e sz] := mapM_dindex sub; rewrite e.
have {sub} sub : {subset r_keys r <= unzip1 vars} by [].
suff -> : mapM (dindex (moved consts d vars)) (r_keys r) = Ok [seq shift vd.1 vd.2 | vd <- zip vs [seq (if k \in consts then None else Some (d k)) | k <- r_keys r]] by [].
elim: (r_keys r) vs e {sz sub} => [|k ks IH] vs /=; first by case=> <-.
rewrite {1 3}/dindex dget_moved; case: (dget vars k) => //= v; case: (mapM _ _) IH => //= vs' IH [<-] /=.
by rewrite (IH vs') //=; case: ifP.
Qed.

Lemma sum_block n (dx : 'cV[R]_n) (f : nat -> R) (s : nat * nat) :
  \sum_(c < n) (if in_range s c then f (c - s.1)%N else 0) * dx c 0 =
  \sum_(c < size (pslice s.1 s.2 (dlist dx))) f c * nth 0 (pslice s.1 s.2 (dlist dx)) c.
Proof.
set g := fun c => nth 0 (dlist dx) c.
have gE (c : 'I_n) : dx c 0 = g c.
  by rewrite /g /dlist (nth_map c) ?size_enum_ord // nth_ord_enum.
have sz : size (dlist dx) = n by rewrite size_map size_enum_ord.
have szp : size (pslice s.1 s.2 (dlist dx)) = minn (s.2 - s.1) (n - s.1).
  by rewrite /pslice size_take size_drop sz /minn.
have -> : \sum_(c < n) (if in_range s c then f (c - s.1)%N else 0) * dx c 0 =
          \sum_(0 <= c < n) (if in_range s c then f (c - s.1)%N * g c else 0).
  by rewrite big_mkord; apply: eq_bigr => c _; rewrite gE; case: ifP => _; rewrite ?mul0r.
have -> : \sum_(c < size (pslice s.1 s.2 (dlist dx))) f c * nth 0 (pslice s.1 s.2 (dlist dx)) c =
          \sum_(0 <= c < minn (s.2 - s.1) (n - s.1)) f c * g (s.1 + c)%N.
  rewrite szp big_mkord; apply: eq_bigr => c _; rewrite /pslice nth_take ?nth_drop //.
  exact: leq_trans (ltn_ord c) (geq_minl _ _).
have [le|lt] := leqP n s.1.
  rewrite (eqP le) minn0 [RHS]big_geq // big_nat big1 // => c /andP [_ cl].
  by rewrite /in_range leqNgt (leq_trans cl le).
set k := minn _ _.
have kn : (s.1 + k <= n)%N by rewrite -leq_subRL ?geq_minr // ltnW.
rewrite (@big_cat_nat _ _ _ s.1) //=; last exact: ltnW.
rewrite big_nat big1 ?add0r => [|c /andP [_ cl]]; last by rewrite /in_range leqNgt cl.
rewrite (@big_cat_nat _ _ _ (s.1 + k)) ?leq_addr //=.
rewrite [X in _ + X]big_nat [X in _ + X]big1 ?addr0 => [|c /andP [cl cn]]; last first.
  rewrite /in_range (leq_trans (leq_addr k s.1) cl) /=; case: ltnP => // c2.
  have s1c := leq_trans (leq_addr k s.1) cl.
  have : (c < s.1 + k)%N by rewrite -ltn_subLR // leq_min !ltn_sub2r // (leq_ltn_trans s1c).
  by rewrite ltnNge cl.
rewrite -{1}[s.1]add0n big_addn addKn.
rewrite [LHS]big_nat [RHS]big_nat; apply: eq_bigr => c /andP [_ cl].
have c2 : (c + s.1 < s.2)%N.
  by rewrite addnC -ltn_subRL; apply: leq_trans cl (geq_minl _ _).
by rewrite /in_range leq_addl c2 addnK addnC.
Qed.

Definition wfa p := well_formed p /\ affine_problem p.

Lemma l2_at p q l0 : affine_problem p -> size (p_losses p) = size (p_resids p) -> (q < size (p_resids p))%N ->
  nth l0 (p_losses p) q = l2_loss R.
Proof. by move=> [_ h] e lt; apply: h; rewrite e. Qed.

Lemma affine_step p (vars : seq (K * V)) n (dx : 'cV[R]_n) x : wfa p -> unzip1 vars = unzip1 (p_init p) ->
  compute_of dof p (num_rows p) n vars = Ok x ->
  let vars' := moved (p_const p) (dkey (slices_of dof p) dx) vars in
  compute_of dof p (num_rows p) n vars' = Ok (x.1.1 + x.1.2 *m dx, x.1.2, total_cost p vars').
Proof.
move=> [wf af] ev; have [e [H [-> h]]] := C34_stacked dof n wf ev; case=> <- /=.
set vars' := moved _ _ _.
have ev' : unzip1 vars' = unzip1 (p_init p) by rewrite unzip1_moved.
have [e' [H' [-> h']]] := C34_stacked dof n wf ev'.
have [u sz kn] := wf.
have rows (i : 'I_(num_rows p)) : exists q a r0, [/\ (q < size (p_resids p))%N, (a < r_dim (nth r0 (p_resids p) q))%N &
     i = (sumn (take q [seq r_dim r | r <- p_resids p]) + a)%N :> nat].
  case er : (p_resids p) => [|r0 t]; first by case: i => i; rewrite /num_rows er.
  by rewrite -er; have [q [a [h1 h2 h3]]] := C34_rows_covered r0 (ltn_ord i); exists q, a, r0.
have HH : H' = H.
  apply/matrixP => i j; have [q [a [r0 [lq la ei]]]] := rows i.
  have [_ ->] := h' q r0 (l2_loss R) a i lq la ei; have [_ ->] := h q r0 (l2_loss R) a i lq la ei.
  rewrite (l2_at _ af sz lq) /=; have [J hJ] := af.1 q r0 lq.
  apply: eq_bigr => jk _; case: ifP => // _.
  have [_ sub] := kn q r0 lq.
  have s1 : size (rvs vars (nth r0 (p_resids p) q)) = size (r_keys (nth r0 (p_resids p) q)).
    by have [] := @rvs_moved [::] (fun _ => [::]) vars (nth r0 (p_resids p) q) _; rewrite ?ev.
  have s2 : size (rvs vars' (nth r0 (p_resids p) q)) = size (r_keys (nth r0 (p_resids p) q)).
    by have [] := @rvs_moved [::] (fun _ => [::]) vars' (nth r0 (p_resids p) q) _; rewrite ?ev'.
  by have [-> _] := hJ _ s2; have [-> _] := hJ _ s1.
suff ee : e' = e + H *m dx by rewrite ee HH.
apply/matrixP => i j; rewrite ord1 {j}; have [q [a [r0 [lq la ei]]]] := rows i.
rewrite mxE [in X in _ = _ + X]mxE.
have [-> _] := h' q r0 (l2_loss R) a i lq la ei; have [-> hH] := h q r0 (l2_loss R) a i lq la ei.
rewrite (l2_at _ af sz lq) /= sqrtr1 !mul1r; have [J hJ] := af.1 q r0 lq.
move: hH; rewrite (l2_at _ af sz lq) /= sqrtr1; set r := nth r0 _ q => hH.
have [urk sub] := kn q r0 lq; rewrite -/r in urk sub.
have subv : {subset r_keys r <= unzip1 vars} by rewrite ev.
have [-> szv] := rvs_moved (p_const p) (dkey (slices_of dof p) dx) subv.
set ds := map _ (r_keys r).
have [jE sE] := hJ (rvs vars r) szv.
rewrite sE //; last by rewrite size_map.
congr (_ + _).
have -> : zip (iota 0 (size ds)) ds = [seq (jk.1, if jk.2 \in p_const p then None else Some (dkey (slices_of dof p) dx jk.2)) | jk <- zip (iota 0 (size (r_keys r))) (r_keys r)].
  rewrite /ds size_map; elim: (r_keys r) 0%N => //= k ks IH i0; by rewrite IH.
rewrite big_map.
transitivity (\sum_(c < n) \sum_(jk <- zip (iota 0 (size (r_keys r))) (r_keys r))
   (if hits (p_const p) (slices_of dof p) jk.2 c then J jk.1 a (c - first_col (slices_of dof p) jk.2)%N else 0) * dx c 0); last first.
  apply: eq_bigr => c _; rewrite hH -mulr_suml; congr (_ * _); apply: eq_bigr => jk _.
  by rewrite mul1r jE.
rewrite exchange_big /=; apply: eq_big_seq => jk jin.
have kin : jk.2 \in r_keys r by rewrite -(unzip2_zip_iota (r_keys r)) map_f.
case c : (jk.2 \in p_const p).
  by rewrite big1 // => i0 _; rewrite /hits c mul0r.
have := (slices_disjoint dof u sub).2 _ kin; rewrite c => /(_ isT).
rewrite /dkey /first_col; case g : (dget _ _) => [s|] // _.
rewrite -sum_block; apply: eq_bigr => i0 _.
by rewrite /hits c g.
Qed.

Lemma zip_iotaS T (s : seq T) i : zip (iota i.+1 (size s)) s = [seq (x.1.+1, x.2) | x <- zip (iota i (size s)) s].
Proof. by elim: s i => //= a s IH i; rewrite IH. Qed.
Lemma sum_rows (rs : seq residual) (f : nat -> R) :
  \sum_(0 <= i < total_dim rs) f i =
  \sum_(qr <- zip (iota 0 (size rs)) rs) \sum_(a < r_dim qr.2) f (row_of rs qr.1 + a)%N.
Proof.
rewrite /row_of /total_dim; elim: rs f => [|r rs IH] f /=; first by rewrite big_nil big_geq.
rewrite (@big_cat_nat _ _ _ (r_dim r)) ?leq_addr //= big_cons /= big_mkord; congr (_ + _).
rewrite -{1}[r_dim r]add0n big_addn addKn IH zip_iotaS /= big_map.
apply: eq_bigr => qr _; apply: eq_bigr => a _ /=; congr f.
by rewrite addnC addnA.
Qed.

Lemma cost_normsq p (vars : seq (K * V)) n x : wfa p -> unzip1 vars = unzip1 (p_init p) ->
  compute_of dof p (num_rows p) n vars = Ok x -> total_cost p vars = 2%:R^-1 * \sum_i x.1.1 i 0 ^+ 2.
Proof.
move=> [wf af] ev; have [e [H [-> h]]] := C34_stacked dof n wf ev; case=> <- /=.
have [u sz kn] := wf; pose g (i : nat) : R := if insub i is Some i' then e i' 0 else 0.
have -> : \sum_i e i 0 ^+ 2 = \sum_(0 <= i < num_rows p) g i ^+ 2.
  rewrite big_mkord; apply: eq_bigr => i _; rewrite /g; case: insubP => [i' _ ei|]; last by rewrite ltn_ord.
  by have -> : i = i' by apply: val_inj; rewrite ei.
rewrite (sum_rows (p_resids p) (fun i => g i ^+ 2)) mulr_sumr /total_cost.
case er : (p_resids p) => [|r0 t]; first by case: (p_losses p) => [|? ?]; rewrite !big_nil.
rewrite -er.
have -> : zip (p_resids p) (p_losses p) = [seq (qr.2, nth (l2_loss R) (p_losses p) qr.1) | qr <- zip (iota 0 (size (p_resids p))) (p_resids p)].
  elim: (p_resids p) (p_losses p) sz => [|r rs IH] [|l ls] //= [sz]; rewrite IH //; congr (_ :: _).
  by rewrite zip_iotaS -map_comp.
rewrite big_map !(big_nth (0%N, r0)).
rewrite size_zip size_iota minnn; rewrite [LHS]big_nat [RHS]big_nat; apply: eq_bigr => q /andP [_ lq] /=.
rewrite nth_zip ?size_iota // nth_iota // add0n /= (l2_at _ af sz lq) /rcost /= /rnorm /vnorm.
rewrite -mulrA -expr2 sqr_sqrtr; last by apply: sumr_ge0 => a _; rewrite sqr_ge0.
congr (_ * _); apply: eq_bigr => a _; congr (_ ^+ 2).
rewrite /g; case: insubP => [i' _ ei|].
  have ei' : i' = (sumn (take q [seq r_dim r | r <- p_resids p]) + a)%N :> nat.
    by rewrite ei /row_of /total_dim map_take.
  have [-> _] := h q r0 (l2_loss R) a i' lq (ltn_ord a) ei'.
  by rewrite (l2_at _ af sz lq) /= sqrtr1 mul1r.
rewrite -leqNgt => le; suff : (row_of (p_resids p) q + a < num_rows p)%N by rewrite ltnNge le.
rewrite /num_rows /row_of /total_dim -[X in (_ < sumn X)%N](cat_take_drop q) sumn_cat map_take ltn_add2l.
by rewrite (drop_nth 0%N) ?size_map //= (nth_map r0) // (leq_trans (ltn_ord a)) // leq_addr.
Qed.

Lemma slices_free p (vars : seq (K * V)) : uniq (unzip1 (p_init p)) -> unzip1 vars = unzip1 (p_init p) ->
  forall k, k \in unzip1 vars -> k \notin p_const p -> isSome (dget (slices_of dof p) k).
Proof.
move=> u -> k kin kc; have [_ h] := slices_disjoint dof u (ks := unzip1 (p_init p)) (fun _ x => x).
exact: h.
Qed.

Lemma assemble p (d : K -> seq R) : uniq (unzip1 (p_init p)) ->
  (forall k v, dget (p_init p) k = Some v -> k \notin p_const p -> size (d k) = dof v) ->
  exists dx : 'cV[R]_(num_columns dof p), moved (p_const p) (dkey (slices_of dof p) dx) (p_init p) = moved (p_const p) d (p_init p).
Proof.
move=> u hd; pose ss := [seq d kv.1 | kv <- free_vars p].
have hin kv0 i : (i < size (free_vars p))%N -> let kv := nth kv0 (free_vars p) i in dget (p_init p) kv.1 = Some kv.2 /\ kv.1 \notin p_const p.
  rewrite /free_vars; elim: (p_init p) u i => [|[k v] t IH] //= /andP [ni u'] i.
  case c : (k \in p_const p) => /=.
    move=> lt; have [g nc] := IH u' i lt; split=> //; case: (k =P _) nc => // e; by rewrite -e c.
  case: i => [|i] lt /=; first by rewrite eqxx c.
  have [g nc] := IH u' i lt; split=> //; case: (k =P _) => // e.
  by move: ni; rewrite e -dget_isSome g.
have sh : shape ss = [seq dof kv.2 | kv <- free_vars p].
  case f : (free_vars p) => [|kv0 t]; first by rewrite /ss f.
  rewrite -f; apply: (@eq_from_nth _ 0%N); rewrite /shape /ss !size_map // => i li.
  rewrite -map_comp !(nth_map kv0) //=; have [g nc] := hin kv0 i li; exact: hd.
pose dx : 'cV[R]_(num_columns dof p) := \col_i nth 0 (flatten ss) i.
have dlE : dlist dx = flatten ss.
  apply: (@eq_from_nth _ 0); rewrite /dlist size_map size_enum_ord ?size_flatten ?sh // => i li.
  by rewrite (nth_map (Ordinal li)) ?size_enum_ord // mxE nth_enum_ord.
exists dx; rewrite /moved.
case f : (free_vars p) => [|kv0 t].
  have h k : k \in unzip1 (p_init p) -> k \in p_const p.
    move=> kin; apply/negPn/negP => nc; have : k \in unzip1 (free_vars p) by rewrite mem_free kin nc.
    by rewrite f.
  elim: (p_init p) h => [|[k v] l IH] //= h; rewrite IH => [|x xi]; last by apply: h; rewrite inE xi orbT.
  by rewrite h // inE eqxx.
have key k : k \in unzip1 (p_init p) -> k \notin p_const p -> dkey (slices_of dof p) dx k = d k.
  move=> kin kc; have kf : k \in unzip1 (free_vars p) by rewrite mem_free kin kc.
  have li : (index k (unzip1 (free_vars p)) < size (free_vars p))%N by rewrite -(size_map fst) index_mem.
  have ek : (nth kv0 (free_vars p) (index k (unzip1 (free_vars p)))).1 = k.
    by rewrite -(nth_map kv0 k) ?nth_index.
  have /= := vslices_nth dof (p_slices p) 0 kv0 u li.
  rewrite -/(free_vars p) ek !add0n -/(slices_of dof p) /dkey => ->.
  rewrite /= dlE /pslice addKn /offset -/(free_vars p).
  have := nth_reshape (shape ss) (flatten ss) (index k (unzip1 (free_vars p))).
  rewrite flattenK sh (nth_map kv0) // => <-.
  by rewrite /ss (nth_map kv0) ?ek.
elim: (p_init p) key => [|[k v] l IH] //= key; rewrite IH => [|x xi]; last by apply: key; rewrite inE xi orbT.
by case c : (k \in p_const p) => //; rewrite key ?c // inE eqxx.
Qed.

Lemma solve_gn_unfold p p' : p_solver p = GN -> solve p = Ok p' ->
  exists n ehc r ehc' A,
    [/\ n = num_columns dof p,
        compute_of dof p (num_rows p) n (p_init p) = Ok ehc,
        gn_loop plus p (slices_of dof p) (rranges (p_resids p) 0) (m := num_rows p) (p_max_iters p) (p_init p) [:: ehc.2]
           ehc.1.1 ehc.1.2 None (Some 10%:R) None None = Ok r,
        compute_of dof p (num_rows p) n r.1.1 = Ok ehc' & r.2 = Some A] /\
    [/\ p_vars p' = r.1.1, p_history p' = rev (ehc'.2 :: r.1.2) & p_info p' = Some (existT _ n A)].
Proof.
rewrite /solve; case er : (residual_slices _ _ _) => [rsl|] //= es.
have := residual_slicesE er; rewrite add0n -/(num_rows p) => ->; rewrite es /=.
have := vslices_size dof (p_const p) (p_init p) (p_slices p) 0; rewrite add0n -/(num_columns dof p).
rewrite -/(slices_of dof p); move: (variable_slices _ _ _ _ _).2 => n en.
rewrite /solve_gn -/(compute_of dof p (num_rows p) n).
case e1 : (compute_of _ _ _ _ _) => [ehc|] //=.
case e3 : (gn_loop _ _ _ _ _ _ _ _ _ _ _ _ _) => [r|] //=.
case e4 : (compute_of _ _ _ _ _) => [ehc'|] //=; case e5 : (r.2) => [A|] //= [<-] /=.
by exists n, ehc, r, ehc', A.
Qed.

Section Loop.
Variables (p : problem) (n : nat) (e0 : 'cV[R]_(num_rows p)) (H : 'M[R]_(num_rows p, n)).
Hypothesis wf : wfa p.
(** state after at least one step *)
Definition at_optimum vars (e : 'cV[R]_(num_rows p)) : Prop :=
  [/\ unzip1 vars = unzip1 (p_init p), exists c, compute_of dof p (num_rows p) n vars = Ok (e, H, c),
      H^T *m e = 0 & exists d, e = e0 + H *m d].
Lemma gn_step vars vars' e c dx ehc :
  unzip1 vars = unzip1 (p_init p) -> compute_of dof p (num_rows p) n vars = Ok (e, H, c) ->
  (exists d, e = e0 + H *m d) -> spsolve (H^T *m H) (- (H^T *m e)) = Some dx ->
  correct_states plus (p_const p) (slices_of dof p) dx vars = Ok vars' ->
  compute_of dof p (num_rows p) n vars' = Ok ehc -> ehc.1.2 = H /\ at_optimum vars' ehc.1.1.
Proof.
move=> ev ec [d ed]; rewrite /spsolve; case: ifP => // un [edx].
have [[u _ _] _] := wf.
rewrite (correct_moved _ (slices_free u ev)); case=> <-.
have := affine_step dx wf ev ec; rewrite /= => ec'; rewrite ec' => -[<-] /=; split=> //; split.
- by rewrite unzip1_moved.
- by exists (total_cost p (moved (p_const p) (dkey (slices_of dof p) dx) vars)).
- by rewrite mulmxDr -edx !mulmxN (mulmxA H^T H) (mulmxA (H^T *m H)) mulmxV // mul1mx subrr.
by exists (d + dx); rewrite mulmxDr addrA -ed.
Qed.
Lemma gn_loop_optimum it vars costs e dc dx g A r : at_optimum vars e ->
  gn_loop plus p (slices_of dof p) (rranges (p_resids p) 0) it vars costs e H dc dx g A = Ok r ->
  exists e', at_optimum r.1.1 e'.
Proof.
elim: it vars costs e dc dx g A => [|it IH] vars costs e dc dx g A opt /=; first by case=> <-; exists e.
case: ifP => _; first by case=> <-; exists e.
case es : (spsolve _ _) => [d|] //; case ec : (correct_states _ _ _ _ _) => [vars'|] //=.
rewrite -/(compute_of dof p (num_rows p) n vars').
case ee : (compute_of _ _ _ _ _) => [[[e1 H1] c1]|] //=; case: (maxabs _) => //= gn.
have [ev [c ecc] _ dd] := opt; have /= [eH opt'] := gn_step ev ecc dd es ec ee.
rewrite eH; exact: IH.
Qed.
End Loop.

Lemma normsq_pyth m n (e e0 : 'cV[R]_m) (H : 'M[R]_(m, n)) d d' : H^T *m e = 0 -> e = e0 + H *m d ->
  \sum_i e i 0 ^+ 2 <= \sum_i (e0 + H *m d') i 0 ^+ 2.
Proof.
move=> he ee; have -> : e0 + H *m d' = e + H *m (d' - d) by rewrite ee mulmxBr -addrA [H *m d + _]addrCA subrr addr0.
have n2 (v : 'cV[R]_m) : \sum_i v i 0 ^+ 2 = (v^T *m v) 0 0 by rewrite -qf1 /qf mulmx1.
set w := H *m (d' - d); rewrite !n2.
have z : w^T *m e = 0 by rewrite /w trmx_mul -mulmxA he mulmx0.
have z' : e^T *m w = 0 by rewrite -[LHS]trmxK trmx_mul trmxK z trmx0.
have -> : (e + w)^T *m (e + w) = e^T *m e + w^T *m w by rewrite [(e + w)^T]linearD /= mulmxDl !mulmxDr z z' add0r addr0.
rewrite [in X in _ <= X]mxE ler_addl -n2; by apply: sumr_ge0 => i _; rewrite sqr_ge0.
Qed.

(** C33: if Gauss-Newton returns at all on an affine problem (with at least one
    iteration allowed), its variables have the least cost among all displacements
    of the free variables from the initial guess. *)
Theorem C33_global_minimum p p' (d : K -> seq R) : p_solver p = GN -> (0 < p_max_iters p)%N ->
  well_formed p -> affine_problem p -> solve p = Ok p' ->
  (forall k v, dget (p_init p) k = Some v -> k \notin p_const p -> size (d k) = dof v) ->
  total_cost p (p_vars p') <= total_cost p (moved (p_const p) d (p_init p)).
Proof.
move=> gn it0 wf af es hd; have wa : wfa p by [].
have [n [[[e H] c] [r [ehc' [A [[en e1 e2 e3 e4] [-> _ _]]]]]]] := solve_gn_unfold gn es.
have [u _ _] := wf; have [dx edx] := assemble u hd; rewrite -edx {hd edx}; move: dx; rewrite -en => dx.
have [e' [ev [c' ec'] he [d' ed]]] : exists e', at_optimum e H r.1.1 e'.
  move: e2; case: (p_max_iters p) it0 => // it _ /=.
  case es1 : (spsolve _ _) => [d1|] //; case ec : (correct_states _ _ _ _ _) => [vars'|] //=.
  rewrite -/(compute_of dof p (num_rows p) n vars').
  case ee : (compute_of _ _ _ _ _) => [[[e1' H1] c1]|] //=; case: (maxabs _) => //= g1.
  have e0d : exists d : 'cV_n, e = e + H *m d by exists 0; rewrite mulmx0 addr0.
  have /= [eH opt'] := gn_step wa (erefl _) e1 e0d es1 ec ee.
  rewrite eH; exact: gn_loop_optimum.
rewrite (cost_normsq wa ev ec') /=.
have ec2 := affine_step dx wa (erefl _) e1; rewrite /= in ec2.
have ev2 : unzip1 (moved (p_const p) (dkey (slices_of dof p) dx) (p_init p)) = unzip1 (p_init p) by rewrite unzip1_moved.
rewrite (cost_normsq wa ev2 ec2) /= ler_pmul2l ?invr_gt0 ?ltr0n //.
exact: normsq_pyth he ed.
Qed.

(** C33: and it does return when the Jacobian at the initial guess has full column
    rank (and there is something to optimise). *)
Theorem C33_succeeds p x : p_solver p = GN -> (0 < p_max_iters p)%N -> well_formed p -> affine_problem p ->
  (0 < num_columns dof p)%N ->
  compute_of dof p (num_rows p) (num_columns dof p) (p_init p) = Ok x -> x.1.2^T *m x.1.2 \in unitmx ->
  exists p', solve p = Ok p'.
Proof.
move=> gn it0 wf af n0 ec un; have wa : wfa p by [].
rewrite /solve (wf_rsl dof wf) /= gn /= -/(slices_of dof p).
have := vslices_size dof (p_const p) (p_init p) (p_slices p) 0; rewrite add0n -/(num_columns dof p).
move: (variable_slices _ _ _ _ _).2 => n en; move: n0 x ec un; rewrite -en => n0 [[e H] c] ec un {en}.
rewrite /solve_gn -/(compute_of dof p (num_rows p) n) ec /=; rewrite /= in un.
have loop it vars costs e1 c1 dc dx g A : unzip1 vars = unzip1 (p_init p) ->
   compute_of dof p (num_rows p) n vars = Ok (e1, H, c1) -> (it == 0%N -> isSome A) -> (~~ isSome dc || isSome A) ->
   exists r, gn_loop plus p (slices_of dof p) (rranges (p_resids p) 0) it vars costs e1 H dc dx g A = Ok r /\
     unzip1 r.1.1 = unzip1 (p_init p) /\ isSome r.2.
  elim: it vars costs e1 c1 dc dx g A => [|it IH] vars costs e1 c1 dc dx g A ev ecv hA hd /=.
    by exists (vars, costs, A); split=> //; split=> //; exact: hA.
  case cv : (is_converged _ _ _ _ _ _ _).
    exists (vars, costs, A); split=> //; split=> //.
    by move: hd cv; rewrite /is_converged; case: dc.
  rewrite /spsolve un; set d := invmx _ *m _.
  have [u _ _] := wf; rewrite (correct_moved _ (slices_free u ev)) /= -/(compute_of dof p (num_rows p) n).
  have ec' := affine_step d wa ev ecv; rewrite /= in ec'; rewrite ec' /=.
  rewrite /maxabs gtn_eqF //=.
  by apply: IH ec' _ _; rewrite ?unzip1_moved // orbT.
have [] := loop (p_max_iters p) (p_init p) [:: c] e c None (Some 10%:R) None None (erefl _) ec _ isT.
  by move: it0; case: (p_max_iters p).
move=> r [-> [ev]]; rewrite /=.
have [e2 [H2 [ec2 _]]] := C34_stacked dof n wf ev; rewrite ec2 /=.
by case: (r.2) => //= A _; eexists; reflexivity.
Qed.
End Affine.

Print Assumptions C32_lm_monotone.
Print Assumptions C32_lm_never_worse.
Print Assumptions C33_global_minimum.
Print Assumptions C33_succeeds.
