(** C90, batch side: the cost of the batch problem of a linear history is half the
    trajectory cost, and its residuals are affine. *)
From mathcomp Require Import all_ssreflect all_algebra.
From Coq Require Import Permutation.
From Verif Require Import Base LinAlg Tac EkfModel EkfProps CholModel CholProof ResidualModel ResidualProps ProblemModel ProblemProof ProblemProps ProblemProps2 BatchKalmanModel MarginalProof BatchKalmanProof.
Set Implicit Arguments.
Unset Strict Implicit.
Unset Printing Implicit Defensive.
Import Order.Theory GRing.Theory Num.Theory.
Local Open Scope ring_scope.

Section Batch.
Variable R : rcfType.
Variable n : nat.
Variable U : Type.
Notation cV := 'cV[R]_n.
Notation pstate := (pstate R cV).
Notation measurement := (measurement R cV n).
Notation event := (event R n U).
Notation residual := (residual R nat_eqType cV).
Notation problem := (problem R nat_eqType cV).
Variable pm : process_model R cV n U.
Variable stamp : nat -> R.
Notation l2 := (l2_loss R).

Definition ev_type m := (seq pstate -> option (seq bool) -> result (evaluated R n m))%type.

Lemma sum_insub m (e : 'cV[R]_m) : \sum_(i < m) (if insub (i : nat) is Some i' then e i' 0 else 0) ^+ 2 = sqnorm e.
Proof. by apply: eq_bigr => i _; rewrite valK. Qed.

Lemma as_cost vars keys m (ev : ev_type m) vs e js : mapM (dindex vars) (keys : seq nat_eqType) = Ok vs ->
  ev (stamped stamp keys vs) None = Ok (e, js) -> rcost vars (as_residual stamp keys ev) l2 = 2%:R^-1 * sqnorm e.
Proof.
move=> hv he; rewrite /rcost /rnorm /rvs /= hv /vnorm.
under eq_bigr do rewrite he.
by rewrite sum_insub -mulrA -expr2 sqr_sqrtr // sumr_ge0 // => i _; rewrite sqr_ge0.
Qed.

(** *** affine residuals *)
Definition lincomb m (Js : seq 'M[R]_(m, n)) (vs : seq cV) : 'cV[R]_m := \sum_(jv <- zip Js vs) jv.1 *m jv.2.

Definition jent m (J : 'M[R]_(m, n)) (a c : nat) : R :=
  if insub a is Some a' then if insub c is Some c' then J a' c' else 0 else 0.

Lemma jent_col m (J : 'M[R]_(m, n)) (d : seq R) (a : 'I_m) :
  (J *m \col_i nth 0 d i) a 0 = \sum_(c < size d) jent J a c * nth 0 d c.
Proof.
rewrite mxE /jent valK.
pose g (c : nat) : R := (if insub c is Some c' then J a c' else 0) * nth 0 d c.
have e1 : \sum_j J a j * (\col_i nth 0 d i) j 0 = \sum_(0 <= c < n) g c.
  by rewrite big_mkord; apply: eq_bigr => c _; rewrite /g valK !mxE.
have e2 : \sum_(c < size d) (if insub (c : nat) is Some c' then J a c' else 0) * nth 0 d c = \sum_(0 <= c < size d) g c.
  by rewrite big_mkord.
rewrite e1 e2.
have z1 c : (size d <= c)%N -> g c = 0 by move=> l; rewrite /g nth_default // mulr0.
have z2 c : (n <= c)%N -> g c = 0 by move=> l; rewrite /g insubF ?mul0r // ltnNge l.
case: (leqP n (size d)) => l.
  rewrite [RHS](big_cat_nat _ _ _ _ l) //= [X in _ + X]big_nat_cond [X in _ + X]big1 ?addr0 // => c /andP [/andP [lc _] _].
  exact: z2.
rewrite [LHS](big_cat_nat _ _ _ _ (ltnW l)) //= [X in _ + X]big_nat_cond [X in _ + X]big1 ?addr0 // => c /andP [/andP [lc _] _].
exact: z1.
Qed.

Lemma lincomb_shift m (Js : seq 'M[R]_(m, n)) (vs : seq cV) (ds : seq (option (seq R))) (a : 'I_m) (i0 : nat) Jf :
  size vs = size Js -> size ds = size vs -> (forall j, (j < size Js)%N -> forall a c, Jf (i0 + j)%N a c = jent (nth 0 Js j) a c) ->
  lincomb Js [seq shift (@vec_plus R n) vd.1 vd.2 | vd <- zip vs ds] a 0 =
  lincomb Js vs a 0 + \sum_(jd <- zip (iota i0 (size ds)) ds)
     (if jd.2 is Some d then \sum_(c < size d) Jf jd.1 a c * nth 0 d c else 0).
Proof.
elim: Js vs ds i0 => [|J Js IH] [|v vs] [|d ds] i0 //=; first by rewrite /lincomb !big_nil mxE addr0.
move=> [sv] [sd] hJ; 
have cons (v' : cV) w : lincomb (J :: Js) (v' :: w) a 0 = (J *m v') a 0 + lincomb Js w a 0 by rewrite /lincomb /= big_cons mxE.
rewrite !cons big_cons /=.
rewrite (IH vs ds i0.+1) //; last by move=> j lj a' c'; rewrite addSnnS; apply: (hJ j.+1).
rewrite addrACA; congr (_ + _).
have h0 := hJ 0%N isT; rewrite addn0 /= in h0.
case: d => [d|] /=; last by rewrite addr0.
rewrite /vec_plus mulmxDr [LHS]mxE jent_col; congr (_ + _).
by apply: eq_bigr => c _; rewrite h0.
Qed.

Lemma as_affine keys m (ev : ev_type m) (Js : seq 'M[R]_(m, n)) c0 : size Js = size keys ->
  (forall vs, size vs = size keys ->
     (exists js, ev (stamped stamp keys vs) None = Ok (c0 + lincomb Js vs, js)) /\
     (exists e, ev (stamped stamp keys vs) (Some (nseq (size keys) true)) = Ok (e, Some (map Some Js)))) ->
  affine (@vec_plus R n) (as_residual stamp keys ev).
Proof.
move=> sJ h; exists (fun j => jent (nth 0 Js j)) => vs /= sv.
have [[js e1] [e e2]] := h vs sv; split.
  move=> j a c; rewrite e2; case: (ltnP j (size Js)) => lj; first by rewrite (nth_map 0).
  by rewrite !nth_default ?size_map // /jent; case: (insub a) => // a'; case: (insub c) => // c'; rewrite mxE.
move=> ds a sd la; rewrite e1.
have [[js' ->] _] := h [seq shift (@vec_plus R n) vd.1 vd.2 | vd <- zip vs ds] ltac:(by rewrite size_map size_zip sd minnn).
rewrite insubT; rewrite ![(c0 + _) _ _]mxE -addrA; congr (_ + _).
rewrite (@lincomb_shift _ Js vs ds _ 0%N (fun j => jent (nth 0 Js j))) ?sJ //.
Qed.

(** *** the residuals of a linear history *)
Section Linear.
Variables (F Q : U -> R -> 'M[R]_n) (b : U -> R -> cV).
Hypothesis lin : linear_process pm F Q b.

Lemma prior_affine L (x0 : pstate) : affine (@vec_plus R n) (prior_residual stamp L x0).
Proof.
apply: (@as_affine _ _ _ [:: L^T] (- (L^T *m sval x0))) => // -[|v [|]] // _; split; eexists; rewrite /= /prior_evaluate /=.
  by rewrite /lincomb /= big_cons big_nil /= addr0 /vec_minus mulmxBr addrC.
by rewrite /vec_minus_jac mulmx1.
Qed.

Lemma process_affine u k : pd (Q u (stamp k.+1 - stamp k)) ->
  affine (@vec_plus R n) (as_residual stamp [:: k; k.+1] (process_evaluate (@vec_minus R n) (@vec_minus_jac R n) pm u)).
Proof.
set dt := _ - _ => hQ; have [L [eL _ _ _]] := C37_sqrt_information hQ.
apply: (@as_affine _ _ _ [:: - L^T *m F u dt; L^T] (- (L^T *m b u dt))) => // -[|v [|w [|]]] // _.
split; eexists; rewrite /= /process_evaluate /= -/dt; have [e1 e2 e3] := lin (PState v (Some (stamp k))) u dt; rewrite e3 eL /= ?e1 ?e2.
  rewrite /lincomb /= !big_cons big_nil /= addr0 /vec_minus; congr (Ok (_, _)); rewrite mulmxBr mulmxDr !mulNmx mulmxA; zmod.
by rewrite /vec_minus_jac mulmx1.
Qed.

Lemma measurement_affine (y : measurement) H h Rm k : @linear_measurement R n y H h Rm -> pd Rm ->
  affine (@vec_plus R n) (as_residual stamp [:: k] (measurement_evaluate y)).
Proof.
move=> ly hR; have [L [eL _ _ _]] := C37_sqrt_information hR.
apply: (@as_affine _ _ _ [:: - L^T *m H] (L^T *m (m_val y - h))) => // -[|v [|]] // _.
have [e1 e2 e3] := ly (PState v (Some (stamp k))).
split; eexists; rewrite /= /measurement_evaluate /= e1 e3 eL /= ?e2 //.
rewrite /lincomb /= !big_cons big_nil /= addr0; congr (Ok (_, _)); rewrite !mulmxBr mulmxDr !mulNmx mulmxA; zmod.
Qed.

(** keys of a history starting at step k *)
Lemma history_residuals k t evs r : linear_history Q t evs ->
  (forall j, (j <= steps evs)%N -> stamp (k + j) = nth 0 (times t evs) j) ->
  List.In r (event_residuals pm stamp k evs) ->
  affine (@vec_plus R n) r /\ uniq (r_keys r) /\ all (fun j => (k <= j <= k + steps evs)%N) (r_keys r).
Proof.
elim: evs k t => [|[u dt|y] evs IH] k t //=.
  case=> dt0 hQ hh st; have nt : (nth 0 (times (t + dt) evs) 0) = t + dt by elim: (evs) (t + dt) => [|[u' dt'|y'] e' IH'] t' //=.
  case=> [<-|hin]; last first.
    have [a1 [a2 a3]] := IH k.+1 (t + dt) hh (fun j lj => ltac:(by rewrite addSnnS st)) hin.
    split=> //; split=> //; apply/allP => j jin; have /andP [l1 l2] := (allP a3) j jin.
    by rewrite (leq_trans (leqnSn k) l1) /steps /= -/(steps evs) -addSnnS l2.
  have s0 := st 0%N isT; have s1 := st 1%N isT; rewrite addn0 /= in s0; rewrite addn1 /= nt in s1.
  split; last by rewrite /= inE neq_ltn ltnSn /= leqnn leqnSn /steps /= -/(steps evs) !leq_addr /= -addSnnS leq_addr.
  by apply: process_affine; rewrite s0 s1 [t + dt]addrC addrK.
case=> [[H [h [Rm [ly hR]]]] _ hh] st; case=> [<-|hin]; last exact: IH hh st hin.
by split; [exact: measurement_affine ly hR|rewrite /= leqnn leq_addr].
Qed.

Lemma history_sum vars (x : nat -> cV) k t evs : linear_history Q t evs ->
  (forall j, (j <= steps evs)%N -> stamp (k + j) = nth 0 (times t evs) j) ->
  (forall j, (j <= steps evs)%N -> dget vars (k + j)%N = Some (x (k + j)%N)) ->
  \sum_(r <- event_residuals pm stamp k evs) rcost vars r l2 = 2%:R^-1 * history_cost pm k t evs x.
Proof.
elim: evs k t => [|[u dt|y] evs IH] k t /=; first by rewrite big_nil mulr0.
  case=> dt0 hQ hh st hv; have nt : (nth 0 (times (t + dt) evs) 0) = t + dt by elim: (evs) (t + dt) => [|[u' dt'|y'] e' IH'] t' //=.
  rewrite big_cons (IH k.+1 (t + dt)) // => [|j lj|j lj]; [|by rewrite addSnnS st|by rewrite addSnnS hv].
  have s0 := st 0%N isT; have s1 := st 1%N isT; rewrite addn0 /= in s0; rewrite addn1 /= nt in s1.
  have v0 := hv 0%N isT; have v1 := hv 1%N isT; rewrite addn0 in v0; rewrite addn1 in v1.
  rewrite mulrDr; congr (_ + _).
  have edt : stamp k.+1 - stamp k = dt by rewrite s0 s1 [t + dt]addrC addrK.
  have [_ _ e3] := lin (PState (x k) (Some t)) u dt.
  have hq : pd (pm_cov pm (PState (x k) (Some (stamp k))) u (stamp k.+1 - stamp k)) by rewrite edt s0 e3.
  have [//|e [js [he sq]]] := @C37_process _ _ _ (@vec_minus R n) (@vec_minus_jac R n) _ pm u (PState (x k) (Some (stamp k))) (PState (x k.+1) (Some (stamp k.+1))) [::] _ _ None (erefl _) (erefl _) hq.
  apply: (etrans (@as_cost vars [:: k; k.+1] n (process_evaluate (@vec_minus R n) (@vec_minus_jac R n) pm u) [:: x k; x k.+1] e js _ he)).
    by rewrite /= /dindex v0 v1.
  by rewrite sq edt s0.
case=> [[H [h [Rm [ly hR]]]] _ hh] st hv; rewrite big_cons (IH k t) // mulrDr; congr (_ + _).
have nt : (nth 0 (times t evs) 0) = t by elim: (evs) t {ly hR hh st hv IH} => [|[u' dt'|y'] e' IH'] t' //=.
have s0 := st 0%N isT; rewrite addn0 nt in s0; have v0 := hv 0%N isT; rewrite addn0 in v0.
have [e1 _ e3] := ly (PState (x k) (Some t)).
have hr : pd (m_cov y (PState (x k) (Some t))) by rewrite e3.
have [e [js [he sq]]] := @C37_measurement _ _ _ y (PState (x k) (Some t)) [::] None _ e1 hr.
rewrite e1 -sq; apply: (@as_cost vars [:: k] _ (measurement_evaluate y) [:: x k] e js); first by rewrite /= /dindex v0.
by rewrite /stamped /= s0.
Qed.

Lemma prior_cost vars x0 (P0 L : 'M[R]_n) t (x : nat -> cV) : pd P0 -> prior_init P0 = Ok L -> dget vars 0%N = Some (x 0%N) ->
  rcost vars (prior_residual stamp L (PState x0 t)) l2 = 2%:R^-1 * mahalanobis P0 (x 0%N - x0).
Proof.
move=> hP eL v0; have [e [js [he sq]]] := @C37_prior _ _ _ (@vec_minus R n) (@vec_minus_jac R n) (PState x0 t) P0 L (PState (x 0%N) (Some (stamp 0))) [::] None hP eL.
by rewrite -[_ - _]/(vec_minus (x 0%N) x0) -sq; apply: (@as_cost vars [:: 0%N] n (prior_evaluate (@vec_minus R n) (@vec_minus_jac R n) L (PState x0 t)) [:: x 0%N] e js _ he); rewrite /= /dindex v0.
Qed.
End Linear.

Lemma sum_permutation (T : Type) (f : T -> R) s1 s2 : Permutation s1 s2 -> \sum_(i <- s1) f i = \sum_(i <- s2) f i.
Proof.
elim=> [|a l l' _ IH|a a' l|l l' l'' _ -> _ ->] //; first by rewrite !big_cons IH.
by rewrite !big_cons addrCA.
Qed.
Lemma zip_nseq_sum (s : seq residual) (f : residual -> loss R -> R) :
  \sum_(rl <- zip s (nseq (size s) l2)) f rl.1 rl.2 = \sum_(r <- s) f r l2.
Proof. by elim: s => [|r s IH] /=; rewrite ?big_nil // !big_cons /= IH. Qed.
End Batch.
