(** C23-C25: sigma points, sigma-point filter on linear models, mean_state. *)
From mathcomp Require Import all_ssreflect all_algebra.
From Verif Require Import Base Tac LinAlg CompositeProof EkfModel EkfProps SigmaModel.
Set Implicit Arguments.
Unset Strict Implicit.
Unset Printing Implicit Defensive.
Import Order.Theory GRing.Theory Num.Theory.
Local Open Scope ring_scope.

(** A weighted point set with the moments of N(0, I). *)
Definition standard_moments (R : fieldType) n (sig : seq (R * 'cV[R]_n)) : Prop :=
  [/\ \sum_(p <- sig) p.1 = 1,
      \sum_(p <- sig) p.1 *: p.2 = 0 &
      \sum_(p <- sig) p.1 *: (p.2 *m p.2^T) = 1%:M].

Section Points.
Variable R : rcfType.

Lemma big_map_enum (Z : zmodType) T n (f : 'I_n -> T) (F : T -> Z) :
  \sum_(p <- [seq f i | i <- enum 'I_n]) F p = \sum_(i < n) F (f i).
Proof. by rewrite big_map big_enum. Qed.

Lemma sum_delta_outer n : \sum_(i < n) (delta_mx i 0 : 'cV[R]_n) *m (delta_mx i 0)^T = 1%:M.
Proof.
under eq_bigr do rewrite trmx_delta mul_delta_mx.
by rewrite -mx1_sum_delta.
Qed.

(** C23: unscented points. *)
Theorem C23_unscented n : standard_moments (unscented R n).
Proof.
have h0 : (n%:R + 2%:R : R) != 0 by rewrite -natrD pnatr_eq0 addn2.
have h2 : (2%:R : R) != 0 by rewrite pnatr_eq0.
rewrite /standard_moments /unscented; split; rewrite big_cons big_cat !big_map_enum /=.
- have e (c : R) : c *+ n + c *+ n = n%:R * (2%:R * c) by rewrite -(mulr_natl c n); rng.
  rewrite !sumr_const card_ord div1r e invfM.
  by rewrite [2%:R * (_ * _)]mulrA divff // mul1r -mulrDl addrC divff.
- rewrite scaler0 scaler0 add0r -big_split big1 // => i _ /=.
  by rewrite !scalerN subrr.
- rewrite scaler0 mul0mx scaler0 add0r.
  have e (i : 'I_n) (s : 'cV[R]_n) : s *m s^T = (delta_mx i 0 : 'cV[R]_n) *m (delta_mx i 0)^T ->
    1 / (2%:R * (n%:R + 2%:R)) *: ((Num.sqrt (n%:R + 2%:R) *: s) *m (Num.sqrt (n%:R + 2%:R) *: s)^T)
    = 2%:R^-1 *: ((delta_mx i 0 : 'cV[R]_n) *m (delta_mx i 0)^T).
    move=> es; rewrite linearZ /= -scalemxAl -scalemxAr es !scalerA; congr (_ *: _).
    rewrite -mulrA -expr2 sqr_sqrtr; last by rewrite addr_ge0 ?ler0n.
    by rewrite mul1r invfM -mulrA mulVf // mulr1.
  rewrite -big_split /=; under eq_bigr => i _.
    rewrite (e i) // (e i); last by rewrite linearN /= mulmxN mulNmx opprK.
    rewrite -scalerDl -mulr2n -[X in X *: _]mulr_natl divff // scale1r.
  over.
  exact: sum_delta_outer.
Qed.

(** C23: cubature points (dof >= 1). *)
Theorem C23_cubature n : (0 < n)%N -> standard_moments (cubature R n).
Proof.
move=> n0; have h0 : (n%:R : R) != 0 by rewrite pnatr_eq0 -lt0n.
have h2 : (2%:R : R) != 0 by rewrite pnatr_eq0.
rewrite /standard_moments /cubature; split; rewrite big_cat !big_map_enum /=.
- have e (c : R) : c *+ n + c *+ n = n%:R * (2%:R * c) by rewrite -(mulr_natl c n); rng.
  rewrite !sumr_const card_ord div1r e invfM.
  by rewrite [2%:R * (_ * _)]mulrA divff // mul1r divff.
- rewrite -big_split big1 // => i _ /=.
  by rewrite !scalerN subrr.
- have e (i : 'I_n) (s : 'cV[R]_n) : s *m s^T = (delta_mx i 0 : 'cV[R]_n) *m (delta_mx i 0)^T ->
    1 / (2%:R * n%:R) *: ((Num.sqrt n%:R *: s) *m (Num.sqrt n%:R *: s)^T)
    = 2%:R^-1 *: ((delta_mx i 0 : 'cV[R]_n) *m (delta_mx i 0)^T).
    move=> es; rewrite linearZ /= -scalemxAl -scalemxAr es !scalerA; congr (_ *: _).
    rewrite -mulrA -expr2 sqr_sqrtr ?ler0n //.
    by rewrite mul1r invfM -mulrA mulVf // mulr1.
  rewrite -big_split /=; under eq_bigr => i _.
    rewrite (e i) // (e i); last by rewrite linearN /= mulmxN mulNmx opprK.
    rewrite -scalerDl -mulr2n -[X in X *: _]mulr_natl divff // scale1r.
  over.
  exact: sum_delta_outer.
Qed.

(** Tensor-product rule: sums over all base-3 digit strings factor. *)
Lemma sum_digits n (g : nat -> nat -> R) :
  \sum_(i <- iota 0 (3 ^ n)) \prod_(j < n) g j (digit i j) =
  \prod_(j < n) \sum_(r < 3) g j r.
Proof.
elim: n g => [|n IH] g; first by rewrite /= big_seq1 !big_ord0.
rewrite [RHS]big_ord_recl -(IH (fun j => g j.+1)).
have block m (f : nat -> R) : \sum_(i <- iota 0 (3 * m)) f i =
   \sum_(q <- iota 0 m) \sum_(r < 3) f (3 * q + r)%N.
  elim: m => [|m IHm]; first by rewrite muln0 !big_nil.
  rewrite mulnS addnC iotaD big_cat IHm add0n -[in RHS]addn1 iotaD big_cat add0n; congr (_ + _).
  rewrite [iota m 1]/= big_seq1 [iota _ 3]/= !big_cons big_nil !big_ord_recl big_ord0 /= /bump /=.
  by rewrite !addn0 !addn1 !addr0 !addn2.
rewrite expnS block mulr_sumr; apply: eq_bigr => q _.
rewrite mulr_suml; apply: eq_bigr => r _.
rewrite big_ord_recl; congr (_ * _).
  by rewrite /digit /= mulnC modnMDl modn_small.
apply: eq_bigr => j _; congr (g _ _).
rewrite /digit /bump iterSr.
by rewrite [(3 * q)%N]mulnC divnMDl // divn_small // addn0.
Qed.

Lemma gh_sum0 : \sum_(r < 3) gh_weight R r = 1.
Proof.
have s3 : Num.sqrt 3%:R ^+ 2 = 3%:R :> R by rewrite sqr_sqrtr ?ler0n.
rewrite !big_ord_recl big_ord0 /gh_weight /hermitenorm2 /gh_point /= sqrrN s3 expr0n /= sub0r.
have n36 : (36%:R : R) != 0 by rewrite pnatr_eq0.
have -> : (3%:R * (3%:R - 1)) ^+ 2 = 36%:R :> R by rng.
have -> : (3%:R * -1) ^+ 2 = 9%:R :> R by rng.
have -> : 9%:R^-1 = 4%:R / 36%:R :> R.
  apply: (mulIf n36); rewrite [RHS]mulfVK // (_ : 36%:R = 9%:R * 4%:R :> R); last by rng.
  by rewrite mulKf // pnatr_eq0.
rewrite (_ : 3`! = 6)%N //; have h36 : 36%:R / 36%:R = 1 :> R by rewrite divff.
by rewrite -[RHS]h36; rng.
Qed.

Lemma gh_sum1 : \sum_(r < 3) gh_weight R r * gh_point R r = 0.
Proof.
rewrite !big_ord_recl big_ord0 /gh_weight /hermitenorm2 /gh_point /= sqrrN mulr0 add0r addr0.
by rewrite mulrN addrC subrr.
Qed.

Lemma gh_sum2 : \sum_(r < 3) gh_weight R r * gh_point R r ^+ 2 = 1.
Proof.
have s3 : Num.sqrt 3%:R ^+ 2 = 3%:R :> R by rewrite sqr_sqrtr ?ler0n.
rewrite !big_ord_recl big_ord0 /gh_weight /hermitenorm2 /gh_point /= sqrrN s3 expr0n /= mulr0 add0r addr0.
have n36 : (36%:R : R) != 0 by rewrite pnatr_eq0.
have -> : (3%:R * (3%:R - 1)) ^+ 2 = 36%:R :> R by rng.
rewrite (_ : 3`! = 6)%N //; have h36 : 36%:R / 36%:R = 1 :> R by rewrite divff.
by rewrite -[RHS]h36; rng.
Qed.

(** C23: third-order Gauss-Hermite points. *)
Theorem C23_gauss_hermite n : standard_moments (gauss_hermite R n).
Proof.
split; rewrite /gauss_hermite big_map.
- rewrite (sum_digits n (fun _ => gh_weight R)) big1 // => j _; exact: gh_sum0.
- apply/matrixP => k l; rewrite summxE mxE.
  have -> : \sum_(i <- iota 0 (3 ^ n)) ((\prod_(j < n) gh_weight R (digit i j)) *: \col_j gh_point R (digit i j)) k l
    = \sum_(i <- iota 0 (3 ^ n)) \prod_(j < n) (if j == k :> nat then gh_weight R (digit i j) * gh_point R (digit i j) else gh_weight R (digit i j)).
    apply: eq_bigr => i _; rewrite !mxE (bigD1 k) //= [in RHS](bigD1 k) //= eqxx mulrAC.
    by congr (_ * _); apply: eq_bigr => j /negbTE; rewrite -val_eqE /= => ->.
  rewrite (sum_digits n (fun j r => if j == k :> nat then gh_weight R r * gh_point R r else gh_weight R r)).
  by rewrite (bigD1 k) //= eqxx gh_sum1 mul0r.
- apply/matrixP => k l; rewrite summxE mxE.
  have -> : \sum_(i <- iota 0 (3 ^ n)) ((\prod_(j < n) gh_weight R (digit i j)) *: ((\col_j gh_point R (digit i j)) *m (\col_j gh_point R (digit i j))^T)) k l
    = \sum_(i <- iota 0 (3 ^ n)) \prod_(j < n) (gh_weight R (digit i j) * (if j == k :> nat then gh_point R (digit i j) else 1) * (if j == l :> nat then gh_point R (digit i j) else 1)).
    apply: eq_bigr => i _; rewrite !mxE big_ord1 !mxE.
    have pick (c : 'I_n) : \prod_(j < n) (if j == c :> nat then gh_point R (digit i j) else 1) = gh_point R (digit i c).
      rewrite (bigD1 c) //= eqxx big1 ?mulr1 // => j /negbTE; by rewrite -val_eqE /= => ->.
    by rewrite [RHS]big_split [X in _ = X * _]big_split /= (pick k) (pick l) mulrA.
  rewrite (sum_digits n (fun j r => gh_weight R r * (if j == k :> nat then gh_point R r else 1) * (if j == l :> nat then gh_point R r else 1))).
  case: (eqVneq k l) => [<-|ne].
    rewrite big1 ?eqxx // => j _; case: (j == k :> nat).
      by rewrite -gh_sum2; apply: eq_bigr => r _ /=; rewrite expr2 mulrA.
    by under eq_bigr do rewrite !mulr1; exact: gh_sum0.
  rewrite (bigD1 k) //= eqxx.
  have -> : (k == l :> nat) = false by apply/negbTE; rewrite val_eqE.
  under eq_bigr do rewrite mulr1.
  by rewrite gh_sum1 mul0r.
Qed.
End Points.

(** ** C25: mean_state *)
Section MeanProps.
Variable R : realFieldType.

Lemma foldl_sum (Z : zmodType) T (F : T -> Z) (s : seq T) a :
  foldl (fun acc p => acc + F p) a s = a + \sum_(p <- s) F p.
Proof.
elim: s a => [|p s IH] a; first by rewrite big_nil addr0.
by rewrite /= IH big_cons addrA.
Qed.

(** Vector states carrying a stamp. *)
Notation vstate n := (pstate R 'cV[R]_n).
Definition vplus n (x d : 'cV[R]_n) : 'cV[R]_n := x + d.
Definition vminus n (x y : 'cV[R]_n) : 'cV[R]_n := x - y.

Lemma mean_loop_vec n (norm : 'cV[R]_n -> R) (xs : seq (R * vstate n)) it (x0 : vstate n) :
  norm 0 = 0 -> \sum_(p <- xs) p.1 = 1 ->
  mean_loop (pplus (@vplus n)) (fun a b => vminus (sval a) (sval b)) norm it.+2 xs x0 =
  PState (\sum_(p <- xs) p.1 *: sval p.2) (sstamp x0).
Proof.
move=> n0 w1.
have e (x : vstate n) : sval x + mean_err (fun a b => vminus (sval a) (sval b)) xs x =
    \sum_(p <- xs) p.1 *: sval p.2.
  rewrite /mean_err foldl_sum add0r.
  under eq_bigr do rewrite scalerBr.
  by rewrite sumrB -scaler_suml w1 scale1r addrC subrK.
set y := PState _ _.
have ey (x : vstate n) : sstamp x = sstamp x0 ->
    pplus (@vplus n) x (mean_err (fun a b => vminus (sval a) (sval b)) xs x) = y.
  by move=> st; rewrite /pplus /vplus e st.
have z : mean_err (fun a b => vminus (sval a) (sval b)) xs y = 0.
  by apply: (@addrI _ (sval y)); rewrite e addr0.
have em6_ge0 : (em6 R < 0) = false by apply/negbTE; rewrite -leNgt invr_ge0 exprn_ge0 ?ler0n.
rewrite [mean_loop _ _ _ _.+2 _ _]/= (ey x0) //.
by case: ifP => // _; rewrite z n0 em6_ge0 -z (ey y).
Qed.

(** C25: on vector states with weights summing to one the result is the
    weighted average (whatever the first state is), with the first state's
    stamp. *)
Theorem C25_weighted_mean n (norm : 'cV[R]_n -> R) (xs : seq (R * vstate n)) w0 x0 :
  norm 0 = 0 -> \sum_(p <- (w0, x0) :: xs) p.1 = 1 ->
  mean_state (pplus (fun x d => x + d)) (fun a b => sval a - sval b) norm ((w0, x0) :: xs) =
  Ok (PState (\sum_(p <- (w0, x0) :: xs) p.1 *: sval p.2) (sstamp x0)).
Proof. by move=> n0 w1; rewrite /mean_state (mean_loop_vec 49 x0 n0 w1). Qed.

(** C25: order of the list does not matter for the value. *)
Theorem C25_order_irrelevant n (norm : 'cV[R]_n -> R) (xs ys : seq (R * vstate n)) a b :
  norm 0 = 0 -> \sum_(p <- xs) p.1 = 1 ->
  perm_eq [seq (p.1, sval p.2) | p <- xs] [seq (p.1, sval p.2) | p <- ys] ->
  mean_state (pplus (fun x d => x + d)) (fun a b => sval a - sval b) norm xs = Ok a ->
  mean_state (pplus (fun x d => x + d)) (fun a b => sval a - sval b) norm ys = Ok b ->
  sval a = sval b.
Proof.
move=> n0 w1 pe.
have s1 : \sum_(p <- ys) p.1 = 1.
  by rewrite -w1 -!(big_map (fun p => (p.1, sval p.2)) xpredT fst) (perm_big _ pe).
have s2 : \sum_(p <- xs) p.1 *: sval p.2 = \sum_(p <- ys) p.1 *: sval p.2.
  by rewrite -!(big_map (fun p => (p.1, sval p.2)) xpredT (fun q => q.1 *: q.2)) (perm_big _ pe).
case: xs w1 s2 {pe} => [|[wx x] xs] w1 s2 //; case: ys s1 s2 => [|[wy y] ys] s1 s2 //.
rewrite (C25_weighted_mean n0 w1) (C25_weighted_mean n0 s1) => -[<-] [<-] /=; exact: s2.
Qed.

(** C25: for any kind of state, mean_state is defined on every nonempty list
    and makes between 1 and 51 passes x <- x + sum w_i (x_i - x). *)
Theorem C25_bounded_iterations (X : Type) n (plus : X -> 'cV[R]_n -> X) minus norm (xs : seq (R * X)) w0 x0 :
  exists k, [/\ (0 < k)%N, (k <= 51)%N &
   mean_state plus minus norm ((w0, x0) :: xs) =
   Ok (iter k (fun x => plus x (\sum_(p <- (w0, x0) :: xs) p.1 *: minus p.2 x)) x0)].
Proof.
rewrite /mean_state; set ys := _ :: xs.
have gen m x : exists k, [/\ (0 < k)%N, (k <= m.+1)%N & mean_loop plus minus norm m.+1 ys x =
   iter k (fun x => plus x (\sum_(p <- ys) p.1 *: minus p.2 x)) x].
  elim: m x => [|m IH] x.
    exists 1%N; split=> //; rewrite [mean_loop _ _ _ _ _ _]/= /mean_err foldl_sum add0r.
    by case: ifP.
  rewrite [mean_loop _ _ _ _ _ _]/= /mean_err foldl_sum add0r.
  case: ifP => _; last by exists 1%N.
  have [k [k0 km e]] := IH (plus x (\sum_(p <- ys) p.1 *: minus p.2 x)).
  by exists k.+1; split=> //; rewrite iterSr -e.
have [k [k0 k51 e]] := gen 50%N x0.
by exists k; split=> //; rewrite e.
Qed.

(** No states: IndexError. *)
Theorem C25_empty_raises (X : Type) n (plus : X -> 'cV[R]_n -> X) minus norm :
  mean_state plus minus norm [::] = Raise IndexError.
Proof. by []. Qed.
End MeanProps.

(** ** C24: linear-Gaussian models *)
Section Linear.
Variable R : realFieldType.
Variables (n nu : nat).
Notation cV := 'cV[R]_n.
Variable norm : 'cV[R]_n -> R.
Hypothesis norm0 : norm 0 = 0.
Variable cholesky : forall k, 'M[R]_k -> result 'M[R]_k.
(* numpy's cholesky reads the lower triangle only: nothing is assumed for asymmetric input *)
Hypothesis choleskyP : forall k (A L : 'M[R]_k), A^T = A -> cholesky A = Ok L -> L *m L^T = A.
Variable points : forall k, seq (R * 'cV[R]_k).
Hypothesis pointsP : forall k, (0 < k)%N -> standard_moments (points k).
Variable chi2_99 : nat -> R.
Variable iterate_mean : bool.

(** x_k = F x + B u + c *)
Variables (F : R -> 'M[R]_n) (B : R -> 'M[R]_(n, nu)) (c : R -> 'cV[R]_n).
Definition lin_eval (s : pstate R cV) (u : 'cV[R]_nu) (dt : R) : pstate R cV :=
  PState (F dt *m sval s + B dt *m u + c dt) (sstamp s).

Let predict := spkf_predict (fun x d : cV => x + d) (fun a b => a - b) (fun u d : 'cV[R]_nu => u + d)
                 norm lin_eval cholesky points iterate_mean.
Let correct := spkf_correct (fun x d : cV => x + d) (fun a b => a - b) (fun u d : 'cV[R]_nu => u + d)
                 norm lin_eval cholesky points chi2_99 iterate_mean.

Lemma moments_affine k m (w : seq (R * 'cV[R]_k)) (A : 'M[R]_(m, k)) a : standard_moments w ->
  \sum_(p <- w) p.1 *: (a + A *m p.2) = a.
Proof.
case=> w1 w2 _; under eq_bigr do rewrite scalerDr.
rewrite big_split /= -scaler_suml w1 scale1r.
under eq_bigr do rewrite scalemxAr.
by rewrite -mulmx_sumr w2 mulmx0 addr0.
Qed.

Lemma moments_outer k m q (w : seq (R * 'cV[R]_k)) (A : 'M[R]_(m, k)) (A' : 'M[R]_(q, k)) : standard_moments w ->
  \sum_(p <- w) p.1 *: ((A *m p.2) *m (A' *m p.2)^T) = A *m A'^T.
Proof.
case=> _ _ w3.
have e (p : R * 'cV[R]_k) : p.1 *: ((A *m p.2) *m (A' *m p.2)^T) = A *m (p.1 *: (p.2 *m p.2^T)) *m A'^T.
  by rewrite trmx_mul !mulmxA -scalemxAr -scalemxAl !mulmxA.
by under eq_bigr do rewrite e; rewrite -mulmx_suml -mulmx_sumr w3 mulmx1.
Qed.

(** C24: predict gives F x + B u + c and F P F^T + B Q B^T, for every square
    root of diag(P, Q) and every point rule with standard moments; with the
    mean iterated or not. *)
Theorem C24_predict (x : est R cV n) (u : input R 'cV[R]_nu nu) dt t (Q : 'M[R]_nu) L :
  (0 < n + nu)%N -> 0 <= dt -> sstamp (est_state x) = Some t ->
  (est_cov x)^T = est_cov x -> Q^T = Q ->
  cholesky (block_mx (est_cov x) 0 0 Q) = Ok L ->
  predict x (Some u) (Some dt) (Some Q) =
  Ok (Est (PState (F dt *m sval (est_state x) + B dt *m u_val u + c dt) (Some (t + dt)))
          (F dt *m est_cov x *m (F dt)^T + B dt *m Q *m (B dt)^T)).
Proof.
move=> npos dt0 st sP sQ ch; have std := pointsP npos.
have sym : (block_mx (est_cov x) 0 0 Q)^T = block_mx (est_cov x) 0 0 Q by rewrite tr_block_mx sP sQ !trmx0.
have LL := choleskyP sym ch.
set m := F dt *m _ + _ + _.
rewrite /predict /spkf_predict st /= ltNge dt0 /= ch /=.
set prop := [seq _ | p <- points _].
have propE : prop = [seq (p.1, PState (m + (row_mx (F dt) (B dt) *m L) *m p.2) (Some t)) | p <- points (n + nu)].
  apply: eq_map => p; congr (_, _); rewrite /lin_eval /pplus /= st; congr (PState _ _).
  rewrite -mulmxA -{3}[L *m p.2]vsubmxK mul_row_col !mulmxDr /m.
  by zmod.
have pne : points (n + nu) != [::].
  by apply/eqP => e; case: std; rewrite e big_nil => /eqP; rewrite eq_sym oner_eq0.
have -> : (if iterate_mean then mean_state (pplus (fun x0 d : cV => x0 + d)) (fun a b => sval a - sval b) norm prop
           else Ok (lin_eval (est_state x) (u_val u) dt)) = Ok (PState m (Some t)).
  case: iterate_mean; last by rewrite /lin_eval st.
  case e : prop => [|[w0 x0] ys].
    by move: pne; rewrite -size_eq0 -(size_map (fun p => (p.1, PState (m + (row_mx (F dt) (B dt) *m L) *m p.2) (Some t)))) -propE e.
  rewrite C25_weighted_mean //.
    rewrite -e propE big_map /= moments_affine //.
    by move: e; rewrite propE; case: (points _) => //= p q [_ <- _].
  by rewrite -e propE big_map /=; case: std.
rewrite /= foldl_sum add0r propE big_map /=.
have -> : \sum_(j <- points (n + nu)) j.1 *: ((m - (m + row_mx (F dt) (B dt) *m L *m j.2)) *m (m - (m + row_mx (F dt) (B dt) *m L *m j.2))^T)
  = F dt *m est_cov x *m (F dt)^T + B dt *m Q *m (B dt)^T.
  under eq_bigr do rewrite opprD addNKr linearN /= mulNmx mulmxN opprK.
  rewrite moments_outer // trmx_mul mulmxA -[_ *m L *m L^T]mulmxA LL.
  by rewrite mul_row_block tr_row_mx mul_row_col !mulmx0 addr0 add0r.
rewrite /symmetrize symmetrize_id //.
by rewrite linearD /= !trmx_mul !trmxK sP sQ !mulmxA.
Qed.

(** The same step of ExtendedKalmanFilter, given the process model with this
    transition, Jacobian F and covariance B Q B^T. *)
Definition lin_pm (Q : 'M[R]_nu) : process_model R cV n (input R 'cV[R]_nu nu) :=
  ProcessModel (fun s u dt => lin_eval s (u_val u) dt) (fun _ _ dt => F dt)
               (fun _ _ dt => B dt *m Q *m (B dt)^T).

(** C24: predict agrees with the extended Kalman filter. *)
Theorem C24_predict_eq_ekf (x : est R cV n) (u : input R 'cV[R]_nu nu) dt t (Q : 'M[R]_nu) L :
  (0 < n + nu)%N -> 0 <= dt -> sstamp (est_state x) = Some t ->
  (est_cov x)^T = est_cov x -> Q^T = Q ->
  cholesky (block_mx (est_cov x) 0 0 Q) = Ok L ->
  predict x (Some u) (Some dt) (Some Q) =
  ekf_predict (@u_stamp R _ nu) (lin_pm Q) x (Some u) (Some dt) None.
Proof.
move=> npos dt0 st sP sQ ch; rewrite (C24_predict u npos dt0 st sP sQ ch).
rewrite /ekf_predict st /= ltNge dt0 /= /symmetrize symmetrize_id //.
by rewrite linearD /= !trmx_mul !trmxK sP sQ !mulmxA.
Qed.

Lemma mapM_ok A C (f : A -> result C) (g : A -> C) (s : seq A) : (forall a, f a = Ok (g a)) -> mapM f s = Ok (map g s).
Proof. by move=> e; elim: s => //= a s ->; rewrite e. Qed.

(** y = H x + h + noise of covariance m_cov y *)
Definition linear_meas (y : measurement R cV n) (H : 'M[R]_(m_dim y, n)) h : Prop :=
  (forall s, m_eval y s = Some (H *m sval s + h)) /\ (forall s, m_jac y s = H).

(** C24: correct (no input; measurement not in the past) agrees with the
    extended Kalman filter, outlier rejection on or off. *)
Theorem C24_correct_eq_ekf (x : est R cV n) y (H : 'M[R]_(m_dim y, n)) h Q L rej :
  (0 < n)%N -> linear_meas H h ->
  (forall ty tx, m_stamp y = Some ty -> sstamp (est_state x) = Some tx -> tx <= ty) ->
  (est_cov x)^T = est_cov x -> cholesky (est_cov x) = Ok L ->
  correct x y None rej =
  ekf_correct (fun x d : cV => x + d) (@u_stamp R _ nu) (lin_pm Q) chi2_99 x y None None rej.
Proof.
move=> npos [ev jac] late sP ch.
have std := pointsP npos; have LL := choleskyP sP ch.
rewrite /correct /spkf_correct /ekf_correct /ekf_advance.
have ecov : est_cov (load_stamp x (m_stamp y)) = est_cov x by rewrite /load_stamp; case: (sstamp _).
have late' ty tx : m_stamp y = Some ty -> sstamp (est_state (load_stamp x (m_stamp y))) = Some tx -> 0 <= ty - tx.
  rewrite subr_ge0 /load_stamp => e; case e' : (sstamp (est_state x)) => [t|] /=; first by rewrite e' => -[<-]; exact: late e e'.
  by rewrite e => -[->].
have nn : - e10 R <= 0 by rewrite oppr_le0 exprn_ge0 // ler0n.
set x1 := load_stamp _ _ in ecov late' *.
have -> : match m_stamp y with Some ty => match sstamp (est_state x1) with
     | Some tx => if ty - tx < - e10 R then Raise RuntimeError else Ok x1 | None => Raise TypeError end | None => Ok x1 end
  = match m_stamp y, sstamp (est_state x1) with | Some ty, Some tx => if ty - tx < 0 then Raise RuntimeError else Ok x1
     | Some _, None => Raise TypeError | None, _ => Ok x1 end.
  case e : (m_stamp y) => [ty|] //; case e' : (sstamp (est_state x1)) => [tx|] //.
  by have l := late' _ _ e e'; rewrite !ltNge l (le_trans nn l).
have -> : match m_stamp y, sstamp (est_state x1) with | Some ty, Some tx => if ty - tx < 0 then Raise RuntimeError else Ok x1
     | Some _, None => Raise TypeError | None, _ => Ok x1 end = Ok x1.
  case e : (m_stamp y) => [ty|] //; case e' : (sstamp (est_state x1)) => [tx|].
    by rewrite ltNge late'.
  by move: e'; rewrite /x1 /load_stamp; case e2 : (sstamp (est_state x)) => [t|] /=; rewrite ?e2 // e.
rewrite /= ecov ch /= !ev jac.
rewrite (mapM_ok (g := fun p : R * cV => (p.1, p.2, H *m sval (est_state x1) + h + H *m p.2))); last first.
  by move=> p; rewrite ev /= mulmxDr; congr (Ok (_, _)); zmod.
rewrite /= -map_comp !foldl_sum !add0r !big_map /=.
set yc := H *m _ + h.
have em : \sum_(j <- points n) j.1 *: (yc + H *m (L *m j.2)) = yc.
  by under eq_bigr do rewrite mulmxA; exact: moments_affine.
rewrite em.
have -> : \sum_(j <- points n) j.1 *: ((yc + H *m (L *m j.2) - yc) *m (yc + H *m (L *m j.2) - yc)^T) = H *m est_cov x *m H^T.
  under eq_bigr do rewrite addrAC subrr add0r mulmxA.
  by rewrite moments_outer // trmx_mul mulmxA -[H *m L *m _]mulmxA LL.
have -> : \sum_(j <- points n) j.1 *: ((L *m j.2) *m (yc + H *m (L *m j.2) - yc)^T) = est_cov x *m H^T.
  under eq_bigr do rewrite addrAC subrr add0r [H *m _]mulmxA.
  by rewrite moments_outer // trmx_mul mulmxA LL.
case: (if rej then _ else _) => //= -[] //.
rewrite /kalman_gain; case: (np_solve _ _) => //= Kt.
by rewrite trmx_mul trmxK sP mulmxBl mul1mx !mulmxA.
Qed.

(** C24: with an input, correct is predict to the measurement's stamp followed
    by correct there, for every measurement not in the past. *)
Theorem C24_correct_predicts_first (x x' : est R cV n) y u tx ty rej :
  m_stamp y = Some ty -> sstamp (est_state x) = Some tx -> tx <= ty ->
  predict x (Some u) (Some (ty - tx)) None = Ok x' -> sstamp (est_state x') = Some ty ->
  correct x y (Some u) rej = correct x' y None rej.
Proof.
move=> ey ex le e e'; rewrite /predict in e.
have ls : load_stamp x (Some ty) = x by rewrite /load_stamp ex.
have ls' : load_stamp x' (Some ty) = x' by rewrite /load_stamp e'.
by rewrite /correct /spkf_correct ey ls ls' ex e' ltNge subr_ge0 le e subrr ltxx.
Qed.

(** C24 with an input: both filters predict by dt = ty - tx and then fuse. *)
Theorem C24_correct_with_input_eq_ekf (x : est R cV n) y (H : 'M[R]_(m_dim y, n)) h u (Q : 'M[R]_nu) L L' tx ty rej :
  (0 < n)%N -> linear_meas H h -> u_cov u = Some Q -> Q^T = Q -> (est_cov x)^T = est_cov x ->
  m_stamp y = Some ty -> sstamp (est_state x) = Some tx -> 10%:R ^- 11 < ty - tx ->
  let dt := ty - tx in
  cholesky (block_mx (est_cov x) 0 0 Q) = Ok L ->
  cholesky (F dt *m est_cov x *m (F dt)^T + B dt *m Q *m (B dt)^T) = Ok L' ->
  correct x y (Some u) rej =
  ekf_correct (fun x d : cV => x + d) (@u_stamp R _ nu) (lin_pm Q) chi2_99 x y (Some u) None rej.
Proof.
move=> npos lin uc sQ sP ey ex big /= ch ch'.
have dt0 : 0 <= ty - tx by rewrite (le_trans _ (ltW big)) // invr_ge0 exprn_ge0 // ler0n.
have np : (0 < n + nu)%N by rewrite addn_gt0 npos.
set x' := Est (PState (F (ty - tx) *m sval (est_state x) + B (ty - tx) *m u_val u + c (ty - tx)) (Some (tx + (ty - tx))))
   (F (ty - tx) *m est_cov x *m (F (ty - tx))^T + B (ty - tx) *m Q *m (B (ty - tx))^T).
have st : tx + (ty - tx) = ty by rewrite addrC subrK.
have e : predict x (Some u) (Some (ty - tx)) None = Ok x'.
  rewrite -(C24_predict u np dt0 ex sP sQ ch) /predict /spkf_predict ex /= uc.
  by case: ifP.
have le : tx <= ty by rewrite -subr_ge0.
have sx' : sstamp (est_state x') = Some ty by rewrite /= st.
rewrite (C24_correct_predicts_first rej ey ex le e sx').
rewrite (C24_correct_eq_ekf (x := x') (L := L') Q rej npos lin) //=; first last.
- by rewrite linearD /= !trmx_mul !trmxK sP sQ !mulmxA.
- by move=> a b; rewrite ey st => -[<-] [<-].
have e2 : ekf_predict (@u_stamp R _ nu) (lin_pm Q) x (Some u) (Some (ty - tx)) None = Ok x'.
  by rewrite -(C24_predict_eq_ekf u np dt0 ex sP sQ ch) (C24_predict u np dt0 ex sP sQ ch).
rewrite /ekf_correct /ekf_advance /load_stamp /= ex ey /= st subrr ex.
have nn : (ty - tx < - e10 R) = false.
  by apply/negbTE; rewrite -leNgt (le_trans _ dt0) // oppr_le0 exprn_ge0 // ler0n.
rewrite nn {1}/em11 big /= e2 /=.
by have -> : (0 < - e10 R) = false by apply/negbTE; rewrite -leNgt oppr_le0 exprn_ge0 // ler0n.
Qed.
End Linear.

(** ** Deviations of SigmaPointKalmanFilter *)
Section Deviations.
Variables (R : realFieldType) (V W : Type) (n nu : nat).
Variables (plus : V -> 'cV[R]_n -> V) (minus : V -> V -> 'cV[R]_n) (uplus : W -> 'cV[R]_nu -> W).
Variables (norm : 'cV[R]_n -> R) (evaluate : pstate R V -> W -> R -> pstate R V).
Variables (cholesky : forall k, 'M[R]_k -> result 'M[R]_k) (points : forall k, seq (R * 'cV[R]_k)).
Variables (chi2_99 : nat -> R) (iterate_mean : bool).
Let predict := spkf_predict plus minus uplus norm evaluate cholesky points iterate_mean.
Let correct := spkf_correct plus minus uplus norm evaluate cholesky points chi2_99 iterate_mean.

(** C70: predict with no input raises AttributeError instead of returning the
    estimate, although the body guards for [u is not None]; it is a no-op only
    if dt and input_covariance are both passed. *)
Theorem C70_predict_without_input_refuted x dt : predict x None dt None = Raise AttributeError.
Proof. by rewrite /predict /spkf_predict; case: (sstamp _). Qed.

Theorem C70_predict_without_input_partial x dt Q t : sstamp (est_state x) = Some t -> 0 <= dt ->
  predict x None (Some dt) (Some Q) = Ok x.
Proof. by move=> e d; rewrite /predict /spkf_predict e /= ltNge d. Qed.

(** C71: the stamp of the prediction is the stamp the process model left on the
    propagated state plus dt, so a model that advances the stamp itself (allowed
    for ExtendedKalmanFilter, which overwrites it: C15) is counted twice. *)
Theorem C71_stamp_double_count_refuted x u dt t Q x' :
  (forall s w d, sstamp (evaluate s w d) = omap (fun t => t + d) (sstamp s)) ->
  sstamp (est_state x) = Some t -> 0 < dt ->
  predict x (Some u) (Some dt) (Some Q) = Ok x' ->
  sstamp (est_state x') = Some (t + dt + dt) /\ sstamp (est_state x') <> Some (t + dt).
Proof.
move=> adv st dt0; rewrite /predict /spkf_predict st /= ltNge (ltW dt0) /=.
case: (cholesky _) => //= L.
set prop := [seq _ | p <- points _].
have hd w0 s ys : prop = (w0, s) :: ys -> sstamp s = Some (t + dt).
  by rewrite /prop; case: (points _) => //= p q [_ <- _]; rewrite adv /= st.
have ml k s : sstamp s = Some (t + dt) -> sstamp (mean_loop (pplus plus) (fun a b => minus (sval a) (sval b)) norm k prop s) = Some (t + dt).
  by elim: k s => //= k IH s e; case: ifP => _ //; apply: IH.
have dd : Some (t + dt + dt) <> Some (t + dt).
  by case=> /eqP; rewrite -subr_eq0 addrAC subrr add0r; apply/negP; rewrite gt_eqF.
have ms k r : (if prop is (_, x0) :: _ then Ok (mean_loop (pplus plus) (fun a b => minus (sval a) (sval b)) norm k prop x0)
     else Raise IndexError) = Ok r -> sstamp r = Some (t + dt).
  by case e : {-2}prop => [|[w0 s] ys] // -[<-]; exact: ml (hd _ _ _ e).
case: iterate_mean; last by rewrite /= adv st /= => -[<-] /=.
move: (ms 51%N); rewrite -/(mean_state (pplus plus) (fun a b => minus (sval a) (sval b)) norm prop).
case: (mean_state _ _ _ _) => [r|//] /(_ r erefl) e.
by cbn [bind]; rewrite e => -[<-].
Qed.

(** C19 for the sigma-point filter: a stale measurement raises. *)
Theorem C19_spkf_stale_raises x y u tx ty rej :
  sstamp (est_state x) = Some tx -> m_stamp y = Some ty -> ty < tx ->
  correct x y u rej = Raise RuntimeError.
Proof.
move=> ex ey lt; rewrite /correct /spkf_correct.
by rewrite ey /load_stamp ex ex /= subr_lt0 lt.
Qed.

(** C18 for the sigma-point filter: an unavailable measurement changes nothing. *)
Theorem C18_spkf_unavailable_unchanged x y rej L :
  m_stamp y = sstamp (est_state x) -> cholesky (est_cov x) = Ok L ->
  m_eval y (est_state x) = None -> correct x y None rej = Ok x.
Proof.
move=> st ch ev; rewrite /correct /spkf_correct.
have -> : load_stamp x (m_stamp y) = x.
  by case: x st {ch ev} => -[v t] P /= ->; rewrite /load_stamp /=; case: t.
by rewrite st; case: (sstamp _) => [t|] /=; rewrite ?subrr ?ltxx /= ch /= ev.
Qed.

(** C18 for the sigma-point filter: a model that predicts at the estimate but
    returns None at a sigma point raises instead of skipping. *)
Theorem C69_spkf_none_at_sigma_point_refuted x y rej L yc p :
  m_stamp y = sstamp (est_state x) -> cholesky (est_cov x) = Ok L ->
  m_eval y (est_state x) = Some yc ->
  p \in points n -> m_eval y (pplus plus (est_state x) (L *m p.2)) = None ->
  correct x y None rej = Raise AttributeError.
Proof.
move=> st ch ev pin none; rewrite /correct /spkf_correct.
have -> : load_stamp x (m_stamp y) = x.
  by case: x st {ch ev none} => -[v t] P /= ->; rewrite /load_stamp /=; case: t.
rewrite st.
have -> : match sstamp (est_state x) with Some ty => match sstamp (est_state x) with
   | Some tx => if ty - tx < 0 then Raise RuntimeError else Ok x | None => Raise TypeError end | None => Ok x end = Ok x.
  by case: (sstamp _) => // t; rewrite subrr ltxx.
rewrite /= ch /= ev.
set g := (fun p0 : R * 'cV_n => _).
have -> : mapM g [seq (p0.1, L *m p0.2) | p0 <- points n] = Raise AttributeError; last by [].
have gp : g (p.1, L *m p.2) = Raise AttributeError by rewrite /g /= none.
elim: (points n) pin => //= q s IH; rewrite inE => /orP [/eqP <-|/IH ->]; first by rewrite gp.
by rewrite /g; case: (m_eval _ _).
Qed.
End Deviations.

(** ** Witnesses *)
Section Witness.
Variable R : rcfType.

(** A square root defined on the identity only satisfies the hypothesis. *)
Definition chol1 k (A : 'M[R]_k) : result 'M[R]_k := if A == 1%:M then Ok 1%:M else Raise LinAlgError.
Lemma chol1P k (A L : 'M[R]_k) : A^T = A -> chol1 A = Ok L -> L *m L^T = A.
Proof. by rewrite /chol1; case: eqP => // -> _ [<-]; rewrite trmx1 mulmx1. Qed.

(** C24 instance: constant-velocity style model with F = [[1, dt], [0, 1]],
    B = [0; dt], unit covariances; the predicted covariance is not the identity. *)
Definition Fcv (dt : R) : 'M[R]_2 := \matrix_(i, j) (if i == j then 1 else if i == 0 then dt else 0).
Definition Bcv (dt : R) : 'M[R]_(2, 1) := \matrix_(i, j) (if i == 0 then 0 else dt).

Example C24_witness (x : 'cV[R]_2) (u : 'cV[R]_1) :
  spkf_predict (fun x d : 'cV[R]_2 => x + d) (fun a b => a - b) (fun u d : 'cV[R]_1 => u + d)
    (fun v => \sum_i `|v i 0|) (lin_eval Fcv Bcv (fun _ => 0)) chol1 (@unscented R) true
    (Est (PState x (Some 3%:R)) 1%:M) (Some (Input u (Some 3%:R) None)) (Some 2%:R) (Some 1%:M) =
  Ok (Est (PState (Fcv 2%:R *m x + Bcv 2%:R *m u + 0) (Some (3%:R + 2%:R)))
     (Fcv 2%:R *m 1%:M *m (Fcv 2%:R)^T + Bcv 2%:R *m 1%:M *m (Bcv 2%:R)^T)).
Proof.
apply: (@C24_predict R 2 1 (fun v : 'cV[R]_2 => \sum_i `|v i 0|) _ chol1 chol1P (@unscented R)
         (fun k _ => C23_unscented R k) true Fcv Bcv (fun _ => 0)
         (Est (PState x (Some 3%:R)) 1%:M) (Input u (Some 3%:R) None) 2%:R 3%:R 1%:M 1%:M).
- by rewrite big1 // => i _; rewrite mxE normr0.
- by [].
- by rewrite ler0n.
- by [].
- by rewrite trmx1.
- by rewrite trmx1.
- by rewrite /chol1 -scalar_mx_block eqxx.
Qed.

(** C25 instance: weights 1/4, 3/4 on two different points. *)
Example C25_witness (a b : 'cV[R]_3) :
  mean_state (pplus (fun x d => x + d)) (fun a b => sval a - sval b) (fun v => \sum_i `|v i 0|)
   [:: (4%:R^-1, PState a None); (3%:R / 4%:R, PState b None)] =
  Ok (PState (4%:R^-1 *: a + (3%:R / 4%:R) *: b) None).
Proof.
rewrite C25_weighted_mean /=.
- by rewrite !big_cons big_nil addr0.
- by rewrite big1 // => i _; rewrite mxE normr0.
rewrite !big_cons big_nil addr0 -[X in X + _]mul1r -mulrDl -(natrD _ 1 3) divff //.
by rewrite pnatr_eq0.
Qed.
End Witness.

Print Assumptions C23_unscented.
Print Assumptions C23_cubature.
Print Assumptions C23_gauss_hermite.
Print Assumptions C24_predict_eq_ekf.
Print Assumptions C24_correct_with_input_eq_ekf.
Print Assumptions C25_weighted_mean.
Print Assumptions C71_stamp_double_count_refuted.
