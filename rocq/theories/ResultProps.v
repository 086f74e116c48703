(** C61: estimation-error metrics.  C62: slicing a GaussianResultList. *)
From mathcomp Require Import all_ssreflect all_algebra.
From Verif Require Import Base Tac LinAlg EkfModel ResultModel.
Set Implicit Arguments.
Unset Strict Implicit.
Unset Printing Implicit Defensive.
Import Order.Theory GRing.Theory Num.Theory.
Local Open Scope ring_scope.

Section Metrics.
Variable R : rcfType.

Lemma qf_sub d (P : 'M[R]_d) (x y : 'cV[R]_d) : P^T = P ->
  qf P (x - y) = qf P x - (y^T *m P *m x) 0 0 *+ 2 + qf P y.
Proof.
move=> hs; rewrite /qf [(x - y)^T]linearB /= !mulmxBl !mulmxBr.
have -> : (x^T *m P *m y) = (y^T *m P *m x).
  transitivity ((x^T *m P *m y)^T); first by apply/matrixP=> i j; rewrite [RHS]mxE !ord1.
  by rewrite !trmx_mul trmxK hs mulmxA.
move: (x^T *m P *m x) (y^T *m P *m x) (y^T *m P *m y) => A B C.
by rewrite !mxE; zmod.
Qed.
Lemma delta_l d (P : 'M[R]_d) (u : 'cV[R]_d) i :
  ((delta_mx i 0 : 'cV[R]_d)^T *m P *m u) 0 0 = (P *m u) i 0.
Proof. by rewrite trmx_delta -mulmxA -rowE mxE. Qed.
Lemma qf_delta d (P : 'M[R]_d) i : qf P (delta_mx i 0) = P i i.
Proof. by rewrite /qf delta_l -colE mxE. Qed.

Lemma pd_diag d (P : 'M[R]_d) i : pd P -> 0 < P i i.
Proof.
move=> hP; rewrite -qf_delta; apply: hP.2.
apply/eqP => /matrixP /(_ i 0); rewrite !mxE !eqxx /= => /eqP.
by rewrite oner_eq0.
Qed.

(** Cauchy-Schwarz in the metric of the covariance *)
Lemma cs_pd d (P : 'M[R]_d) (e : 'cV[R]_d) (i : 'I_d) : pd P ->
  e i 0 ^+ 2 <= P i i * qf (invmx P) e.
Proof.
move=> hP.
have hPu := pd_unit hP.
have hs := inv_sym (pd_sym hP).
set u : 'cV[R]_d := invmx P *m e.
have eE : P *m u = e by rewrite /u mulKVmx.
set b : 'cV[R]_d := delta_mx i 0.
set q := qf (invmx P) e.
have qE : qf P u = q.
  by rewrite /q /qf /u trmx_mul hs !mulmxA mulmxKV.
set a := e i 0; set p := P i i.
have p0 : 0 < p by apply: pd_diag.
have := (pd_psd hP).2 (p *: u - a *: b).
rewrite qf_sub ?(pd_sym hP) //.
have scal c x : qf P (c *: x) = c ^+ 2 * qf P x.
  by rewrite /qf [(c *: x)^T]linearZ /= -!scalemxAl -scalemxAr scalerA mxE expr2.
rewrite !scal qE qf_delta -/p.
have -> : ((a *: b)^T *m P *m (p *: u)) 0 0 = p * a ^+ 2.
  rewrite [(a *: b)^T]linearZ /= -!scalemxAl -scalemxAr scalerA mxE /b delta_l eE -/a.
  by rewrite expr2 !mulrA (mulrC a p).
have -> : p ^+ 2 * q - (p * a ^+ 2) *+ 2 + a ^+ 2 * p = p * (p * q - a ^+ 2).
  by rewrite mulrBr expr2 mulrA (mulrC (a ^+ 2)); zmod.
by rewrite pmulr_rge0 // subr_ge0.
Qed.

Section One.
Variables (d : nat) (e : 'cV[R]_d) (P : 'M[R]_d).
Hypothesis hP : pd P.

(** C61: every metric is what its name says: the error is reported unchanged; EES is
    the sum of squared errors; NEES is eᵀP⁻¹e; RMSE² times the dof is the EES; the
    Mahalanobis distance is the non-negative square root of NEES; three_sigma is the
    non-negative number whose square is 9 P_ii.  EES and NEES are non-negative and
    vanish exactly for a zero error. *)
Theorem C61_metrics : exists g, gaussian_result e P = Ok g /\
  g_error g = e /\
  g_ees g = \sum_i e i 0 ^+ 2 /\
  g_nees g = (e^T *m invmx P *m e) 0 0 /\
  (0 <= g_rmse g /\ ((0 < d)%N -> g_rmse g ^+ 2 * d%:R = g_ees g)) /\
  (0 <= g_md g /\ g_md g ^+ 2 = g_nees g) /\
  (forall i, 0 <= g_three_sigma g i 0 /\ g_three_sigma g i 0 ^+ 2 = 9%:R * P i i) /\
  0 <= g_ees g /\ 0 <= g_nees g /\ (g_ees g = 0 <-> e = 0) /\ (g_nees g = 0 <-> e = 0).
Proof.
have ees : (e^T *m e) 0 0 = \sum_i e i 0 ^+ 2.
  by rewrite -qf1 /qf mulmx1.
have hI := pd_inv hP.
have n0 : 0 <= (e^T *m (invmx P *m e)) 0 0 by rewrite mulmxA; apply: (pd_psd hI).2.
have s0 : 0 <= \sum_i e i 0 ^+ 2 by apply: sumr_ge0 => i _; apply: sqr_ge0.
eexists; split; first by rewrite /gaussian_result /np_solve (pd_unit hP) /=.
rewrite /= ees; split=> //; split=> //; split; first by rewrite mulmxA.
split; [|split; [|split; [|split=> //; split=> //; split]]].
- split=> [|d0]; first exact: sqrtr_ge0.
  by rewrite sqr_sqrtr ?divr_ge0 ?ler0n // divfK // pnatr_eq0 -lt0n.
- by split; [exact: sqrtr_ge0 | rewrite sqr_sqrtr].
- move=> i; rewrite mxE; have h := ltW (pd_diag i hP).
  split; first by rewrite mulr_ge0 ?ler0n ?sqrtr_ge0.
  by rewrite exprMn sqr_sqrtr // -natrX.
- split=> [/eqP|->]; first by rewrite sumsq_eq0 => /eqP.
  by rewrite big1 // => i _; rewrite mxE expr0n.
- split=> [h|->]; last by rewrite mulmx0 mulmx0 mxE.
  apply/eqP/negP => /negP ne; have := hI.2 e ne.
  by rewrite /qf -mulmxA h ltxx.
Qed.

(** A Mahalanobis distance of at most 3 puts every error component inside its
    three-sigma bound; in general |e_i| <= md * sigma_i. *)
Theorem C61_three_sigma_consistent g : gaussian_result e P = Ok g ->
  (forall i, 3%:R * `|e i 0| <= g_md g * g_three_sigma g i 0) /\
  (g_md g <= 3%:R -> forall i, `|g_error g i 0| <= g_three_sigma g i 0).
Proof.
have [g' [-> [eE [_ [nE [_ [[md0 md2] [ts _]]]]]]]] := C61_metrics => - [<-].
have main i : 3%:R * `|e i 0| <= g_md g' * g_three_sigma g' i 0.
  have [t0 t2] := ts i.
  rewrite -(@ler_pexpn2r _ 2) ?nnegrE ?mulr_ge0 ?ler0n ?normr_ge0 //.
  rewrite !exprMn md2 t2 real_normK ?num_real // nE [X in _ <= X]mulrCA -natrX.
  rewrite ler_pmul2l ?ltr0n // mulrC; exact: cs_pd.
split=> // md3 i; have [t0 _] := ts i.
rewrite eE -(@ler_pmul2l _ 3%:R) ?ltr0n //.
by apply: (le_trans (main i)); rewrite ler_wpmul2r.
Qed.
End One.

(** A singular covariance is refused, never silently inverted. *)
Theorem C61_singular d (e : 'cV[R]_d) (P : 'M[R]_d) :
  P \notin unitmx -> gaussian_result e P = Raise LinAlgError.
Proof. by move=> /negbTE h; rewrite /gaussian_result /np_solve h. Qed.

Lemma average_ge0 (s : seq R) : (forall x, x \in s -> 0 <= x) -> 0 <= average s.
Proof.
move=> h; rewrite divr_ge0 ?ler0n // big_seq; exact: sumr_ge0.
Qed.

(** Monte-Carlo: averages over the trials, for every number of trials >= 1. *)
Theorem C61_monte_carlo (trials : seq (trial R)) : (0 < size trials)%N ->
  exists m, monte_carlo_result trials = Ok m /\ mc_trials m = size trials /\
  (forall k, (size trials)%:R * mc_nees m k = \sum_(t <- trials) tr_nees t k) /\
  (forall k, (size trials)%:R * mc_ees m k = \sum_(t <- trials) tr_ees t k) /\
  (forall k i, 0 <= mc_rmse m k i /\
     (size trials)%:R * mc_rmse m k i ^+ 2 = \sum_(t <- trials) tr_error t k i ^+ 2) /\
  (forall D k, (forall t, List.In t trials -> tr_ees t k = \sum_(i < D) tr_error t k i ^+ 2) ->
     0 <= mc_total_rmse m k /\ mc_total_rmse m k ^+ 2 = \sum_(i < D) mc_rmse m k i ^+ 2).
Proof.
case: trials => // t0 ts _; set trials := t0 :: ts.
have s0 : ((size trials)%:R : R) != 0 by rewrite pnatr_eq0.
have av (f : trial R -> R) : (size trials)%:R * average [seq f t | t <- trials] = \sum_(t <- trials) f t.
  by rewrite /average size_map big_map mulrC divfK.
have avge0 (f : trial R -> R) : (forall t, List.In t trials -> 0 <= f t) -> 0 <= average [seq f t | t <- trials].
  move=> h; rewrite /average divr_ge0 ?ler0n // big_map.
  elim: (trials) h => [|t l IH] h; first by rewrite big_nil.
  by rewrite big_cons addr_ge0 ?h ?IH //=; [left | move=> t' ht'; apply: h; right].
eexists; split; first by rewrite /monte_carlo_result /py_nth drop0 /=.
rewrite /=; split=> //; split; first by move=> k; exact: av.
split; first by move=> k; exact: av.
have rm0 k i : 0 <= average [seq tr_error t k i ^+ 2 | t <- trials].
  by apply: avge0 => t _; exact: sqr_ge0.
split.
  by move=> k i; split; [exact: sqrtr_ge0 | rewrite sqr_sqrtr ?rm0 // av].
move=> D k h0; split; first exact: sqrtr_ge0.
have h : forall t, List.In t trials -> tr_ees t k = \sum_(i < D) tr_error t k i ^+ 2 := h0.
clear h0.
rewrite sqr_sqrtr; last first.
  by apply: avge0 => t /h ->; apply: sumr_ge0 => i _; exact: sqr_ge0.
apply: (mulfI s0); rewrite av mulr_sumr.
transitivity (\sum_(i < D) \sum_(t <- trials) tr_error t k i ^+ 2); last first.
  by apply: eq_bigr => i _; rewrite sqr_sqrtr ?rm0 // av.
rewrite exchange_big; elim: (trials) h => [|t l IH] h; first by rewrite !big_nil.
rewrite !big_cons h; last by left.
by congr (_ + _); apply: IH => t' ht'; apply: h; right.
Qed.
Theorem C61_no_trials : monte_carlo_result ([::] : seq (trial R)) = Raise IndexError.
Proof. by []. Qed.

(** The confidence band: ordered, contains the one-sided bound's band, refused outside (0,1);
    for any quantile function that is non-decreasing in the probability. *)
Theorem C61_bounds (ppf : R -> nat -> R) (c : R) trials dof :
  (forall n p q, p <= q -> ppf p n <= ppf q n) ->
  (0 < c < 1 -> exists lo hi hi1, nees_lower ppf c trials dof = Ok lo /\
     nees_upper ppf c true trials dof = Ok hi /\ nees_upper ppf c false trials dof = Ok hi1 /\
     lo <= hi /\ hi1 <= hi) /\
  (~~ (0 < c < 1) -> forall b, nees_lower ppf c trials dof = Raise ValueError /\
     nees_upper ppf c b trials dof = Raise ValueError).
Proof.
move=> mono; split=> [/andP [c0 c1]|hc b]; last first.
  by rewrite /nees_lower /nees_upper; move: hc; rewrite negb_and -!leNgt orbC => ->.
have h : (1 <= c) || (c <= 0) = false by rewrite !leNgt c0 c1.
rewrite /nees_lower /nees_upper h; do 3!eexists; do 3!split=> //.
have h2 : 0 <= (1 - c) / 2%:R by rewrite divr_ge0 ?ler0n // subr_ge0 ltW.
by split; rewrite ler_wpmul2r ?invr_ge0 ?ler0n //; apply: mono;
  [rewrite ler_addr ltW | rewrite ler_addl].
Qed.
(** A wider confidence level gives a wider band. *)
Theorem C61_bounds_nested (ppf : R -> nat -> R) (c c' : R) trials dof lo lo' hi hi' :
  (forall n p q, p <= q -> ppf p n <= ppf q n) -> c <= c' ->
  nees_lower ppf c trials dof = Ok lo -> nees_lower ppf c' trials dof = Ok lo' ->
  nees_upper ppf c true trials dof = Ok hi -> nees_upper ppf c' true trials dof = Ok hi' ->
  lo' <= lo /\ hi <= hi'.
Proof.
move=> mono cc; rewrite /nees_lower /nees_upper.
do 2!case: ifP => // _; move=> [<-] [<-] [<-] [<-].
split; rewrite ler_wpmul2r ?invr_ge0 ?ler0n //; apply: mono.
  by rewrite ler_wpmul2r ?invr_ge0 ?ler0n // ler_add2l ler_opp2.
have half (x : R) : x + (1 - x) / 2%:R = (1 + x) / 2%:R.
  apply: (mulIf (x := 2%:R)); first by rewrite pnatr_eq0.
  by rewrite [LHS]mulrDl !divfK ?pnatr_eq0 // mulr_natr; zmod.
by rewrite !half ler_wpmul2r ?invr_ge0 ?ler0n // ler_add2l.
Qed.
End Metrics.

(** ** C62 *)
(** What an index key means on an axis of length N (Python/numpy semantics for in-range
    keys): a list of valid indices, or the indices a, a+s, a+2s, ... below b. *)
Definition selects (N : nat) (k : key) (l : seq nat) : Prop :=
  match k with
  | KInt i => exists n : nat, i = n%:Z /\ (n < N)%N /\ l = [:: n]
  | KList s => s = [seq n%:Z | n <- l] /\ all (fun n => (n < N)%N) l
  | KSlice a b s => exists a' b' s' : nat,
      (a = Some a'%:Z \/ a = None /\ a' = 0%N) /\ (b = Some b'%:Z \/ b = None /\ b' = N) /\
      (s = Some s'%:Z \/ s = None /\ s' = 1%N) /\
      (a' <= b' <= N)%N /\ (0 < s')%N /\
      sorted ltn l /\ forall x, (x \in l) = [&& a' <= x, x < b' & s' %| x - a']%N
  end.

Lemma zrange_nat (a b s : nat) : (a <= b)%N -> (0 < s)%N ->
  zrange a b s = [seq (a + s * k)%N%:Z | k <- iota 0 ((b - a + s).-1 %/ s)].
Proof.
move=> ab s0; rewrite /zrange lez_nat leq0n subr_gt0 ltz_nat.
case: (ltnP a b) => [lt|ge].
  have -> : absz (b%:Z - a%:Z) = (b - a)%N by rewrite subzn.
  by apply: eq_map => k; rewrite PoszD PoszM.
have -> : (b - a)%N = 0%N by apply/eqP; rewrite subn_eq0.
by rewrite add0n divn_small // prednK.
Qed.

(** the arithmetic progression is the increasing list of the selected indices *)
Lemma ap_mem (a b s : nat) : (0 < s)%N ->
  forall x, (x \in [seq (a + s * k)%N | k <- iota 0 ((b - a + s).-1 %/ s)]) = [&& a <= x, x < b & s %| x - a]%N.
Proof.
move=> s0 x; apply/mapP/idP => [[k]|/and3P [ax xb /dvdnP [k kE]]].
  rewrite mem_iota add0n /= => kl ->; rewrite leq_addr addKn dvdn_mulr // andbT /=.
  have : (s * k.+1 <= (b - a + s).-1)%N by rewrite mulnC -leq_divRL.
  rewrite mulnS.
  case: (ltnP a b) => [lt|ge].
    have -> : ((b - a + s).-1 = (b - a).-1 + s)%N by move: lt; rewrite -subn_gt0; case: (b - a)%N.
    rewrite addnC leq_add2r => h.
    have : (s * k < b - a)%N by rewrite -(prednK (n := (b - a)%N)) ?subn_gt0.
    by rewrite ltn_subRL.
  have -> : (b - a)%N = 0%N by apply/eqP; rewrite subn_eq0.
  by rewrite add0n => h; move: (leq_trans (leq_addr _ _) h); rewrite -{1}(prednK s0) ltnn.
exists k; last by rewrite mulnC -kE subnKC.
rewrite mem_iota add0n /= leq_divRL // mulSn addnC -kE.
have lt : (x - a < b - a)%N by rewrite ltn_sub2r //; apply: leq_ltn_trans xb.
by rewrite -ltnS prednK ?addn_gt0 ?s0 ?orbT // ltn_add2r.
Qed.
Lemma ap_sorted (a s n : nat) : (0 < s)%N -> sorted ltn [seq (a + s * k)%N | k <- iota 0 n].
Proof.
move=> s0; rewrite sorted_map.
by apply: (sub_sorted _ (iota_ltn_sorted 0 n)) => i j /=; rewrite ltn_add2l ltn_mul2l s0.
Qed.
Lemma slice_list (a b s : nat) (l : seq nat) : (0 < s)%N -> sorted ltn l ->
  (forall x, (x \in l) = [&& a <= x, x < b & s %| x - a]%N) ->
  [seq (a + s * k)%N | k <- iota 0 ((b - a + s).-1 %/ s)] = l.
Proof.
move=> s0 sl hl; apply: (irr_sorted_eq ltn_trans ltnn) => //; first exact: ap_sorted.
by move=> x; rewrite ap_mem // hl.
Qed.

Lemma np_index_nat N n : (n < N)%N -> np_index N n%:Z = Ok n.
Proof. by move=> h; rewrite /np_index lez_nat leq0n ltz_nat h. Qed.
Lemma mapM_index N l : all (fun n => (n < N)%N) l -> mapM (np_index N) [seq n%:Z | n <- l] = Ok l.
Proof. by elim: l => //= n l IH /andP [h1 h2]; rewrite np_index_nat // IH. Qed.

Lemma selects_lt N k l : selects N k l -> all (fun n => (n < N)%N) l.
Proof.
case: k => [i [n [_ [h ->]]]|a b s [a' [b' [s' [_ [_ [_ [/andP [_ hb] [_ [_ hl]]]]]]]]]|s [_ //]].
  by rewrite /= h.
apply/allP => x; rewrite hl => /and3P [_ h _]; exact: leq_trans h hb.
Qed.
Lemma selects_list N k l : selects N k l -> key_list N k = Ok [seq n%:Z | n <- l].
Proof.
case: k => [i [n [-> [_ ->]]] //|a b s [a' [b' [s' [ha [hb [hs [/andP [h1 h2] [s0 [sl hl]]]]]]]]]|s [-> _ //]].
rewrite /= -(slice_list s0 sl hl) -map_comp.
have -> : odflt 0 a = a'%:Z by case: ha => [->|[-> ->]].
have -> : odflt N%:Z b = b'%:Z by case: hb => [->|[-> ->]].
have -> : odflt 1 s = s'%:Z by case: hs => [->|[-> ->]].
rewrite zrange_nat //; case: eqP => // -[] e; by rewrite e in s0.
Qed.
Lemma selects_slice N a b s l : selects N (KSlice a b s) l -> np_slice a b s N = Ok l.
Proof.
move=> [a' [b' [s' [ha [hb [hs [/andP [h1 h2] [s0 [sl hl]]]]]]]]].
rewrite /np_slice.
have -> : odflt 1 s = s'%:Z by case: hs => [->|[-> ->]].
case: eqP => [[e]|_]; first by rewrite e in s0.
rewrite ltz_nat s0.
have clipn (x : nat) : (x <= N)%N -> ResultModel.clip 0 N%:Z (if x%:Z < 0 then x%:Z + N%:Z else x%:Z) = x%:Z.
  by move=> h; rewrite /ResultModel.clip ltz_nat ltn0 ltz_nat (ltnNge N) h.
have -> : match a with Some x => ResultModel.clip 0 N%:Z (if x < 0 then x + N%:Z else x) | None => 0 end = a'%:Z.
  by case: ha => [->|[-> ->]] //; rewrite clipn // (leq_trans h1).
have -> : match b with Some x => ResultModel.clip 0 N%:Z (if x < 0 then x + N%:Z else x) | None => N%:Z end = b'%:Z.
  by case: hb => [->|[-> ->]] //; rewrite clipn.
by rewrite zrange_nat // -map_comp -[RHS](congr1 Ok (slice_list s0 sl hl)).
Qed.

Lemma size_const_flatten (T : Type) (l : seq (seq T)) m : all (fun r => size r == m) l -> size (flatten l) = (size l * m)%N.
Proof. by elim: l => //= r l IH /andP [/eqP h1 h2]; rewrite size_cat IH // h1 mulSn. Qed.
Lemma mapM_cat (A B : Type) (f : A -> result B) a b :
  mapM f (a ++ b) = (x <~ mapM f a ;; y <~ mapM f b ;; Ok (x ++ y)).
Proof.
elim: a => /= [|x a IH]; first by case: mapM.
case: (f x) => //= y; rewrite IH; case: (mapM f a) => //= r; by case: (mapM f b).
Qed.

Section Slicing.
Variable R : rcfType.
Variables (N D : nat) (err : nat -> nat -> R) (cov : nat -> nat -> nat -> R).

Definition is_int (k : key) : bool := if k is KInt _ then true else false.
Definition is_list (k : key) : bool := if k is KList _ then true else false.

(** the covariance at time t, and the sub-covariance of the selected components *)
Definition covmx (t : nat) : 'M[R]_D := \matrix_(i, j) cov t i j.
Definition sub_err (t : nat) (ds : seq nat) : 'cV[R]_(size ds) := \col_i err t (nth 0%N ds i).
Definition sub_cov (t : nat) (ds : seq nat) : 'M[R]_(size ds) :=
  \matrix_(i, j) cov t (nth 0%N ds i) (nth 0%N ds j).

Lemma sub_pd t ds : pd (covmx t) -> uniq ds -> all (fun n => (n < D)%N) ds -> pd (sub_cov t ds).
Proof.
move=> hP uq hd.
have lt i : (i < size ds)%N -> (nth 0%N ds i < D)%N by move=> h; apply: (allP hd); exact: mem_nth.
split.
  apply/matrixP=> i j; rewrite !mxE.
  have := congr1 (fun M : 'M[R]_D => M (Ordinal (lt i (ltn_ord i))) (Ordinal (lt j (ltn_ord j)))) (pd_sym hP).
  by rewrite !mxE.
move=> v vn.
pose S : 'M[R]_(D, size ds) := \matrix_(i, k) (nth 0%N ds k == i)%:R.
have SE k (i : 'I_D) : S i k = (nth 0%N ds k == i)%:R by rewrite mxE.
have E : sub_cov t ds = S^T *m covmx t *m S.
  apply/matrixP=> i j; rewrite !mxE.
  rewrite (bigD1 (Ordinal (lt j (ltn_ord j)))) //= big1 ?addr0.
    rewrite !mxE eqxx mulr1 (bigD1 (Ordinal (lt i (ltn_ord i)))) //= big1 ?addr0 => [|k].
      by rewrite !mxE eqxx mul1r.
    by rewrite -val_eqE /= !mxE eq_sym => /negbTE ->; rewrite mul0r.
  by move=> k; rewrite -val_eqE /= !mxE eq_sym => /negbTE ->; rewrite mulr0.
have -> : qf (sub_cov t ds) v = qf (covmx t) (S *m v).
  by rewrite /qf E trmx_mul !mulmxA.
apply: hP.2; apply: contra_neq vn => Sv0.
apply/matrixP=> k j; rewrite (ord1 j) [RHS]mxE.
have := congr1 (fun M : 'cV[R]_D => M (Ordinal (lt k (ltn_ord k))) 0) Sv0.
rewrite !mxE (bigD1 k) //= big1 ?addr0 => [|i ik].
  by rewrite !mxE eqxx mul1r.
rewrite !mxE nth_uniq // val_eqE.
by rewrite (negbTE ik) mul0r.
Qed.

Lemma nees_ofE n (e : seq R) c : n = size e ->
  nees_of e c = (w <~ np_solve (mat n c : 'M[R]_n) (\col_i nth 0 e i) ;; Ok (((\col_(i < n) nth 0 e i)^T *m w) 0 0)).
Proof. by move=> ->. Qed.

Lemma index_error_2 k1 k2 ts ds : selects N k1 ts -> selects D k2 ds ->
  ~~ is_int k1 -> ~~ is_int k2 -> ~~ (is_list k1 && is_list k2) ->
  index_error N D err k1 k2 = Ok (A2 [seq [seq err t d | d <- ds] | t <- ts]).
Proof.
case: k1 => [i|a b s|l1] h1; case: k2 => [j|a2 b2 s2|l2] h2 // _ _ //= _.
- by rewrite (selects_slice h1) (selects_slice h2).
- by rewrite (selects_slice h1) /=; case: h2 => -> h; rewrite mapM_index.
- by rewrite (selects_slice h2); case: h1 => -> h; rewrite mapM_index.
Qed.

(** C62 for matrix-valued selections (slices or index lists on both axes, not two lists):
    the result contains, for exactly the selected times and components, the errors, the
    covariance blocks, the sums of squared errors, the NEES of the selected components
    against their own covariance block, and their three-sigma bounds. *)
Theorem C62_block k1 k2 ts ds : selects N k1 ts -> selects D k2 ds ->
  ~~ is_int k1 -> ~~ is_int k2 -> ~~ (is_list k1 && is_list k2) ->
  uniq ds -> (forall t, t \in ts -> pd (covmx t)) ->
  exists o, getitem N D err cov k1 k2 = Ok o /\
    o_error o = A2 [seq [seq err t d | d <- ds] | t <- ts] /\
    o_cov o = [seq [seq [seq cov t i j | j <- ds] | i <- ds] | t <- ts] /\
    o_three_sigma o = [seq [seq 3%:R * Num.sqrt (cov t i i) | i <- ds] | t <- ts] /\
    o_ees o = [seq \sum_(d <- ds) err t d ^+ 2 | t <- ts] /\
    o_nees o = [seq ((sub_err t ds)^T *m invmx (sub_cov t ds) *m sub_err t ds) 0 0 | t <- ts] /\
    o_dof o = size ds.
Proof.
move=> h1 h2 i1 i2 ll uq hpd.
have a1 := selects_lt h1; have a2 := selects_lt h2.
rewrite /getitem (selects_list h1) (selects_list h2) /= !mapM_index //= (index_error_2 h1 h2) //=.
rewrite !size_map eqxx /=.
have -> : all (fun r => size r == size ds) [seq [seq err t d | d <- ds] | t <- ts].
  by rewrite all_map; apply/allP => t _ /=; rewrite size_map.
have -> : mapM (fun p => nees_of p.1 p.2)
    (zip [seq [seq err t d | d <- ds] | t <- ts] [seq [seq [seq cov t i j | j <- ds] | i <- ds] | t <- ts])
   = Ok [seq ((sub_err t ds)^T *m invmx (sub_cov t ds) *m sub_err t ds) 0 0 | t <- ts].
  have : {subset ts <= ts} by [].
  elim: {1 3 4 5}ts => //= t r IH sub.
  rewrite IH ?(fun x h => sub x _) //; last by move=> x hx; apply: sub; rewrite inE hx orbT.
  have -> // : nees_of [seq err t d | d <- ds] [seq [seq cov t i j | j <- ds] | i <- ds]
     = Ok (((sub_err t ds)^T *m invmx (sub_cov t ds) *m sub_err t ds) 0 0).
  have pdt : pd (sub_cov t ds) by apply: sub_pd => //; apply: hpd; apply: sub; rewrite inE eqxx.
  rewrite (nees_ofE (n := size ds)) ?size_map //.
  have -> : \col_(i < size ds) nth 0 [seq err t d | d <- ds] i = sub_err t ds.
    by apply/matrixP=> i j; rewrite !mxE (nth_map 0%N).
  have -> : mat (size ds) [seq [seq cov t i j | j <- ds] | i <- ds] = sub_cov t ds.
    by apply/matrixP=> i j; rewrite !mxE (nth_map 0%N) // (nth_map 0%N).
  by rewrite /np_solve (pd_unit pdt) /= mulmxA.
eexists; split; first by [].
rewrite /=; do 3!split=> //; split=> //; rewrite -map_comp; apply: eq_map => t /=.
by rewrite /sumsq big_map.
Qed.

(** Slicing only over time keeps the per-time NEES against the full covariance. *)
Lemma selects_all M : selects M (KSlice None None None) (iota 0 M).
Proof.
exists 0%N, M, 1%N; do 3!(split; first by right); rewrite leq0n leqnn; do 2!split=> //.
split; first exact: iota_ltn_sorted.
by move=> x; rewrite mem_iota add0n dvd1n !andbT.
Qed.

(** C62 for one component (k2 an int): error, variance, three-sigma and NEES of that
    component at the selected times. *)
Theorem C62_component k1 j ts : selects N k1 ts -> ~~ is_int k1 -> (j < D)%N ->
  exists o, getitem N D err cov k1 (KInt j%:Z) = Ok o /\
    o_error o = A1 [seq err t j | t <- ts] /\
    o_cov o = [seq [:: [:: cov t j j]] | t <- ts] /\
    o_three_sigma o = [seq [:: 3%:R * Num.sqrt (cov t j j)] | t <- ts] /\
    o_nees o = [seq err t j ^+ 2 / cov t j j | t <- ts] /\
    o_dof o = 1%N /\
    o_ees o = [:: \sum_(t <- ts) err t j ^+ 2].
Proof.
move=> h1 i1 jD; have a1 := selects_lt h1.
rewrite /getitem (selects_list h1) /= mapM_index //= np_index_nat //=.
have -> : index_error N D err k1 (KInt j%:Z) = Ok (A1 [seq err t j | t <- ts]).
  case: k1 h1 i1 => [//|a b s|l1] h1 _ /=.
    by rewrite (selects_slice h1) /= np_index_nat.
  by case: h1 => -> h; rewrite mapM_index //= np_index_nat.
have fE : flatten (flatten [seq [:: [:: cov t j j]] | t <- ts]) = [seq cov t j j | t <- ts].
  by elim: (ts) => //= t r ->.
rewrite /= fE !size_map eqxx; eexists; split; first by [].
do 4!split=> //=.
  by elim: (ts) => //= t r ->.
by split=> //; rewrite /sumsq big_map.
Qed.

(** ... but its EES (and the RMSE computed from it) is one sum over all selected times
    instead of one value per time, unless exactly one time is selected. *)
Theorem C62_component_ees_refuted k1 j ts o : selects N k1 ts -> ~~ is_int k1 -> (j < D)%N ->
  size ts != 1%N -> getitem N D err cov k1 (KInt j%:Z) = Ok o ->
  o_ees o <> [seq err t j ^+ 2 | t <- ts].
Proof.
move=> h1 i1 jD st; have [o' [-> [_ [_ [_ [_ [_ e]]]]]]] := C62_component h1 i1 jD => -[<-].
by rewrite e => /(congr1 size); rewrite size_map /= => h; rewrite -h in st.
Qed.

(** results[k] for one time k always raises when there are two or more components. *)
Theorem C62_single_time_refuted k : (k < N)%N -> (1 < D)%N ->
  getitem N D err cov (KInt k%:Z) (KSlice None None None) = Raise ValueError.
Proof.
move=> kN D1; have h2 := selects_all D; have a2 := selects_lt h2.
have ie : index_error N D err (KInt k%:Z) (KSlice None None None) = Ok (A1 [seq err k d | d <- iota 0 D]).
  by rewrite /index_error np_index_nat // (selects_slice h2).
rewrite /getitem (selects_list h2) ie {ie} /= np_index_nat //= mapM_index //= cats0.
rewrite size_map size_iota (size_const_flatten (m := D)) ?size_map ?size_iota; last first.
  by rewrite all_map; apply/allP => i _ /=; rewrite size_map size_iota.
by rewrite -{1}(muln1 D) eqn_pmul2l ?(ltn_trans _ D1) // eq_sym gtn_eqF.
Qed.

Lemma size_zrange_neg (n : nat) : size (zrange (- n%:Z) N%:Z 1) = (n + N)%N.
Proof.
rewrite /zrange /= opprK; case: ifP => h; last first.
  by move: h; rewrite ltz_nat addn_gt0 => /negbT; rewrite negb_or -!leqNgt !leqn0 => /andP [/eqP -> /eqP ->].
by rewrite size_map size_iota divn1 addn1 /= addnC.
Qed.

(** Negative slice bounds and stops beyond the end, which lists and arrays accept, raise. *)
Theorem C62_last_n_refuted n : (0 < n <= N)%N ->
  exists x, getitem N D err cov (KSlice (Some (- n%:Z)) None None) (KSlice None None None) = Raise x.
Proof.
move=> /andP [n0 nN]; have h2 := selects_all D; have a2 := selects_lt h2.
have [l sl ie] : exists2 l, size l = n &
  index_error N D err (KSlice (Some (- n%:Z)) None None) (KSlice None None None) = Ok (A2 [seq [seq err t d | d <- iota 0 D] | t <- l]).
  rewrite /index_error (selects_slice h2) /np_slice.
  eexists; last by rewrite /=; congr (Ok (A2 _)).
  rewrite /= oppr_lt0 ltz_nat n0 size_map /ResultModel.clip.
  have -> : - n%:Z + N%:Z = (N - n)%N%:Z by rewrite addrC subzn.
  rewrite !ltz_nat ltn0 ltnNge leq_subr /= zrange_nat ?leq_subr // size_map size_iota.
  by rewrite subKn // addn1 divn1.
rewrite /getitem (selects_list h2) ie /=.
case E : (mapM (np_index N) (zrange (- n%:Z) N%:Z 1)) => [ts|x]; last by exists x.
have sz (A B : Type) (f : A -> result B) (l' : seq A) r : mapM f l' = Ok r -> size r = size l'.
  by elim: l' r => [|a l' IH] r /=; [case=> <- | case: (f a) => //= b; case: mapM IH => //= bs /(_ _ erefl) h [<-] /=; rewrite h].
move/sz: E; rewrite size_zrange_neg => st; rewrite /= mapM_index //=.
rewrite !size_map sl st -{1}(addn0 n) eqn_add2l eq_sym gtn_eqF ?(leq_trans n0) //.
by exists ValueError.
Qed.
Theorem C62_stop_beyond_end_refuted : 
  getitem N D err cov (KSlice (Some 0) (Some N.+1%:Z) None) (KSlice None None None) = Raise IndexError.
Proof.
have h2 := selects_all D; rewrite /getitem (selects_list h2) /= zrange_nat //.
have -> : ((N.+1 - 0 + 1).-1 %/ 1)%N = N.+1 by rewrite subn0 addn1 divn1.
rewrite -[X in iota _ X]addn1 iotaD map_cat mapM_cat /= add0n mul1n.
have -> : [seq (0 + 1 * k)%N%:Z | k <- iota 0 N] = [seq k%:Z | k <- iota 0 N].
  by apply: eq_map => k; rewrite add0n mul1n.
rewrite mapM_index; last by apply/allP => x; rewrite mem_iota.
by rewrite /= /np_index add0n ltz_nat ltnn andbF ltz_nat ltn0 andbF.
Qed.
(** Two index lists are paired up instead of selecting a block: with two or more
    entries each the call raises. *)
Theorem C62_two_lists_refuted ts ds : all (fun n => (n < N)%N) ts -> all (fun n => (n < D)%N) ds ->
  size ts = size ds -> (1 < size ds)%N ->
  getitem N D err cov (KList [seq n%:Z | n <- ts]) (KList [seq n%:Z | n <- ds]) = Raise ValueError.
Proof.
move=> a1 a2 ss s1; rewrite /getitem /= !mapM_index //= ss eqxx /=.
rewrite size_map size_zip ss minnn.
rewrite (size_const_flatten (m := size ds)); last first.
  apply/allP => r /flattenP /= [rs /mapP [t _ ->] /mapP [i _ ->]]; by rewrite size_map.
rewrite (size_const_flatten (m := size ds)); last first.
  by apply/allP => r /mapP [t _ ->]; rewrite size_map.
rewrite size_map ss -{1}(muln1 (size ds)) -mulnA eqn_pmul2l ?(ltn_trans _ s1) //.
by rewrite eq_sym gtn_eqF // (leq_trans s1) // leq_pmulr // (ltn_trans _ s1).
Qed.
(** A single entry raises. *)
Theorem C62_single_entry_refuted i j : (i < N)%N -> (j < D)%N ->
  getitem N D err cov (KInt i%:Z) (KInt j%:Z) = Raise IndexError.
Proof. by move=> hi hj; rewrite /getitem /= !np_index_nat. Qed.
End Slicing.

(** ** Non-vacuity *)
Example C61_hyp_met (R : rcfType) : pd (2%:R *: 1%:M : 'M[R]_3).
Proof. by apply: pdZ; [rewrite ltr0n | exact: pd1]. Qed.
Example C62_hyp_met : selects 6 (KSlice (Some 1) None (Some 2)) [:: 1; 3; 5]%N /\
  selects 6 (KList [:: 4%:Z; 0%:Z]) [:: 4; 0]%N /\ selects 6 (KInt 2%:Z) [:: 2]%N.
Proof.
split; [exists 1%N, 6%N, 2%N | by split=> //; exists 2%N].
split; first by left. split; first by right. split; first by left.
do 3!split=> //; move=> x.
case: (ltnP x 6) => [|h]; first by do 6!case: x => [|x] //.
rewrite andbF; apply/negbTE; rewrite !inE !negb_or.
by do 6!case: x h => [|x] h //.
Qed.
Example C62_block_met (R : rcfType) : exists o,
  getitem 4 3 (fun t d => (t + d)%:R) (fun t i j => if i == j then 1 else 0 : R)
    (KSlice (Some 1) (Some 3) None) (KList [:: 2%:Z; 0%:Z]) = Ok o /\
  o_ees o = [:: 10%:R; 20%:R].
Proof.
have sl : selects 4 (KSlice (Some 1) (Some 3) None) [:: 1; 2]%N.
  exists 1%N, 3%N, 1%N; split; first by left. split; first by left. split; first by right.
  do 3!split=> //; move=> x; rewrite dvd1n andbT !inE.
  by case: x => [|[|[|x]]].
have ll : selects 3 (KList [:: 2%:Z; 0%:Z]) [:: 2; 0]%N by [].
have [|o [oE [_ [_ [_ [ees _]]]]]] := @C62_block R 4 3 (fun t d => (t + d)%:R)
  (fun t i j => if i == j then 1 else 0 : R) _ _ _ _ sl ll erefl erefl erefl erefl.
  move=> t _; have -> : covmx 3 (fun (_ : nat) (i j : nat) => if i == j then 1 else 0 : R) t = 1%:M.
    by apply/matrixP=> i j; rewrite !mxE -val_eqE; case: eqP.
  exact: pd1.
exists o; split=> //; rewrite ees /= !big_cons !big_nil !addr0 -!natrX -!natrD.
by [].
Qed.

Print Assumptions C61_metrics.
Print Assumptions C61_three_sigma_consistent.
Print Assumptions C61_monte_carlo.
Print Assumptions C61_bounds_nested.
Print Assumptions C62_block.
Print Assumptions C62_component.
Print Assumptions C62_last_n_refuted.
Print Assumptions C62_stop_beyond_end_refuted.
Print Assumptions C62_two_lists_refuted.
