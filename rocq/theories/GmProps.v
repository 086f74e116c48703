(** C38-C42, C74: Gaussian-mixture residuals. *)
From Coq Require Import Reals Lra Psatz.
From Coquelicot Require Import Coquelicot.
From mathcomp Require Import ssreflect ssrfun ssrbool eqtype ssrnat seq.
From Verif Require Import Base GmModel.
Set Implicit Arguments.
Unset Strict Implicit.
Unset Printing Implicit Defensive.
Local Open Scope R_scope.

(** ** Specification *)
(** unnormalised likelihood of the mixture: sum_k alpha_k exp(-|e_k|^2 / 2) *)
Definition likelihood (alphas : seq R) (es : seq earr) : R :=
  rsum [seq ae.1 * exp (- half_sq (e_val ae.2)) | ae <- zip alphas es].
Definition nll alphas es : R := - ln (likelihood alphas es).
(** posterior probability of component k *)
Definition responsibility alphas es k : R :=
  nth 0 alphas k * exp (- half_sq (e_val (nth e0 es k))) / likelihood alphas es.
(** what the code computes alphas from: positive weights and determinants *)
Definition valid (alphas : seq R) (es : seq earr) : Prop :=
  [/\ size alphas = size es, (0 < size es)%N & forall k, (k < size alphas)%N -> 0 < nth 0 alphas k].

(** ** Sums *)
Definition sumn_ (n : nat) (F : nat -> R) : R := rsum [seq F k | k <- iota 0 n].
Lemma sum_ext m n (F G : nat -> R) : (forall k, (m <= k < m + n)%N -> F k = G k) -> rsum [seq F k | k <- iota m n] = rsum [seq G k | k <- iota m n].
Proof.
elim: n m => [|n IH] m h //=; rewrite h ?leqnn ?addnS ?ltnS ?leq_addr //; congr (_ + _); apply: IH => k /andP [a b].
by apply: h; rewrite (ltnW a) addnS -addSn.
Qed.
Lemma sum_le m n (F G : nat -> R) : (forall k, (m <= k < m + n)%N -> F k <= G k) -> rsum [seq F k | k <- iota m n] <= rsum [seq G k | k <- iota m n].
Proof.
elim: n m => [|n IH] m h //=; first by lra.
apply: Rplus_le_compat; first by apply: h; rewrite leqnn addnS ltnS leq_addr.
by apply: IH => k /andP [a b]; apply: h; rewrite (ltnW a) addnS -addSn.
Qed.
Lemma sum_ge0 m n (F : nat -> R) : (forall k, (m <= k < m + n)%N -> 0 <= F k) -> 0 <= rsum [seq F k | k <- iota m n].
Proof.
move=> h; apply: (Rle_trans _ (rsum [seq 0 | k <- iota m n])); last exact: sum_le.
by elim: n m {h} => [|n IH] m /=; [lra|move: (IH m.+1); lra].
Qed.
Lemma sum_gt0 n (F : nat -> R) : (0 < n)%N -> (forall k, (k < n)%N -> 0 < F k) -> 0 < sumn_ n F.
Proof.
case: n => // n _ h; rewrite /sumn_ /=.
have : 0 <= rsum [seq F k | k <- iota 1 n].
  by apply: sum_ge0 => k /andP [_ b]; apply: Rlt_le; apply: h.
by have := h 0%N isT; lra.
Qed.
Lemma sum_scale m n (F : nat -> R) c : rsum [seq c * F k | k <- iota m n] = c * rsum [seq F k | k <- iota m n].
Proof. by elim: n m => [|n IH] m /=; [ring|rewrite IH; ring]. Qed.
Lemma sum_add m n (F G : nat -> R) : rsum [seq F k + G k | k <- iota m n] = rsum [seq F k | k <- iota m n] + rsum [seq G k | k <- iota m n].
Proof. by elim: n m => [|n IH] m /=; [ring|rewrite IH; ring]. Qed.
Lemma sum_const m n c : rsum [seq c | k <- iota m n] = INR n * c.
Proof. by elim: n m => [|n IH] m /=; [ring|rewrite IH; case: n {IH} => [|n] /=; ring]. Qed.
Lemma sumn_ext n F G : (forall k, (k < n)%N -> F k = G k) -> sumn_ n F = sumn_ n G.
Proof. by move=> h; apply: sum_ext => k /andP [_ b]; exact: h. Qed.
Lemma sumn_le n F G : (forall k, (k < n)%N -> F k <= G k) -> sumn_ n F <= sumn_ n G.
Proof. by move=> h; apply: sum_le => k /andP [_ b]; exact: h. Qed.
Lemma sumn_scale n F c : sumn_ n (fun k => c * F k) = c * sumn_ n F. Proof. exact: sum_scale. Qed.
Lemma rsum_cat s t : rsum (s ++ t) = rsum s + rsum t.
Proof. by elim: s => [|a s IH] /=; [ring|rewrite IH; ring]. Qed.

Lemma map_zip_iota S T U (F : S * T -> U) (s : seq S) (t : seq T) x0 y0 : size s = size t ->
  [seq F p | p <- zip s t] = [seq F (nth x0 s k, nth y0 t k) | k <- iota 0 (size s)].
Proof.
elim: s t => [|x s IH] [|y t] //= [e]; rewrite (IH t) // (iotaDl 1 0) -map_comp.
by [].
Qed.
Lemma map_iota T U (F : T -> U) (s : seq T) x0 : [seq F x | x <- s] = [seq F (nth x0 s k) | k <- iota 0 (size s)].
Proof. by elim: s => [|x s IH] //=; rewrite IH (iotaDl 1 0) -map_comp. Qed.
Lemma rsum_iota (s : seq R) : rsum s = sumn_ (size s) (nth 0 s).
Proof. by rewrite /sumn_ -{1}[s]map_id (map_iota _ _ 0). Qed.

Lemma sq_cat a b : sq (a ++ b) = sq a + sq b.
Proof. by rewrite /sq map_cat rsum_cat. Qed.
Lemma sq_ge0 a : 0 <= sq a.
Proof. by elim: a => [|x a IH]; rewrite /sq /=; [lra|rewrite /sq in IH; have := Rle_0_sqr x; rewrite /Rsqr; lra]. Qed.

Lemma np_logE x : 0 < x -> np_log x = Ok (ln x).
Proof. by rewrite /np_log; case: Rlt_dec. Qed.
Lemma np_sqrtE x : 0 <= x -> np_sqrt x = Ok (sqrt x).
Proof. by rewrite /np_sqrt; case: Rle_dec. Qed.

(** argmin *)
Lemma argmin_from_bound best bi i s : argmin_from best bi i s = bi \/ (i <= argmin_from best bi i s < i + size s)%N.
Proof.
elim: s best bi i => [|x s IH] best bi i /=; first by left.
case: (Rlt_dec x best) => [lt|ge] /=.
  case: (IH x i i.+1) => [->|/andP [a b]]; right; first by rewrite leqnn addnS ltnS leq_addr.
  by rewrite (ltnW a) addnS -addSn.
case: (IH best bi i.+1) => [->|/andP [a b]]; [by left|right; by rewrite (ltnW a) addnS -addSn].
Qed.
Lemma argmin_from_min best bi i s (g : nat -> R) : g bi = best -> (forall j, (j < size s)%N -> g (i + j)%N = nth 0 s j) ->
  g (argmin_from best bi i s) <= best /\ forall j, (j < size s)%N -> g (argmin_from best bi i s) <= nth 0 s j.
Proof.
elim: s best bi i => [|x s IH] best bi i /= gb gs; first by rewrite gb; split=> //; lra.
have gs' j : (j < size s)%N -> g (i.+1 + j)%N = nth 0 s j by move=> lt; rewrite addSnnS; exact: (gs j.+1).
case: Rlt_dec => /= h.
  have gi : g i = x by have := gs 0%N isT; rewrite addn0.
  have [h1 h2] := IH x i i.+1 gi gs'; split; first by lra.
  by case=> [|j] lt //=; exact: h2.
have [h1 h2] := IH best bi i.+1 gb gs'; split=> //.
by case=> [|j] lt /=; [lra|exact: h2].
Qed.
Lemma argmin_ok s : (0 < size s)%N -> exists k, [/\ argmin s = Ok k, (k < size s)%N & forall j, (j < size s)%N -> nth 0 s k <= nth 0 s j].
Proof.
case: s => // x s _ /=; eexists; split; first by reflexivity.
  by case: (argmin_from_bound x 0 1 s) => [->|/andP [_]].
have [|h1 h2] := @argmin_from_min x 0 1 s (nth 0 (x :: s)) (erefl _); first by [].
by case=> [|j] lt //=; exact: h2.
Qed.

Lemma foldl_max s x : x <= foldl Rmax x s /\ (forall j, (j < size s)%N -> nth 0 s j <= foldl Rmax x s) /\
  (foldl Rmax x s = x \/ exists2 j, (j < size s)%N & nth 0 s j = foldl Rmax x s).
Proof.
elim: s x => [|y s IH] x /=; first by split; [lra|split=> //; left].
have [h1 [h2 h3]] := IH (Rmax x y); have := Rmax_l x y; have := Rmax_r x y => r l; split; [lra|split].
  by case=> [|j] lt /=; [lra|exact: h2].
case: h3 => [->|[j lt e]]; last by right; exists j.+1.
by rewrite /Rmax; case: Rle_dec => h /=; [right; exists 0%N|left].
Qed.
Lemma pymax_ok s : (0 < size s)%N -> exists m, [/\ pymax s = Ok m, forall j, (j < size s)%N -> nth 0 s j <= m &
   exists2 j, (j < size s)%N & nth 0 s j = m].
Proof.
case: s => // x s _; have [h1 [h2 h3]] := foldl_max s x; exists (foldl Rmax x s); split=> //.
  by case=> [|j] lt //=; exact: h2.
by case: h3 => [e|[j lt e]]; [exists 0%N|exists j.+1].
Qed.

Lemma res_values_gen (alphas : seq R) (es : seq earr) : size alphas = size es -> (forall k, (k < size es)%N -> 0 < nth 0 alphas k) ->
  exists rv, [/\ res_values alphas es = Ok rv, size rv = size es &
    forall k, (k < size es)%N -> nth 0 rv k = - ln (nth 0 alphas k) + half_sq (e_val (nth e0 es k))].
Proof.
rewrite /res_values; elim: alphas es => [|x al IH] [|e l] //=; first by exists [::].
case=> sz pos; rewrite np_logE; last exact: (pos 0%N).
have [|rv [-> h1 h2]] := IH l sz; first by move=> k lt; exact: (pos k.+1).
exists ((- ln x + 1 / 2 * sq (e_val e)) :: rv); split=> //=; first by rewrite h1.
by case.
Qed.

Section Mix.
Variables (alphas : seq R) (es : seq earr).
Hypothesis v : valid alphas es.
Let n := size es.
Let a k := nth 0 alphas k.
Let f k := half_sq (e_val (nth e0 es k)).
Let n0 : (0 < n)%N. Proof. by case: v. Qed.
Let an : size alphas = n. Proof. by case: v. Qed.
Let apos k : (k < n)%N -> 0 < a k. Proof. by case: v => e _ h lt; apply: h; rewrite e. Qed.

Lemma likelihoodE : likelihood alphas es = sumn_ n (fun k => a k * exp (- f k)).
Proof. by rewrite /likelihood (map_zip_iota _ 0 e0) ?an. Qed.
Lemma likelihood_pos : 0 < likelihood alphas es.
Proof.
rewrite likelihoodE; apply: sum_gt0 => // k lt.
by apply: Rmult_lt_0_compat; [exact: apos|exact: exp_pos].
Qed.
Lemma sum_shift c : sumn_ n (fun k => a k * exp (c - f k)) = exp c * likelihood alphas es.
Proof.
rewrite likelihoodE -sumn_scale; apply: sumn_ext => k _.
by rewrite /Rminus exp_plus; ring.
Qed.
Lemma ln_shift c : ln (exp c * likelihood alphas es) = c - nll alphas es.
Proof.
rewrite ln_mult; [|exact: exp_pos|exact: likelihood_pos].
by rewrite ln_exp /nll; ring.
Qed.

Lemma res_values_ok : exists rv, [/\ res_values alphas es = Ok rv, size rv = n & forall k, (k < n)%N -> nth 0 rv k = - ln (a k) + f k].
Proof. exact: res_values_gen. Qed.

(** index the code selects *)
Definition dominant k : Prop := (k < n)%N /\ forall j, (j < n)%N -> - ln (a k) + f k <= - ln (a j) + f j.
Lemma dominant_le k j : dominant k -> (j < n)%N -> a j * exp (- f j) <= a k * exp (- f k).
Proof.
move=> [lk h] lj; have le := h j lj.
have e i : (i < n)%N -> a i * exp (- f i) = exp (- (- ln (a i) + f i)).
  by move=> li; rewrite Ropp_plus_distr Ropp_involutive exp_plus exp_ln //; exact: apos.
rewrite !e //; case: (Req_dec (- ln (a k) + f k) (- ln (a j) + f j)) => [->|ne]; first by lra.
by apply: Rlt_le; apply: exp_increasing; lra.
Qed.

Lemma ln_ge0 x : 1 <= x -> 0 <= ln x.
Proof. by case=> [lt|<-]; rewrite ?ln_1; [apply: Rlt_le; rewrite -ln_1; apply: ln_increasing; lra|lra]. Qed.
Lemma ln_le x y : 0 < x -> x <= y -> ln x <= ln y.
Proof. by move=> x0 [lt|->]; [apply: Rlt_le; apply: ln_increasing|lra]. Qed.
Lemma half_sqrt2 x : 0 <= x -> 1 / 2 * (sqrt 2 * sqrt x * (sqrt 2 * sqrt x)) = x.
Proof.
move=> x0; have e2 := sqrt_sqrt 2; have ex := sqrt_sqrt x x0.
transitivity (1 / 2 * (sqrt 2 * sqrt 2) * (sqrt x * sqrt x)); first by ring.
by rewrite ex e2; [field|lra].
Qed.

(** *** C38 *)
Theorem C38_max_mixture : exists e k amax,
  [/\ max_mixture_errors alphas es = Ok (e, k), dominant k,
      (forall j, (j < n)%N -> a j <= amax), (exists2 j, (j < n)%N & a j = amax) &
      half_sq e = (- ln (a k) + f k) + ln amax].
Proof.
rewrite /max_mixture_errors; have [rv [-> szv hv]] := res_values_ok.
have [k [ek lk hk]] : exists k, [/\ argmin rv = Ok k, (k < size rv)%N & forall j, (j < size rv)%N -> nth 0 rv k <= nth 0 rv j].
  by apply: argmin_ok; rewrite szv.
have dk : dominant k by rewrite szv in lk hk; split=> // j lj; rewrite -!hv //; exact: hk.
have [m [em hm mm]] : exists m, [/\ pymax alphas = Ok m, forall j, (j < size alphas)%N -> nth 0 alphas j <= m & exists2 j, (j < size alphas)%N & nth 0 alphas j = m].
  by apply: pymax_ok; rewrite an.
rewrite an in hm mm; have ak := apos (proj1 dk); have am := hm k (proj1 dk); rewrite -/(a k) in am.
rewrite /= ek /= em /= -/(a k).
have r1 : 1 <= m / a k.
  apply: (Rmult_le_reg_r (a k)) => //; rewrite /Rdiv Rmult_assoc Rinv_l; lra.
rewrite np_logE /=; last lra.
rewrite np_sqrtE /=; last exact: ln_ge0.
eexists _, k, m; split=> //; rewrite /half_sq sq_cat {2}/sq /= Rplus_0_r Rmult_plus_distr_l -/(half_sq _) -/(f k).
rewrite half_sqrt2; last exact: ln_ge0.
by rewrite /Rdiv ln_mult ?ln_Rinv //; [ring|lra|exact: Rinv_0_lt_compat].
Qed.

(** *** C39 *)
Lemma sub_ln_ge1 x : 0 < x -> 1 <= x - ln x.
Proof.
move=> x0; have := exp_ineq1_le (ln x); rewrite exp_ln //; lra.
Qed.
Lemma f_ge0 k : 0 <= f k.
Proof. by rewrite /f /half_sq; have := sq_ge0 (e_val (nth e0 es k)); lra. Qed.
Lemma nll_lower : - ln (rsum alphas) <= nll alphas es.
Proof.
rewrite /nll; have sp : 0 < rsum alphas by rewrite rsum_iota an; apply: sum_gt0.
suff : ln (likelihood alphas es) <= ln (rsum alphas) by lra.
apply: ln_le; first exact: likelihood_pos.
rewrite likelihoodE rsum_iota an; apply: sumn_le => k lk.
have := apos lk; have : exp (- f k) <= 1.
  rewrite -exp_0; case: (Req_dec (f k) 0) => [->|ne]; first by rewrite Ropp_0; lra.
  by apply: Rlt_le; apply: exp_increasing; have := f_ge0 k; lra.
by rewrite -/(a k) => h1 h2; nra.
Qed.
Theorem C39_sum_mixture : exists e, [/\ sum_mixture_error alphas es = Ok e, 0 < e &
  (1/2) * (e * e) = nll alphas es + rsum alphas].
Proof.
rewrite /sum_mixture_error; have [rv [-> szv hv]] := res_values_ok.
have [k [ek lk hk]] : exists k, [/\ argmin rv = Ok k, (k < size rv)%N & forall j, (j < size rv)%N -> nth 0 rv k <= nth 0 rv j].
  by apply: argmin_ok; rewrite szv.
rewrite szv in lk; rewrite /= ek /=.
set se := [seq _ | ae <- zip alphas es].
have seE : se = [seq f j | j <- iota 0 n] by rewrite /se (map_zip_iota _ 0 e0) ?an.
have szs : size se = n by rewrite seE size_map size_iota.
have sek j : (j < n)%N -> nth 0 se j = f j by move=> lj; rewrite seE (nth_map 0%N) ?size_iota // nth_iota.
have -> : rsum [seq ae.1 * exp (- ae.2 + nth 0 se k) | ae <- zip alphas se] = exp (f k) * likelihood alphas es.
  rewrite -sum_shift (map_zip_iota _ 0 0) ?an ?szs //; apply: sumn_ext => j lj /=.
  by rewrite !sek // /a /Rminus Rplus_comm.
have p0 : 0 < exp (f k) * likelihood alphas es by apply: Rmult_lt_0_compat; [exact: exp_pos|exact: likelihood_pos].
rewrite np_logE //= ln_shift sek //.
have e : rsum alphas + f k - (f k - nll alphas es) = nll alphas es + rsum alphas by ring.
rewrite e; have sp : 0 < rsum alphas by rewrite rsum_iota an; apply: sum_gt0.
have r1 : 1 <= nll alphas es + rsum alphas by have := nll_lower; have := sub_ln_ge1 sp; lra.
rewrite np_sqrtE /=; last lra.
eexists; split; first by reflexivity.
  by apply: Rmult_lt_0_compat; apply: sqrt_lt_R0; lra.
by rewrite half_sqrt2 //; lra.
Qed.

(** *** C40 *)
Section MaxSum.
Variable damping : R.
Hypothesis d0 : 0 <= damping.
Lemma max_sum_nonlinear k : dominant k ->
  exists nl, [/\ nonlinear_part damping [seq - (1/2) * sq (e_val e) + (1/2) * sq (e_val (nth e0 es k)) | e <- es] alphas = Ok nl &
    exists2 amax, (forall j, (j < n)%N -> a j <= amax) /\ (exists2 j, (j < n)%N & a j = amax) &
      f k + (1/2) * (nl * nl) = nll alphas es + ln (INR n * amax + damping)].
Proof.
move=> dk; have [lk _] := dk; rewrite /nonlinear_part.
have [m [-> hm mm]] : exists m, [/\ pymax alphas = Ok m, forall j, (j < size alphas)%N -> nth 0 alphas j <= m & exists2 j, (j < size alphas)%N & nth 0 alphas j = m].
  by apply: pymax_ok; rewrite an.
rewrite an in hm mm; rewrite /= an.
set diffs := [seq _ | e <- es].
have -> : rsum [seq ae.1 * exp ae.2 | ae <- zip alphas diffs] = exp (f k) * likelihood alphas es.
  rewrite -sum_shift (map_zip_iota _ 0 0) ?size_map ?an //; apply: sumn_ext => j lj /=.
  by congr (_ * exp _); rewrite (nth_map e0) // /f /half_sq; ring.
have mpos : 0 < m by have [j lj <-] := mm; exact: apos.
have Npos : 0 < INR n by apply: lt_0_INR; apply/ltP.
have lower : exp (f k) * likelihood alphas es <= INR n * m.
  rewrite -sum_shift -(sum_const 0 n m); apply: sumn_le => j lj.
  have := dominant_le dk lj; have := hm k lk; rewrite -/(a k) /Rminus exp_plus.
  have : exp (f k) * exp (- f k) = 1 by rewrite -exp_plus Rplus_opp_r exp_0.
  have := exp_pos (f k); set E := exp (f k); set E' := exp (- f k); set J := exp (- f j) => h0 h1 h2 h3.
  have : E * (a j * J) <= E * (a k * E') by apply: Rmult_le_compat_l; lra.
  nra.
have p0 : 0 < exp (f k) * likelihood alphas es by apply: Rmult_lt_0_compat; [exact: exp_pos|exact: likelihood_pos].
have q0 : 0 < INR n * m by apply: Rmult_lt_0_compat.
rewrite np_logE /=; last lra.
rewrite np_logE //= ln_shift.
have le : f k - nll alphas es <= ln (INR n * m + damping) by rewrite -ln_shift; apply: ln_le => //; lra.
rewrite np_sqrtE /=; last lra.
eexists; split; first by reflexivity.
exists m => //; rewrite half_sqrt2; last lra.
by ring.
Qed.
Theorem C40_max_sum_mixture : (forall k, (k < n)%N -> e_col (nth e0 es k) = false) ->
  exists e nl k amax, [/\ max_sum_errors damping alphas es = Ok (e, nl, k), dominant k,
    (forall j, (j < n)%N -> a j <= amax), (exists2 j, (j < n)%N & a j = amax) &
    half_sq e = nll alphas es + ln (INR n * amax + damping)].
Proof.
move=> flat; rewrite /max_sum_errors; have [rv [-> szv hv]] := res_values_ok.
have [k [ek lk hk]] : exists k, [/\ argmin rv = Ok k, (k < size rv)%N & forall j, (j < size rv)%N -> nth 0 rv k <= nth 0 rv j].
  by apply: argmin_ok; rewrite szv.
have dk : dominant k by rewrite szv in lk hk; split=> // j lj; rewrite -!hv //; exact: hk.
have [nl [enl [m [hm mm] e]]] := max_sum_nonlinear dk.
rewrite /= ek /= enl /= flat; last exact: dk.1.
exists (e_val (nth e0 es k) ++ [:: nl]), nl, k, m; split=> //.
by rewrite /half_sq sq_cat {2}/sq /= Rplus_0_r Rmult_plus_distr_l -/(half_sq _) -/(f k).
Qed.
(** With the (n, 1) errors that every residual of residuals.py returns, the
    max-sum-mixture always raises. *)
Theorem C40_column_errors_refuted : (forall k, (k < n)%N -> e_col (nth e0 es k)) ->
  max_sum_errors damping alphas es = Raise ValueError.
Proof.
move=> col; rewrite /max_sum_errors; have [rv [-> szv hv]] := res_values_ok.
have [k [ek lk hk]] : exists k, [/\ argmin rv = Ok k, (k < size rv)%N & forall j, (j < size rv)%N -> nth 0 rv k <= nth 0 rv j].
  by apply: argmin_ok; rewrite szv.
have dk : dominant k by rewrite szv in lk hk; split=> // j lj; rewrite -!hv //; exact: hk.
have [nl [enl _]] := max_sum_nonlinear dk.
by rewrite /= ek /= enl /= col //; exact: dk.1.
Qed.
End MaxSum.

(** *** C41 *)
Let resp k := a k * exp (- f k) / likelihood alphas es.
Lemma resp_pos k : (k < n)%N -> 0 < resp k.
Proof.
move=> lk; rewrite /resp /Rdiv; apply: Rmult_lt_0_compat; last by apply: Rinv_0_lt_compat; exact: likelihood_pos.
by apply: Rmult_lt_0_compat; [exact: apos|exact: exp_pos].
Qed.
Lemma resp_sum : sumn_ n resp = 1.
Proof.
have lp := likelihood_pos.
have -> : sumn_ n resp = sumn_ n (fun k => / likelihood alphas es * (a k * exp (- f k))).
  by apply: sumn_ext => k _; rewrite /resp /Rdiv; ring.
by rewrite sumn_scale -likelihoodE Rinv_l //; lra.
Qed.
Lemma hsm_drhoE c : [seq af.1 * exp (c - af.2) / (rsum [seq af.1 * exp (c - af.2) | af <- zip alphas [seq (1/2) * sq (e_val e) | e <- es]]) | af <- zip alphas [seq (1/2) * sq (e_val e) | e <- es]]
  = [seq resp k | k <- iota 0 n].
Proof.
have lp := likelihood_pos.
have -> : rsum [seq af.1 * exp (c - af.2) | af <- zip alphas [seq (1/2) * sq (e_val e) | e <- es]] = exp c * likelihood alphas es.
  rewrite -sum_shift (map_zip_iota _ 0 0) ?size_map ?an //; apply: sumn_ext => j lj /=.
  by rewrite (nth_map e0).
rewrite (map_zip_iota _ 0 0) ?size_map ?an //; apply/eq_in_map => k; rewrite mem_iota add0n => /andP [_ lk] /=.
rewrite (nth_map e0) // -/(half_sq _) -/(f k) -/(a k) /resp /Rminus exp_plus; field; split; first lra.
by have := exp_pos c; lra.
Qed.
(** Gibbs' inequality *)
Lemma gibbs : sumn_ n (fun k => resp k * (f k + ln (likelihood alphas es))) <= ln (rsum alphas).
Proof.
have lp := likelihood_pos; have sp : 0 < rsum alphas by rewrite rsum_iota an; apply: sum_gt0.
have key k : (k < n)%N -> resp k * (f k + ln (likelihood alphas es)) <= a k / rsum alphas - resp k + ln (rsum alphas) * resp k.
  move=> lk; have rp := resp_pos lk; have ap := apos lk.
  have e : f k + ln (likelihood alphas es) = ln (a k / (resp k)).
    have -> : a k / resp k = exp (f k) * likelihood alphas es.
      rewrite /resp; have := exp_pos (- f k) => ep.
      have -> : exp (f k) = / exp (- f k) by rewrite exp_Ropp Rinv_involutive //; have := exp_pos (f k); lra.
      by field; repeat split; lra.
    by rewrite ln_shift /nll; ring.
  rewrite e.
  have q0 : 0 < a k / (resp k * rsum alphas) by apply: Rdiv_lt_0_compat => //; exact: Rmult_lt_0_compat.
  have -> : a k / resp k = a k / (resp k * rsum alphas) * rsum alphas by field; split; lra.
  rewrite ln_mult //; have := sub_ln_ge1 q0.
  have e2 : resp k * (a k / (resp k * rsum alphas)) = a k / rsum alphas by field; split; lra.
  set q := a k / (resp k * rsum alphas) in e2 *; set L := ln q; set S := ln (rsum alphas) => h.
  have : resp k * L <= resp k * (q - 1) by apply: Rmult_le_compat_l; lra.
  by rewrite Rmult_plus_distr_l Rmult_minus_distr_l e2; lra.
apply: Rle_trans (sumn_le key) _; rewrite /sumn_ !sum_add.
have -> : rsum [seq a k / rsum alphas | k <- iota 0 n] = 1.
  transitivity (/ rsum alphas * sumn_ n a).
    by rewrite -sumn_scale; apply: sumn_ext => k _; rewrite /Rdiv Rmult_comm.
  by rewrite -an -(rsum_iota alphas) Rinv_l //; lra.
have -> : rsum [seq - resp k | k <- iota 0 n] = - 1.
  transitivity (-1 * sumn_ n resp); last by rewrite resp_sum; ring.
  by rewrite -sumn_scale; apply: sumn_ext => k _; ring.
by rewrite sum_scale -/(sumn_ n resp) resp_sum; lra.
Qed.

Lemma mapM_sqrt (s : seq R) : (forall k, (k < size s)%N -> 0 <= nth 0 s k) -> mapM np_sqrt s = Ok [seq sqrt x | x <- s].
Proof.
elim: s => [|x s IH] //= h; rewrite np_sqrtE ?IH //=; first by move=> k lk; exact: (h k.+1).
exact: (h 0%N).
Qed.
Lemma sq_scale c e : sq (rscale c e) = c * c * sq e.
Proof. by elim: e => [|x e IH]; rewrite /sq /rscale /=; [ring|move: IH; rewrite /sq /rscale => ->; ring]. Qed.
Lemma sq_flatten (ss : seq (seq R)) : sq (flatten ss) = rsum [seq sq s | s <- ss].
Proof. by elim: ss => [|s ss IH] //=; rewrite sq_cat IH. Qed.

(** total number of stacked error entries *)
Definition total_size : nat := sumn [seq size (e_val e) | e <- es].
Lemma hsm_size (l : seq R) : size l = size es -> size (flatten [seq rscale de.1 (e_val de.2) | de <- zip l es]) = total_size.
Proof.
rewrite /total_size size_flatten /shape -map_comp.
elim: es l => [|e t IH] [|x l] //= [sz]; by rewrite IH // size_map.
Qed.

Theorem C41_hessian_sum_mixture : total_size <> 1%N ->
  exists e, [/\ hsm_errors alphas es = Ok (e, [seq responsibility alphas es k | k <- iota 0 n]) &
    half_sq e = nll alphas es + ln (rsum [seq x * exp (rsum alphas / x) | x <- alphas])].
Proof.
move=> ts; have lp := likelihood_pos; have sp : 0 < rsum alphas by rewrite rsum_iota an; apply: sum_gt0.
rewrite /hsm_errors /hsm_constant.
have cge : rsum alphas <= rsum [seq x * exp (rsum alphas / x) | x <- alphas].
  rewrite {1}rsum_iota (map_iota _ _ 0) an; apply: sumn_le => k lk; rewrite -/(a k); have ap := apos lk.
  have q0 : 0 < rsum alphas / a k by exact: Rdiv_lt_0_compat.
  have := exp_increasing _ _ q0; rewrite exp_0; nra.
rewrite np_logE /=; last lra.
set fs := [seq _ | e <- es]; have [k [ek lk hk]] : exists k, [/\ argmin fs = Ok k, (k < size fs)%N & forall j, (j < size fs)%N -> nth 0 fs k <= nth 0 fs j].
  by apply: argmin_ok; rewrite size_map.
rewrite ek /= /hsm_drho hsm_drhoE mapM_sqrt /=; last first.
  move=> i; rewrite size_map size_iota => li; rewrite (nth_map 0%N) ?size_iota // nth_iota //.
  by apply: Rlt_le; exact: resp_pos.
have sxE : rsum [seq af.1 * exp (nth 0 fs k - af.2) | af <- zip alphas fs] = exp (nth 0 fs k) * likelihood alphas es.
  rewrite -sum_shift (map_zip_iota _ 0 0) ?size_map ?an //; apply: sumn_ext => j lj /=.
  by congr (_ * exp (_ - _)); rewrite /fs (nth_map e0).
rewrite sxE np_logE /=; last by apply: Rmult_lt_0_compat => //; exact: exp_pos.
rewrite hsm_size; last by rewrite !size_map size_iota.
case: eqP => // _; rewrite ln_shift.
set he := flatten _.
have sqE : sq he = 2 * sumn_ n (fun k => resp k * f k).
  rewrite /he sq_flatten -map_comp (map_zip_iota _ 0 e0) ?size_map ?size_iota // -sumn_scale; apply: sumn_ext => j lj /=.
  rewrite (nth_map 0) ?size_map ?size_iota // (nth_map 0%N) ?size_iota // nth_iota // add0n sq_scale.
  by rewrite sqrt_sqrt; [rewrite /f /half_sq; field|apply: Rlt_le; exact: resp_pos].
set C := ln (rsum [seq _ | x <- alphas]).
have CS : ln (rsum alphas) <= C by apply: ln_le.
have g := gibbs.
have gE : sumn_ n (fun k => resp k * (f k + ln (likelihood alphas es))) = sumn_ n (fun k => resp k * f k) + ln (likelihood alphas es).
  transitivity (sumn_ n (fun k => resp k * f k) + sumn_ n (fun k => ln (likelihood alphas es) * resp k)).
    by rewrite /sumn_ -sum_add; apply: sumn_ext => j _; ring.
  by rewrite sumn_scale resp_sum; ring.
rewrite gE in g.
have r0 : 0 <= 2 * (C + nth 0 fs k - (nth 0 fs k - nll alphas es)) - sq he by rewrite sqE /nll; lra.
rewrite np_sqrtE //=; eexists; split.
  by congr (Ok (_, _)); apply: eq_map.
rewrite /half_sq sq_cat {2}/sq /= Rplus_0_r sqrt_sqrt //.
by lra.
Qed.
End Mix.

(** A single component with a scalar error: np.concatenate refuses the squeezed
    0-d array. *)
Theorem C41_single_scalar_refuted (x : R) (w : R) c : 0 < w -> hsm_errors [:: w] [:: Earr [:: x] c] = Raise ValueError.
Proof.
move=> w0; rewrite /hsm_errors /hsm_constant /=.
have e1 := exp_pos ((w + 0) / w); rewrite np_logE /=; last nra.
rewrite /hsm_drho /=; have e2 := exp_pos (1 / 2 * sq [:: x] - 1 / 2 * sq [:: x]).
set E := exp (1 / 2 * sq [:: x] - 1 / 2 * sq [:: x]) in e2 *.
rewrite np_sqrtE /=; last by apply: Rlt_le; apply: Rdiv_lt_0_compat; nra.
by rewrite np_logE //=; nra.
Qed.
