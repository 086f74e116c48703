(** C87: GaussianResultList.from_estimates.  C88: mixture results.  C89: monte_carlo. *)
From mathcomp Require Import all_ssreflect all_algebra.
From Verif Require Import Base Tac LinAlg EkfModel MixtureModel MixtureProps ResultModel ResultProps UtilsModel UtilsProps UtilsProps2 EstResultModel.
Set Implicit Arguments.
Unset Strict Implicit.
Unset Printing Implicit Defensive.
Import Order.Theory GRing.Theory Num.Theory.
Local Open Scope ring_scope.

(** *** Specification vocabulary *)
Section Spec.
Variables (R : rcfType) (V : Type) (n : nat).
(** state [k] of the list is the one whose stamp is closest to [q] *)
Definition closest (truth : seq (sstate R V)) (q : R) (j : nat) : Prop :=
  (j < size truth)%N /\
  forall s0 i, (i < size truth)%N -> `|(nth s0 truth j).2 - q| <= `|(nth s0 truth i).2 - q|.
(** the metrics of an error [e] under covariance [P] *)
Definition metrics_of (e : 'cV[R]_n) (P : 'M[R]_n) (g : gresult R n) : Prop :=
  [/\ g_error g = e, g_ees g = \sum_i e i 0 ^+ 2, g_nees g = (e^T *m invmx P *m e) 0 0,
      (0 <= g_md g /\ g_md g ^+ 2 = g_nees g) &
      (0 <= g_rmse g /\ ((0 < n)%N -> g_rmse g ^+ 2 * n%:R = g_ees g)) /\
      forall i, 0 <= g_three_sigma g i 0 /\ g_three_sigma g i 0 ^+ 2 = 9%:R * P i i].
End Spec.

Lemma mapM_all (A B : Type) (f : A -> result B) (P : A -> B -> Prop) (s : seq A) :
  (forall k a0, (k < size s)%N -> exists2 b, f (nth a0 s k) = Ok b & P (nth a0 s k) b) ->
  exists out, [/\ mapM f s = Ok out, size out = size s &
    forall k a0 b0, (k < size s)%N -> P (nth a0 s k) (nth b0 out k)].
Proof.
elim: s => [|a s IH] h; first by exists [::].
have [b fb Pb] := h 0%N a isT; have [out [e1 e2 e3]] := IH (fun k a0 lk => h k.+1 a0 lk).
exists (b :: out); rewrite /= in fb *; rewrite fb /= e1 /= e2; split=> //.
by case=> [|k] a0 b0 lk //=; exact: e3.
Qed.
Lemma mapM_raise (A B : Type) (f : A -> result B) x (s : seq A) k a0 :
  (k < size s)%N -> f (nth a0 s k) = Raise x ->
  (forall j, (j < k)%N -> is_ok (f (nth a0 s j))) -> mapM f s = Raise x.
Proof.
elim: s k => [|a s IH] [|k] //= lk e h; first by rewrite e.
have := h 0%N isT; rewrite /=; case: (f a) => //= b _.
by rewrite (IH k) // => j lj; exact: (h j.+1).
Qed.

Section Results.
Variables (R : rcfType) (V : Type) (n : nat).
Variable plus : V -> 'cV[R]_n -> V.
Variable minus : V -> V -> 'cV[R]_n.
Variable plus_jac : V -> 'cV[R]_n -> 'M[R]_n.
Variable minus_jac : V -> V -> 'M[R]_n.
Notation est := (est R V n).
Notation sstate := (sstate R V).
Notation from_estimates := (from_estimates plus minus).
Notation interp_by := (interp_by plus minus).
Notation mixing := (gaussian_mixing plus minus plus_jac minus_jac).
Notation mixture_result := (mixture_result plus minus plus_jac minus_jac).
Notation mixture_from_estimates := (mixture_from_estimates plus minus plus_jac minus_jac).

Lemma metrics_ok (e : 'cV[R]_n) P : pd P -> exists2 g, gaussian_result e P = Ok g & metrics_of e P g.
Proof.
move=> hP; have [g [-> [h1 [h2 [h3 [h4 [h5 [h6 _]]]]]]]] := C61_metrics e hP.
by exists g.
Qed.

Lemma sort_inc (truth : seq sstate) : increasing truth -> sort <=%R [seq s.2 | s <- truth] = [seq s.2 | s <- truth].
Proof.
move=> inc; apply: sorted_sort; first exact: le_trans.
by apply: sub_sorted inc => a b /ltW.
Qed.

Lemma nearest_oneP (truth : seq sstate) q : increasing truth -> (0 < size truth)%N ->
  exists j, (forall s0, nearest_one truth q = Ok (nth s0 truth j)) /\ closest truth q j.
Proof.
move=> inc n0; rewrite /nearest_one sort_inc //.
have ne : [seq s.2 | s <- truth] <> [::] by case: (truth) n0.
have [j [e lj h]] := C58_nearest q ne; exists j.
rewrite size_map in lj.
have -> : nearest [seq s.2 | s <- truth] q = Ok j.
  by move: e; rewrite /find_nearest_stamp_idx; case: (nearest _ _) => //= k [->].
split=> [s0|]; first by rewrite /= /py_nth (drop_nth s0).
split=> // s0 i li; have := (h i); rewrite size_map => /(_ li) [].
by rewrite !(nth_map s0).
Qed.

Lemma query_stampsP (qs : seq (option R)) ts : qs = map Some ts -> query_stamps qs = Ok ts.
Proof. by move=> ->; rewrite /query_stamps; elim: ts => //= t ts ->. Qed.
Lemma all_stamped (xs : seq est) : (forall k x0, (k < size xs)%N -> sstamp (est_state (nth x0 xs k)) <> None) ->
  exists2 ts, [seq sstamp (est_state x) | x <- xs] = map Some ts & size ts = size xs.
Proof.
elim: xs => [|x xs IH] h; first by exists [::].
have [ts e1 e2] := IH (fun k x0 lk => h k.+1 x0 lk).
have := h 0%N x isT; rewrite /=; case: (sstamp _) => // t _.
by exists (t :: ts); rewrite /= ?e1 ?e2.
Qed.


Lemma from_ok m (xs : seq est) (truth ss : seq sstate) :
  interp_by m [seq sstamp (est_state x) | x <- xs] truth = Ok ss -> size ss = size xs ->
  (forall k x0, (k < size xs)%N -> pd (est_cov (nth x0 xs k))) ->
  exists out, [/\ from_estimates m xs truth = Ok out, size out = size xs &
    forall k x0 s0 r0, (k < size xs)%N ->
      let x := nth x0 xs k in let r := nth r0 out k in
      [/\ r_stamp r = sstamp (est_state x), r_state r = est_state x, r_cov r = est_cov x,
          r_true r = nth s0 ss k &
          metrics_of (minus (r_true r).1 (sval (est_state x))) (est_cov x) (r_metrics r)]].
Proof.
move=> e1 e2 hP; rewrite /EstResultModel.from_estimates e1 /=.
have szz : size (zip xs ss) = size xs by rewrite size_zip e2 minnn.
have [|out [f1 f2 f3]] := @mapM_all _ _ (fun p => gaussian_result_of minus p.1 p.2)
  (fun (p : est * sstate) r => let x := p.1 in [/\ r_stamp r = sstamp (est_state x), r_state r = est_state x, r_cov r = est_cov x,
      r_true r = p.2 & metrics_of (minus (r_true r).1 (sval (est_state x))) (est_cov x) (r_metrics r)]) (zip xs ss).
  move=> k [x0 s0]; rewrite szz => lk; rewrite nth_zip //=.
  have [g eg mg] := metrics_ok (minus (nth s0 ss k).1 (sval (est_state (nth x0 xs k)))) (hP k x0 lk).
  by rewrite /gaussian_result_of eg /=; eexists; first by [].
exists out; split=> //; first by rewrite f2.
move=> k x0 s0 r0 lk; have := f3 k (x0, s0) r0; rewrite szz nth_zip //=; exact.
Qed.

(** C87, method="nearest" (the default): one result per estimate, in order; it carries the
    estimate's own stamp, state and covariance, is compared with the true state whose
    stamp is closest, and reports the metrics of that error. *)
Theorem C87_nearest (xs : seq est) (truth : seq sstate) :
  increasing truth -> (0 < size truth)%N ->
  (forall k x0, (k < size xs)%N -> sstamp (est_state (nth x0 xs k)) <> None /\ pd (est_cov (nth x0 xs k))) ->
  exists out, [/\ from_estimates MNearest xs truth = Ok out, size out = size xs &
    forall k x0 r0, (k < size xs)%N ->
      let x := nth x0 xs k in let r := nth r0 out k in
      [/\ r_stamp r = sstamp (est_state x), r_state r = est_state x, r_cov r = est_cov x,
          (exists q j, [/\ sstamp (est_state x) = Some q, closest truth q j & forall s0, r_true r = nth s0 truth j]) &
          metrics_of (minus (r_true r).1 (sval (est_state x))) (est_cov x) (r_metrics r)]].
Proof.
move=> inc n0 h.
have [ts e1 e2] := all_stamped (fun k x0 lk => (h k x0 lk).1).
have [|ss [f1 f2 f3]] := @mapM_all _ _ (nearest_one truth)
  (fun q s => exists j, (forall s0, s = nth s0 truth j) /\ closest truth q j) ts.
  move=> k a0 lk; have [j [g1 g2]] := nearest_oneP (nth a0 ts k) inc n0.
  have [s1 _] : exists s1 : sstate, True by case: (truth) n0 => // s1 r _; exists s1.
  exists (nth s1 truth j); first exact: g1.
  by exists j; split=> // s0; apply: set_nth_default; case: g2.
have e3 : interp_by MNearest [seq sstamp (est_state x) | x <- xs] truth = Ok ss.
  by rewrite /EstResultModel.interp_by (query_stampsP e1) /= f1; case: (truth) n0.
have [|out [o1 o2 o3]] := from_ok e3 (etrans f2 e2); first by move=> k x0 lk; case: (h k x0 lk).
exists out; split=> // k x0 r0 lk.
have [s1 _] : exists s1 : sstate, True by case: (truth) n0 => // s1 r _; exists s1.
have [p1 p2 p3 p4 p5] := o3 k x0 s1 r0 lk; split=> //; rewrite p4.
have lk' : (k < size ts)%N by rewrite e2.
have [j [j1 j2]] := f3 k 0 s1 lk'; exists (nth 0 ts k), j; split=> //.
have : nth None [seq sstamp (est_state x) | x <- xs] k = nth None (map Some ts) k by rewrite e1.
by rewrite (nth_map x0) // (nth_map 0).
Qed.

Lemma increasing_nth (truth : seq sstate) s0 i j : increasing truth -> (i < size truth)%N -> (j < size truth)%N ->
  (nth s0 truth i).2 = (nth s0 truth j).2 -> i = j.
Proof.
move=> inc li lj; rewrite -!(nth_map s0 0 snd) // => e.
have u : uniq [seq s.2 | s <- truth] by apply: sorted_uniq inc; [exact: lt_trans|exact: ltxx].
by apply/eqP; rewrite -(nth_uniq 0 _ _ u) ?size_map // e.
Qed.

(** C87: an estimate whose stamp is one of the true stamps is compared with exactly that
    true state *)
Theorem C87_matching_stamp (xs : seq est) (truth : seq sstate) out k j x0 s0 r0 :
  increasing truth ->
  (forall k x0, (k < size xs)%N -> sstamp (est_state (nth x0 xs k)) <> None /\ pd (est_cov (nth x0 xs k))) ->
  from_estimates MNearest xs truth = Ok out -> (k < size xs)%N -> (j < size truth)%N ->
  sstamp (est_state (nth x0 xs k)) = Some (nth s0 truth j).2 ->
  r_true (nth r0 out k) = nth s0 truth j.
Proof.
move=> inc h e lk lj st.
have n0 : (0 < size truth)%N by exact: leq_ltn_trans lj.
have [out' [e' _ o3]] := C87_nearest inc n0 h; move: e; rewrite e' => -[<-].
have [_ _ _ [q [i [q1 [li q2] q3]]] _] := o3 k x0 r0 lk.
move: q1; rewrite st => -[qE]; rewrite (q3 s0).
have := q2 s0 j lj; rewrite -qE subrr normr0 normr_le0 subr_eq0 => /eqP e2.
by rewrite (increasing_nth inc li lj e2).
Qed.

(** C87: a filter that reproduces the truth at true stamps has zero error, EES and NEES *)
Theorem C87_perfect (xs : seq est) (truth : seq sstate) : (forall x, minus x x = 0) -> increasing truth -> (0 < size truth)%N ->
  (forall k x0, (k < size xs)%N -> pd (est_cov (nth x0 xs k)) /\
     exists2 j, (j < size truth)%N & forall s0, est_state (nth x0 xs k) = PState (nth s0 truth j).1 (Some (nth s0 truth j).2)) ->
  exists out, [/\ from_estimates MNearest xs truth = Ok out, size out = size xs &
    forall k r0, (k < size xs)%N ->
     [/\ g_error (r_metrics (nth r0 out k)) = 0, g_ees (r_metrics (nth r0 out k)) = 0 & g_nees (r_metrics (nth r0 out k)) = 0]].
Proof.
move=> m0 inc n0 h.
have h' k x0 : (k < size xs)%N -> sstamp (est_state (nth x0 xs k)) <> None /\ pd (est_cov (nth x0 xs k)).
  have [s1 _] : exists s1 : sstate, True by case: (truth) n0 => // s1 r _; exists s1.
  by move=> lk; have [hP [j _ e]] := h k x0 lk; rewrite (e s1).
have [out [e1 e2 e3]] := C87_nearest inc n0 h'; exists out; split=> // k r0 lk.
have [x0 _] : exists x0 : est, True by case: (xs) lk => // x r _; exists x.
have [s1 _] : exists s1 : sstate, True by case: (truth) n0 => // s1 r _; exists s1.
have [_ [j lj e]] := h k x0 lk.
have tE : r_true (nth r0 out k) = nth s1 truth j.
  by apply: (@C87_matching_stamp xs truth out k j x0 s1 r0); rewrite ?(e s1).
have [_ _ _ _] := e3 k x0 r0 lk; rewrite (e s1) tE /= m0 => -[-> -> -> _ _]; split=> //.
  by rewrite big1 // => i _; rewrite mxE expr0n.
by rewrite mulmx0 mxE.
Qed.

(** C87, method="linear": the truth is interpolated at the estimate's stamp *)
Theorem C87_linear (xs : seq est) (truth : seq sstate) :
  increasing truth -> (0 < size truth)%N ->
  (forall k x0, (k < size xs)%N -> sstamp (est_state (nth x0 xs k)) <> None /\ pd (est_cov (nth x0 xs k))) ->
  exists out, [/\ from_estimates MLinear xs truth = Ok out, size out = size xs &
    forall k x0 r0, (k < size xs)%N ->
      let x := nth x0 xs k in let r := nth r0 out k in
      [/\ r_stamp r = sstamp (est_state x), r_state r = est_state x, r_cov r = est_cov x,
          (exists q, [/\ sstamp (est_state x) = Some q, (r_true r).2 = q &
             forall s0 j, (j.+1 < size truth)%N -> (nth s0 truth j).2 <= q -> q < (nth s0 truth j.+1).2 ->
               let alpha := (q - (nth s0 truth j).2) / ((nth s0 truth j.+1).2 - (nth s0 truth j).2) in
               (r_true r).1 = plus (nth s0 truth j).1 (alpha *: minus (nth s0 truth j.+1).1 (nth s0 truth j).1)]) &
          metrics_of (minus (r_true r).1 (sval (est_state x))) (est_cov x) (r_metrics r)]].
Proof.
move=> inc n0 h.
have [ts e1 e2] := all_stamped (fun k x0 lk => (h k x0 lk).1).
have [s1 _] : exists s1 : sstate, True by case: (truth) n0 => // s1 r _; exists s1.
have [ss [f1 f2 f3]] := C59_queries plus minus s1 inc ts n0.
have e3 : interp_by MLinear [seq sstamp (est_state x) | x <- xs] truth = Ok ss.
  by rewrite /EstResultModel.interp_by (query_stampsP e1); exact: f1.
have szs : size ss = size xs by rewrite -e2 -f2 size_map.
have [|out [o1 o2 o3]] := from_ok e3 szs; first by move=> k x0 lk; case: (h k x0 lk).
exists out; split=> // k x0 r0 lk.
have [p1 p2 p3 p4 p5] := o3 k x0 s1 r0 lk; split=> //; rewrite p4.
have lk' : (k < size ts)%N by rewrite e2.
exists (nth 0 ts k); split.
- have : nth None [seq sstamp (est_state x) | x <- xs] k = nth None (map Some ts) k by rewrite e1.
  by rewrite (nth_map x0) // (nth_map 0).
- by rewrite -f2 (nth_map s1) // szs.
move=> s0 j lj h1 h2 /=; have := f3 k lk'.
by have [_ _ ->] := @C59_between _ _ _ plus minus truth s0 inc j _ lj h1 h2 => -[<-].
Qed.

(** C87: refusals.  An estimate without a stamp, an unknown method, an empty truth, a
    singular covariance. *)
Theorem C87_missing_stamp m (xs : seq est) truth k x0 : (k < size xs)%N ->
  sstamp (est_state (nth x0 xs k)) = None -> from_estimates m xs truth = Raise TypeError.
Proof.
move=> lk e; rewrite /EstResultModel.from_estimates /EstResultModel.interp_by.
suff -> : query_stamps [seq sstamp (est_state x) | x <- xs] = Raise TypeError by [].
rewrite /query_stamps; elim: xs k lk e => [|x xs IH] [|k] //= lk e; first by rewrite e.
by case: (sstamp _) => //= t; rewrite (IH k).
Qed.
Theorem C87_unknown_method (xs : seq est) truth :
  (forall k x0, (k < size xs)%N -> sstamp (est_state (nth x0 xs k)) <> None) ->
  from_estimates MOther xs truth = Raise UnboundLocalError.
Proof.
move=> h; have [ts e1 e2] := all_stamped h.
by rewrite /EstResultModel.from_estimates /EstResultModel.interp_by (query_stampsP e1).
Qed.
Theorem C87_no_truth m (xs : seq est) : m <> MOther ->
  (forall k x0, (k < size xs)%N -> sstamp (est_state (nth x0 xs k)) <> None) ->
  from_estimates m xs [::] = Raise ValueError.
Proof.
move=> hm h; have [ts e1 e2] := all_stamped h.
by rewrite /EstResultModel.from_estimates /EstResultModel.interp_by (query_stampsP e1); case: m hm.
Qed.
Theorem C87_singular (xs : seq est) truth k x0 : increasing truth -> (0 < size truth)%N ->
  (forall k x0, (k < size xs)%N -> sstamp (est_state (nth x0 xs k)) <> None) ->
  (k < size xs)%N -> est_cov (nth x0 xs k) \notin unitmx ->
  (forall j, (j < k)%N -> est_cov (nth x0 xs j) \in unitmx) ->
  from_estimates MNearest xs truth = Raise LinAlgError.
Proof.
move=> inc n0 h lk sg ok; have [ts e1 e2] := all_stamped h.
rewrite /EstResultModel.from_estimates /EstResultModel.interp_by (query_stampsP e1) /=.
have [|ss [f1 f2 _]] := @mapM_all _ _ (nearest_one truth) (fun _ _ => True) ts.
  move=> i a0 li; have [j [g1 g2]] := nearest_oneP (nth a0 ts i) inc n0.
  have [s1 _] : exists s1 : sstate, True by case: (truth) n0 => // s1 r _; exists s1.
  by exists (nth s1 truth j).
have [s1 _] : exists s1 : sstate, True by case: (truth) n0 => // s1 r _; exists s1.
have -> : match truth with [::] => Raise ValueError | _ :: _ => mapM (nearest_one truth) ts end = Ok ss by rewrite f1; case: (truth) n0.
rewrite /=; apply: (@mapM_raise _ _ _ _ _ k (x0, s1)).
- by rewrite size_zip f2 e2 minnn.
- rewrite nth_zip ?f2 ?e2 //= /gaussian_result_of.
  by rewrite C61_singular.
move=> j lj; rewrite nth_zip ?f2 ?e2 //= /gaussian_result_of /gaussian_result /np_solve ok //.
Qed.
(** The docstring asks for a list of true states, not a sorted one; with an unsorted list
    the estimate is compared with the wrong state. *)
Theorem C87_unsorted_truth_refuted (a b : V) (P : 'M[R]_n) : pd P ->
  exists r, from_estimates MNearest [:: Est (PState a (Some 0)) P] [:: (b, 1); (a, 0)] = Ok [:: r] /\
    r_true r = (b, 1).
Proof.
move=> hP; have [g eg _] := metrics_ok (minus b a) hP.
have so : sort <=%R [:: 1; 0 : R] = [:: 0; 1].
  apply: (@sorted_eq _ <=%R le_trans le_anti); rewrite ?sort_le_sorted //= ?ler01 //.
  by rewrite perm_sort (perm_catC [:: 1] [:: 0]).
have ne : nearest [:: 0; 1 : R] 0 = Ok 0%N.
  have [i [e li h]] := @C58_nearest R [:: 0; 1] 0 (fun e => match e with erefl => I end).
  move: e; rewrite /find_nearest_stamp_idx; case: (nearest _ _) => //= k [->].
  have := (h 0%N isT).1; rewrite /= subrr normr0 normr_le0 subr0.
  by case: i li {h} => [|[|i]] //= _; rewrite oner_eq0.
rewrite /EstResultModel.from_estimates /EstResultModel.interp_by /= /nearest_one /= so ne /=.
by rewrite /gaussian_result_of /= eg /=; eexists.
Qed.

(** *** C88 *)
Lemma wsum_pd w (xs : seq est) (F : est -> 'M[R]_n) : size w = size xs -> all (fun a => 0 <= a) w -> \sum_(a <- w) a = 1 ->
  (forall k d, (k < size xs)%N -> pd (F (nth d xs k))) -> pd (\sum_(p <- zip w xs) p.1 *: F p.2).
Proof.
move=> sz w0 w1 hF.
have : \sum_(a <- w) a != 0 by rewrite w1 oner_eq0.
elim: w xs sz w0 hF {w1} => [|a w IH] [|x xs] //=; first by rewrite big_nil eqxx.
move=> [sz] /andP [a0 w0] hF; rewrite !big_cons => ne.
have hF' k d : (k < size xs)%N -> pd (F (nth d xs k)) by move=> lk; exact: (hF k.+1 d).
have hx : pd (F x) := hF 0%N x isT.
have ps (s : seq (R * est)) : (forall p, List.In p s -> 0 <= p.1 /\ psd (F p.2)) -> psd (\sum_(p <- s) p.1 *: F p.2).
  elim: s => [|p s IHs] h; first by rewrite big_nil; exact: psd0.
  rewrite big_cons; apply: psdD; last by apply: IHs => q hq; apply: h; right.
  by have [? ?] := h p (or_introl erefl); exact: psdZ.
have [az|ap] := eqVneq a 0.
  by rewrite /= az scale0r add0r; apply: IH => //; move: ne; rewrite az add0r.
rewrite addrC; apply: pdD_psd; last by apply: pdZ => //; rewrite lt_neqAle eq_sym ap.
apply: ps; elim: w xs sz w0 hF' {IH hF ne} => [|b w IH] [|y xs] //= [sz] /andP [b0 w0] hF p [<-|hp] /=.
  by split=> //; apply: pd_psd; exact: (hF 0%N y).
by apply: (IH xs) => // k d lk; exact: (hF k.+1 d).
Qed.

Lemma mixing_pd w (xs : seq est) : (forall x d, plus_jac x d \in unitmx) -> (forall x y, minus_jac x y \in unitmx) ->
  size w = size xs -> all (fun a => 0 <= a) w -> \sum_(a <- w) a = 1 ->
  (forall k d, (k < size xs)%N -> pd (est_cov (nth d xs k))) -> exists2 e, mixing w xs = Ok e & pd (est_cov e).
Proof.
move=> pj mj sz w0 w1 hP.
have ne : xs <> [::] by move=> e; move: w1 sz; rewrite e; case: w {w0} => //= /esym/eqP; rewrite big_nil oner_eq0.
have [i [Xp [_ _ _ e]]] := mixing_ok plus minus plus_jac minus_jac ne sz.
eexists; first exact: e.
rewrite /update_X /=; apply: pd_congr => //.
set m := \sum_(p <- zip w xs) p.1 *: minus _ _.
apply: (@wsum_pd w xs (fun X => minus_jac (sval (est_state X)) (sval (est_state Xp)) *m est_cov X *m (minus_jac (sval (est_state X)) (sval (est_state Xp)))^T +
   (minus (sval (est_state X)) (sval (est_state Xp)) - m) *m (minus (sval (est_state X)) (sval (est_state Xp)) - m)^T)) => // k d lk.
by rewrite addrC; apply: pdD_psd; [exact: psd_outer|apply: pd_congr => //; exact: hP].
Qed.

(** a well-formed mixture: as many weights as modes, weights non-negative with sum one,
    every covariance positive definite, every mode stamped with the same time *)
Definition well_formed (x : mixture_state R V n) (t : R) : Prop :=
  [/\ size (ms_probs x) = size (ms_states x), all (fun a => 0 <= a) (ms_probs x), \sum_(a <- ms_probs x) a = 1,
      (forall k d, (k < size (ms_states x))%N -> pd (est_cov (nth d (ms_states x) k))) &
      (forall k d, (k < size (ms_states x))%N -> sstamp (est_state (nth d (ms_states x) k)) = Some t)].

(** C88: a MixtureResultList has one result per mixture, in order, carrying the mixture's
    stamp and mode probabilities; its state and covariance are those of the moment-matched
    Gaussian; it is compared with the true state closest in time. *)
Theorem C88_nearest (xs : seq (mixture_state R V n)) (ts : seq R) (truth : seq sstate) :
  (forall x d, plus_jac x d \in unitmx) -> (forall x y, minus_jac x y \in unitmx) ->
  increasing truth -> (0 < size truth)%N -> size ts = size xs ->
  (forall k x0, (k < size xs)%N -> well_formed (nth x0 xs k) (nth 0 ts k)) ->
  exists out, [/\ mixture_from_estimates MNearest xs truth = Ok out, size out = size xs &
    forall k x0 r0, (k < size xs)%N ->
      let x := nth x0 xs k in let r := (nth r0 out k).1 in
      (nth r0 out k).2 = ms_probs x /\ r_stamp r = Some (nth 0 ts k) /\
      exists e j, [/\ mixing (ms_probs x) (ms_states x) = Ok e, r_state r = est_state e /\ r_cov r = est_cov e,
        closest truth (nth 0 ts k) j, (forall s0, r_true r = nth s0 truth j) &
        metrics_of (minus (r_true r).1 (sval (est_state e))) (est_cov e) (r_metrics r)]].
Proof.
move=> pj mj inc n0 szt h; rewrite /EstResultModel.mixture_from_estimates.
have [s1 _] : exists s1 : sstate, True by case: (truth) n0 => // s1 r _; exists s1.
have -> : mapM (@mixture_stamp R V n) xs = Ok (map Some ts).
  elim: xs ts szt h => [|x xs IH] [|t ts] //= [szt] h.
  have [sz w0 w1 _ st] := h 0%N x isT; rewrite /= in sz w0 w1 st.
  have : (0 < size (ms_states x))%N.
    by rewrite -sz; case: (ms_probs x) w1 => //; rewrite big_nil => /esym/eqP; rewrite oner_eq0.
  rewrite /mixture_stamp; case: (ms_states x) st => // X r st _.
  have := st 0%N X isT; rewrite /= /py_nth /= => ->.
  by rewrite (IH ts) // => k x0 lk; exact: (h k.+1 x0).
rewrite [bind _ _]/= /EstResultModel.interp_by (query_stampsP erefl).
have [|ss [f1 f2 f3]] := @mapM_all _ _ (nearest_one truth)
  (fun q s => exists j, (forall s0, s = nth s0 truth j) /\ closest truth q j) ts.
  move=> k a0 lk; have [j [g1 g2]] := nearest_oneP (nth a0 ts k) inc n0.
  exists (nth s1 truth j); first exact: g1.
  by exists j; split=> // s0; apply: set_nth_default; case: g2.
have -> : (ts <~ Ok ts ;; match truth with [::] => Raise ValueError | _ :: _ => mapM (nearest_one truth) ts end) = Ok ss.
  by rewrite /= f1; case: (truth) n0.
have szz : size (zip xs ss) = size xs by rewrite size_zip f2 szt minnn.
have [|out [o1 o2 o3]] := @mapM_all _ _ (fun p => mixture_result p.1 p.2)
  (fun (p : mixture_state R V n * sstate) rp => let x := p.1 in let r := rp.1 in
     rp.2 = ms_probs x /\ exists e, [/\ mixing (ms_probs x) (ms_states x) = Ok e, r_stamp r = sstamp (est_state e),
       r_state r = est_state e /\ r_cov r = est_cov e, r_true r = p.2 &
       metrics_of (minus p.2.1 (sval (est_state e))) (est_cov e) (r_metrics r)]) (zip xs ss).
  move=> k [x0 s0]; rewrite szz => lk; rewrite nth_zip ?f2 //=.
  have [sz w0 w1 hP st] := h k x0 lk.
  have [e me pe] := mixing_pd pj mj sz w0 w1 hP.
  have [g eg mg] := metrics_ok (minus (nth s0 ss k).1 (sval (est_state e))) pe.
  rewrite /EstResultModel.mixture_result me /= /gaussian_result_of eg /=; eexists; first by [].
  by split=> //; exists e.
exists out; split; first by [].
  by rewrite o2.
move=> k x0 r0 lk; have := o3 k (x0, s1) r0; rewrite szz nth_zip ?f2 //= => /(_ lk) [pE [e [me st rE tE mt]]].
have [sz w0 w1 hP stamps] := h k x0 lk.
split=> //; split.
  rewrite st; apply: (C28_stamp sz _ me) => d i li; exact: stamps.
have lk' : (k < size ts)%N by rewrite szt.
have [j [j1 j2]] := f3 k 0 s1 lk'; exists e, j; rewrite tE; split=> //.
Qed.

(** C88: when one mode has all the probability, the mixture is scored as that mode *)
Theorem C88_certain_mode (x : mixture_state R V n) k (X : est) t :
  size (ms_probs x) = size (ms_states x) -> (k < size (ms_states x))%N -> (forall d, nth d (ms_states x) k = X) ->
  (forall i, nth 0 (ms_probs x) i = (i == k)%:R) ->
  minus (sval (est_state X)) (sval (est_state X)) = 0 -> plus (sval (est_state X)) 0 = sval (est_state X) ->
  minus_jac (sval (est_state X)) (sval (est_state X)) = 1%:M -> plus_jac (sval (est_state X)) 0 = 1%:M ->
  mixture_result x t = rmap (fun r => (r, ms_probs x)) (gaussian_result_of minus X t).
Proof.
move=> sz lk Xk wk m0 p0 mj pj; rewrite /EstResultModel.mixture_result (C28_single_component sz lk Xk wk m0 p0 mj pj) /=.
by case: (gaussian_result_of _ _ _).
Qed.
(** C88: a mixture without modes is refused *)
Theorem C88_no_modes m (xs : seq (mixture_state R V n)) truth : has (fun x => nilp (ms_states x)) xs ->
  mixture_from_estimates m xs truth = Raise IndexError.
Proof.
move=> h; rewrite /EstResultModel.mixture_from_estimates.
suff -> : mapM (@mixture_stamp R V n) xs = Raise IndexError by [].
elim: xs h => [|x xs IH] //= /orP [/nilP e|h]; rewrite /mixture_stamp; first by rewrite e.
by rewrite /py_nth drop0; case: (ms_states x) => //= X r; rewrite IH.
Qed.

(** *** C89: monte_carlo runs trials 0, ..., num_trials - 1, each once, and averages them *)
Theorem C89_average (f : nat -> result (seq (gres R V n))) (rs : nat -> seq (gres R V n)) num :
  (0 < num)%N -> (forall i, (i < num)%N -> f i = Ok (rs i)) ->
  exists m, monte_carlo f num = Ok m /\ mc_trials m = num /\
   forall k g0, (forall i, (i < num)%N -> (k < size (rs i))%N) ->
     let g i := r_metrics (nth g0 (rs i) k) in
     [/\ num%:R * mc_nees m k = \sum_(i < num) g_nees (g i),
         num%:R * mc_ees m k = \sum_(i < num) g_ees (g i),
         (forall j : 'I_n, 0 <= mc_rmse m k j /\ num%:R * mc_rmse m k j ^+ 2 = \sum_(i < num) g_error (g i) j 0 ^+ 2) &
         mc_dof m k = n].
Proof.
move=> n0 h; rewrite /monte_carlo.
have -> : mapM f (iota 0 num) = Ok [seq rs i | i <- iota 0 num].
  have : forall i, i \in iota 0 num -> f i = Ok (rs i) by move=> i; rewrite mem_iota => /h.
  elim: (iota 0 num) => //= a s IH hs; rewrite hs ?inE ?eqxx //= IH // => i hi; apply: hs.
  by rewrite inE hi orbT.
rewrite [bind _ _]/= -map_comp -/(map (fun i => as_trial (rs i)) _).
have szE : size [seq as_trial (rs i) | i <- iota 0 num] = num by rewrite size_map size_iota.
have [|m [e1 [e2 [e3 [e4 [e5 _]]]]]] := C61_monte_carlo (trials := [seq as_trial (rs i) | i <- iota 0 num]).
  by rewrite szE.
rewrite szE in e2 e3 e4 e5.
exists m; do 2!split=> //; move=> k g0 hk /=.
have big (G : trial R -> R) (F : nat -> R) : (forall i, (i < num)%N -> G (as_trial (rs i)) = F i) ->
  \sum_(t <- [seq as_trial (rs i) | i <- iota 0 num]) G t = \sum_(i < num) F i.
  move=> hG; rewrite big_map -{1}(subn0 num) -/(index_iota 0 num) big_mkord; apply: eq_bigr => i _ /=; exact: hG.
split.
- by rewrite e3; apply: (big (fun t => tr_nees t k) (fun i => g_nees (r_metrics (nth g0 (rs i) k)))) => i li /=; rewrite (nth_map g0) // hk.
- by rewrite e4; apply: (big (fun t => tr_ees t k) (fun i => g_ees (r_metrics (nth g0 (rs i) k)))) => i li /=; rewrite (nth_map g0) // hk.
- move=> j; have [r0 ->] := e5 k j; split=> //.
  by apply: (big (fun t => tr_error t k j ^+ 2) (fun i => g_error (r_metrics (nth g0 (rs i) k)) j 0 ^+ 2)) => i li /=; rewrite (nth_map g0) ?hk //= valK.
move: e1 => /=; case: (num) n0 hk => // num' _ hk [<-] /=.
by rewrite (nth_map g0) // hk.
Qed.
(** C89: the first failing trial's exception is what the caller sees; no trials is an error *)
Theorem C89_failure (f : nat -> result (seq (gres R V n))) num k x : (k < num)%N -> f k = Raise x ->
  (forall j, (j < k)%N -> is_ok (f j)) -> monte_carlo f num = Raise x.
Proof.
move=> lk e h; rewrite /monte_carlo (@mapM_raise _ _ f x _ k 0%N) ?size_iota ?nth_iota //.
by move=> j lj; rewrite nth_iota ?h // (ltn_trans lj).
Qed.
Theorem C89_no_trials (f : nat -> result (seq (gres R V n))) : monte_carlo f 0 = Raise IndexError.
Proof. by []. Qed.
End Results.

(** *** Vector states: the mixture is scored at its exact mean and covariance *)
Section Vector.
Variables (R : rcfType) (n : nat).
Notation vest := (est R 'cV[R]_n n).
Theorem C88_vector (x : mixture_state R 'cV[R]_n n) t : size (ms_probs x) = size (ms_states x) -> all (fun a => 0 <= a) (ms_probs x) ->
  \sum_(a <- ms_probs x) a = 1 -> (forall k d, (k < size (ms_states x))%N -> pd (est_cov (nth d (ms_states x) k))) ->
  exists r, mixture_result (fun x d => x + d) (fun a b => a - b) (fun _ _ => 1%:M) (fun _ _ => 1%:M) x t = Ok (r, ms_probs x) /\
   let mean := \sum_(p <- zip (ms_probs x) (ms_states x)) p.1 *: sval (est_state p.2) in
   let cov := \sum_(p <- zip (ms_probs x) (ms_states x)) p.1 *: (est_cov p.2 + (sval (est_state p.2) - mean) *m (sval (est_state p.2) - mean)^T) in
   [/\ sval (r_state r) = mean, r_cov r = cov, pd cov & metrics_of (t.1 - mean) cov (r_metrics r)].
Proof.
move=> sz w0 w1 hP.
have u1 (a : 'cV[R]_n) (b : 'cV[R]_n) : (1%:M : 'M[R]_n) \in unitmx by rewrite unitmx1.
have [st e] := C28_vector_moments sz w1.
have [e' me pe] := @mixing_pd R _ n (fun x d => x + d) (fun a b => a - b) (fun _ _ => 1%:M) (fun _ _ => 1%:M) _ _ u1 u1 sz w0 w1 hP.
move: (me); rewrite [LHS]e => -[eE]; rewrite -eE /= in pe.
have [g eg mg] := metrics_ok (t.1 - mix_mean (zip (ms_probs x) (ms_states x))) pe.
rewrite /mixture_result me -eE /= /gaussian_result_of /= eg /=; eexists; split; first by [].
by [].
Qed.
End Vector.

(** *** The hypotheses are met *)
Section Instances.
Variable R : rcfType.
Notation V := 'cV[R]_2.
(** three true states; two estimates, one at a true stamp and one between stamps *)
Definition truth3 : seq (sstate R V) := [:: (0, 0); (const_mx 1, 1); (const_mx 2%:R, 3%:R)].
Definition est2 : seq (est R V 2) :=
  [:: Est (PState (const_mx 1) (Some 1)) 1%:M; Est (PState (const_mx 5%:R) (Some 2%:R)) 2%:R%:M].
Lemma pd_scalar (a : R) : 0 < a -> pd (a%:M : 'M[R]_2).
Proof. by move=> a0; rewrite -scalemx1; apply: pdZ => //; exact: pd1. Qed.
Example C87_instance : [/\ increasing truth3, (0 < size truth3)%N,
  (forall k x0, (k < size est2)%N -> sstamp (est_state (nth x0 est2 k)) <> None /\ pd (est_cov (nth x0 est2 k))) &
  exists2 j, (j < size truth3)%N & forall s0 x0, sstamp (est_state (nth x0 est2 0)) = Some (nth s0 truth3 j).2].
Proof.
split=> //.
- by rewrite /increasing /= ltr01 -[1]/(1%:R) ltr_nat.
- by case=> [|[|k]] x0 //= _; split=> //; [exact: pd1|apply: pd_scalar; rewrite ltr0n].
by exists 1%N.
Qed.
Definition mix2 : mixture_state R V 2 :=
  MixState [:: Est (PState 0 (Some 1)) 1%:M; Est (PState (const_mx 1) (Some 1)) 2%:R%:M] [:: 4%:R^-1; 3%:R / 4%:R].
Example C88_instance : well_formed mix2 1.
Proof.
split=> //=.
- by rewrite invr_ge0 divr_ge0 ?ler0n.
- rewrite !big_cons big_nil addr0 -[X in X + _]mul1r -mulrDl -[1 + _]/(1%:R + 3%:R) -natrD divff // pnatr_eq0 //.
- by case=> [|[|k]] d //= _; [exact: pd1|apply: pd_scalar; rewrite ltr0n].
by case=> [|[|k]].
Qed.
End Instances.

Print Assumptions C87_nearest.
Print Assumptions C87_matching_stamp.
Print Assumptions C87_perfect.
Print Assumptions C87_linear.
Print Assumptions C87_singular.
Print Assumptions C87_unsorted_truth_refuted.
Print Assumptions C88_nearest.
Print Assumptions C88_certain_mode.
Print Assumptions C88_vector.
Print Assumptions C89_average.
Print Assumptions C89_failure.
