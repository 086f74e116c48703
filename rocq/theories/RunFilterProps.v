(** C12-C14, C29: the predict/correct schedule run by run_filter, run_imm_filter
    and run_gsf_filter. *)
From mathcomp Require Import all_ssreflect all_algebra.
From Verif Require Import Base RunFilterModel RunFilterSpec CompositeProof RunFilterProof RunFilterProof2.
Set Implicit Arguments.
Unset Strict Implicit.
Unset Printing Implicit Defensive.
Import Order.Theory GRing.Theory Num.Theory.
Local Open Scope ring_scope.

Section Thms.
Variable T : realDomainType.
Variables (U Y X : Type).
Variables (ustamp : U -> T) (ystamp : Y -> T) (xstamp : X -> T).
Notation kept_inputs t0 inp := (count (fun u : U => t0 <= ustamp u) inp).

(** C12: with at least two usable inputs, and measurements that are not all
    stale, run_filter executes a correct schedule. *)
Theorem C12_run_filter_schedule correct predict t0 x0 inp meas :
  leq 2%N (kept_inputs t0 inp) ->
  has (fun y => t0 <= ystamp y) meas \/ meas = [::] ->
  exists2 sch, schedule_spec ustamp ystamp t0 inp meas sch &
    (run_filter ustamp ystamp xstamp correct predict (Some t0) x0 inp meas).1 =
    execute xstamp correct predict x0 sch.
Proof.
move=> h2 hm; eexists; last first.
  by rewrite /run_filter /= run_loop_spec // /trim; case: ifP => _; rewrite ?drop_sorted ?sort_by_sorted.
apply: schedule_ok => //.
- by rewrite has_count; apply: leq_ltn_trans h2.
- by case: hm => [->|->]; rewrite ?orbT.
Qed.

(** C12 (few inputs): with fewer than two inputs nothing is fused or predicted. *)
Theorem C12_run_filter_few_inputs correct predict t0 x0 inp meas :
  leq (size inp) 1%N \/ kept_inputs t0 inp = 1%N ->
  (run_filter ustamp ystamp xstamp correct predict (Some t0) x0 inp meas).1 = Ok [::].
Proof.
move=> h; rewrite /run_filter /= run_loop_spec; last first.
  by rewrite /trim; case: ifP => _; rewrite ?drop_sorted ?sort_by_sorted.
suff : leq (size (trim ustamp t0 (sort_by ustamp inp))) 1%N by case: (trim _ _ _) => [|u []].
case: h => [h|h].
  by rewrite /trim; case: ifP => _; rewrite ?size_drop size_sort // (leq_trans (leq_subr _ _) h).
rewrite trim_sorted ?sort_by_sorted // has_count -size_filter sort_by_filter size_sort size_filter h /=.
by rewrite size_sort size_filter h.
Qed.

(** C12: the caller's lists are sorted in place (stably). *)
Theorem C12_run_filter_sorts_arguments correct predict t0 x0 inp meas :
  let final := (run_filter ustamp ystamp xstamp correct predict (Some t0) x0 inp meas).2 in
  stable_selection ustamp xpredT inp final.1 /\ stable_selection ystamp xpredT meas final.2.
Proof.
by split; rewrite /=; [have := stable_sort ustamp xpredT inp | have := stable_sort ystamp xpredT meas];
  rewrite filter_predT.
Qed.

Theorem C12_run_filter_needs_stamp correct predict x0 inp meas :
  (run_filter ustamp ystamp xstamp correct predict None x0 inp meas).1 = Raise ValueError.
Proof. by []. Qed.

(** C13: for a filter whose correct moves the stamp forward at most to the
    measurement's stamp and accepts measurements that are not older than the
    state, and whose predict advances the stamp by dt and accepts dt >= 0
    (possibly raising for dt < 0), run_filter returns normally with one result
    per kept interval; stamps are non-decreasing and lie in their interval. *)
Theorem C13_run_filter_results correct predict x0 inp meas u0 xd :
  (forall x y u x', correct x y u = Ok x' ->
     xstamp x <= xstamp x' <= Num.max (xstamp x) (ystamp y)) ->
  (forall x u dt x', predict x u dt = Ok x' -> xstamp x' = xstamp x + dt) ->
  (forall x y u, xstamp x <= ystamp y -> is_ok (correct x y u)) ->
  (forall x u dt, 0 <= dt -> is_ok (predict x u dt)) ->
  has (fun u => xstamp x0 <= ustamp u) inp ->
  has (fun y => xstamp x0 <= ystamp y) meas \/ meas = [::] ->
  exists us rs,
    [/\ stable_selection ustamp (fun u => xstamp x0 <= ustamp u) inp us,
        (run_filter ustamp ystamp xstamp correct predict (Some (xstamp x0)) x0 inp meas).1 = Ok rs,
        size rs = (size us).-1,
        sorted <=%O (xstamp x0 :: map xstamp rs) &
        forall k, (k < size rs)%N ->
          ((0 < k)%N -> ustamp (nth u0 us k) <= xstamp (nth xd rs k)) /\
          xstamp (nth xd rs k) <= ustamp (nth u0 us k.+1)].
Proof.
move=> H1 H2 H3 H4 hi hm.
have hs A (key : A -> T) s : has (fun u => xstamp x0 <= key u) (sort_by key s) = has (fun u => xstamp x0 <= key u) s.
  by rewrite !has_count -!size_filter sort_by_filter size_sort.
set us := trim ustamp (xstamp x0) (sort_by ustamp inp).
set ys := trim ystamp (xstamp x0) (sort_by ystamp meas).
have Eus : us = [seq u <- sort_by ustamp inp | xstamp x0 <= ustamp u].
  by rewrite /us trim_sorted ?sort_by_sorted // hs hi.
have Eys : ys = [seq y <- sort_by ystamp meas | xstamp x0 <= ystamp y].
  rewrite /ys trim_sorted ?sort_by_sorted // hs; case: ifP => // h.
  by case: hm h => [->|->].
have sus : sorted (relpre ustamp <=%O) us.
  by rewrite Eus; apply: (@sorted_filter _ (relpre ustamp <=%O) (@leK_trans _ _ ustamp)); apply: sort_by_sorted.
have sys : sorted (relpre ystamp <=%O) ys.
  by rewrite Eys; apply: (@sorted_filter _ (relpre ystamp <=%O) (@leK_trans _ _ ystamp)); apply: sort_by_sorted.
have [|| rs Er [h1 h2 h3]] := @exec_stamps _ _ _ _ ustamp ystamp xstamp correct predict H1 H2 H3 H4 us ys x0 u0 xd sus sys.
- by rewrite Eys; apply: filter_all.
- rewrite Eus => hsz; have := filter_all (fun u => xstamp x0 <= ustamp u) (sort_by ustamp inp).
  by move/(all_nthP u0)/(_ 1%N hsz).
exists us, rs; split=> //; first by rewrite Eus; apply: stable_sort.
by rewrite /run_filter /= run_loop_spec.
Qed.

(** C14, positive part: data older than x0 is never used, provided some input
    and some measurement are not older (or there are no measurements). *)
Theorem C14_stale_data_ignored_partial correct predict t0 x0 inp meas :
  leq 2%N (kept_inputs t0 inp) ->
  has (fun y => t0 <= ystamp y) meas \/ meas = [::] ->
  exists2 sch,
    (run_filter ustamp ystamp xstamp correct predict (Some t0) x0 inp meas).1 =
    execute xstamp correct predict x0 sch &
    all (fun e => t0 <= ustamp e.1.1) sch /\ all (fun y => t0 <= ystamp y) (fused sch).
Proof.
move=> h2 hm; have [sch S E] := C12_run_filter_schedule correct predict x0 h2 hm.
exists sch => //; case: S => us [ul [[_ S1] [S2 [_ [[_ S4] _]]]]].
have key A (kf : A -> T) (p : pred A) s s' :
  (forall t, [seq a <- s' | kf a == t] = [seq a <- s | p a && (kf a == t)]) -> all p s'.
  move=> H; have : forall t, all p [seq a <- s' | kf a == t].
    move=> t; rewrite H; have := filter_all (fun a => p a && (kf a == t)) s.
    by apply: sub_all => a /andP[].
  move=> H'; elim: s' {H} H' => //= a s' IH H'; have := H' (kf a); rewrite eqxx /= => /andP[-> _].
  by apply: IH => t; have := H' t; case: eqP => //= _ /andP[].
split; last by have := key _ _ _ _ _ S4; apply: sub_all => y /andP[].
have := key _ _ _ _ _ S1; rewrite all_rcons => /andP[_].
by rewrite -S2 all_map.
Qed.

(** C14 refuted (1): when ALL measurements are older than x0 they are all fused
    (those before the last input). *)
Theorem C14_stale_measurements_fused_refuted correct predict t0 x0 inp meas :
  leq 2%N (kept_inputs t0 inp) ->
  meas <> [::] -> all (fun y => ystamp y < t0) meas ->
  exists2 sch,
    (run_filter ustamp ystamp xstamp correct predict (Some t0) x0 inp meas).1 =
    execute xstamp correct predict x0 sch &
    stable_selection ystamp xpredT meas (fused sch).
Proof.
move=> h2 _ hm; eexists; first by rewrite /run_filter /= run_loop_spec // /trim; case: ifP => _; rewrite ?drop_sorted ?sort_by_sorted.
have hs A (key : A -> T) s : has (fun u => t0 <= key u) (sort_by key s) = has (fun u => t0 <= key u) s.
  by rewrite !has_count -!size_filter sort_by_filter size_sort.
have nm : has (fun y => t0 <= ystamp y) meas = false.
  apply: negbTE; rewrite -all_predC; apply: sub_all hm => y /=; by rewrite -ltNge.
have hi : has (fun u => t0 <= ustamp u) inp by rewrite has_count; apply: leq_ltn_trans h2.
rewrite !trim_sorted ?sort_by_sorted // !hs hi nm.
set us := [seq u <- _ | _].
have sus : sorted (relpre ustamp <=%O) us.
  by apply: (@sorted_filter _ (relpre ustamp <=%O) (@leK_trans _ _ ustamp)); apply: sort_by_sorted.
have zus : (1 < size us)%N by rewrite size_filter -size_filter sort_by_filter size_sort size_filter.
have aus : all (fun u => t0 <= ustamp u) us by apply: filter_all.
clearbody us; case/lastP: us zus sus aus => // us ul zus sus; rewrite all_rcons => /andP[hul _].
rewrite schedule_fused ?sort_by_sorted //; last by rewrite size_rcons in zus.
have -> : [seq y <- sort_by ystamp meas | ystamp y < ustamp ul] = [seq y <- sort_by ystamp meas | xpredT y].
  rewrite sort_by_filter [in RHS]filter_predT; congr (sort_by _ _).
  by apply/all_filterP; apply: sub_all hm => y h; apply: lt_le_trans h hul.
exact: stable_sort.
Qed.

(** C14 refuted (2): when ALL inputs (at least two) are older than x0, stale
    inputs are used and a filter that refuses negative time steps raises. *)
Theorem C14_stale_inputs_raise_refuted correct predict x0 inp meas :
  leq 2%N (size inp) -> all (fun u => ustamp u < xstamp x0) inp ->
  (forall x u dt, dt < 0 -> predict x u dt = Raise RuntimeError) ->
  (forall x u y x', correct x y u = Ok x' -> xstamp x <= xstamp x') ->
  (forall x y u, is_ok (correct x y u)) ->
  (run_filter ustamp ystamp xstamp correct predict (Some (xstamp x0)) x0 inp meas).1 =
  Raise RuntimeError.
Proof.
move=> h2 ha Hp Hc HcOk.
rewrite /run_filter /= run_loop_spec; last by rewrite /trim; case: ifP => _; rewrite ?drop_sorted ?sort_by_sorted.
have hc : count (fun u => xstamp x0 <= ustamp u) inp = 0%N.
  apply/eqP; rewrite -leqn0 leqNgt -has_count -all_predC; apply: sub_all ha => u /=; by rewrite -ltNge.
have hs : has (fun u => xstamp x0 <= ustamp u) (sort_by ustamp inp) = false.
  by rewrite has_count -size_filter sort_by_filter size_sort size_filter hc.
rewrite [trim ustamp _ _]trim_sorted ?sort_by_sorted // hs.
apply: execute_stale => //; rewrite ?size_sort //.
by rewrite all_count -size_filter sort_by_filter !size_sort size_filter -all_count.
Qed.

(** C29: the three runners execute the same schedule; the IMM runs one
    interaction immediately before each fused measurement and records the
    estimate held before fusing. *)
Theorem C29_same_schedule interaction correct predict t0 x0 inp meas :
  leq 2%N (kept_inputs t0 inp) ->
  has (fun y => t0 <= ystamp y) meas \/ meas = [::] ->
  exists sch, [/\ schedule_spec ustamp ystamp t0 inp meas sch,
    (run_filter ustamp ystamp xstamp correct predict (Some t0) x0 inp meas).1 =
      execute xstamp correct predict x0 sch,
    (run_gsf_filter ustamp ystamp xstamp correct predict (Some t0) x0 inp meas).1 =
      execute xstamp correct predict x0 sch &
    (run_imm_filter ustamp ystamp xstamp interaction correct predict (Some t0) x0 inp meas).1 =
      execute_imm xstamp (fun x y u => x' <~ interaction x ;; correct x' y u) predict x0 sch].
Proof.
move=> h2 hm; have st : sorted (relpre ystamp <=%O) (trim ystamp t0 (sort_by ystamp meas)).
  by rewrite /trim; case: ifP => _; rewrite ?drop_sorted ?sort_by_sorted.
eexists; split; last 1 first.
- by rewrite /run_imm_filter /= run_loop_imm_spec.
- apply: schedule_ok => //.
  + by rewrite has_count; apply: leq_ltn_trans h2.
  + by case: hm => [->|->]; rewrite ?orbT.
- by rewrite /run_filter /= run_loop_spec.
- by rewrite /run_gsf_filter /run_filter /= run_loop_spec.
Qed.
End Thms.

(** Witness: inputs at 3,1,2,0 (unordered), measurements at 5/2, 1/2, -1, 1/2,
    initial stamp 0; a filter that records what it fused and with which input. *)
Section Witness.
Definition wu := rat. Definition wy := (rat * nat)%type.
Definition wx := (rat * seq (nat * rat))%type.
Definition wcorrect (x : wx) (y : wy) (u : wu) : result wx :=
  if y.1 < x.1 then Raise RuntimeError else Ok (Num.max x.1 y.1, rcons x.2 (y.2, u)).
Definition wpredict (x : wx) (u : wu) (dt : rat) : result wx :=
  if dt < 0 then Raise RuntimeError else Ok (x.1 + dt, x.2).
Definition winp : seq wu := [:: 3%:R; 1; 2%:R; 0].
Definition wmeas : seq wy := [:: (5%:R/2%:R, 0%N); (1/2%:R, 1%N); (-1, 2%N); (1/2%:R, 3%N)].

Example C12_witness :
  (run_filter id fst fst wcorrect wpredict (Some 0) (0, [::]) winp wmeas).1 =
  Ok [:: (1/2%:R, [:: (1%N, 0); (3%N, 0)]);
         (1, [:: (1%N, 0); (3%N, 0)]);
         (5%:R/2%:R, [:: (1%N, 0); (3%N, 0); (0%N, 2%:R)])].
Proof. by vm_compute. Qed.

Example C13_witness_hyps :
  leq 2%N (count (fun u : wu => (0 : rat) <= u) winp) /\
  has (fun y : wy => (0 : rat) <= y.1) wmeas.
Proof. by split; vm_compute. Qed.

Example C14_witness_stale :   (* measurement at -1 fused into an estimate at 0 *)
  (run_filter id (fst : wy -> rat) (fst : wx -> rat) (fun x y u => Ok (x.1, rcons x.2 (y.2, u))) wpredict (Some 0) (0, [::]) winp [:: (-1, 7%N)]).1
  = Ok [:: (0, [:: (7%N, 0)]); (1, [:: (7%N, 0)]); (2%:R, [:: (7%N, 0)])].
Proof. by vm_compute. Qed.

Example C13_witness_filter_hyps :
  [/\ forall x y u x', wcorrect x y u = Ok x' -> x.1 <= x'.1 <= Num.max x.1 y.1,
      forall x u dt x', wpredict x u dt = Ok x' -> x'.1 = x.1 + dt,
      forall x y u, x.1 <= y.1 -> is_ok (wcorrect x y u) &
      forall x u dt, 0 <= dt -> is_ok (wpredict x u dt)].
Proof.
split.
- by move=> x y u x'; rewrite /wcorrect; case: ifP => // _ [<-] /=; rewrite le_maxr !lexx.
- by move=> x u dt x'; rewrite /wpredict; case: ifP => // _ [<-].
- by move=> x y u h; rewrite /wcorrect ltNge h.
- by move=> x u dt h; rewrite /wpredict ltNge h.
Qed.
End Witness.

Print Assumptions C12_run_filter_schedule.
Print Assumptions C12_run_filter_few_inputs.
Print Assumptions C12_run_filter_sorts_arguments.
Print Assumptions C13_run_filter_results.
Print Assumptions C14_stale_data_ignored_partial.
Print Assumptions C14_stale_measurements_fused_refuted.
Print Assumptions C14_stale_inputs_raise_refuted.
Print Assumptions C29_same_schedule.
