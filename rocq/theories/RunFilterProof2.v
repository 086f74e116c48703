From mathcomp Require Import all_ssreflect all_algebra.
From Verif Require Import Base RunFilterModel RunFilterSpec CompositeProof RunFilterProof.
Set Implicit Arguments.
Unset Strict Implicit.
Unset Printing Implicit Defensive.
Import Order.Theory GRing.Theory Num.Theory.
Local Open Scope ring_scope.

Section P.
Variable T : realDomainType.
Variables (U Y X : Type).
Variables (ustamp : U -> T) (ystamp : Y -> T) (xstamp : X -> T).
Notation leY := (relpre ystamp <=%O).
Notation leU := (relpre ustamp <=%O).
Notation schedule := (schedule ustamp ystamp).

Lemma schedule_inputs us ys : [seq e.1.1 | e <- schedule us ys] = take (size us).-1 us.
Proof. by elim: us ys => [|u [|u' us] IH] ys //=; rewrite IH. Qed.

Lemma schedule_next us ys : [seq e.1.2 | e <- schedule us ys] = behead (map ustamp us).
Proof. by elim: us ys => [|u [|u' us] IH] ys //=; rewrite IH. Qed.

Lemma schedule_fused us ulast ys : sorted leY ys -> sorted leU (rcons us ulast) -> (0 < size us)%N ->
  fused (schedule (rcons us ulast) ys) = [seq y <- ys | ystamp y < ustamp ulast].
Proof.
elim: us ys => [|u us IH] ys // sy; case: us IH => [|v us] IH su _.
  by rewrite /fused /= cats0.
rewrite /fused; cbn [schedule rcons map flatten foldr].
rewrite -[flatten _]/(fused (schedule (rcons (v :: us) ulast) _)) IH //.
- rewrite -filter_predI.
  have lt : ustamp v <= ustamp ulast.
    have /= /andP[_ /(order_path_min (@leK_trans _ _ ustamp))] := su.
    by rewrite all_rcons => /andP[].
  rewrite [in RHS](sorted_filter_split (ustamp v) sy) filter_cat.
  congr (_ ++ _); last by rewrite -filter_predI.
  rewrite -filter_predI; apply: eq_filter => y /=.
  by case: (ltP (ystamp y) (ustamp v)) => h; rewrite ?andbF // (lt_le_trans h lt).
- by apply: (@sorted_filter _ leY (@leK_trans _ _ ystamp)).
- by move: su => /= /andP[].
Qed.

Lemma schedule_batches us ys k e : sorted leY ys -> sorted leU us ->
  drop k (schedule us ys) = e :: drop k.+1 (schedule us ys) ->
  all (fun y => ystamp y < e.1.2) e.2 /\
  ((0 < k)%N -> all (fun y => ustamp e.1.1 <= ystamp y) e.2).
Proof.
elim: k us ys e => [|k IH] [|u [|v us]] ys e sy su //=.
  by move=> [<-]; split=> //=; apply: filter_all.
case: k IH => [|k] IH.
  case: us su => [|w us] su //= [<- _] /=; split; first exact: filter_all.
  move=> _; rewrite -filter_predI; have := filter_all (predI (fun y => ystamp y < ustamp w) (fun y => ~~ (ystamp y < ustamp v))) ys.
  by apply: sub_all => y /= /andP[_]; rewrite -leNgt.
move=> E; have [] := IH (v :: us) [seq y <- ys | ~~ (ystamp y < ustamp v)] e _ _ E.
- by apply: (@sorted_filter _ leY (@leK_trans _ _ ystamp)).
- by move: su => /= /andP[].
- by move=> h1 h2; split=> // _; apply: h2.
Qed.

Lemma schedule_ok t0 inp meas :
  has (fun u => t0 <= ustamp u) inp ->
  has (fun y => t0 <= ystamp y) meas || (size meas == 0)%N ->
  ltn 1%N (count (fun u => t0 <= ustamp u) inp) ->
  schedule_spec ustamp ystamp t0 inp meas
    (schedule (trim ustamp t0 (sort_by ustamp inp)) (trim ystamp t0 (sort_by ystamp meas))).
Proof.
move=> hi hm h2.
have hs A (key : A -> T) s : has (fun u => t0 <= key u) (sort_by key s) = has (fun u => t0 <= key u) s.
  by rewrite !has_count -!size_filter sort_by_filter size_sort.
rewrite !trim_sorted ?sort_by_sorted // !hs hi.
have -> : (if has (fun y => t0 <= ystamp y) meas then [seq a <- sort_by ystamp meas | t0 <= ystamp a] else sort_by ystamp meas)
  = [seq a <- sort_by ystamp meas | t0 <= ystamp a].
  case: ifP => // h; move: hm; rewrite h /=; by case: meas {h}.
set us := [seq a <- _ | _]; set ys := [seq a <- _ | _].
have sus : sorted leU us by apply: (@sorted_filter _ leU (@leK_trans _ _ ustamp)); apply: sort_by_sorted.
have sys : sorted leY ys by apply: (@sorted_filter _ leY (@leK_trans _ _ ystamp)); apply: sort_by_sorted.
have zus : (1 < size us)%N by rewrite size_filter -size_filter sort_by_filter size_sort size_filter.
have [us' [ul Eus]] : exists us' ul, us = rcons us' ul.
  by case/lastP: us zus {sus} => // us' ul _; exists us', ul.
have zus' : (0 < size us')%N by rewrite Eus size_rcons in zus.
exists us', ul; split; first by rewrite -Eus; apply: stable_sort.
split; first by rewrite schedule_inputs Eus size_rcons /= -cats1 take_size_cat.
split; first by rewrite schedule_next Eus.
split; last by move=> k e; apply: schedule_batches.
rewrite Eus schedule_fused // -?Eus // -filter_predI.
rewrite (eq_filter (a2 := fun y => (t0 <= ystamp y) && (ystamp y < ustamp ul))); first exact: stable_sort.
by move=> y /=; rewrite andbC.
Qed.

Section Exec.
Variable correct : X -> Y -> U -> result X.
Variable predict : X -> U -> T -> result X.
Hypothesis Hc : forall x y u x', correct x y u = Ok x' ->
  xstamp x <= xstamp x' <= Num.max (xstamp x) (ystamp y).
Hypothesis Hp : forall x u dt x', predict x u dt = Ok x' -> xstamp x' = xstamp x + dt.
Hypothesis HcOk : forall x y u, xstamp x <= ystamp y -> is_ok (correct x y u).
Hypothesis HpOk : forall x u dt, 0 <= dt -> is_ok (predict x u dt).

Lemma fold_stamps u x ys tn : sorted leY ys -> all (fun y => xstamp x <= ystamp y) ys ->
  xstamp x <= tn -> all (fun y => ystamp y < tn) ys ->
  exists2 x', foldM (fun x y => correct x y u) x ys = Ok x' &
    xstamp x <= xstamp x' <= tn /\
    (forall t, xstamp x <= t -> all (fun y => ystamp y <= t) ys -> xstamp x' <= t).
Proof.
elim: ys x => [|y ys IH] x so /=; first by move=> _ h _; exists x => //; rewrite lexx h; split.
move=> /andP[hy hys] htn /andP[hyt hyst].
move: (HcOk u hy); case E: (correct x y u) => [x1|] //= _.
have /andP[l1 l2] := Hc E.
have lx1 : xstamp x1 <= ystamp y by apply: le_trans l2 _; rewrite le_maxl hy lexx.
have [|||x' -> [/andP[l3 l4] l5]] := IH x1 _ _ _ hyst.
- exact: path_sorted so.
- have := order_path_min (@leK_trans _ _ ystamp) so; apply: sub_all => z /=; exact: le_trans.
- by apply: le_trans lx1 (ltW hyt).
exists x' => //; rewrite l4 (le_trans l1 l3); split=> // t h1 /andP[h2 h3].
by apply: l5 => //; apply: le_trans lx1 h2.
Qed.

Lemma exec_stamps us ys x u0 x0 : sorted leU us -> sorted leY ys ->
  all (fun y => xstamp x <= ystamp y) ys ->
  ((1 < size us)%N -> xstamp x <= ustamp (nth u0 us 1)) ->
  exists2 rs, execute xstamp correct predict x (schedule us ys) = Ok rs &
   [/\ size rs = (size us).-1,
       path <=%O (xstamp x) (map xstamp rs) &
       forall k, (k < size rs)%N ->
         ((0 < k)%N -> ustamp (nth u0 us k) <= xstamp (nth x0 rs k)) /\
         xstamp (nth x0 rs k) <= ustamp (nth u0 us k.+1)].
Proof.
elim: us ys x => [|u us IH] ys x su sy hy hx; first by exists [::].
case: us IH su hx => [|v us] IH su hx; first by exists [::].
cbn [schedule execute].
have := hx isT; rewrite /= => hv.
have [|||| x1 -> [/andP[l1 l2] l3]] := @fold_stamps u x [seq y <- ys | ystamp y < ustamp v] (ustamp v).
- by apply: (@sorted_filter _ leY (@leK_trans _ _ ystamp)).
- by rewrite all_filter; apply: sub_all hy => y /= ->; apply: implybT.
- exact: hv.
- exact: filter_all.
have dt : 0 <= ustamp v - xstamp x1 by rewrite subr_ge0.
cbn [bind]; move: (HpOk x1 u dt); case E: (predict _ _ _) => [x2|] //= _.
have st : xstamp x2 = ustamp v by rewrite (Hp E) addrCA subrr addr0.
have [|||| rs Er [h1 h2 h3]] := IH [seq y <- ys | ~~ (ystamp y < ustamp v)] x2.
- by move: su => /= /andP[].
- by apply: (@sorted_filter _ leY (@leK_trans _ _ ystamp)).
- rewrite st; have := filter_all (fun y => ~~ (ystamp y < ustamp v)) ys; apply: sub_all => y.
  by rewrite -leNgt.
- rewrite st; case: us su {IH hx} => //= w us /and3P[_ h _] _; exact: h.
rewrite -/(schedule (v :: us) _) Er; exists (x1 :: rs) => //; split; rewrite /= ?h1 //.
  rewrite l1 /=; case: rs h2 {Er h1 h3} => //= r rs /andP[a b]; rewrite b andbT.
  by apply: le_trans a; rewrite st.
case=> [|k] lt; first by split.
have [|a b] := h3 k; first by rewrite h1.
split=> //= _; case: k lt a b => [|k] lt a b; last exact: a.
have: xstamp x2 <= xstamp (nth x0 rs 0) by move: lt; rewrite ltnS -?h1; case: rs h2 {Er h1 h3 a b} => //= r rs /andP[].
by rewrite st.
Qed.
End Exec.

(** Negative time step requested when all inputs are stale. *)
Lemma execute_stale correct predict us ys x : (1 < size us)%N ->
  (forall x u dt, dt < 0 -> predict x u dt = Raise RuntimeError) ->
  (forall x u y x', correct x y u = Ok x' -> xstamp x <= xstamp x') ->
  all (fun u => ustamp u < xstamp x) us ->
  (forall x y u, is_ok (correct x y u)) ->
  execute xstamp correct predict x (schedule us ys) = Raise RuntimeError.
Proof.
case: us => [|u [|v us]] // _ Hp Hc /and3P[_ h _] HcOk; cbn [schedule execute].
move: {ys}[seq y <- ys | _] [seq y <- ys | _] => ys' ys.
have [x1 -> l] : exists2 x1, foldM (fun x y => correct x y u) x ys = Ok x1 & xstamp x <= xstamp x1.
  elim: ys x {h} => [|y ys IH] x /=; first by exists x.
  move: (HcOk x y u); case E: (correct x y u) => [x1|] //= _.
  have [x2 -> l] := IH x1; exists x2 => //; apply: le_trans l; exact: Hc E.
by rewrite /= Hp // subr_lt0; apply: lt_le_trans h l.
Qed.
End P.
