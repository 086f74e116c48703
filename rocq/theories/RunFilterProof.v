From mathcomp Require Import all_ssreflect all_algebra.
From Verif Require Import Base RunFilterModel RunFilterSpec CompositeProof.
Set Implicit Arguments.
Unset Strict Implicit.
Unset Printing Implicit Defensive.
Import Order.Theory GRing.Theory Num.Theory.
Local Open Scope ring_scope.

Section P.
Variable T : realDomainType.

Section Sort.
Variable A : Type.
Variable key : A -> T.
Notation leK := (relpre key <=%O).

Lemma filter_none (p : pred A) s : all (predC p) s -> [seq a <- s | p a] = [::].
Proof. by elim: s => //= a s IH /andP[/negbTE -> /IH]. Qed.

Lemma leK_total : total leK. Proof. by move=> a b; apply: le_total. Qed.
Lemma leK_trans : transitive leK. Proof. by move=> b a c; apply: le_trans. Qed.

Lemma sort_by_sorted s : sorted leK (sort_by key s).
Proof. exact: sort_sorted leK_total s. Qed.

Lemma sort_by_filter p s : [seq a <- sort_by key s | p a] = sort_by key [seq a <- s | p a].
Proof. exact: filter_sort leK_total leK_trans p s. Qed.

Lemma sort_by_eqkey s t : [seq a <- sort_by key s | key a == t] = [seq a <- s | key a == t].
Proof.
rewrite sort_by_filter; apply: sorted_sort; first exact: leK_trans.
elim: s => //= a s IH; case: ifP => // /eqP ea /=.
rewrite path_min_sorted //.
apply/(all_nthP a) => i lt /=; rewrite ea.
have := all_filterP (filter_all (fun a => key a == t) s).
by move/(all_nthP a): (filter_all (fun a => key a == t) s) => /(_ i lt) /eqP ->.
Qed.

Lemma stable_sort p s : stable_selection key p s [seq a <- sort_by key s | p a].
Proof.
split.
  rewrite sorted_map; apply: (@sorted_filter _ leK leK_trans).
  exact: sort_by_sorted.
move=> t; rewrite -filter_predI.
rewrite (eq_filter (a2 := predI p (fun a => key a == t))); last by move=> a; rewrite /= andbC.
by rewrite filter_predI sort_by_eqkey -filter_predI.
Qed.

Lemma sorted_find t0 s : sorted leK s ->
  drop (find (fun a => t0 <= key a) s) s = [seq a <- s | t0 <= key a].
Proof.
elim: s => //= a s IH so; case: ifP => h.
  rewrite drop0; congr cons; symmetry; apply/all_filterP.
  have := order_path_min leK_trans so.
  by apply: sub_all => b; apply: le_trans.
by rewrite -IH //; apply: path_sorted so.
Qed.

Lemma trim_sorted t0 s : sorted leK s ->
  trim key t0 s = if has (fun a => t0 <= key a) s then [seq a <- s | t0 <= key a] else s.
Proof. by move=> so; rewrite /trim -has_find sorted_find. Qed.

Lemma sorted_filter_split t s : sorted leK s ->
  s = [seq a <- s | key a < t] ++ [seq a <- s | ~~ (key a < t)].
Proof.
elim: s => //= a s IH so; case: ifP => h /=.
  by rewrite -IH //; apply: path_sorted so.
have -> : [seq b <- s | key b < t] = [::].
  apply: filter_none.
  have := order_path_min leK_trans so; apply: sub_all => b /= le.
  by rewrite -leNgt; apply: le_trans le; rewrite leNgt h.
congr cons; symmetry; apply/all_filterP.
have := order_path_min leK_trans so; apply: sub_all => b /= le.
by rewrite -leNgt; apply: le_trans le; rewrite leNgt h.
Qed.
End Sort.

Variables (U Y X : Type).
Variables (ustamp : U -> T) (ystamp : Y -> T) (xstamp : X -> T).
Notation leY := (relpre ystamp <=%O).
Notation leU := (relpre ustamp <=%O).
Notation schedule := (schedule ustamp ystamp).

Section Loop.
Variable fuse : X -> Y -> U -> result X.
Variable predict : X -> U -> T -> result X.

Lemma while_fuse_spec fuel meas u tn x mi y :
  sorted leY meas -> (size meas - mi < fuel)%N ->
  (mi < size meas -> ystamp y = ystamp (nth y meas mi) /\ y = nth y meas mi)%N ->
  while_fuse ystamp fuse fuel meas u tn (x, mi, y) =
  (x' <~ foldM (fun x y => fuse x y u) x [seq a <- drop mi meas | ystamp a < tn] ;;
   let n := size [seq a <- drop mi meas | ystamp a < tn] in
   Ok (x', (mi + n)%N, if (n == 0)%N then y else
       if (mi + n < size meas)%N then nth y meas (mi + n) else nth y meas (size meas).-1)).
Proof.
move=> so; elim: fuel x mi y => [|fuel IH] x mi y // lt Hy.
cbn [while_fuse]; case: (ltnP mi (size meas)) => hmi; last first.
  by rewrite andbF drop_oversize //= addn0.
have [_ Ey] := Hy hmi; rewrite andbT.
have sod : sorted leY (drop mi meas).
  by rewrite -(cat_take_drop mi meas) in so; have /cat_sorted2[] := so.
have Ed : drop mi meas = y :: drop mi.+1 meas by rewrite (drop_nth y) // -Ey.
case: ifP => hy; last first.
  have -> : [seq a <- drop mi meas | ystamp a < tn] = [::].
    rewrite Ed /= hy; apply: filter_none.
    move: sod; rewrite Ed /= => /(order_path_min (@leK_trans _ ystamp)).
    apply: sub_all => b /= le; rewrite -leNgt; apply: le_trans le; by rewrite leNgt hy.
  by rewrite /= addn0.
have -> : [seq a <- drop mi meas | ystamp a < tn] = y :: [seq a <- drop mi.+1 meas | ystamp a < tn].
  by rewrite Ed /= hy.
cbn [foldM]; case: (fuse x y u) => //= x'; rewrite IH.
- case: (foldM _ _ _) => //= x2; congr Ok; rewrite addSnnS; congr (_, _).
  set n := size _; case: n => [|n] /=.
    rewrite addn1; case: ltnP => h; first by [].
    have e : mi = (size meas).-1 by apply/eqP; rewrite eqn_leq -ltnS (prednK (leq_ltn_trans (leq0n _) hmi)) hmi /= -ltnS (prednK (leq_ltn_trans (leq0n _) hmi)).
    by rewrite -e.
  case: (ltnP mi.+1 (size meas)) => h //.
  case: ifP => h2; first by apply: set_nth_default.
  by apply: set_nth_default; rewrite prednK //; apply: leq_ltn_trans hmi.
- by rewrite subnS; case: (size meas - mi)%N lt (subn_gt0 mi (size meas)) => //; rewrite hmi.
- by move=> h; rewrite h; split=> //; rewrite (set_nth_default y) //.
Qed.

(** pending measurement pointer is well placed *)
Definition ptr_ok (meas : seq Y) (mi : nat) (y : option Y) : Prop :=
  match y with
  | Some y => (0 < size meas)%N /\ ((mi < size meas)%N -> y = nth y meas mi)
  | None => meas = [::]
  end.

Lemma fuse_pending_spec meas u tn x mi y : sorted leY meas -> ptr_ok meas mi y ->
  exists2 y', ptr_ok meas (addn mi (size [seq a <- drop mi meas | ystamp a < tn])) y' &
  fuse_pending ystamp fuse meas u tn x mi y =
  (x' <~ foldM (fun x y => fuse x y u) x [seq a <- drop mi meas | ystamp a < tn] ;;
   Ok (x', (addn mi (size [seq a <- drop mi meas | ystamp a < tn])), y')).
Proof.
move=> so; case: y => [y|]; last by move=> ->; exists None => //=; rewrite addn0.
move=> [ne Hy]; cbn [fuse_pending].
set n := size _.
exists (Some (if (n == 0)%N then y else
       if (mi + n < size meas)%N then nth y meas (mi + n) else nth y meas (size meas).-1)).
  split=> // h; rewrite h; case: eqP => [e|_]; last by apply: set_nth_default.
  by rewrite e addn0; apply: Hy; move: h; rewrite e addn0.
rewrite while_fuse_spec //; first by rewrite -/n; case: (foldM _ _ _).
  by rewrite ltnS leq_subr.
by move=> h; split; [rewrite -(Hy h)|exact: Hy].
Qed.

Lemma drop_filter mi meas tn : sorted leY meas ->
  drop (addn mi (size [seq a <- drop mi meas | ystamp a < tn])) meas =
  [seq a <- drop mi meas | ~~ (ystamp a < tn)].
Proof.
move=> so; rewrite addnC -drop_drop.
have sod : sorted leY (drop mi meas).
  by rewrite -(cat_take_drop mi meas) in so; have /cat_sorted2[] := so.
by rewrite {2}(sorted_filter_split tn sod) drop_cat ltnn subnn drop0.
Qed.

Lemma py_nth_drop {A} (s : seq A) k : py_nth s k = if drop k s is a :: _ then Ok a else Raise IndexError.
Proof. by []. Qed.

Lemma loop_filter inp meas res x mi y k n : sorted leY meas -> ptr_ok meas mi y ->
  (k + n < size inp)%N ->
  rmap (fun st => st.1.1.1) (foldM (step_filter ustamp ystamp xstamp fuse predict inp meas) (res, x, mi, y) (iota k n)) =
  rmap (cat res) (execute xstamp fuse predict x (schedule (take n.+1 (drop k inp)) (drop mi meas))).
Proof.
move=> so; elim: n k res x mi y => [|n IH] k res x mi y Hp lt.
  rewrite addn0 in lt; case E: (drop k inp) => [|u l] /=; first by rewrite cats0.
  by rewrite take0 /= cats0.
have [u [l Ed]] : exists u l, drop k inp = u :: l.
  by case E: (drop k inp) (size_drop k inp) => [|u l] /=; [move/eqP; rewrite eq_sym subn_eq0 leqNgt (leq_ltn_trans _ lt) // leq_addr | exists u, l].
have E1 : drop k.+1 inp = l by rewrite -addn1 addnC -drop_drop Ed /= drop0.
have [v [l' Ev]] : exists v l', l = v :: l'.
  case: l E1 {Ed} => [|v l'] E1; last by exists v, l'.
  by move/(f_equal size): E1; rewrite size_drop /= => /eqP; rewrite subn_eq0 leqNgt (leq_ltn_trans _ lt) // addnS ltnS leq_addr.
rewrite Ed Ev; cbn [iota foldM]; rewrite {1}/step_filter !py_nth_drop Ed E1 Ev.
cbn [bind take RunFilterSpec.schedule execute].
have [y' Hp' ->] := fuse_pending_spec u (ustamp v) x so Hp.
case: (foldM _ _ _) => //= x1; case: (predict _ _ _) => //= x2.
rewrite IH //; last by rewrite addSnnS.
rewrite E1 Ev drop_filter //=.
by case: (execute _ _ _ _ _) => //= r; rewrite cat_rcons.
Qed.

Lemma loop_imm inp meas res x mi y k n : sorted leY meas -> ptr_ok meas mi y ->
  (k + n < size inp)%N ->
  rmap (fun st => st.1.1.1) (foldM (step_imm ustamp ystamp xstamp fuse predict inp meas) (res, x, mi, y) (iota k n)) =
  rmap (cat res) (execute_imm xstamp fuse predict x (schedule (take n.+1 (drop k inp)) (drop mi meas))).
Proof.
move=> so; elim: n k res x mi y => [|n IH] k res x mi y Hp lt.
  rewrite addn0 in lt; case E: (drop k inp) => [|u l] /=; first by rewrite cats0.
  by rewrite take0 /= cats0.
have [u [l Ed]] : exists u l, drop k inp = u :: l.
  by case E: (drop k inp) (size_drop k inp) => [|u l] /=; [move/eqP; rewrite eq_sym subn_eq0 leqNgt (leq_ltn_trans _ lt) // leq_addr | exists u, l].
have E1 : drop k.+1 inp = l by rewrite -addn1 addnC -drop_drop Ed /= drop0.
have [v [l' Ev]] : exists v l', l = v :: l'.
  case: l E1 {Ed} => [|v l'] E1; last by exists v, l'.
  by move/(f_equal size): E1; rewrite size_drop /= => /eqP; rewrite subn_eq0 leqNgt (leq_ltn_trans _ lt) // addnS ltnS leq_addr.
rewrite Ed Ev; cbn [iota foldM]; rewrite {1}/step_imm !py_nth_drop Ed E1 Ev.
cbn [bind take RunFilterSpec.schedule execute_imm].
have [y' Hp' ->] := fuse_pending_spec u (ustamp v) x so Hp.
case: (foldM _ _ _) => //= x1; case: (predict _ _ _) => //= x2.
rewrite IH //; last by rewrite addSnnS.
rewrite E1 Ev drop_filter //=.
by case: (execute_imm _ _ _ _ _) => //= r; rewrite cat_rcons.
Qed.

Lemma run_loop_spec x inp meas : sorted leY meas ->
  run_loop (step_filter ustamp ystamp xstamp fuse predict) x inp meas =
  execute xstamp fuse predict x (schedule inp meas).
Proof.
move=> so; rewrite /run_loop.
have -> : forall A B (m : result A) (f : A -> B), (st <~ m ;; Ok (f st)) = rmap f m by move=> A B [].
case: inp => [|u l] //.
rewrite loop_filter //= ?drop0 ?take_oversize //; first by case: (execute _ _ _ _ _).
by case: meas {so}.
Qed.

Lemma run_loop_imm_spec x inp meas : sorted leY meas ->
  run_loop (step_imm ustamp ystamp xstamp fuse predict) x inp meas =
  execute_imm xstamp fuse predict x (schedule inp meas).
Proof.
move=> so; rewrite /run_loop.
have -> : forall A B (m : result A) (f : A -> B), (st <~ m ;; Ok (f st)) = rmap f m by move=> A B [].
case: inp => [|u l] //.
rewrite loop_imm //= ?drop0 ?take_oversize //; first by case: (execute_imm _ _ _ _ _).
by case: meas {so}.
Qed.
End Loop.
End P.
