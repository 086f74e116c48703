(** C43: what BatchEstimator.solve puts into the problem. *)
From mathcomp Require Import all_ssreflect all_algebra.
From Verif Require Import Base RunFilterModel RunFilterSpec RunFilterProof UtilsModel UtilsProps EstimatorModel.
Set Implicit Arguments.
Unset Strict Implicit.
Unset Printing Implicit Defensive.
Import Order.Theory GRing.Theory Num.Theory.
Local Open Scope ring_scope.

Section Batch.
Variable R : realFieldType.
Variables (U Y X : Type).
Variables (ustamp : U -> R) (ystamp : Y -> R) (xstamp : X -> R).
Variable restamp : X -> R -> X.
Variable evaluate : X -> U -> R -> result X.
Variable rnd : R -> R.
Notation build := (build ustamp ystamp xstamp restamp evaluate rnd).
Notation propagate := (propagate xstamp restamp evaluate).

Lemma mem_np_unique (s : seq R) x : (x \in np_unique s) = (x \in s).
Proof. by rewrite mem_sort mem_undup. Qed.
Lemma uniq_np_unique (s : seq R) : uniq (np_unique s).
Proof. by rewrite sort_uniq undup_uniq. Qed.
Lemma sorted_np_unique (s : seq R) : sorted <%R (np_unique s).
Proof. by rewrite lt_sorted_uniq_le uniq_np_unique; apply: sort_sorted; exact: le_total. Qed.

(** The data that is used: stamps not before x0's, in stable time order. *)
Definition used {A} (key : A -> R) (x0 : X) (s : seq A) : seq A :=
  sort_by key [seq a <- s | xstamp x0 <= key a].
(** there is something left after dropping stale data, or there was nothing *)
Definition some_fresh {A} (key : A -> R) (x0 : X) (s : seq A) : Prop :=
  has (fun a => xstamp x0 <= key a) s \/ s = [::].

Lemma trim_used A (key : A -> R) x0 s : some_fresh key x0 s -> trim key (xstamp x0) (sort_by key s) = used key x0 s.
Proof.
move=> h; rewrite trim_sorted ?sort_by_sorted // sort_by_filter; case: ifP => // hs.
case: h => [h|->] //; move: hs; rewrite has_count -size_filter sort_by_filter size_sort size_filter -has_count.
by rewrite h.
Qed.

(** round(stamp, 12) preserves order, and no data stamp is as close to the rounded stamp of
    other data as to its own. *)
Hypothesis rnd_mono : forall a b, a <= b -> rnd a <= rnd b.
Definition no_clash (stamps : seq R) : Prop := forall t t', t \in stamps -> t' \in stamps ->
  rnd t' != rnd t -> `|rnd t - t| < `|rnd t' - t|.

Definition data_stamps (us : seq U) (ys : seq Y) : seq R := map ustamp us ++ map ystamp ys.
(** the distinct stamps at which states are estimated, in increasing order *)
Definition state_stamps (us : seq U) (ys : seq Y) (stamps : seq R) : Prop :=
  sorted <%R stamps /\ stamps =i map rnd (data_stamps us ys).

Lemma stampsE us ys : state_stamps us ys (np_unique ([seq rnd (ustamp u) | u <- us] ++ [seq rnd (ystamp y) | y <- ys])).
Proof.
split; first exact: sorted_np_unique.
by move=> x; rewrite mem_np_unique map_cat -!map_comp.
Qed.
Lemma state_stamps_uniq us ys s1 s2 : state_stamps us ys s1 -> state_stamps us ys s2 -> s1 = s2.
Proof.
move=> [a1 b1] [a2 b2]; apply: (irr_sorted_eq lt_trans ltxx) => //.
by move=> x; rewrite b1 b2.
Qed.

Lemma key_ofP us ys stamps t : state_stamps us ys stamps -> no_clash (data_stamps us ys) ->
  t \in data_stamps us ys -> key_of stamps t = Ok (index (rnd t) stamps).
Proof.
move=> [so me] nc ht; have hr : rnd t \in stamps by rewrite me map_f.
have ne : stamps <> [::] by move=> e; rewrite e in hr.
have [i [e li h]] := C58_nearest t ne.
rewrite /key_of e /=; congr Ok.
have lj : (index (rnd t) stamps < size stamps)%N by rewrite index_mem.
have [h1 _] := h _ lj; rewrite nth_index // in h1.
have us_ : uniq stamps by apply: sorted_uniq so; [exact: lt_trans | exact: ltxx].
case: (eqVneq (nth 0 stamps i) (rnd t)) => [E|ne']; first by rewrite -E index_uniq.
have : nth 0 stamps i \in map rnd (data_stamps us ys) by rewrite -me mem_nth.
case/mapP => t' ht' E; rewrite E in ne' h1.
by have := nc _ _ ht ht' ne'; rewrite ltNge h1.
Qed.

(** The process model returns a state with the stamp it was given (the estimator sets the
    stamp itself), and setting a stamp works. *)
Hypothesis eval_stamp : forall x u dt x', evaluate x u dt = Ok x' -> xstamp x' = xstamp x.
Hypothesis restampE : forall x t, xstamp (restamp x t) = t.

Lemma propagate_stamps us is_ : forall rest x idx xs,
  propagate us is_ x idx rest = Ok xs -> map xstamp xs = rest.
Proof.
elim=> [|t r IH] x idx xs /=; first by case=> <-.
case: py_nth => //= u; case: ifP => // _; case E : evaluate => [x1|] //=.
case: py_nth => //= nxt; case E2 : propagate => [xs'|] //= [<-] /=.
by rewrite (IH _ _ _ E2) restampE (eval_stamp E) addrC subrK.
Qed.

(** the residuals one expects: a prior on the first state, one process residual per pair of
    consecutive inputs between the states at their stamps, one measurement residual per
    measurement on the state at its stamp *)
Definition expected_residuals (x0 : X) (us : seq U) (ys : seq Y) (stamps : seq R) : seq (bresidual U Y X) :=
  BPrior U Y 0 x0 ::
  [seq BProcess Y X (index (rnd (ustamp p.1)) stamps) (index (rnd (ustamp p.2)) stamps) p.1 | p <- zip us (behead us)] ++
  [seq BMeas U X (index (rnd (ystamp y)) stamps) y | y <- ys].

Lemma mapM_ok (A B : Type) (f : A -> result B) (g : A -> B) s :
  (forall a, List.In a s -> f a = Ok (g a)) -> mapM f s = Ok (map g s).
Proof.
elim: s => //= a s IH h; rewrite h; last by left.
by rewrite /= IH // => b hb; apply: h; right.
Qed.
Lemma In_map (A : Type) (B : eqType) (f : A -> B) a s : List.In a s -> f a \in map f s.
Proof. by elim: s => //= b s IH [->|/IH h]; rewrite inE ?eqxx ?h ?orbT. Qed.
Lemma In_zip (A B : Type) (p : A * B) s s' : List.In p (zip s s') -> List.In p.1 s /\ List.In p.2 s'.
Proof. by elim: s s' => [|a s IH] [|b s'] //= [<-|/IH [h1 h2]] //=; auto. Qed.
Lemma In_behead (A : Type) (a : A) s : List.In a (behead s) -> List.In a s.
Proof. by case: s => //= b s h; right. Qed.

Lemma buildE x0 input meas us ys stamps : us = used ustamp x0 input -> ys = used ystamp x0 meas ->
  some_fresh ustamp x0 input -> some_fresh ystamp x0 meas ->
  no_clash (data_stamps us ys) -> state_stamps us ys stamps ->
  build x0 input meas = if stamps is _ :: rest then
     (xs <~ propagate us [seq rnd (ustamp u) | u <- us] x0 0 rest ;;
      Ok (x0 :: xs, expected_residuals x0 us ys stamps)) else Raise IndexError.
Proof.
move=> -> -> fu fy nc st; rewrite /EstimatorModel.build !trim_used //.
rewrite (state_stamps_uniq (stampsE _ _) st).
have key t : t \in data_stamps (used ustamp x0 input) (used ystamp x0 meas) -> key_of stamps t = Ok (index (rnd t) stamps).
  exact: key_ofP.
case E : stamps => [//|t0 rest]; rewrite -E; case: propagate => //= xs.
rewrite (mapM_ok (g := fun p => BProcess Y X (index (rnd (ustamp p.1)) stamps) (index (rnd (ustamp p.2)) stamps) p.1)) /=; last first.
  move=> p hp; have [h1 h2] := In_zip hp.
  rewrite key ?mem_cat ?(In_map ustamp h1) //= key ?mem_cat ?(In_map ustamp (In_behead h2)) //.
rewrite (mapM_ok (g := fun y => BMeas U X (index (rnd (ystamp y)) stamps) y)) //=.
by move=> y hy; rewrite key // mem_cat (In_map ystamp hy) orbT.
Qed.

(** C43, structure.  Whenever the estimator gets as far as solving, there is exactly one
    variable per distinct (rounded) stamp of the data that is not stale; the first is x0,
    the others carry their stamps in increasing order; and the residuals are exactly the
    expected ones, each connected to the states at its own stamps. *)
Theorem C43_structure x0 input meas us ys states residuals :
  us = used ustamp x0 input -> ys = used ystamp x0 meas ->
  some_fresh ustamp x0 input -> some_fresh ystamp x0 meas -> no_clash (data_stamps us ys) ->
  build x0 input meas = Ok (states, residuals) ->
  exists t0 rest xs, state_stamps us ys (t0 :: rest) /\
    states = x0 :: xs /\ map xstamp xs = rest /\
    residuals = expected_residuals x0 us ys (t0 :: rest).
Proof.
move=> hu hy fu fy nc; have st := stampsE us ys.
rewrite (buildE hu hy fu fy nc st); case E : (np_unique _) => [//|t0 rest]; rewrite -E.
case P : propagate => [xs|] //= [<- <-]; exists t0, rest, xs.
by rewrite -E; split=> //; split=> //; split=> //; apply: propagate_stamps P.
Qed.

(** The input in effect at time t: the last one whose stamp is not after t. *)
Definition in_effect (us : seq U) (t : R) (u : U) : Prop :=
  exists i, py_nth us i = Ok u /\ rnd (ustamp u) <= t /\
    forall j v, (i < j)%N -> py_nth us j = Ok v -> t < rnd (ustamp v).
(** The initial guess: every state is the process model applied to the previous state,
    with the input in effect there, over the time between the two. *)
Fixpoint propagated (us : seq U) (x : X) (s : R) (rest : seq R) (xs : seq X) : Prop :=
  match rest, xs with
  | t :: rest', x2 :: xs' =>
      (exists u x1, in_effect us s u /\ evaluate x u (t - xstamp x) = Ok x1 /\ x2 = restamp x1 t) /\
      propagated us x2 t rest' xs'
  | [::], [::] => True
  | _, _ => False
  end.

Lemma py_nth_ok (A : Type) (a : A) s i : (i < size s)%N -> py_nth s i = Ok (nth a s i).
Proof. by move=> h; rewrite /py_nth (drop_nth a). Qed.
Lemma py_nth_inv (A : Type) (a b : A) s i : py_nth s i = Ok b -> (i < size s)%N /\ b = nth a s i.
Proof.
rewrite /py_nth; case: (ltnP i (size s)) => h; last by rewrite drop_oversize.
by rewrite (drop_nth a h) => -[].
Qed.

Hypothesis eval_total : forall x u dt, exists x', evaluate x u dt = Ok x'.

Lemma propagate_runs (us : seq U) (is_ : seq R) : is_ = [seq rnd (ustamp u) | u <- us] ->
  sorted <%R is_ -> forall rest s idx x,
  path <%R s rest -> (forall t, t \in is_ -> s < t -> t \in rest) -> (idx < size us)%N ->
  nth 0 is_ idx <= s -> (forall j, (idx < j < size us)%N -> s < nth 0 is_ j) ->
  xstamp x <= s ->
  (all (fun t => t <= last 0 is_) rest ->
     exists xs, propagate us is_ x idx rest = Ok xs /\ propagated us x s rest xs) /\
  (~~ all (fun t => t <= last 0 is_) rest -> propagate us is_ x idx rest = Raise IndexError).
Proof.
move=> isE so; have szE : size is_ = size us by rewrite isE size_map.
have lastE : (0 < size us)%N -> last 0 is_ = nth 0 is_ (size us).-1 by rewrite -szE nth_last.
have nthE i u0 : (i < size us)%N -> nth 0 is_ i = rnd (ustamp (nth u0 us i)) by move=> h; rewrite isE (nth_map u0).
elim=> [|t r IH] s idx x pa mem li le gt xs_ //=; first by split=> // _; exists [::].
have [u0 _] : exists u0 : U, True by case: (us) li => // u0 _; exists u0.
move: pa => /= /andP [st pr].
have sz0 : (0 < size us)%N by apply: leq_ltn_trans li.
rewrite (py_nth_ok u0) //= ltNge subr_ge0 (le_trans xs_ (ltW st)) /=.
have [x1 ev] := eval_total x (nth u0 us idx) (t - xstamp x).
rewrite ev /= (eval_stamp ev) (addrC (xstamp x)) subrK.
case: (ltnP idx.+1 (size us)) => [li1|ge1]; last first.
  have E : last 0 is_ = nth 0 is_ idx.
    have e : size us = idx.+1 by apply/eqP; rewrite eqn_leq ge1 li.
    by rewrite lastE e.
  have -> : (t <= last 0 is_) = false by rewrite E; apply/negbTE; rewrite -ltNge (le_lt_trans le).
  split=> // _; rewrite /py_nth drop_oversize ?szE //.
rewrite (py_nth_ok 0) ?szE //=.
have nx := gt idx.+1 _; rewrite ltnSn li1 in nx; move/(_ erefl): nx => nx.
have nx_in : nth 0 is_ idx.+1 \in t :: r by apply: mem nx; rewrite mem_nth // szE.
have t_nx : t <= nth 0 is_ idx.+1.
  move: nx_in; rewrite inE => /orP [/eqP -> //|h]; apply: ltW.
  by have /allP := order_path_min lt_trans pr; apply.
have mem' t' : t' \in is_ -> t < t' -> t' \in r.
  move=> h1 h2; have := mem _ h1 (lt_trans st h2); rewrite inE => /orP [/eqP e|//].
  by rewrite e ltxx in h2.
have ie : in_effect us s (nth u0 us idx).
  exists idx; rewrite (py_nth_ok u0) // -nthE //; split=> //; split=> // j v ij /(py_nth_inv u0) [lj ->].
  by rewrite -nthE //; apply: gt; rewrite ij.
set idx' := if _ then _ else _.
have [l1 l2 l3] : [/\ (idx' < size us)%N, nth 0 is_ idx' <= t & forall j, (idx' < j < size us)%N -> t < nth 0 is_ j].
  rewrite /idx'; case: ifP => [h|/negbT]; [split=> // | rewrite -leNgt => h].
  - exact: le_trans le (ltW st).
  - move=> j /andP [h1 h2]; apply: (lt_le_trans h).
    move: h1; rewrite leq_eqVlt => /orP [/eqP <- //|h1]; apply: ltW.
    by apply: (sorted_ltn_nth lt_trans 0 so); rewrite ?inE ?szE.
  - split=> // j /andP [h1 h2]; apply: (le_lt_trans t_nx).
    by apply: (sorted_ltn_nth lt_trans 0 so); rewrite ?inE ?szE.
have xs' : xstamp (restamp x1 t) <= t by rewrite restampE.
have [I1 I2] := IH t idx' (restamp x1 t) pr mem' l1 l2 l3 xs'.
have tl : t <= last 0 is_.
  apply: (le_trans t_nx); rewrite lastE //.
  have : (idx.+1 <= (size us).-1)%N by rewrite -ltnS prednK.
  rewrite leq_eqVlt => /orP [/eqP <- //|h]; apply: ltW.
  have pl : ((size us).-1 < size us)%N by rewrite prednK.
  by apply: (sorted_ltn_nth lt_trans 0 so) => //; rewrite inE szE.
rewrite tl /=; split=> [/I1 [xs [-> pg]]|/I2 -> //].
exists (restamp x1 t :: xs); split=> //; split=> //.
by exists (nth u0 us idx), x1.
Qed.

Lemma used_sorted A (key : A -> R) x0 s : sorted (relpre key <=%O) (used key x0 s).
Proof. exact: sort_by_sorted. Qed.
Lemma mapIn (A : Type) (B : eqType) (f : A -> B) s t : t \in map f s -> exists2 u, List.In u s & t = f u.
Proof.
elim: s => //= a s IH; rewrite inE => /orP [/eqP ->|/IH [u h ->]]; first by exists a; [left|].
by exists u => //; right.
Qed.
Lemma mem_stamps us ys stamps t : state_stamps us ys stamps -> t \in stamps ->
  (exists2 u, List.In u us & t = rnd (ustamp u)) \/ (exists2 y, List.In y ys & t = rnd (ystamp y)).
Proof.
move=> st; rewrite st.2 map_cat mem_cat -!map_comp => /orP [/mapIn [u h ->]|/mapIn [y h ->]].
  by left; exists u.
by right; exists y.
Qed.
Lemma nth_In (A : Type) (a : A) s i : (i < size s)%N -> List.In (nth a s i) s.
Proof. by elim: s i => //= b s IH [|i] h; [left | right; apply: IH]. Qed.
Lemma last_In (A : Type) (a : A) s : List.In (last a s) (a :: s).
Proof. by elim: s a => [|b s IH] a; [left | right; apply: IH]. Qed.
Lemma In_mapI (A B : Type) (f : A -> B) a s : List.In a s -> List.In (f a) (map f s).
Proof. by elim: s => //= b s IH [->|/IH h]; auto. Qed.
Lemma In_mapE (A B : Type) (f : A -> B) b s : List.In b (map f s) -> exists2 a, List.In a s & b = f a.
Proof. by elim: s => //= c s IH [<-|/IH [a h ->]]; [exists c; auto | exists a; auto]. Qed.
Lemma In_cat (A : Type) (a : A) s1 s2 : List.In a (s1 ++ s2) <-> List.In a s1 \/ List.In a s2.
Proof. by elim: s1 => /= [|b s IH]; [split; [right | case] | rewrite IH; tauto]. Qed.

Lemma In_catE (A : Type) (a : A) s1 s2 : List.In a (s1 ++ s2) -> List.In a s1 \/ List.In a s2.
Proof. by move/(proj1 (In_cat a s1 s2)). Qed.
Lemma In_catR (A : Type) (a : A) s1 s2 : List.In a s2 -> List.In a (s1 ++ s2).
Proof. by move=> h; apply/(proj2 (In_cat a s1 s2)); right. Qed.
Lemma used_fresh A (key : A -> R) x0 s a : List.In a (used key x0 s) -> xstamp x0 <= key a.
Proof.
move=> h.
have al : all (fun a => xstamp x0 <= key a) (used key x0 s).
  by rewrite /used all_sort filter_all.
by elim: (used key x0 s) h al => //= b l IH [->|/IH h] /andP [] // h1 /h.
Qed.

Section Distinct.
Variables (x0 : X) (input : seq U) (meas : seq Y) (us : seq U) (ys : seq Y) (stamps : seq R) (u1 : U) (us' : seq U).
Hypotheses (hu : us = used ustamp x0 input) (hy : ys = used ystamp x0 meas).
Hypotheses (fu : some_fresh ustamp x0 input) (fy : some_fresh ystamp x0 meas).
Hypothesis nc : no_clash (data_stamps us ys).
Hypothesis st : state_stamps us ys stamps.
Hypothesis rx : rnd (xstamp x0) = xstamp x0.
Hypothesis e : us = u1 :: us'.
Hypothesis uq : uniq [seq rnd (ustamp u) | u <- us].
(** no measurement before the first input *)
Hypothesis hm : forall y, List.In y ys -> rnd (ustamp u1) <= rnd (ystamp y).

Let is_ := [seq rnd (ustamp u) | u <- us].
Lemma is_sorted : sorted <%R is_.
Proof.
rewrite lt_sorted_uniq_le uq /= /is_ sorted_map.
apply: (sub_sorted (e := relpre ustamp <=%O)) => [a b /=|]; first exact: rnd_mono.
by rewrite hu; apply: used_sorted.
Qed.
Lemma first_min t : t \in stamps -> rnd (ustamp u1) <= t.
Proof.
case/(mem_stamps st) => [[u h ->]|[y h ->]]; last exact: hm.
have hin : rnd (ustamp u) \in is_ by apply: (In_map (fun u => rnd (ustamp u)) h).
move: hin is_sorted; rewrite /is_ e /= inE => /orP [/eqP -> //|hin] /(order_path_min lt_trans) /allP /(_ _ hin).
exact: ltW.
Qed.
Lemma is_last : last 0 is_ = rnd (ustamp (last u1 us')).
Proof. by rewrite /is_ e /= (last_map (fun u => rnd (ustamp u))). Qed.
Lemma stamps_head : exists rest, stamps = rnd (ustamp u1) :: rest.
Proof.
have h1 : rnd (ustamp u1) \in stamps by rewrite st.2 map_f // /data_stamps e mem_head.
case E : stamps => [|t r]; first by rewrite E in h1.
have := first_min; rewrite E => /(_ t (mem_head _ _)) le; exists r; congr cons.
apply/eqP; rewrite eq_le le andbT.
move: h1; rewrite E inE => /orP [/eqP -> //|h].
have := st.1; rewrite E /= => /(order_path_min lt_trans) /allP /(_ _ h); exact: ltW.
Qed.

Lemma run_cases : exists rest, stamps = rnd (ustamp u1) :: rest /\
  (all (fun t => t <= last 0 is_) rest ->
     exists xs, propagate us is_ x0 0 rest = Ok xs /\ propagated us x0 (rnd (ustamp u1)) rest xs) /\
  (~~ all (fun t => t <= last 0 is_) rest -> propagate us is_ x0 0 rest = Raise IndexError).
Proof.
have [rest E] := stamps_head; exists rest; split=> //.
apply: (propagate_runs (us := us) (is_ := is_) erefl is_sorted).
- by have := st.1; rewrite E.
- move=> t ht lt; have : t \in stamps.
    by rewrite st.2 map_cat mem_cat -map_comp ht.
  by rewrite E inE => /orP [/eqP ee|//]; rewrite ee ltxx in lt.
- by rewrite e.
- by rewrite /is_ e.
- move=> j /andP [j0 js]; have : nth 0 is_ 0 < nth 0 is_ j.
    by apply: (sorted_ltn_nth lt_trans 0 is_sorted); rewrite ?inE /is_ ?size_map // e.
  by rewrite {1}/is_ {1}e.
- rewrite -rx; apply: rnd_mono; apply: (used_fresh (s := input) (a := u1)).
  by rewrite -hu e; left.
Qed.

(** C43, success.  With at least one input, distinct input stamps and every measurement
    between the first and the last input, the estimator never fails before solving, and
    the initial guess is the propagation of x0 through the process model with the input
    in effect at each stamp. *)
Theorem C43_no_failure :
  (forall y, List.In y ys -> rnd (ystamp y) <= rnd (ustamp (last u1 us'))) ->
  exists rest xs, stamps = rnd (ustamp u1) :: rest /\
    build x0 input meas = Ok (x0 :: xs, expected_residuals x0 us ys stamps) /\
    propagated us x0 (rnd (ustamp u1)) rest xs.
Proof.
move=> hl; have [rest [E [ok _]]] := run_cases.
have [|xs [px pg]] := ok.
  apply/allP => t ht; have : t \in stamps by rewrite E inE ht orbT.
  rewrite is_last; case/(mem_stamps st) => [[u h ->]|[y h ->]]; last exact: hl.
  have hin : rnd (ustamp u) \in is_ by apply: (In_map (fun u => rnd (ustamp u)) h).
  rewrite -is_last -nth_last -[rnd (ustamp u)](nth_index 0 hin).
  have li : (index (rnd (ustamp u)) is_ < size is_)%N by rewrite index_mem.
  apply: (sorted_leq_nth le_trans le_refl 0 (sub_sorted (@ltW _ _) is_sorted)); rewrite ?inE ?index_mem //.
    by rewrite prednK // (leq_ltn_trans _ li).
  by rewrite -ltnS prednK // (leq_ltn_trans _ li).
exists rest, xs; split=> //; split=> //.
by rewrite (buildE hu hy fu fy nc st) E px.
Qed.

(** A measurement later than the last input always makes the estimator fail. *)
Theorem C43_measurement_after_last_input_refuted y : List.In y ys ->
  rnd (ustamp (last u1 us')) < rnd (ystamp y) -> build x0 input meas = Raise IndexError.
Proof.
move=> yin lt; have [rest [E [_ bad]]] := run_cases.
rewrite (buildE hu hy fu fy nc st) E bad //.
apply/negP => /allP /(_ (rnd (ystamp y))); rewrite is_last leNgt lt => h; suff : false by []; apply: h.
have : rnd (ystamp y) \in stamps.
  by rewrite st.2 map_cat mem_cat -!map_comp (In_map (fun y => rnd (ystamp y)) yin) orbT.
rewrite E inE => /orP [/eqP ee|//].
have := first_min (t := rnd (ustamp (last u1 us'))); rewrite -ee leNgt lt => h'; suff : false by []; apply: h'.
by rewrite st.2 map_cat mem_cat -!map_comp e (In_map (fun u => rnd (ustamp u)) (last_In u1 us')).
Qed.
End Distinct.

(** A measurement whose stamp is not an input stamp gets a state that no process residual
    touches: it is not connected to the rest of the trajectory. *)
Theorem C43_unconnected_state_refuted x0 us ys stamps y a b u :
  state_stamps us ys stamps -> List.In y ys ->
  (forall v, List.In v us -> rnd (ustamp v) != rnd (ystamp y)) ->
  List.In (BProcess Y X a b u) (expected_residuals x0 us ys stamps) ->
  index (rnd (ystamp y)) stamps != a /\ index (rnd (ystamp y)) stamps != b.
Proof.
move=> st yin ne; rewrite /expected_residuals /=; case=> [//|h].
case: (In_catE h) => {}h; last by case: (In_mapE h).
have [[v w] hz [-> -> _]] := In_mapE h.
have [/= hv hw'] := In_zip hz; have hw := In_behead hw'.
have yi : rnd (ystamp y) \in stamps.
  by rewrite st.2 map_cat mem_cat -!map_comp (In_map (fun y => rnd (ystamp y)) yin) orbT.
have diff v' : List.In v' us -> index (rnd (ystamp y)) stamps != index (rnd (ustamp v')) stamps.
  move=> hv'; apply: contra_neq (ne _ hv') => ee; symmetry.
  have vi : rnd (ustamp v') \in stamps.
    by rewrite st.2 map_cat mem_cat -!map_comp (In_map (fun u => rnd (ustamp u)) hv').
  by rewrite -(nth_index 0 yi) ee nth_index.
by split; apply: diff.
Qed.

(** Without inputs, measurements at two different times make the estimator fail. *)
Theorem C43_no_inputs_refuted x0 meas ys t0 t1 rest :
  ys = used ystamp x0 meas -> some_fresh ystamp x0 meas -> no_clash (data_stamps [::] ys) ->
  state_stamps [::] ys (t0 :: t1 :: rest) ->
  build x0 [::] meas = Raise IndexError.
Proof.
move=> hy fy nc st; rewrite (buildE (us := [::]) _ hy _ fy nc st) //; last by right.
Qed.

(** If all data is later than x0, the first state is still x0 with x0's own stamp, but the
    measurements at the first data stamp are attached to it. *)
Theorem C43_first_state_stamp_refuted x0 input meas us ys states residuals y :
  us = used ustamp x0 input -> ys = used ystamp x0 meas ->
  some_fresh ustamp x0 input -> some_fresh ystamp x0 meas -> no_clash (data_stamps us ys) ->
  build x0 input meas = Ok (states, residuals) ->
  List.In y ys -> xstamp x0 < rnd (ystamp y) ->
  (forall t, t \in map rnd (data_stamps us ys) -> rnd (ystamp y) <= t) ->
  exists xs, states = x0 :: xs /\ List.In (BMeas U X 0 y) residuals.
Proof.
move=> hu hy fu fy nc bE yin _ mn.
have [t0 [rest [xs [st [-> [_ ->]]]]]] := C43_structure hu hy fu fy nc bE.
exists xs; split=> //; right; apply: In_catR.
have yi : rnd (ystamp y) \in t0 :: rest.
  by rewrite st.2 map_cat mem_cat -!map_comp (In_map (fun y => rnd (ystamp y)) yin) orbT.
have E : rnd (ystamp y) = t0.
  apply/eqP; rewrite eq_le mn -?st.2 ?mem_head //=.
  move: yi; rewrite inE => /orP [/eqP -> //|h].
  by have := st.1 => /(order_path_min lt_trans) /allP /(_ _ h); exact: ltW.
have -> : 0%N = index (rnd (ystamp y)) (t0 :: rest) by rewrite E /= eqxx.
exact: (In_mapI (fun y => BMeas U X (index (rnd (ystamp y)) (t0 :: rest)) y)).
Qed.
End Batch.

(** ** Non-vacuity: unsorted inputs at 2, 0, 1, measurements at 1 and 2, x0 at 0 *)
Definition exX : Type := (rat * rat)%type.
Definition ex_ev (x : exX) (u : rat) (dt : rat) : result exX := Ok (x.1 + dt, x.2).
Definition ex_build := build (R := rat_realFieldType) (U := rat) (Y := rat) (X := exX) id id snd (fun x t => (x.1, t)) ex_ev id.
Example C43_example :
  ex_build (0, 0) [:: 2%:Q; 0; 1] [:: 2%:Q; 1] =
  Ok ([:: (0, 0); (1, 1); (2%:Q, 2%:Q)],
      [:: BPrior _ _ 0 (0, 0); BProcess _ _ 0 1 0; BProcess _ _ 1 2 1; BMeas _ _ 1 1; BMeas _ _ 2 2%:Q]).
Proof. by vm_compute. Qed.
Example C43_no_clash_id s : no_clash (R := rat_realFieldType) id s.
Proof. by move=> t t' _ _ ne; rewrite subrr normr0 normr_gt0 subr_eq0. Qed.
Example C43_hyps_met : let us := used (R := rat_realFieldType) (X := exX) snd id (0, 0) [:: 2%:Q; 0; 1] in let ys := used (R := rat_realFieldType) (X := exX) snd id (0, 0) [:: 2%:Q; 1] in
  us = 0 :: [:: 1; 2%:Q] /\ uniq us /\ (forall y, List.In y ys -> 0 <= y <= last 0 [:: 1; 2%:Q]) /\
  some_fresh (R := rat_realFieldType) (X := exX) snd id (0, 0) [:: 2%:Q; 0; 1].
Proof.
have -> : used (R := rat_realFieldType) (X := exX) snd id (0, 0) [:: 2%:Q; 0; 1] = 0 :: [:: 1; 2%:Q] by vm_compute.
have -> : used (R := rat_realFieldType) (X := exX) snd id (0, 0) [:: 2%:Q; 1] = [:: 1; 2%:Q] by vm_compute.
do 2!split=> //; split; last by left; vm_compute.
by move=> y /= [<-|[<-|//]]; vm_compute.
Qed.
(** the three failure modes on concrete data *)
Example C43_after_last_input : ex_build (0, 0) [:: 0; 1] [:: 2%:Q] = Raise IndexError.
Proof. by vm_compute. Qed.
Example C43_unconnected : exists s,
  ex_build (0, 0) [:: 0; 2%:Q] [:: 1] = Ok (s, [:: BPrior _ _ 0 (0, 0); BProcess _ _ 0 2 0; BMeas _ _ 1 1]).
Proof. by eexists; vm_compute. Qed.
Example C43_late_start : exists s,
  ex_build (0, 0) [:: 1; 2%:Q] [:: 1] = Ok ((0, 0) :: s, [:: BPrior _ _ 0 (0, 0); BProcess _ _ 0 1 1; BMeas _ _ 0 1]).
Proof. by eexists; vm_compute. Qed.

Print Assumptions C43_structure.
Print Assumptions C43_no_failure.
Print Assumptions C43_measurement_after_last_input_refuted.
Print Assumptions C43_unconnected_state_refuted.
Print Assumptions C43_no_inputs_refuted.
Print Assumptions C43_first_state_stamp_refuted.
