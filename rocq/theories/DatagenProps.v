(** Property theorems C53-C55 (navlie/datagen.py).
    Reading guide: [generate ... infos freq x0 start stop] is DataGenerator.generate with the
    schedule [infos] (model, frequency, offset); its result is (states, inputs, measurements).
    [evolve x u dt] (DatagenProof) is the process model's evaluate(x, u, dt) with the stamp
    advanced by dt. *)
From mathcomp Require Import all_ssreflect all_algebra.
From Verif Require Import Base Tac LinAlg RunFilterModel RunFilterSpec RunFilterProof DatagenModel DatagenProof EkfModel.
Set Implicit Arguments.
Unset Strict Implicit.
Unset Printing Implicit Defensive.
Import Order.Theory GRing.Theory Num.Theory.
Local Open Scope ring_scope.

(** *** Specification *)
Section Spec.
Variable T : archiFieldType.
(** np.round: monotone, and rounded numbers stay *)
Definition rounding (rnd : T -> T) : Prop :=
  (forall a b, a <= b -> rnd a <= rnd b) /\ (forall a, rnd (rnd a) = rnd a).
(** frequencies are positive and offsets are not negative *)
Definition proper_schedule M (infos : seq (M * T * T)) : Prop :=
  forall e, List.In e infos -> 0 < e.1.2 /\ 0 <= e.2.
End Spec.

Section G.
Variable T : archiFieldType.
Variables (X U Y M : Type).
Variables (xstamp : X -> T) (restamp : X -> T -> X) (ustamp : U -> T).
Variable f : X -> U -> T -> result X.
Variable uin : T -> X -> U.
Variable meval : M -> X -> option Y.
Variable rnd : T -> T.
Variable nu : nat -> U -> U.
Variable ny : nat -> Y -> Y.
Hypothesis stampK : forall x t, xstamp (restamp x t) = t.
Hypothesis rndP : rounding rnd.
Notation meas := (meas T Y M).
Notation generate := (generate xstamp restamp ustamp f uin meval rnd nu ny).
Notation evolve := (evolve xstamp restamp f).
Notation flow := (flow_property xstamp restamp f).

(** the times: start + k / freq while below stop *)
Theorem C53_times (a b s : T) : 0 < s ->
  (forall k, (k < size (arange a b s))%N = (a + k%:R * s < b)) /\
  (forall k x, (k < size (arange a b s))%N -> nth x (arange a b s) k = a + k%:R * s).
Proof. by move=> s0; split=> [k|k x]; rewrite size_arange ?arange_lenP // -arange_lenP // => /nth_arange. Qed.

Lemma sort_by_id A (key : A -> T) s : sorted <=%O (map key s) -> sort_by key s = s.
Proof. by rewrite sorted_map => so; apply: sorted_sort so; exact: leK_trans. Qed.

Notation expected infos t0 tl :=
  (flatten [seq [seq (rnd a, e.1.1) | a <- arange (t0 + e.2) tl e.1.2^-1] | e <- infos]).

Lemma strip_sort (s : seq meas) : map (@strip T Y M) (sort_by (@me_stamp T Y M) s) = sort_by fst (map (@strip T Y M) s).
Proof. by rewrite /sort_by sort_map. Qed.

Definition blank infos t0 tl : seq meas :=
  flatten [seq [seq Meas None (rnd a) e.1.1 | a <- arange (t0 + e.2) tl e.1.2^-1] | e <- infos].
Lemma strip_blank infos t0 tl : map (@strip T Y M) (blank infos t0 tl) = expected infos t0 tl.
Proof. by rewrite /blank map_flatten -map_comp; congr flatten; apply: eq_map => e /=; rewrite -map_comp. Qed.
Lemma planE infos t0 tl : proper_schedule infos -> plan Y rnd infos t0 tl = Ok (sort_by (@me_stamp T Y M) (blank infos t0 tl)).
Proof.
rewrite /plan => pr; suff -> : mapM (empty_meas Y rnd t0 tl) infos = Ok [seq [seq Meas None (rnd a) e.1.1 | a <- arange (t0 + e.2) tl e.1.2^-1] | e <- infos] by [].
elim: infos pr => //= [[[m q] o]] l IH pr /=.
have [/= q0 _] := pr _ (or_introl erefl); rewrite /period gt_eqF //= IH // => e h.
by apply: pr; right.
Qed.
Lemma in_flatten A (a : A) ss : List.In a (flatten ss) -> exists2 s, List.In s ss & List.In a s.
Proof.
elim: ss => //= s ss IH h; have [h'|h'] : List.In a s \/ List.In a (flatten ss) by apply: List.in_app_or.
  by exists s; [left|].
by have [s' h1 h2] := IH h'; exists s'; [right|].
Qed.
Lemma allIn A (p : pred A) s : (forall a, List.In a s -> p a) -> all p s.
Proof. by elim: s => //= a s IH h; rewrite h ?IH //=; [move=> b hb; apply: h; right|left]. Qed.
Lemma blank_in infos t0 tl (m : meas) : List.In m (blank infos t0 tl) ->
  exists e a, [/\ List.In e infos, List.In a (arange (t0 + e.2) tl e.1.2^-1) & m = Meas None (rnd a) e.1.1].
Proof.
by move=> h; have [s /List.in_map_iff [e [<- he]] /List.in_map_iff [a [<- ha]]] := in_flatten h; exists e, a.
Qed.
Lemma allP_In A (p : pred A) s a : all p s -> List.In a s -> p a.
Proof. by elim: s => //= b s IH /andP[pb ps] [<-|/(IH ps)]. Qed.
Lemma blank_ge infos t0 tl : proper_schedule infos -> rnd t0 = t0 -> all (fun m : meas => t0 <= me_stamp m) (blank infos t0 tl).
Proof.
move=> pr rt; apply: allIn => m /blank_in [e [a [he ha ->]]] /=.
have [q0 o0] := pr _ he; rewrite -{1}rt; apply: rndP.1.
apply: le_trans (_ : t0 + e.2 <= _); first by rewrite ler_addl.
by apply: allP_In (arange_ge _ _ _) ha; rewrite invr_gt0.
Qed.
Lemma nil_arange (a b s : T) : a < b -> 0 < s -> arange a b s = a :: behead (arange a b s).
Proof.
move=> ab s0; have := arange_lenP a b 0 s0; rewrite mul0r addr0 ab /arange.
by case: (arange_len a b s) => //= n _; rewrite mul0r addr0.
Qed.

Lemma times_sorted (a b s : T) : 0 < s -> sorted <=%O (map rnd (arange a b s)).
Proof.
move=> s0; rewrite sorted_map; apply: sub_sorted (arange_sorted a b s0) => x y; exact: rndP.1.
Qed.

(** everything generate does, in terms of the trace of the process *)
Lemma generate_trace infos freq x0 start stop xs us ms : flow -> proper_schedule infos -> 0 < freq ->
  generate infos freq x0 start stop = Ok (xs, us, ms) ->
  exists t0 ts us' xs', [/\ map rnd (arange start stop freq^-1) = t0 :: ts,
    trace xstamp restamp f uin meval nu ny 0 0 t0 (restamp x0 t0) ts (sort_by (@me_stamp T Y M) (blank infos t0 (last t0 ts))) xs' us' ms,
    xs = restamp x0 t0 :: xs', us = sort_by ustamp us' &
    [/\ path <=%O t0 ts, start < stop, t0 = rnd start & all (fun m : meas => t0 <= me_stamp m) (sort_by (@me_stamp T Y M) (blank infos t0 (last t0 ts)))]].
Proof.
move=> fl pr q0; rewrite /DatagenModel.generate /period gt_eqF //=.
have s0 : 0 < freq^-1 by rewrite invr_gt0.
have so := times_sorted start stop s0.
case E: (map rnd _) so => [|t0 ts] // so.
have ss : start < stop.
  rewrite ltNge; apply/negP => h; move: E; rewrite /arange.
  have := arange_lenP start stop 0 s0; rewrite mul0r addr0 ltNge h.
  by case: (arange_len _ _ _).
have t0E : t0 = rnd start by move: E; rewrite nil_arange //= => -[<-].
have rt : rnd t0 = t0 by rewrite t0E rndP.2.
rewrite planE //=; set pending := sort_by _ _.
have al : all (fun m : meas => t0 <= me_stamp m) pending by rewrite all_sort blank_ge.
case S: (steps _ _ _ _ _ _ _ _ _ _ _ _ _) => [[[xs' us'] ms']|] //= [<- <- <-].
have tr := steps_trace stampK fl S (stampK _ _) so (sort_by_sorted _ _) al.
have [h1 _ _] := trace_states stampK (stampK _ _) tr.
have h2 := trace_strip tr.
exists t0, ts, us', xs'; split=> //.
- have e : map (@me_stamp T Y M) ms' = map (@me_stamp T Y M) pending.
    by have := congr1 (map fst) h2; rewrite -!map_comp.
  rewrite (_ : sort_by _ ms' = ms') //; apply: sort_by_id; rewrite e sorted_map; exact: sort_by_sorted.
- by rewrite sort_by_id //= h1 stampK.
Qed.

(** one state per requested time, each from the previous one by the process model over the actual
    time difference; the k-th input is the input function at the k-th time and true state, plus noise *)
Theorem C53_states infos freq x0 start stop xs us ms : flow -> proper_schedule infos -> 0 < freq ->
  generate infos freq x0 start stop = Ok (xs, us, ms) ->
  [/\ map xstamp xs = map rnd (arange start stop freq^-1), (forall d, nth d xs 0 = restamp x0 (rnd start)) &
   forall k d, (k.+1 < size xs)%N -> let x := nth d xs k in let x' := nth d xs k.+1 in
     evolve x (uin (xstamp x) x) (xstamp x' - xstamp x) = Ok x'].
Proof.
move=> fl pr q0 /generate_trace [] // t0 [ts [us' [xs' [e1 tr -> _ [_ _ t0E _]]]]].
have [h1 h2 h3] := trace_states stampK (stampK _ _) tr.
split=> [|d|k d] /=; rewrite ?h1 ?stampK ?e1 -?t0E // ltnS => ks.
have ks' : (k < size ts)%N by rewrite -h1 size_map.
have [_] := h3 k d (uin t0 d) ks'; exact.
Qed.

Theorem C53_inputs infos freq x0 start stop xs us ms : flow -> proper_schedule infos -> 0 < freq ->
  (forall k t x, ustamp (nu k (uin t x)) = t) ->
  generate infos freq x0 start stop = Ok (xs, us, ms) ->
  size xs = (size us).+1 /\
  (forall k d ud, (k < size us)%N -> nth ud us k = nu k (uin (xstamp (nth d xs k)) (nth d xs k))).
Proof.
move=> fl pr q0 st /generate_trace [] // t0 [ts [us' [xs' [e1 tr -> -> [pa _ t0E _]]]]].
have [h1 h2 h3] := trace_states stampK (stampK _ _) tr.
have su : size us' = size xs' by rewrite h2 -h1 size_map.
have ue : map ustamp us' = take (size us') (t0 :: ts).
  apply: (@eq_from_nth _ t0) => [|i]; rewrite size_map.
    by rewrite size_take /= h2 leqnn.
  move=> il; have il' : (i < size ts)%N by rewrite -h2.
  have [d _] : exists d : X, True by exists x0.
  have [] := h3 i d (uin t0 x0) il'; rewrite (nth_map (uin t0 x0)) // => -> _.
  rewrite st nth_take //; case: i il il' => [|i] /= il il'; first by rewrite stampK.
  by rewrite -h1 (nth_map d) // -su ltnW.
have so : sort_by ustamp us' = us'.
  by apply: sort_by_id; rewrite ue take_sorted.
rewrite so /= su; split=> // k d ud kl; have kl' : (k < size ts)%N by rewrite -h1 size_map.
by have [] := h3 k d ud kl'.
Qed.

(** *** Measurements *)
(** the true state at time s: on the trajectory xs, driven by the input held since the last time *)
Definition true_state (xs : seq X) (s : T) (xm : X) : Prop :=
  exists q d, [/\ (q.+1 < size xs)%N, xstamp (nth d xs q) <= s < xstamp (nth d xs q.+1) &
    evolve (nth d xs q) (uin (xstamp (nth d xs q)) (nth d xs q)) (s - xstamp (nth d xs q)) = Ok xm].

(** exactly the scheduled measurements are returned, sorted by stamp, ties in model order *)
Theorem C54_schedule infos freq x0 start stop xs us ms d : flow -> proper_schedule infos -> 0 < freq ->
  generate infos freq x0 start stop = Ok (xs, us, ms) ->
  stable_selection fst predT
    (flatten [seq [seq (rnd a, e.1.1) | a <- arange (rnd start + e.2) (last d (map xstamp xs)) e.1.2^-1] | e <- infos])
    [seq (me_stamp m, me_model m) | m <- ms].
Proof.
move=> fl pr q0 /generate_trace [] // t0 [ts [us' [xs' [e1 tr -> _ [_ _ t0E _]]]]].
have [h1 _ _] := trace_states stampK (stampK _ _) tr.
have -> : [seq (me_stamp m, me_model m) | m <- ms] = map (@strip T Y M) ms by [].
rewrite (trace_strip tr) strip_sort strip_blank /= stampK h1 -t0E.
have := stable_sort fst predT (expected infos t0 (last t0 ts)).
by rewrite filter_predT.
Qed.

(** each is filled with its own model's value at the true state at its own stamp ... *)
Theorem C54_values infos freq x0 start stop xs us ms d i m0 : flow -> proper_schedule infos -> 0 < freq ->
  generate infos freq x0 start stop = Ok (xs, us, ms) -> (i < size ms)%N ->
  let m := nth m0 ms i in me_stamp m < last d (map xstamp xs) ->
  exists xm y, [/\ true_state xs (me_stamp m) xm, meval (me_model m) xm = Some y & me_val m = Some (ny i y)].
Proof.
move=> fl pr q0 /generate_trace [] // t0 [ts [us' [xs' [e1 tr -> _ [pa _ t0E al]]]]] im /=.
have [h1 _ _] := trace_states stampK (stampK _ _) tr.
rewrite stampK h1 => lt; have [h2 _] := trace_meas stampK (stampK _ _) pa tr al.
have [q [q1 /andP[q2 q3] [xm [y [e2 e3 e4]]]]] := h2 i m0 im lt; exists xm, y; split=> //.
have sz : size xs' = size ts by rewrite -h1 size_map.
have nE j : (j < (size ts).+1)%N -> nth t0 (t0 :: ts) j = xstamp (nth (restamp x0 t0) (restamp x0 t0 :: xs') j).
  by case: j => [|j] /=; rewrite ?stampK // ltnS => jl; rewrite -h1 (nth_map (restamp x0 t0)) // sz.
have q1' : (q < (size ts).+1)%N by apply: leq_trans q1 _.
exists q, (restamp x0 t0); rewrite -(nE q q1') -(nE q.+1 q1); split=> //=; first by rewrite ltnS sz.
  by rewrite q2.
by rewrite (nE q q1').
Qed.

(** ... except that a measurement stamped at or after the last time is returned empty *)
Theorem C54_unfilled infos freq x0 start stop xs us ms d i m0 : flow -> proper_schedule infos -> 0 < freq ->
  generate infos freq x0 start stop = Ok (xs, us, ms) -> (i < size ms)%N ->
  last d (map xstamp xs) <= me_stamp (nth m0 ms i) -> me_val (nth m0 ms i) = None.
Proof.
move=> fl pr q0 /generate_trace [] // t0 [ts [us' [xs' [e1 tr -> _ [pa _ t0E al]]]]] im /=.
have [h1 _ _] := trace_states stampK (stampK _ _) tr.
rewrite stampK h1 => le; have [_ h2] := trace_meas stampK (stampK _ _) pa tr al.
rewrite h2 //; set pending := sort_by _ _.
have sz : size ms = size pending by have := congr1 size (trace_strip tr); rewrite !size_map.
have : all (fun m : meas => ~~ isSome (me_val m)) pending.
  by rewrite all_sort; apply: allIn => m /blank_in [e [a [_ _ ->]]].
move/(all_nthP m0)/(_ i); rewrite -sz => /(_ im).
by case: (me_val _).
Qed.

(** with a process model that never raises on the generated inputs and scheduled models that always measure, data is
    generated for every interval *)
Theorem C54_total infos freq x0 start stop : proper_schedule infos -> 0 < freq -> start < stop ->
  (forall x t x' dt, is_ok (f x (uin t x') dt)) -> (forall e x, List.In e infos -> isSome (meval e.1.1 x)) ->
  is_ok (generate infos freq x0 start stop).
Proof.
move=> pr q0 ss fo mo; rewrite /DatagenModel.generate /period gt_eqF //= nil_arange ?invr_gt0 //=.
rewrite planE //=; set ts := map _ _; set pd := sort_by _ _.
pose good := fun p : seq meas => forall k m0 x, (k < size p)%N -> isSome (meval (me_model (nth m0 p k)) x).
have pdg : good pd.
  have bg : forall m x, List.In m (blank infos (rnd start) (last (rnd start) ts)) -> isSome (meval (me_model m) x).
    by move=> m x /blank_in [e [a [he _ ->]]]; exact: mo.
  move=> k m0 x kl; have : all (fun m : meas => isSome (meval (me_model m) x)) pd.
    by rewrite all_sort; apply: allIn => m /bg.
  by move/(all_nthP m0)/(_ k kl).
have fillo j x t xu tn p : good p ->
    exists x1 fl rs, fill xstamp restamp f meval ny j x (uin t xu) tn p = Ok (x1, fl, rs) /\ good rs.
  elim: p j x => //= [|m r IH] j x g; first by do 3!eexists; split.
  case: ifP => _; last by exists x, [::], (m :: r).
  case: (f _ _ _) (fo x t xu (me_stamp m - xstamp x)) => //= x' _.
  case: (meval _ _) (g 0%N m (restamp x' (me_stamp m)) isT) => //= y _.
  have [|x1 [fl [rs [-> gr]]]] := IH j.+1 (restamp x' (me_stamp m)).
    by move=> k; exact: g k.+1.
  by do 3!eexists.
have stepo k j t x l p : good p -> is_ok (steps xstamp restamp f uin meval nu ny k j t x l p).
  elim: l k j t x p => //= tn r IH k j t x p g.
  have [x1 [fl [rs [-> gr]]]] := fillo j x t x tn p g.
  rewrite /=; case: (f _ _ _) (fo x1 t x (tn - xstamp x1)) => //= x2 _.
  by case: (steps _ _ _ _ _ _ _ _ _ _ _ _ _) (IH k.+1 (j + size fl)%N tn (restamp x2 tn) rs gr) => //= [[[]]].
by case: (steps _ _ _ _ _ _ _ _ _ _ _ _ _) (stepo 0%N 0%N (rnd start) (restamp x0 (rnd start)) ts pd pdg) => //= [[[]]].
Qed.
End G.

(** the ground truth does not depend on what is measured, when, or on the noise *)
Theorem C53_schedule_independent (T : archiFieldType) (X U Y M Y' M' : Type) (xstamp : X -> T) restamp
  (ustamp ustamp' : U -> T) f uin (meval : M -> X -> option Y) (meval' : M' -> X -> option Y') rnd nu ny nu' ny'
  infos infos' freq x0 start stop xs us ms xs' us' ms' :
  (forall x t, xstamp (restamp x t) = t) -> rounding rnd -> flow_property xstamp restamp f ->
  proper_schedule infos -> proper_schedule infos' -> 0 < freq ->
  generate xstamp restamp ustamp f uin meval rnd nu ny infos freq x0 start stop = Ok (xs, us, ms) ->
  generate xstamp restamp ustamp' f uin meval' rnd nu' ny' infos' freq x0 start stop = Ok (xs', us', ms') ->
  xs' = xs.
Proof.
move=> sK rP fl pr pr' q0 /(C53_states sK rP fl pr q0) [a1 a2 a3] /(C53_states sK rP fl pr' q0) [b1 b2 b3].
have sz : size xs' = size xs by have := congr1 size b1; rewrite -a1 !size_map.
apply: (@eq_from_nth _ x0) => // k; rewrite sz; elim: k => [|k IH] kl; first by rewrite a2 b2.
have kE : nth x0 xs' k = nth x0 xs k by apply: IH; exact: ltn_trans kl.
have := a3 k x0 kl; have := b3 k x0; rewrite sz => /(_ kl) /=; rewrite kE.
have st : xstamp (nth x0 xs' k.+1) = xstamp (nth x0 xs k.+1).
  have := congr1 (fun s => nth (xstamp x0) s k.+1) b1; rewrite -a1 !(nth_map x0) ?sz //.
by rewrite st => -> [].
Qed.

(** *** Rounding to d decimals *)
Section Rounding.
Variable T : archiFieldType.
(** np.round(x, d): the nearest multiple of 10^-d *)
Definition decimal_rounding (d : nat) (rnd : T -> T) : Prop := forall x,
  (exists z : int, rnd x = z%:~R / 10%:R ^+ d) /\ `|rnd x - x| <= (2%:R * 10%:R ^+ d)^-1.
Variables (d : nat) (rnd : T -> T).
Hypothesis rP : decimal_rounding d rnd.
Let N : T := 10%:R ^+ d.
Let N0 : 0 < N. Proof. by rewrite exprn_gt0 // ltr0n. Qed.
Lemma close_multiples (x y : T) (a b : int) : x = a%:~R / N -> y = b%:~R / N -> x - y < N^-1 -> x <= y.
Proof.
move=> -> ->; rewrite -mulrBl -rmorphB /= -[X in _ < X]mul1r ltr_pmul2r ?invr_gt0 //.
rewrite ler_pmul2r ?invr_gt0 // ler_int -[1]/(1%:~R) ltr_int.
by rewrite -[1%R]add0r ltz_addr1 subr_le0.
Qed.
Lemma half : (2%:R * N)^-1 + (2%:R * N)^-1 = N^-1.
Proof. by rewrite invfM -mulrDl -mulr2n -mulr_natl divff ?mul1r // pnatr_eq0. Qed.
Lemma decimal_rounding_ok : rounding rnd.
Proof.
split=> [a b ab|a].
  have [[za ea] /ler_normlP [_ ha]] := rP a; have [[zb eb] /ler_normlP [hb _]] := rP b.
  case: (ltgtP a b) ab => // [ab|->] _ //.
  apply: close_multiples ea eb _; rewrite -half.
  apply: lt_le_trans (_ : rnd a - a + (b - rnd b) <= _).
    by rewrite -subr_gt0 (_ : _ - _ = b - a) ?subr_gt0 //; zmod.
  by apply: ler_add => //; move: hb; rewrite opprB.
have [[za ea] /ler_normlP [ha1 ha2]] := rP (rnd a); have [[zb eb] _] := rP a.
have h1 : (2%:R * N)^-1 < N^-1.
  by rewrite -half ltr_addl invr_gt0 mulr_gt0 ?ltr0n.
apply/eqP; rewrite eq_le (close_multiples ea eb) ?(close_multiples eb ea) //.
  by apply: le_lt_trans h1; rewrite -opprB.
by apply: le_lt_trans ha2 h1.
Qed.
(** 2/3 is rounded up *)
Lemma two_thirds : 2%:R / 3%:R < rnd (2%:R / 3%:R).
Proof.
have [[z ->] /ler_normlP [h1 h2]] := rP (2%:R / 3%:R); rewrite -/N in h1 h2 *.
have [K NK] : exists K : nat, 10%:R ^+ d = (3 * K + 1)%:R :> T.
  exists ((10 ^ d).-1 %/ 3)%N; rewrite -natrX; congr (_%:R).
  have m1 : (10 ^ d = 1 %[mod 3])%N by rewrite -modnXm exp1n.
  have p0 : (0 < 10 ^ d)%N by rewrite expn_gt0.
  have dv : (3 %| (10 ^ d).-1)%N by rewrite -subn1 -eqn_mod_dvd // m1.
  by rewrite mulnC divnK // addn1 prednK.
have t3 : (0 : T) < 3%:R by rewrite ltr0n.
have n3 : (3%:R : T) != 0 by rewrite gt_eqF.
have n0 : N != 0 by rewrite gt_eqF.
have h : 4%:R * N - 6%:R * z%:~R <= 3%:R.
  have n6 : 0 < 6%:R * N by rewrite mulr_gt0 ?ltr0n.
  rewrite -(ler_pmul2l n6) in h1.
  move: h1; rewrite (_ : 6%:R * N * (2%:R * N)^-1 = 3%:R); last first.
    by rewrite invfM mulrACA divff // mulr1 (_ : 6%:R = 3%:R * 2%:R) -?natrM // natrM mulfK // pnatr_eq0.
  rewrite (_ : 6%:R * N * _ = 4%:R * N - 6%:R * z%:~R) //.
  rewrite opprB mulrBr; congr (_ - _).
    rewrite mulrACA (_ : 6%:R * 2%:R = 4%:R * 3%:R); last by rewrite -!natrM.
    by rewrite mulrA mulrAC mulfK // mulrAC.
  by rewrite -mulrA [N * _]mulrC divfK.
have iz : 4%:R * (3 * K + 1)%N%:Z - 6%:R * z <= 3%:R :> int.
  by rewrite -(ler_int T) rmorphB /= !intrM; move: h; rewrite /N NK.
have zK : 2 * K%:Z + 1 <= z.
  rewrite leNgt; apply/negP; rewrite ltz_addr1 => zk.
  have : 6%:R * z <= 6%:R * (2 * K%:Z) by rewrite ler_pmul2l.
  move: iz; rewrite PoszD PoszM leNgt => /negP h6 h7; apply: h6.
  apply: lt_le_trans (_ : 4%:R * (3%:Z * K%:Z + 1%:Z) - 6%:R * (2 * K%:Z) <= _); last by rewrite ler_add2l ler_opp2.
  suff -> : forall k : int, 4%:R * (3%:R * k + 1) - 6%:R * (2%:R * k) = 4%:R by [].
  by move=> k; rewrite mulrDr mulr1 !mulrA -!natrM addrAC subrr add0r.
rewrite ltr_pdivr_mulr // mulrAC ltr_pdivl_mulr // /N NK.
rewrite -[2%:R]/(2%:~R) -[(3*K+1)%:R]/((3*K+1)%:Z%:~R) -[3%:R]/(3%:~R) -!rmorphM /= ltr_int.
apply: lt_le_trans (_ : (2 * K%:Z + 1) * 3 <= _); last by rewrite ler_pmul2r.
rewrite PoszD PoszM.
suff h6 : forall k : int, 2%:R * (3%:R * k + 1) < (2%:R * k + 1) * 3%:R by exact: h6.
move=> k; rewrite -subr_gt0 mulrDr mulrDl mulr1 mul1r mulrAC -!mulrA mulrA -natrM opprD addrACA.
by rewrite subrr.
Qed.
End Rounding.

(** such a rounding exists *)
Definition round_nat (T : archiFieldType) (x : T) : nat := arange_len 0 (x - 2%:R^-1) 1.
Definition round_dec (T : archiFieldType) (d : nat) (x : T) : T :=
  if 0 <= x then (round_nat (x * 10%:R ^+ d))%:R / 10%:R ^+ d else - ((round_nat (- x * 10%:R ^+ d))%:R / 10%:R ^+ d).
Example round_dec_ok (T : archiFieldType) d : decimal_rounding d (@round_dec T d).
Proof.
have N0 : (0 : T) < 10%:R ^+ d by rewrite exprn_gt0 // ltr0n.
have hh : 1 - 2%:R^-1 = 2%:R^-1 :> T.
  have n2 : (2%:R : T) != 0 by rewrite pnatr_eq0.
  by apply/eqP; rewrite subr_eq -{1}(mulfV n2) -[X in _ == X + _]mul1r -[X in _ == _ + X]mul1r -mulrDl.
have key (y : T) : 0 <= y -> `|(round_nat y)%:R - y| <= 2%:R^-1.
  move=> y0; rewrite /round_nat; set n := arange_len _ _ _.
  have P k : (k < n)%N = (k%:R < y - 2%:R^-1) by rewrite (arange_lenP 0 (y - 2%:R^-1) k ltr01) mulr1 add0r.
  have := P n; rewrite ltnn => /esym/negbT; rewrite -leNgt ler_subl_addr => h1.
  apply/ler_normlP; split; first by rewrite opprB ler_subl_addr addrC.
  case E: n P => [|k] P; first by apply: le_trans (_ : 0 <= _); rewrite ?sub0r ?oppr_le0 ?invr_ge0 ?ler0n.
  have := P k; rewrite ltnSn => /esym h2.
  rewrite ler_subl_addr -[k.+1]addn1 natrD -ler_subr_addr; apply: le_trans (ltW h2) _.
  by rewrite -{2}hh (_ : 1 - 2%:R^-1 + y - 1 = y - 2%:R^-1) //; zmod.
have key2 x : 0 <= x -> `|(round_nat (x * 10%:R ^+ d))%:R / 10%:R ^+ d - x| <= (2%:R * 10%:R ^+ d)^-1 :> T.
  move=> x0; have y0 : 0 <= x * 10%:R ^+ d by apply: mulr_ge0 => //; exact: ltW.
  have := key _ y0.
  rewrite invfM -ler_pdivr_mulr ?invr_gt0 // invrK.
  set a := _ / _ - x; have -> : `|a| * 10%:R ^+ d = `|a * 10%:R ^+ d| by rewrite normrM (gtr0_norm N0).
  by rewrite /a mulrBl divfK ?gt_eqF.
move=> x; rewrite /round_dec; case: ifP => [x0|/negbT]; last rewrite -ltNge => x0.
  by split; [exists (round_nat (x * 10%:R ^+ d))%:Z|exact: key2].
split; first by exists (- (round_nat (- x * 10%:R ^+ d))%:Z); rewrite rmorphN /= mulNr.
by rewrite -normrN opprB opprK addrC -{2}[x]opprK; apply: key2; rewrite oppr_ge0 ltW.
Qed.

Lemma In_nth A (a d : A) s : List.In a s -> exists2 i, (i < size s)%N & nth d s i = a.
Proof.
elim: s => //= b s IH [->|/IH [i h1 h2]]; first by exists 0%N.
by exists i.+1.
Qed.
Lemma In_flatten_map A B (g : A -> seq B) (l : seq A) a b : List.In a l -> List.In b (g a) -> List.In b (flatten (map g l)).
Proof.
elim: l => //= c l IH [->|h] hb; apply: List.in_or_app; first by left.
by right; exact: IH.
Qed.
Lemma In_map_seq A B (g : A -> B) (l : seq A) a : List.In a l -> List.In (g a) (map g l).
Proof. by elim: l => //= c l IH [->|/IH]; [left|right]. Qed.
Lemma In_nth_seq A (d : A) s i : (i < size s)%N -> List.In (nth d s i) s.
Proof. by elim: s i => //= a s IH [|i]; [left|rewrite ltnS => /IH; right]. Qed.
Lemma In_filter A (p : pred A) s a : List.In a (filter p s) <-> List.In a s /\ p a.
Proof.
elim: s => //= [|b s IH]; first by split=> // -[].
case: ifP => pb /=; rewrite IH; split.
- by move=> [<-|[h1 h2]]; split=> //; [left|right].
- by move=> [[->|h] pa]; [left|right].
- by move=> [h1 h2]; split=> //; right.
- by move=> [[e|h] pa] //; rewrite -e pb in pa.
Qed.

(** Scheduled measurements are not all generated: with 3 Hz inputs and 3 Hz measurements over
    [0, 1), np.round(., 12) rounds the last time up, so that the schedule includes a
    measurement AT the last time, which is returned with value None. *)
Theorem C54_rounding_refuted (T : archiFieldType) d X U Y M (xstamp : X -> T) restamp (ustamp : U -> T) f uin
  (meval : M -> X -> option Y) rnd nu ny m x0 xs us ms :
  (forall x t, xstamp (restamp x t) = t) -> decimal_rounding d rnd -> flow_property xstamp restamp f ->
  generate xstamp restamp ustamp f uin meval rnd nu ny [:: (m, 3%:R, 0)] 3%:R x0 0 1 = Ok (xs, us, ms) ->
  exists2 e, List.In e ms & [/\ me_stamp e = rnd (2%:R / 3%:R), me_model e = m & me_val e = None].
Proof.
move=> sK dP fl G; have rP := decimal_rounding_ok dP.
have t3 : (0 : T) < 3%:R by rewrite ltr0n.
have i3 : (0 : T) < 3%:R^-1 by rewrite invr_gt0.
have n3 : (3%:R : T) != 0 by rewrite gt_eqF.
have pr : proper_schedule [:: (m, 3%:R : T, 0)] by move=> e [<-|[]].
have [st _ _] := C53_states sK rP fl pr t3 G.
have [so sel] := C54_schedule sK rP 1 fl pr t3 G.
have len : arange_len (0 : T) 1 3%:R^-1 = 3%N.
  by apply: (arange_lenE (n := 2)) => //; rewrite ?add0r ?mulfV // ltr_pdivr_mulr // mul1r ltr_nat.
have la : last 1 (map xstamp xs) = rnd (2%:R / 3%:R).
  rewrite st (last_nth 1) size_map size_arange len /= (nth_map 0) ?size_arange ?len // nth_arange ?len //.
  by rewrite add0r.
have r0 : rnd 0 = 0.
  have [[z e] h] := dP 0; rewrite subr0 in h.
  have Ne : (0 : T) < 10%:R ^+ d by rewrite exprn_gt0 // ltr0n.
  have lt : (2%:R * 10%:R ^+ d)^-1 < (10%:R ^+ d)^-1 :> T.
    by rewrite -half ltr_addl invr_gt0 mulr_gt0 ?ltr0n.
  have z0 : 0 = 0%:~R / 10%:R ^+ d :> T by rewrite mul0r.
  have hl := le_lt_trans h lt.
  apply/eqP; rewrite eq_le (close_multiples e z0) ?(close_multiples z0 e) //; rewrite ?subr0 ?sub0r.
    by apply: le_lt_trans hl; rewrite -normrN ler_norm.
  by apply: le_lt_trans hl; rewrite ler_norm.
have : List.In (rnd (2%:R / 3%:R), m) [seq (me_stamp m0, me_model m0) | m0 <- ms].
  have : List.In (rnd (2%:R / 3%:R), m) [seq a <- [seq (me_stamp m0, me_model m0) | m0 <- ms] | a.1 == rnd (2%:R / 3%:R)].
    rewrite sel; apply/In_filter; rewrite eqxx; split=> //=.
    rewrite cats0 la r0 addr0; apply: (In_map_seq (fun a => (rnd a, m))).
    have l3 : (2 < arange_len 0 (rnd (2%:R / 3%:R)) 3%:R^-1)%N by rewrite arange_lenP // add0r; exact: two_thirds dP.
    by have := @In_nth_seq _ 0 (arange 0 (rnd (2%:R / 3%:R)) 3%:R^-1) 2; rewrite size_arange nth_arange // add0r; apply.
  by case/In_filter.
case/List.in_map_iff => e [[e1 e2] he]; exists e => //; split=> //.
have [i il ie] := In_nth e he.
have := C54_unfilled (d := 1) (m0 := e) sK rP fl pr t3 G il; rewrite ie la e1; exact.
Qed.

(** *** Edge cases of generate *)
Section Edges.
Variable T : archiFieldType.
Variables (X U Y M : Type).
Variables (xstamp : X -> T) (restamp : X -> T -> X) (ustamp : U -> T).
Variable f : X -> U -> T -> result X.
Variable uin : T -> X -> U.
Variable meval : M -> X -> option Y.
Variable rnd : T -> T.
Variable nu : nat -> U -> U.
Variable ny : nat -> Y -> Y.
Notation generate := (generate xstamp restamp ustamp f uin meval rnd nu ny).
(** an empty interval is an IndexError, a zero frequency a ZeroDivisionError *)
Theorem C53_empty_interval infos freq x0 start stop : 0 < freq -> stop <= start ->
  generate infos freq x0 start stop = Raise IndexError.
Proof.
move=> q0 ss; rewrite /DatagenModel.generate /period gt_eqF //= /arange.
have := arange_lenP start stop 0 (_ : 0 < freq^-1); rewrite invr_gt0 => /(_ q0).
by rewrite mul0r addr0 ltNge ss; case: (arange_len _ _ _).
Qed.
Theorem C53_zero_frequency infos x0 start stop : generate infos 0 x0 start stop = Raise ZeroDivisionError.
Proof. by rewrite /DatagenModel.generate /period eqxx. Qed.
(** a model that declines to measure (evaluate returns None) makes the generator raise,
    where the filter would skip the measurement *)
Theorem C54_no_measurement_raises x u tn j (mm : meas T Y M) r x' : me_stamp mm < tn ->
  f x u (me_stamp mm - xstamp x) = Ok x' -> meval (me_model mm) (restamp x' (me_stamp mm)) = None ->
  fill xstamp restamp f meval ny j x u tn (mm :: r) = Raise AttributeError.
Proof. by move=> h e1 e2 /=; rewrite h e1 /= e2. Qed.
End Edges.

(** *** The configuration of the generator *)
Section Config.
Variables (T M : Type) (zero : T).
Notation datagen_init := (datagen_init zero).
Definition entry (d : M * T * T) (l : seq M) (fr of_ : seq T) k := (nth d.1.1 l k, nth d.1.2 fr k, nth d.2 of_ k).

(** every model gets its own frequency and offset; a single one is used for all; no offsets: 0 *)
Theorem C54_config (l : seq M) (freqs offs : farg T) (fr of_ : seq T) d : (0 < size l)%N ->
  size fr = size l -> size of_ = size l ->
  freqs = FList fr \/ (exists2 q, freqs = FScalar q & fr = nseq (size l) q) \/
    (exists2 q, freqs = FList [:: q] & fr = nseq (size l) q) ->
  offs = FList of_ \/ (exists2 o, offs = FList [:: o] & of_ = nseq (size l) o) \/
    (of_ = nseq (size l) zero /\ (offs = FNone T \/ offs = FList [::])) ->
  exists sched after, [/\ datagen_init l freqs offs = Ok (sched, after), size sched = size l &
    forall k, (k < size l)%N -> nth d sched k = entry d l fr of_ k].
Proof.
move=> l0 sf so hf ho.
have ln : nilp l = false by case: (l) l0.
suff [after E] : exists after, datagen_init l freqs offs = Ok (zip3 l fr of_, after).
  exists (zip3 l fr of_), after; split=> //; first by rewrite !size_zip sf so !minnn.
  by move=> k kl; rewrite /entry (surjective_pairing d) (surjective_pairing d.1) nth_zip ?nth_zip ?size_zip ?sf ?minnn.
have fE : match freqs with FNone => [::] | FScalar q => nseq (size l) q | FList s => if s is [:: q] then nseq (size l) q else s end = fr.
  case: hf => [->|[[q -> ->]|[q -> ->]]] //.
  by case: fr sf => [|q [|]] //= <-.
have fN : (if freqs is FNone then true else false) = false by case: hf => [->|[[q -> _]|[q -> _]]].
rewrite /DatagenModel.datagen_init ln fN /=; case: ho => [->|[[o -> ->]|[-> [->|->]]]] /=; rewrite ?fE.
- have -> : nilp of_ = false by case: (of_) so l0 => //= <-.
  case: of_ so => [|o [|o' of_]] /= so; first by rewrite -so in l0.
  + by eexists; rewrite -so.
  + by rewrite -so eqxx; eexists.
- by eexists.
- by eexists.
- by eexists.
Qed.

(** the documented single float offset is a TypeError *)
Theorem C54_scalar_offset_refuted (l : seq M) freqs o : (0 < size l)%N -> freqs <> FNone T ->
  datagen_init l freqs (FScalar o) = Raise TypeError.
Proof. by case: l => // m l _; case: freqs. Qed.

(** a frequency list shorter than the model list silently drops the remaining models *)
Theorem C54_short_frequencies_refuted (l : seq M) fr of_ : (1 < size fr < size l)%N -> size of_ = size l ->
  exists after, datagen_init l (FList fr) (FList of_) = Ok (zip3 (take (size fr) l) fr (take (size fr) of_), after) /\
    size (zip3 (take (size fr) l) fr (take (size fr) of_)) = size fr.
Proof.
move=> /andP[f1 fl] so.
have l2 : (2 < size l)%N by apply: leq_ltn_trans fl.
have zE : zip3 l fr of_ = zip3 (take (size fr) l) fr (take (size fr) of_).
  rewrite /zip3; elim: fr l of_ {l2 f1} fl so => [|q fr IH] [|m l] [|o of_] //= fl [so].
  by rewrite IH.
exists (Some of_); rewrite /DatagenModel.datagen_init.
have -> : nilp l = false by case: (l) l2.
have -> : nilp of_ = false by rewrite /nilp so; case: (size l) l2.
have sE : size (zip3 (take (size fr) l) fr (take (size fr) of_)) = size fr.
  by rewrite !size_zip !size_take so fl !minnn.
rewrite sE -zE; split=> //.
case: of_ so zE sE => [|o [|o' of_]] so zE sE; try by rewrite -so in l2.
rewrite /= -so eqxx /=; case: fr f1 fl {zE sE} => [|q [|q' fr]] //.
Qed.

(** the caller's one-element offset list is overwritten with as many elements as models *)
Theorem C54_offsets_mutated_refuted (l : seq M) q o : (0 < size l)%N ->
  exists sched, datagen_init l (FScalar q) (FList [:: o]) = Ok (sched, Some (nseq (size l) o)).
Proof. by case: l => // m l _; eexists. Qed.
End Config.

Print Assumptions C53_states.
Print Assumptions C53_schedule_independent.
Print Assumptions C54_schedule.
Print Assumptions C54_values.
Print Assumptions C54_rounding_refuted.
Print Assumptions C54_config.
