(** C53 and C54 for process models that are not flows (such as the IMU model with a bias random
    walk, whose two half steps differ from one step): when every measurement falls on an input
    time, the truth is the plain recursion of the process model over the input times and every
    measurement is taken at the true state of its stamp. *)
From mathcomp Require Import all_ssreflect all_algebra.
From Verif Require Import Base Tac RunFilterModel RunFilterSpec RunFilterProof DatagenModel DatagenProof DatagenProps.
Set Implicit Arguments.
Unset Strict Implicit.
Unset Printing Implicit Defensive.
Import Order.Theory GRing.Theory Num.Theory.
Local Open Scope ring_scope.

(** every measurement frequency divides the input frequency, and the offsets are whole numbers of
    input periods *)
Definition on_input_times (T : archiFieldType) M (freq : T) (infos : seq (M * T * T)) : Prop :=
  forall e, List.In e infos -> (exists n : nat, e.1.2^-1 = n%:R * freq^-1) /\ (exists n : nat, e.2 = n%:R * freq^-1).

Section G.
Variable T : archiFieldType.
Variables (X U Y M : Type).
Variables (xstamp : X -> T) (restamp : X -> T -> X) (ustamp : U -> T).
Variable f : X -> U -> T -> result X.
Variable uin : T -> X -> U.
Variable meval : M -> X -> option Y.
Variable rnd : T -> T.
Variable nu : nat -> U -> U.
Variable ny : nat -> Y -> Y.
Hypothesis stampK : forall x t, xstamp (restamp x t) = t.
Hypothesis rndP : rounding rnd.
Notation meas := (meas T Y M).
Notation generate := (generate xstamp restamp ustamp f uin meval rnd nu ny).
Notation evolve := (evolve xstamp restamp f).
Notation fill := (fill xstamp restamp f meval ny).
Notation steps := (steps xstamp restamp f uin meval nu ny).
Notation sorted_meas s := (sorted (fun a b : meas => me_stamp a <= me_stamp b) s).
(** no time, no change *)
Hypothesis still : forall t x, evolve x (uin t x) 0 = Ok x.

Lemma fill_aligned t j x tn pending x1 filled rest : let u := uin t x in
  fill j x u tn pending = Ok (x1, filled, rest) -> sorted_meas pending ->
  (forall m, List.In m pending -> me_stamp m < tn -> me_stamp m = xstamp x) ->
  [/\ map (@strip T Y M) pending = map (@strip T Y M) (filled ++ rest), rest = drop (size filled) pending,
      all (fun m : meas => me_stamp m < tn) filled && all (fun m : meas => tn <= me_stamp m) rest,
      x1 = x & forall i m0, (i < size filled)%N -> measured xstamp restamp f meval ny x u (j + i) (nth m0 filled i)].
Proof.
move=> u; elim: pending j x1 filled rest => [|m r IH] j x1 filled rest /=; first by case=> <- <- <- _ _; split.
case: ifP => [mt|mt]; last first.
  case=> <- <- <- so _; split=> //=; rewrite leNgt mt /=.
  have := order_path_min (leT := fun a b : meas => me_stamp a <= me_stamp b) (fun b a c => @le_trans _ T _ _ _) so.
  by apply: sub_all => b /=; apply: le_trans; rewrite leNgt mt.
case fE : (f x u (me_stamp m - xstamp x)) => [x'|] //= E so al.
have mx : me_stamp m = xstamp x by apply: al => //; left.
have xE : restamp x' (me_stamp m) = x.
  have := still t x; rewrite /DatagenProof.evolve -/u; move: fE; rewrite mx subrr => -> /=.
  by rewrite addr0 => -[].
move: E; rewrite xE; case hE: (meval (me_model m) x) => [y|] //.
case E: (fill j.+1 x u tn r) => [[[x2 fl] rs]|] //= [<- <- <-] {x1 filled rest}.
have [||e1 e2 e3 e4 e5] := IH _ _ _ _ E; first exact: path_sorted so.
  by move=> m' h'; apply: al; right.
split=> //=; first by rewrite e1.
- by rewrite mt.
- case=> [|i] m0 ih; last by rewrite addnS -addSn; exact: e5.
  exists x, y; rewrite addn0; split=> //=.
  by rewrite mx subrr -/u; exact: still.
Qed.

Lemma steps_aligned k j t x ts pending xs us ms :
  steps k j t x ts pending = Ok (xs, us, ms) -> xstamp x = t -> path <=%O t ts ->
  sorted_meas pending -> all (fun m : meas => t <= me_stamp m) pending ->
  (forall m, List.In m pending -> me_stamp m \in t :: ts) ->
  trace xstamp restamp f uin meval nu ny k j t x ts pending xs us ms.
Proof.
elim: ts k j t x pending xs us ms => [|tn r IH] k j t x pending xs us ms /=; first by case=> <- <- <-.
case E: (fill j x (uin t x) tn pending) => [[[x1 fl] rs]|] //=.
case F: (f x1 (uin t x) (tn - xstamp x1)) => [x2|] //=.
case S: (steps _ _ _ _ _ _) => [[[xs' us'] ms']|] //= [<- <- <-] xt /andP[tt pr] so al inp.
have ge_tn a : a \in tn :: r -> tn <= a.
  rewrite inE => /orP[/eqP -> //|h]; have := order_path_min (@le_trans _ T) pr.
  by move/allP/(_ a h).
have al' m : List.In m pending -> me_stamp m < tn -> me_stamp m = xstamp x.
  move=> h lt; have := inp m h; rewrite inE => /orP[/eqP ->|/ge_tn]; first by rewrite xt.
  by rewrite leNgt lt.
have [e1 e2 e3 e4 e5] := fill_aligned E so al'.
have ev : evolve x (uin t x) (tn - t) = Ok (restamp x2 tn).
  by move: F; rewrite e4 xt /DatagenProof.evolve => -> /=; rewrite xt addrC subrK.
have sr : sorted_meas rs by rewrite e2; apply: drop_sorted.
have a3 : all (fun m : meas => tn <= me_stamp m) rs by case/andP: e3.
exists fl, rs, (restamp x2 tn), xs', us', ms'; split; [by split|by split|exact: e3|by split|].
apply: IH S _ pr sr (a3) _; rewrite ?stampK // => m hm.
have hp : List.In m pending.
  have : List.In m (take (size fl) pending ++ rs) by apply: List.in_or_app; right.
  by rewrite e2 cat_take_drop.
have := inp m hp; rewrite inE => /orP[/eqP mt|//].
have := allP_In a3 hm; rewrite mt => le; have -> : t = tn by apply/eqP; rewrite eq_le tt le.
by rewrite mem_head.
Qed.

Lemma aligned_stamps infos freq start stop t0 ts : on_input_times freq infos -> proper_schedule infos -> 0 < freq ->
  rnd start = start -> map rnd (arange start stop freq^-1) = t0 :: ts ->
  forall m : meas, List.In m (blank Y rnd infos t0 (last t0 ts)) -> me_stamp m \in t0 :: ts.
Proof.
move=> al pr q0 rs E m /blank_in [e [a [he ha ->]]] /=.
have s0 : 0 < freq^-1 by rewrite invr_gt0.
have [eq0 eo0] := pr e he.
have sz : size (arange start stop freq^-1) = (size ts).+1 by have := congr1 size E; rewrite size_map.
have lenE : arange_len start stop freq^-1 = (size ts).+1 by rewrite -sz size_arange.
have nthE k : (k <= size ts)%N -> rnd (start + k%:R * freq^-1) \in t0 :: ts.
  move=> kl; rewrite -E; apply/map_f.
  have kl' : (k < arange_len start stop freq^-1)%N by rewrite lenE ltnS.
  by rewrite -(nth_arange 0 kl') mem_nth // size_arange.
have t0E : t0 = start.
  have := nth_arange 0 (_ : 0 < arange_len start stop freq^-1)%N; rewrite lenE => /(_ isT).
  by rewrite mul0r addr0 => h; have := congr1 (nth 0 ^~ 0%N) E; rewrite (nth_map 0) ?sz // h rs.
have [[n nE] [o oE]] := al e he.
move/List.in_map_iff: ha => [i [<- hi]].
have aE : t0 + e.2 + i%:R * e.1.2^-1 = start + (o + i * n)%:R * freq^-1.
  by rewrite t0E nE oE -addrA; congr (_ + _); rewrite mulrA -natrM -mulrDl -natrD.
rewrite aE; case: (leqP (o + i * n)%N (size ts)) => [/nthE //|big].
have ilt : (i < arange_len (t0 + e.2) (last t0 ts) e.1.2^-1)%N.
  by apply: (allP_In (p := fun i : nat => (i < arange_len (t0 + e.2) (last t0 ts) e.1.2^-1)%N) _ hi); apply/allP => z; rewrite mem_iota.
have := ilt; rewrite arange_lenP ?invr_gt0 // aE => lt.
have lastE : last t0 ts = rnd (start + (size ts)%:R * freq^-1).
  rewrite (last_nth 0) -E (nth_map 0) ?sz // nth_arange // lenE //.
have -> : rnd (start + (o + i * n)%:R * freq^-1) = last t0 ts.
  apply/eqP; rewrite eq_le; apply/andP; split.
    by rewrite lastE -[X in _ <= X]rndP.2; apply: rndP.1; rewrite -lastE; exact: ltW.
  rewrite lastE; apply: rndP.1; rewrite ler_add2l ler_pmul2r // ler_nat; exact: ltnW.
by rewrite mem_last.
Qed.

Lemma aligned_trace infos freq x0 start stop xs us ms : on_input_times freq infos -> proper_schedule infos -> 0 < freq ->
  rnd start = start -> generate infos freq x0 start stop = Ok (xs, us, ms) ->
  exists t0 ts us' xs', [/\ map rnd (arange start stop freq^-1) = t0 :: ts,
    trace xstamp restamp f uin meval nu ny 0 0 t0 (restamp x0 t0) ts (sort_by (@me_stamp T Y M) (blank Y rnd infos t0 (last t0 ts))) xs' us' ms,
    xs = restamp x0 t0 :: xs', us = sort_by ustamp us' &
    [/\ path <=%O t0 ts, t0 = rnd start & all (fun m : meas => t0 <= me_stamp m) (sort_by (@me_stamp T Y M) (blank Y rnd infos t0 (last t0 ts)))]].
Proof.
move=> al0 pr q0 rs; rewrite /DatagenModel.generate /period gt_eqF //=.
have s0 : 0 < freq^-1 by rewrite invr_gt0.
have so := times_sorted rndP start stop s0.
case E: (map rnd _) so => [|t0 ts] // so.
have ss : start < stop.
  rewrite ltNge; apply/negP => h; move: E; rewrite /arange.
  have := arange_lenP start stop 0 s0; rewrite mul0r addr0 ltNge h.
  by case: (arange_len _ _ _).
have t0E : t0 = rnd start by move: E; rewrite nil_arange //= => -[<-].
have rt : rnd t0 = t0 by rewrite t0E rndP.2.
rewrite planE //=; set pending := sort_by _ _.
have al : all (fun m : meas => t0 <= me_stamp m) pending by rewrite all_sort blank_ge.
have inp m : List.In m pending -> me_stamp m \in t0 :: ts.
  have : all (fun m : meas => me_stamp m \in t0 :: ts) pending.
    by rewrite all_sort; apply: allIn => a; exact: (aligned_stamps al0 pr q0 rs E).
  by move=> h h'; exact: (allP_In h h').
case S: (steps _ _ _ _ _ _) => [[[xs' us'] ms']|] //= [<- <- <-].
have tr := steps_aligned S (stampK _ _) so (sort_by_sorted _ _) al inp.
have [h1 _ _] := trace_states stampK (stampK _ _) tr.
have h2 := trace_strip tr.
exists t0, ts, us', xs'; split=> //.
- have e : map (@me_stamp T Y M) ms' = map (@me_stamp T Y M) pending.
    by have := congr1 (map fst) h2; rewrite -!map_comp.
  rewrite (_ : sort_by _ ms' = ms') //; apply: sort_by_id; rewrite e sorted_map; exact: sort_by_sorted.
- by rewrite sort_by_id //= h1 stampK.
Qed.

(** C53 without the flow property *)
Theorem C53_aligned_states infos freq x0 start stop xs us ms : on_input_times freq infos -> proper_schedule infos -> 0 < freq ->
  rnd start = start -> generate infos freq x0 start stop = Ok (xs, us, ms) ->
  [/\ map xstamp xs = map rnd (arange start stop freq^-1), (forall d, nth d xs 0 = restamp x0 start) &
   forall k d, (k.+1 < size xs)%N -> let x := nth d xs k in let x' := nth d xs k.+1 in
     evolve x (uin (xstamp x) x) (xstamp x' - xstamp x) = Ok x'].
Proof.
move=> al pr q0 rs /(aligned_trace al pr q0 rs) [t0 [ts [us' [xs' [e1 tr -> _ [_ t0E _]]]]]].
have [h1 h2 h3] := trace_states stampK (stampK _ _) tr.
split=> [|d|k d] /=; rewrite ?h1 ?stampK ?e1 -?t0E // ?t0E ?rs // ltnS => ks.
have ks' : (k < size ts)%N by rewrite -h1 size_map.
by have [_] := h3 k d (uin t0 d) ks'; rewrite t0E rs.
Qed.
Theorem C53_aligned_inputs infos freq x0 start stop xs us ms : on_input_times freq infos -> proper_schedule infos -> 0 < freq ->
  (forall k t x, ustamp (nu k (uin t x)) = t) ->
  rnd start = start -> generate infos freq x0 start stop = Ok (xs, us, ms) ->
  size xs = (size us).+1 /\
  (forall k d ud, (k < size us)%N -> nth ud us k = nu k (uin (xstamp (nth d xs k)) (nth d xs k))).
Proof.
move=> al pr q0 st rs /(aligned_trace al pr q0 rs) [t0 [ts [us' [xs' [e1 tr -> -> [pa t0E _]]]]]].
have [h1 h2 h3] := trace_states stampK (stampK _ _) tr.
have su : size us' = size xs' by rewrite h2 -h1 size_map.
have h3' i d ud : (i < size ts)%N -> nth ud us' i = nu i (uin (xstamp (nth d (restamp x0 t0 :: xs') i)) (nth d (restamp x0 t0 :: xs') i)).
  by move=> il; have [] := h3 i d ud il.
have ue : map ustamp us' = take (size us') (t0 :: ts).
  apply: (@eq_from_nth _ t0) => [|i]; rewrite size_map; first by rewrite size_take /= h2 leqnn.
  move=> il; have il' : (i < size ts)%N by rewrite -h2.
  have [u0 _] : exists u0 : U, True by exists (uin t0 x0).
  rewrite (nth_map u0) // (h3' i x0) // st nth_take // .
  case: i il il' => [|i] il il' /=; rewrite ?stampK //.
  by rewrite -h1 (nth_map x0) // -su ltnW.
have -> : sort_by ustamp us' = us'.
  by apply: sort_by_id; rewrite ue; apply: take_sorted.
split=> /=; first by rewrite su.
by move=> k d ud kl; apply: h3'; rewrite -h2.
Qed.
(** C54 without the flow property: the value is that of the model at the true state with the
    measurement's stamp *)
Theorem C54_aligned_values infos freq x0 start stop xs us ms d i m0 : on_input_times freq infos -> proper_schedule infos -> 0 < freq ->
  rnd start = start -> generate infos freq x0 start stop = Ok (xs, us, ms) -> (i < size ms)%N ->
  let m := nth m0 ms i in me_stamp m < last d (map xstamp xs) ->
  exists q y, [/\ (q < size xs)%N, xstamp (nth x0 xs q) = me_stamp m, meval (me_model m) (nth x0 xs q) = Some y & me_val m = Some (ny i y)].
Proof.
move=> al pr q0 rs /(aligned_trace al pr q0 rs) [t0 [ts [us' [xs' [e1 tr -> _ [pa t0E al2]]]]]] im /=.
have [h1 _ _] := trace_states stampK (stampK _ _) tr.
rewrite stampK h1 => lt; have [h2 _] := trace_meas stampK (stampK _ _) pa tr al2.
have [q [q1 /andP[q2 q3] [xm [y [e2 e3 e4]]]]] := h2 i m0 im lt.
have sz : size xs' = size ts by rewrite -h1 size_map.
set xs1 := restamp x0 t0 :: xs'.
have nE j : (j < (size ts).+1)%N -> nth t0 (t0 :: ts) j = xstamp (nth (restamp x0 t0) xs1 j).
  by case: j => [|j] /=; rewrite ?stampK // ltnS => jl; rewrite -h1 (nth_map (restamp x0 t0)) // sz.
have q1' : (q < (size ts).+1)%N by apply: leq_trans q1 _.
have stE : me_stamp (nth m0 ms i) = xstamp (nth (restamp x0 t0) xs1 q).
  have mem : me_stamp (nth m0 ms i) \in t0 :: ts.
    set pending := sort_by _ _ in tr al2.
    have sp : size ms = size pending by have := congr1 size (trace_strip tr); rewrite !size_map.
    have : all (fun m : meas => me_stamp m \in t0 :: ts) pending.
      by rewrite all_sort; apply: allIn => a; exact: (aligned_stamps al pr q0 rs e1).
    move/(all_nthP m0)/(_ i); rewrite -sp => /(_ im).
    have := congr1 (fun s => nth (strip m0) s i) (trace_strip tr).
    by rewrite !(nth_map m0) -?sp // => -[-> _].
  rewrite -nE //; have so : sorted <=%O (t0 :: ts) by [].
  move: mem => /(nthP t0) [p pl pE]; rewrite -pE in q2 q3 *.
  apply/eqP; rewrite eq_le q2 andbT.
  case: (leqP p q) => h; first exact: (sorted_leq_nth (@le_trans _ T) (@lexx _ T)).
  have : nth t0 (t0 :: ts) q.+1 <= nth t0 (t0 :: ts) p.
    by apply: (sorted_leq_nth (@le_trans _ T) (@lexx _ T)) => //; rewrite inE /= ltnS.
  by rewrite leNgt q3.
have xmE : xm = nth (restamp x0 t0) xs1 q.
  by move: e2; rewrite stE subrr still => -[].
have qs : (q < size xs1)%N by rewrite /= sz.
exists q, y; rewrite (set_nth_default (restamp x0 t0)) //; split=> //; by rewrite -?xmE // -stE.
Qed.
End G.
Print Assumptions C53_aligned_states.
Print Assumptions C54_aligned_values.
