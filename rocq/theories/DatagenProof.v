(** Proofs about DatagenModel. *)
From mathcomp Require Import all_ssreflect all_algebra.
From Verif Require Import Base RunFilterModel RunFilterSpec RunFilterProof DatagenModel.
Set Implicit Arguments.
Unset Strict Implicit.
Unset Printing Implicit Defensive.
Import Order.Theory GRing.Theory Num.Theory.
Local Open Scope ring_scope.

Section ArangeP.
Variable T : archiFieldType.
Lemma arange_lenP (a b s : T) n : 0 < s -> (n < arange_len a b s)%N = (a + n%:R * s < b).
Proof.
move=> s0; set q := (b - a) / s.
have -> : (a + n%:R * s < b) = (n%:R < q) by rewrite addrC -ltr_subr_addr -ltr_pdivl_mulr.
rewrite /arange_len -/q; set p := fun n : nat => _; set l := iota _ _.
have hp : has p l.
  apply/hasP; exists (Num.bound q); first by rewrite mem_iota /= add0n ltnS.
  rewrite /p; case: (leP 0 q) => h; first exact/ltW/archi_boundP.
  by apply: ltW; apply: lt_le_trans h _; rewrite ler0n.
have fl : (find p l < (Num.bound q).+1)%N by move: hp; rewrite has_find size_iota.
apply/idP/idP => h.
  have := before_find 0%N h; rewrite /l nth_iota ?(ltn_trans h) // add0n /p => /negbT.
  by rewrite -ltNge.
rewrite ltnNge; apply/negP => h'; have := nth_find 0%N hp; rewrite nth_iota // add0n /p => h2.
by move: h; rewrite ltNge => /negP; apply; apply: le_trans h2 _; rewrite ler_nat.
Qed.
Lemma size_arange (a b s : T) : size (arange a b s) = arange_len a b s.
Proof. by rewrite size_map size_iota. Qed.
Lemma nth_arange (a b s x0 : T) k : (k < arange_len a b s)%N -> nth x0 (arange a b s) k = a + k%:R * s.
Proof. by move=> h; rewrite (nth_map 0%N) ?size_iota // nth_iota. Qed.
Lemma arange_lenE (a b s : T) n : 0 < s -> a + n%:R * s < b -> b <= a + n.+1%:R * s -> arange_len a b s = n.+1.
Proof.
move=> s0 h1 h2; apply/eqP; rewrite eqn_leq (arange_lenP a b n s0) h1 andbT.
by rewrite leqNgt (arange_lenP a b n.+1 s0) -leNgt.
Qed.
Lemma arange_ge (a b s : T) : 0 < s -> all (fun t => a <= t) (arange a b s).
Proof.
move=> s0; apply/allP => t /mapP [i _ ->]; by rewrite ler_addl mulr_ge0 ?ler0n // ltW.
Qed.
Lemma arange_sorted (a b s : T) : 0 < s -> sorted <=%O (arange a b s).
Proof.
move=> s0; apply: (homo_sorted (e := ltn)); last exact: iota_ltn_sorted.
by move=> i j ij; rewrite ler_add2l ler_pmul2r // ler_nat ltnW.
Qed.
End ArangeP.

Section Generate.
Variable T : archiFieldType.
Variables (X U Y M : Type).
Variables (xstamp : X -> T) (restamp : X -> T -> X) (ustamp : U -> T).
Variable f : X -> U -> T -> result X.
Variable uin : T -> X -> U.
Variable meval : M -> X -> option Y.
Variable rnd : T -> T.
Variable nu : nat -> U -> U.
Variable ny : nat -> Y -> Y.
Notation meas := (meas T Y M).
Hypothesis stampK : forall x t, xstamp (restamp x t) = t.

(** one step of the process model over dt, with the stamp advanced *)
Definition evolve (x : X) (u : U) (dt : T) : result X := rmap (fun x' => restamp x' (xstamp x + dt)) (f x u dt).
Definition flow_property : Prop := forall x u a b x1, 0 <= a -> 0 <= b ->
  evolve x u a = Ok x1 -> evolve x1 u b = evolve x u (a + b).
Hypothesis flow : flow_property.

Lemma evolve_stamp x u a x' : evolve x u a = Ok x' -> xstamp x' = xstamp x + a.
Proof. by rewrite /evolve; case: (f _ _ _) => //= x1 [<-]; rewrite stampK. Qed.

Definition strip (m : meas) : T * M := (me_stamp m, me_model m).
(** m is the (j-th) measurement of a trajectory that has been at x, with input u since *)
Definition measured (x : X) (u : U) (j : nat) (m : meas) : Prop :=
  exists xm y, [/\ evolve x u (me_stamp m - xstamp x) = Ok xm, meval (me_model m) xm = Some y &
    me_val m = Some (ny j y)].

Notation fill := (fill xstamp restamp f meval ny).
Notation steps := (steps xstamp restamp f uin meval nu ny).
Notation sorted_meas s := (sorted (fun a b : meas => me_stamp a <= me_stamp b) s).

Lemma fill_spec j x u tn pending x1 filled rest :
  fill j x u tn pending = Ok (x1, filled, rest) ->
  sorted_meas pending -> all (fun m : meas => xstamp x <= me_stamp m) pending -> xstamp x <= tn ->
  [/\ map strip pending = map strip (filled ++ rest), rest = drop (size filled) pending,
      all (fun m : meas => me_stamp m < tn) filled && all (fun m : meas => tn <= me_stamp m) rest,
      xstamp x1 <= tn /\ evolve x1 u (tn - xstamp x1) = evolve x u (tn - xstamp x) &
      forall i m0, (i < size filled)%N -> measured x u (j + i) (nth m0 filled i)].
Proof.
elim: pending j x x1 filled rest => [|m r IH] j x x1 filled rest /=.
  by case=> <- <- <- _ _ xt; split.
case: ifP => [mt|mt]; last first.
  case=> <- <- <- so _ xt; split=> //=; rewrite leNgt mt /=.
  have := order_path_min (leT := fun a b : meas => me_stamp a <= me_stamp b) (fun b a c => @le_trans _ T _ _ _) so.
  by apply: sub_all => b /=; apply: le_trans; rewrite leNgt mt.
case fE : (f x u (me_stamp m - xstamp x)) => [x'|] //=.
set xm := restamp x' (me_stamp m); case hE: (meval (me_model m) xm) => [y|] //.
case E: (fill j.+1 xm u tn r) => [[[x2 fl] rs]|] //= [<- <- <-] so /andP[xm0 _] xt {x1 filled rest}.
have ev : evolve x u (me_stamp m - xstamp x) = Ok xm by rewrite /evolve fE /= addrC subrK.
have xms : xstamp xm = me_stamp m by rewrite stampK.
have [|||e1 e2 e3 [e4 e5] e6] := IH _ _ _ _ _ E.
- exact: path_sorted so.
- by have := order_path_min (leT := fun a b : meas => me_stamp a <= me_stamp b) (fun b a c => @le_trans _ T _ _ _) so; rewrite xms.
- by rewrite xms ltW.
have comp t : me_stamp m <= t -> evolve xm u (t - xstamp xm) = evolve x u (t - xstamp x).
  move=> mt'; rewrite xms (flow _ _ ev) ?subr_ge0 //; congr evolve.
  by rewrite [LHS]addrC addrA subrK.
split=> //=; first by rewrite e1.
- by rewrite mt.
- by split=> //; rewrite e5 comp // ltW.
- move=> [|i] m0 ih; first by exists xm, y; rewrite addn0.
  rewrite /= ltnS in ih.
  have [xm' [y' [h1 h2 h3]]] := e6 i m0 ih; exists xm', y'; rewrite addnS; split=> //.
  rewrite -h1 comp //.
  have : all (fun b : meas => me_stamp m <= me_stamp b) r := order_path_min (leT := fun a b : meas => me_stamp a <= me_stamp b) (fun b a c => @le_trans _ T _ _ _) so.
  have szr : (size fl <= size r)%N by have := congr1 size e1; rewrite !size_map size_cat => ->; rewrite leq_addr.
  move/(all_nthP m0)/(_ i (leq_trans ih szr)).
  have := congr1 (fun s => nth (strip m0) s i) e1; rewrite !(nth_map m0) ?size_cat ?(leq_trans ih) ?leq_addr // nth_cat ih.
  by case=> -> _.
Qed.

(** the whole loop, step by step *)
Fixpoint trace (k j : nat) (t : T) (x : X) (ts : seq T) (pending : seq meas) (xs : seq X) (us : seq U) (ms : seq meas) : Prop :=
  match ts with
  | [::] => [/\ xs = [::], us = [::] & ms = pending]
  | tn :: r => exists filled rest x3 xs' us' ms',
      [/\ [/\ xs = x3 :: xs', us = nu k (uin t x) :: us' & ms = filled ++ ms'],
          map strip pending = map strip (filled ++ rest) /\ rest = drop (size filled) pending,
          all (fun m : meas => me_stamp m < tn) filled && all (fun m : meas => tn <= me_stamp m) rest,
          evolve x (uin t x) (tn - t) = Ok x3 /\ (forall i m0, (i < size filled)%N -> measured x (uin t x) (j + i) (nth m0 filled i)) &
          trace k.+1 (j + size filled) tn x3 r rest xs' us' ms']
  end.

Lemma steps_trace k j t x ts pending xs us ms :
  steps k j t x ts pending = Ok (xs, us, ms) -> xstamp x = t -> path <=%O t ts ->
  sorted_meas pending -> all (fun m : meas => t <= me_stamp m) pending ->
  trace k j t x ts pending xs us ms.
Proof.
elim: ts k j t x pending xs us ms => [|tn r IH] k j t x pending xs us ms /=; first by case=> <- <- <-.
case E: (fill j x (uin t x) tn pending) => [[[x1 fl] rs]|] //=.
case F: (f x1 (uin t x) (tn - xstamp x1)) => [x2|] //=.
case S: (steps _ _ _ _ _ _) => [[[xs' us'] ms']|] //= [<- <- <-] xt /andP[tt pr] so al.
rewrite -xt in al tt; have [e1 e2 e3 [e4 e5] e6] := fill_spec E so al tt.
have ev : evolve x (uin t x) (tn - t) = Ok (restamp x2 tn).
  by rewrite -{2}xt -e5 /evolve F /= addrC subrK.
have sr : sorted_meas rs.
  by rewrite e2; apply: drop_sorted.
exists fl, rs, (restamp x2 tn), xs', us', ms'; split; [by split|by split|exact: e3|by split|].
by apply: IH S _ pr sr _; rewrite ?stampK //; case/andP: e3.
Qed.

Lemma trace_states k j t x ts pending xs us ms : xstamp x = t -> trace k j t x ts pending xs us ms ->
  [/\ map xstamp xs = ts, size us = size ts &
   forall i d ud, (i < size ts)%N -> let xi := nth d (x :: xs) i in let ui := uin (xstamp xi) xi in
     nth ud us i = nu (k + i) ui /\ evolve xi ui (xstamp (nth d xs i) - xstamp xi) = Ok (nth d xs i)].
Proof.
elim: ts k j t x pending xs us ms => [|tn r IH] k j t x pending xs us ms xt /=; first by case=> -> -> _.
case=> [fl [rs [x3 [xs' [us' [ms' [[-> -> _] _ _ [ev _] tr]]]]]]].
have x3t : xstamp x3 = tn by rewrite (evolve_stamp ev) xt addrC subrK.
have [h1 h2 h3] := IH _ _ _ _ _ _ _ _ x3t tr; split=> /=; rewrite ?h1 ?h2 ?x3t //.
case=> [|i] d ud; first by rewrite addn0 /= x3t xt.
by rewrite ltnS addnS -addSn /=; exact: h3.
Qed.

Lemma trace_strip k j t x ts pending xs us ms : trace k j t x ts pending xs us ms -> map strip ms = map strip pending.
Proof.
elim: ts k j t x pending xs us ms => [|tn r IH] k j t x pending xs us ms /=; first by case=> _ _ ->.
case=> [fl [rs [x3 [xs' [us' [ms' [[_ _ ->] [-> _] _ _ tr]]]]]]].
by rewrite !map_cat (IH _ _ _ _ _ _ _ _ tr).
Qed.

Lemma trace_meas k j t x ts pending xs us ms : xstamp x = t -> path <=%O t ts -> trace k j t x ts pending xs us ms ->
  all (fun m : meas => t <= me_stamp m) pending ->
  (forall i m0, (i < size ms)%N -> let m := nth m0 ms i in me_stamp m < last t ts ->
     exists q, [/\ (q < size ts)%N, nth t (t :: ts) q <= me_stamp m < nth t (t :: ts) q.+1 &
       let xq := nth x (x :: xs) q in measured xq (uin (xstamp xq) xq) (j + i) m]) /\ (forall i m0, (i < size ms)%N -> last t ts <= me_stamp (nth m0 ms i) -> nth m0 ms i = nth m0 pending i).
Proof.
elim: ts k j t x pending xs us ms => [|tn r IH] k j t x pending xs us ms xt /=.
  move=> _ [_ _ ->] al; split=> // i m0 il lt; move/(all_nthP m0)/(_ i il): al.
  by rewrite leNgt lt.
case/andP=> tt pr; case=> [fl [rs [x3 [xs' [us' [ms' [[-> _ ->] [e1 e2] /andP[a1 a2] [ev ms1] tr]]]]]]] al.
have x3t : xstamp x3 = tn by rewrite (evolve_stamp ev) xt addrC subrK.
have szf : (size fl <= size pending)%N by have := congr1 size e1; rewrite !size_map size_cat => ->; rewrite leq_addr.
have tnl : tn <= last tn r.
  case: (r) pr => // a l p; have := order_path_min (@le_trans _ T) p.
  by move/allP; apply => /=; rewrite mem_last.
have [h1 h2] := IH _ _ _ _ _ _ _ _ x3t pr tr a2; split=> i m0; rewrite size_cat nth_cat => il.
  case: ltnP => h lt.
    exists 0%N; split=> //=; last by rewrite xt; exact: ms1.
    move/(all_nthP m0)/(_ i h): a1 => ->; rewrite andbT.
    move/(all_nthP m0)/(_ i (leq_trans h szf)): al.
    have := congr1 (fun s => nth (strip m0) s i) e1; rewrite !(nth_map m0) ?size_cat ?(leq_trans h) ?leq_addr // nth_cat h.
    by case=> ->.
  have il' : (i - size fl < size ms')%N by rewrite ltn_subLR.
  have [q [q1 q2 q3]] := h1 _ m0 il' lt; exists q.+1; split=> //.
    by move: q2; rewrite /= !(set_nth_default tn t) //= ltnW.
  move: q3; rewrite /= -addnA subnKC //; case: q q1 q2 => [|q] //= q1 _.
  have szx : size xs' = size r by have [<- _ _] := trace_states x3t tr; rewrite size_map.
  by rewrite !(set_nth_default x3 x) // szx ltnW.
case: ltnP => h lt.
  move/(all_nthP m0)/(_ i h): a1 => lt'; by move: lt'; rewrite ltNge (le_trans tnl lt).
have il' : (i - size fl < size ms')%N by rewrite ltn_subLR.
by rewrite (h2 _ m0 il' lt) e2 nth_drop subnKC.
Qed.
End Generate.
