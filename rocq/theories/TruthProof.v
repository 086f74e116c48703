(** A filter fed with generated data: the run of run_filter against the trace of generate. *)
From mathcomp Require Import all_ssreflect all_algebra.
From Verif Require Import Base Tac LinAlg RunFilterModel RunFilterSpec RunFilterProof DatagenModel DatagenProof DatagenProps.
Set Implicit Arguments.
Unset Strict Implicit.
Unset Printing Implicit Defensive.
Import Order.Theory GRing.Theory Num.Theory.
Local Open Scope ring_scope.

Section Truth.
Variable T : archiFieldType.
Variables (X U Y M E : Type).
Variables (xstamp : X -> T) (restamp : X -> T -> X) (ustamp : U -> T).
Variable f : X -> U -> T -> result X.
Variable uin : T -> X -> U.
Variable meval : M -> X -> option Y.
Notation meas := (meas T Y M).
Notation evolve := (evolve xstamp restamp f).
Notation flow := (flow_property xstamp restamp f).
Variable estamp : E -> T.
Variable tracks : E -> X -> Prop.
Variable predict : E -> U -> T -> result E.
Variable correct : E -> meas -> U -> result E.
Variable gap_ok : T -> Prop.
(** the filter preserves the truth *)
Definition tracks_stamp := forall e x, tracks e x -> estamp e = xstamp x.
Definition predict_truth := forall e x u dt e' x',
  tracks e x -> 0 <= dt -> predict e u dt = Ok e' -> evolve x u dt = Ok x' -> tracks e' x'.
Definition correct_truth := forall e x m u e' xm y, tracks e x ->
  xstamp x <= me_stamp m -> gap_ok (me_stamp m - xstamp x) -> correct e m u = Ok e' ->
  evolve x u (me_stamp m - xstamp x) = Ok xm -> meval (me_model m) xm = Some y -> me_val m = Some y -> tracks e' xm.

Hypothesis stampK : forall x t, xstamp (restamp x t) = t.
Hypothesis fl : flow.
Hypothesis ev0 : forall x u, evolve x u 0 = Ok x.
Hypothesis tS : tracks_stamp.
Hypothesis pT : predict_truth.
Hypothesis cT : correct_truth.
Hypothesis uinS : forall t x, ustamp (uin t x) = t.
Notation nu0 := (fun (_ : nat) (u : U) => u).
Notation ny0 := (fun (_ : nat) (y : Y) => y).
Notation measured := (measured xstamp restamp f meval ny0).
Notation trace := (trace xstamp restamp f uin meval nu0 ny0).

Lemma evolve_more x u s x1 t : xstamp x <= s -> s <= t -> evolve x u (s - xstamp x) = Ok x1 ->
  evolve x1 u (t - xstamp x1) = evolve x u (t - xstamp x).
Proof.
move=> xs st e1; rewrite (evolve_stamp stampK e1) (fl _ _ e1) ?subr_ge0 //; last first.
  by rewrite addrC subrK.
by congr evolve; zmod.
Qed.

Lemma batch_truth x u t tn (S : pred T) e1 filled e xe :
  xstamp x = t -> t <= xstamp xe -> xstamp xe <= tn -> tracks e xe -> evolve x u (xstamp xe - t) = Ok xe ->
  path <=%O (xstamp xe) (map (@me_stamp T Y M) filled) ->
  all (fun m : meas => me_stamp m < tn) filled ->
  S (xstamp xe) -> all (fun m : meas => S (me_stamp m)) filled ->
  (forall a b, S a -> S b -> a <= b -> gap_ok (b - a)) ->
  (forall i m0, (i < size filled)%N -> measured x u i (nth m0 filled i)) ->
  foldM (fun e m => correct e m u) e filled = Ok e1 ->
  exists x1, [/\ tracks e1 x1, t <= xstamp x1 <= tn & evolve x u (xstamp x1 - t) = Ok x1].
Proof.
move=> xt; elim: filled e xe => [|m r IH] e xe txe xetn te ev /=.
  by move=> *; exists xe; split=> //; [congruence|rewrite txe xetn].
case/andP=> xem pr /andP[mtn at_] Sx /andP[Sm Sr] gp me.
case C: (correct e m u) => [e'|] //= fo.
have [xm [y [h1 h2 h3]]] := me 0%N m isT; rewrite /= xt in h1.
have h1' : evolve xe u (me_stamp m - xstamp xe) = Ok xm.
  by rewrite (@evolve_more x u (xstamp xe)) ?xt.
have te' := cT te xem (gp _ _ Sx Sm xem) C h1' h2 h3.
have ms : xstamp xm = me_stamp m by rewrite (evolve_stamp stampK h1) xt addrC subrK.
apply: (IH e' xm _ _ te' _ _ _ _ _ _ _ fo); rewrite ?ms //.
- exact: le_trans xem.
- exact: ltW.
- by move=> i m0 ir; have := me i.+1 m0 ir.
Qed.

Lemma trace_truth k j t x ts pending xs us ms (S : pred T) e res :
  trace k j t x ts pending xs us ms -> xstamp x = t -> path <=%O t ts ->
  sorted <=%O (map (@me_stamp T Y M) pending) -> all (fun m : meas => t <= me_stamp m) pending ->
  all S (t :: ts) -> all (fun m : meas => S (me_stamp m)) pending ->
  (forall a b, S a -> S b -> a <= b -> gap_ok (b - a)) ->
  tracks e x -> execute estamp correct predict e (schedule ustamp (@me_stamp T Y M) us ms) = Ok res ->
  size res = (size us).-1 /\ forall i d r0, (i < size res)%N -> exists xr,
    let xi := nth d (x :: xs) i in let xi1 := nth d (x :: xs) i.+1 in
    [/\ tracks (nth r0 res i) xr, xstamp xi <= xstamp xr <= xstamp xi1 &
        evolve xi (uin (xstamp xi) xi) (xstamp xr - xstamp xi) = Ok xr].
Proof.
elim: ts k j t x pending xs us ms e res => [|tn r IH] k j t x pending xs us ms e res.
  by move=> /= [-> -> _] _ _ _ _ _ _ _ _ [<-].
move=> /= [fl_ [rs [x3 [xs' [us' [ms' [[-> -> ->] [e1 e2] /andP[a1 a2] [ev me] tr]]]]]]] xt.
case/andP=> tt pr so al /and3P[St Stn Sr] Sp gp te.
have x3t : xstamp x3 = tn by rewrite (evolve_stamp stampK ev) xt addrC subrK.
have [h1 h2 h3] := trace_states stampK x3t tr.
case: us' h2 h3 tr => [|u1 us'] h2 h3 tr; first by move=> /= [<-].
have u1t : ustamp u1 = tn.
  by have := h3 0%N x u1; rewrite -h2 => /(_ isT) [/= -> _]; rewrite uinS.
have stE : map (@me_stamp T Y M) pending = map (@me_stamp T Y M) fl_ ++ map (@me_stamp T Y M) rs.
  by have := congr1 (map fst) e1; rewrite -!map_comp map_cat.
have msE : map (@me_stamp T Y M) ms' = map (@me_stamp T Y M) rs.
  by have := congr1 (map fst) (trace_strip tr); rewrite -!map_comp.
have a3 : all (fun m : meas => tn <= me_stamp m) ms'.
  by have := a2; rewrite -!(all_map (@me_stamp T Y M) (fun s => tn <= s)) msE.
have f1 : [seq m <- fl_ ++ ms' | me_stamp m < tn] = fl_.
  rewrite filter_cat (all_filterP _) // filter_none ?cats0 //.
  by apply: sub_all a3 => m /=; rewrite ltNge negbK.
have f2 : [seq m <- fl_ ++ ms' | ~~ (me_stamp m < tn)] = ms'.
  rewrite filter_cat filter_none /=; last by apply: sub_all a1 => m /= ->.
  by apply/all_filterP; apply: sub_all a3 => m /=; rewrite -leNgt.
rewrite /= u1t f1 f2 -/(schedule ustamp (@me_stamp T Y M) (u1 :: us') ms').
case B: (foldM _ e fl_) => [eb|] //=; case P: (predict _ _ _) => [ep|] //=.
case R: (execute _ _ _ _ _) => [res'|] //= [<-].
have Sall : all S (map (@me_stamp T Y M) fl_) && all S (map (@me_stamp T Y M) rs).
  by rewrite -all_cat -stE all_map.
have [Sf Srs] := andP Sall.
have [x1 [t1 b1 v1]] : exists x1, [/\ tracks eb x1, t <= xstamp x1 <= tn & evolve x (uin t x) (xstamp x1 - t) = Ok x1].
  apply: (@batch_truth x (uin t x) t tn S eb fl_ e x) B; rewrite ?xt ?subrr //.
  - rewrite path_min_sorted; first by move: so; rewrite stE => /cat_sorted2 [].
    rewrite all_map; have := al; rewrite -!(all_map (@me_stamp T Y M) (fun s => t <= s)) stE all_cat.
    by case/andP; rewrite all_map.
  - by rewrite all_map in Sf.
have [b11 b12] := andP b1.
have t3 : tracks ep x3.
  apply: (pT t1 _ P); first by rewrite (tS t1) subr_ge0.
  by rewrite (tS t1) (@evolve_more x (uin t x) (xstamp x1)) ?xt.
have [|||s1 s2] := IH _ _ _ _ _ _ _ _ _ _ tr x3t pr _ a2 _ _ gp t3 R.
- by move: so; rewrite stE => /cat_sorted2 [].
- by rewrite /= Stn.
- by rewrite all_map in Srs.
split=> /=; first by rewrite s1.
case=> [|i] d r0 /=; first by move=> _; exists x1; rewrite x3t xt.
by rewrite ltnS; exact: s2.
Qed.
End Truth.
