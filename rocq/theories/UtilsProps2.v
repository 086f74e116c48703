(** C59, C60: state interpolation and finite-difference Jacobians. *)
From mathcomp Require Import all_ssreflect all_algebra.
From Verif Require Import Base Tac UtilsModel UtilsProps.
Set Implicit Arguments.
Unset Strict Implicit.
Unset Printing Implicit Defensive.
Import Order.Theory GRing.Theory Num.Theory.
Local Open Scope ring_scope.

Section Interp.
Variable R : realFieldType.

Lemma np_floorE N (v : R) j : (j <= N)%N -> j%:R <= v -> v < j.+1%:R -> np_floor N v = j.
Proof.
move=> lj le lt; rewrite /np_floor.
have -> : count (fun k : nat => k%:R <= v) (iota 1 N) = count (fun k => (k <= j)%N) (iota 1 N).
  apply: eq_count => k; have [kj|jk] := leqP k j; first by rewrite (le_trans _ le) // ler_nat.
  by apply/negbTE; rewrite -ltNge (lt_le_trans lt) // ler_nat.
rewrite -(subnKC lj) iotaD count_cat.
have -> : count (fun k => (k <= j)%N) (iota 1 j) = j.
  rewrite -[RHS](size_iota 1); apply/eqP; rewrite -all_count; apply/allP => k; by rewrite mem_iota add1n ltnS => /andP [].
have -> : count (fun k => (k <= j)%N) (iota (1 + j) (N - j)) = 0%N; last exact: addn0.
apply/eqP; rewrite -leqn0 leqNgt -has_count; apply/hasPn => k; by rewrite mem_iota add1n -ltnNge => /andP [].
Qed.
Lemma count_le (s : seq R) q j : sorted <=%R s -> (j < size s)%N -> (nth 0 s j <= q) = (j < count (fun m => m <= q)%R s)%N.
Proof.
elim: s j => [|x s IH] // j so.
have so' : sorted <=%R s by exact: path_sorted so.
have all_ge : all (fun y => x <= y) s by apply: order_path_min so; exact: le_trans.
have [le|gt] := leP x q.
  by case: j => [|j] lj; rewrite /= le // add1n ltnS IH.
have -> : count (fun m => m <= q) (x :: s) = 0%N.
  apply/eqP; rewrite -leqn0 leqNgt -has_count; apply/hasPn => y; rewrite inE => /orP [/eqP ->|yin]; first by rewrite -ltNge.
  by rewrite -ltNge (lt_le_trans gt) //; exact: (allP all_ge).
move=> lj; apply/negbTE; rewrite -ltNge; case: j lj => [|j] lj //=.
by rewrite (lt_le_trans gt) //; apply: (allP all_ge); rewrite mem_nth.
Qed.

Variable V : Type.
Variable n : nat.
Variable plus : V -> 'cV[R]_n -> V.
Variable minus : V -> V -> 'cV[R]_n.
Notation sstate := (sstate R V).
Notation interp_one := (interp_one plus minus).
Notation state_interp := (state_interp plus minus).

(** strictly increasing stamps *)
Definition increasing (states : seq sstate) : Prop := sorted <%R [seq s.2 | s <- states].

Section Fix.
Variables (states : seq sstate) (s0 : sstate).
Hypothesis inc : increasing states.
Let N := size states.
Let t k := (nth s0 states k).2.
Let x k := (nth s0 states k).1.
Let xs := [seq s.2 | s <- states].
Let so : sorted <=%R xs. Proof. by apply: sub_sorted inc => a b /ltW. Qed.
Let sortE : sort <=%R xs = xs. Proof. by apply: sorted_sort => //; exact: le_trans. Qed.
Let tE k : (k < N)%N -> nth 0 xs k = t k. Proof. by move=> lk; rewrite /xs (nth_map s0). Qed.
Let tlt i j : (i < j)%N -> (j < N)%N -> t i < t j.
Proof.
move=> ij jn; have il := ltn_trans ij jn; rewrite -!tE //.
by apply: (sorted_ltn_nth lt_trans 0 inc); rewrite ?inE ?size_map.
Qed.
Let tle i j : (i <= j)%N -> (j < N)%N -> t i <= t j.
Proof. by rewrite leq_eqVlt => /orP [/eqP -> //|ij jn]; apply: ltW; exact: tlt. Qed.
Let nthP k : (k < N)%N -> py_nth states k = Ok (x k, t k).
Proof. by move=> lk; rewrite /py_nth (drop_nth s0) // /x /t -surjective_pairing. Qed.

(** between two knots *)
Theorem C59_between j q : (j.+1 < N)%N -> t j <= q -> q < t j.+1 ->
  let alpha := (q - t j) / (t j.+1 - t j) in
  [/\ 0 <= alpha, alpha < 1 & interp_one states q = Ok (plus (x j) (alpha *: minus (x j.+1) (x j)), q)].
Proof.
move=> lj h1 h2 alpha; have d0 : 0 < t j.+1 - t j by rewrite subr_gt0 tlt.
have a0 : 0 <= alpha by apply: divr_ge0; [rewrite subr_ge0|exact: ltW].
have a1 : alpha < 1 by rewrite ltr_pdivr_mulr // mul1r ltr_add2r.
have N0 : (0 < N)%N by exact: (leq_ltn_trans (leq0n _) lj).
have cq : (count (fun y => y <= q) xs).-1 = j.
  have c1 : (j < count (fun y => y <= q)%R xs)%N by rewrite -(@count_le xs q j) ?tE // ?size_map // ltnW.
  have c2 : ~~ (j.+1 < count (fun y => y <= q)%R xs)%N by rewrite -(@count_le xs q j.+1) ?tE // ?size_map // -ltNge.
  by apply/eqP; rewrite -eqSS prednK ?(leq_ltn_trans _ c1) // eqn_leq c1 leqNgt c2.
have q0 : (q < t 0%N) = false by apply/negbTE; rewrite -leNgt (le_trans _ h1) // tle // ltnW.
have vE : np_interp xs q = j%:R + alpha.
  have ln : (N.-1 < N)%N by rewrite prednK.
  rewrite /np_interp size_map -/N (tE N0) q0 (tE ln) cq (tE lj) (tE (ltnW lj)) ifF //.
  by apply/negbTE; rewrite -ltNge (lt_le_trans h2) // tle // -ltnS prednK.
have fl : np_floor N (np_interp xs q) = j.
  by rewrite vE; apply: np_floorE; [rewrite ltnW // ltnW|rewrite ler_addl|rewrite -addn1 natrD ltr_add2l].
split=> //; rewrite /UtilsModel.interp_one -/N -/xs sortE fl (tE N0) (tE (ltnW lj)).
rewrite leqNgt lj q0 /= (ltn_eqF lj) nthP ?(ltnW lj) //= nthP //= tE // gt_eqF //= -/alpha.
by rewrite ltNge a0.
Qed.
Let plus0 := forall y, plus y 0 = y.
(** before the first and from the last knot on: the end states *)
Theorem C59_before q : plus0 -> (0 < N)%N -> q < t 0%N -> interp_one states q = Ok (x 0%N, q).
Proof.
move=> p0 n0 lt; rewrite /UtilsModel.interp_one -/N -/xs sortE.
have -> : np_interp xs q = 0 by rewrite /np_interp tE // lt.
rewrite (@np_floorE N 0 0) ?ltr01 // tE // lt /= nthP //=.
have lu : ((if 1 == N then N.-1 else 1) < N)%N.
  case: eqP => [<-|/eqP ne] //; by rewrite ltn_neqAle ne n0.
by rewrite nthP //= ltxx scale0r p0.
Qed.
Theorem C59_after q : plus0 -> (0 < N)%N -> t N.-1 <= q -> interp_one states q = Ok (x N.-1, q).
Proof.
move=> p0 n0 le; have ln : (N.-1 < N)%N by rewrite prednK.
have q0 : (q < t 0%N) = false by apply/negbTE; rewrite -leNgt (le_trans _ le) // tle.
rewrite /UtilsModel.interp_one -/N -/xs sortE.
have -> : np_interp xs q = N.-1%:R by rewrite /np_interp size_map -/N (tE n0) q0 (tE ln) le.
rewrite (@np_floorE N _ N.-1) ?leq_pred ?ltr_nat // prednK // leqnn orbT /= eqxx nthP //=.
by rewrite ltxx scale0r p0.
Qed.
Theorem C59_knot j : plus0 -> (j < N)%N -> interp_one states (t j) = Ok (x j, t j).
Proof.
move=> p0 lj; have n0 : (0 < N)%N by exact: (leq_ltn_trans (leq0n _) lj).
have [e|ne] := eqVneq j N.-1; first by rewrite {1 2}e C59_after // e.
have lj1 : (j.+1 < N)%N by rewrite -(prednK n0) ltnS ltn_neqAle ne -ltnS prednK.
have [_ _ ->] := C59_between lj1 (lexx _) (tlt (ltnSn j) lj1).
by rewrite subrr mul0r scale0r p0.
Qed.
(** every query is answered *)
Lemma interp_total q : (0 < N)%N -> exists y, interp_one states q = Ok (y, q).
Proof.
move=> n0.
have [lt|ge] := ltP q (t 0%N).
  rewrite /UtilsModel.interp_one -/N -/xs sortE.
  have -> : np_interp xs q = 0 by rewrite /np_interp tE // lt.
  rewrite (@np_floorE N 0 0) ?ltr01 // tE // lt /= nthP //=.
  have lu : ((if 1 == N then N.-1 else 1) < N)%N.
    case: eqP => [<-|/eqP ne] //; by rewrite ltn_neqAle ne n0.
  by rewrite nthP //= ltxx; eexists.
have [le|lt] := leP (t N.-1) q.
  have ln : (N.-1 < N)%N by rewrite prednK.
  rewrite /UtilsModel.interp_one -/N -/xs sortE.
  have -> : np_interp xs q = N.-1%:R by rewrite /np_interp size_map -/N (tE n0) ltNge ge (tE ln) le.
  rewrite (@np_floorE N _ N.-1) ?leq_pred ?ltr_nat // prednK // leqnn orbT /= eqxx nthP //=.
  by rewrite ltxx; eexists.
have [j [lj h1 h2]] : exists j, [/\ (j.+1 < N)%N, t j <= q & q < t j.+1].
  have : exists m, (m < N)%N && (q < t m) by exists N.-1; rewrite prednK // leqnn.
  case/ex_minnP => -[|m] /andP [lm qm] mn; first by rewrite ltNge ge in qm.
  exists m; split=> //; rewrite leNgt; apply/negP => h.
  by have := mn m; rewrite h (ltnW lm) ltnn => /(_ isT).
by have [_ _ ->] := C59_between lj h1 h2; eexists.
Qed.
(** queries: one answer each, in order, stamped with the query *)
Theorem C59_queries qs : (0 < N)%N -> exists out, [/\ state_interp (SList qs) states = Ok out,
  [seq s.2 | s <- out] = qs & forall i, (i < size qs)%N -> interp_one states (nth 0 qs i) = Ok (nth s0 out i)].
Proof.
move=> n0; have -> : state_interp (SList qs) states = mapM (interp_one states) qs by move: n0; rewrite /UtilsModel.state_interp /N; case: (states).
elim: qs => [|q qs [out [e1 e2 e3]]]; first by exists [::].
have [y ey] := interp_total q n0; exists ((y, q) :: out); rewrite /= ey /= e1 /= e2; split=> //.
by case.
Qed.
End Fix.
Theorem C59_single_query states q : increasing states -> (0 < size states)%N -> exists s, state_interp (SFloat q) states = Ok [:: s] /\ interp_one states q = Ok s /\ s.2 = q.
Proof.
move=> inc n0; have [s0 _] : exists s0 : sstate, True by case: (states) n0 => // s0 r _; exists s0.
have [y ey] := interp_total s0 inc q n0; exists (y, q).
by rewrite /UtilsModel.state_interp ey; case: (states) n0.
Qed.
(** a query that is an int or a single stamped object always raises *)
Theorem C59_documented_queries_refuted states q :
  state_interp (SInt q) states = Raise AttributeError /\ state_interp (SObject q) states = Raise TypeError.
Proof. by []. Qed.
(** the states are not sorted along with their stamps *)
Theorem C59_unsorted_refuted (x0 x1 : V) : (forall y, plus y 0 = y) ->
  interp_one [:: (x1, 1); (x0, 0)] 0 = Ok (x1, 0).
Proof.
move=> p0; rewrite /UtilsModel.interp_one /=.
have -> : sort <=%R [:: 1; 0 : R] = [:: 0; 1].
  apply: (@sorted_eq _ <=%R le_trans le_anti); rewrite ?sort_le_sorted //= ?ler01 //.
  by rewrite perm_sort (perm_catC [:: 1] [:: 0]).
have -> : np_interp [:: 0; 1 : R] 0 = 0.
  by rewrite /np_interp /= ltxx ler10 lexx /= addn0 /= subrr mul0r addr0.
rewrite (@np_floorE 2 0 0) ?ltr01 //= ltxx /= /py_nth /=.
by rewrite !subr0 oner_eq0 divr1 ltxx /= scale0r p0.
Qed.
End Interp.

(** Vector states: uniform motion is reproduced exactly *)
Section Linear.
Variables (R : realFieldType) (n : nat).
Definition vplus (x d : 'cV[R]_n) := x + d.
Definition vminus (x y : 'cV[R]_n) := x - y.
Theorem C59_uniform_motion (p v : 'cV[R]_n) (ts : seq R) q : sorted <%R ts -> (0 < size ts)%N ->
  nth 0 ts 0 <= q -> q <= nth 0 ts (size ts).-1 ->
  interp_one vplus vminus [seq (p + t *: v, t) | t <- ts] q = Ok (p + q *: v, q).
Proof.
move=> so n0 lo hi; set states := [seq _ | t <- ts].
have inc : increasing states by rewrite /increasing -map_comp map_id_in.
have p0 (y : 'cV[R]_n) : vplus y 0 = y by rewrite /vplus addr0.
have szs : size states = size ts by rewrite size_map.
have st k : (k < size ts)%N -> nth (0, 0) states k = (p + nth 0 ts k *: v, nth 0 ts k) by move=> lk; rewrite (nth_map 0).
move: hi; rewrite le_eqVlt => /orP [/eqP ->|hi].
  have := @C59_after _ _ _ vplus vminus states (0, 0) inc (nth 0 ts (size ts).-1) p0.
  by rewrite szs st ?prednK //= => /(_ n0 (lexx _)).
have [j [lj h1 h2]] : exists j, [/\ (j.+1 < size ts)%N, nth 0 ts j <= q & q < nth 0 ts j.+1].
  have : exists m, (m < size ts)%N && (q < nth 0 ts m) by exists (size ts).-1; rewrite prednK // leqnn.
  case/ex_minnP => -[|m] /andP [lm qm] mn; first by rewrite ltNge lo in qm.
  exists m; split=> //; rewrite leNgt; apply/negP => h.
  by have := mn m; rewrite h (ltnW lm) ltnn => /(_ isT).
have := @C59_between _ _ _ vplus vminus states (0, 0) inc j q; rewrite szs !st ?(ltnW lj) //= => /(_ lj h1 h2) [_ _ ->].
congr (Ok (_, _)); rewrite /vplus /vminus opprD addrACA subrr add0r -scalerBl scalerA divfK; last first.
  by rewrite subr_eq0 eq_sym lt_eqF // (sorted_ltn_nth lt_trans 0 so) // inE // ltnW.
by rewrite -addrA -scalerDl addrC [nth _ _ _ + _]addrC subrK addrC.
Qed.
End Linear.

(** *** C60 *)
Section FD.
Variables (R : realFieldType) (V W : Type) (n m : nat).
Variable plus : V -> 'cV[R]_n -> V.
Variable minus : W -> W -> 'cV[R]_m.
Notation fd := (fd_jacobian plus minus).
(** [A] is the exact derivative of [f] at [x] up to a remainder [rem] *)
Definition expansion (f : V -> W) x (A : 'M[R]_(m, n)) (rem : 'cV[R]_n -> 'cV[R]_m) : Prop :=
  forall d, minus (f (plus x d)) (f x) = A *m d + rem d.
Lemma col_dir (A : 'M[R]_(m, n)) h r i : (A *m dir h i) r 0 = h * A r i.
Proof.
rewrite /dir -scalemxAr !mxE (bigD1 i) //= big1 ?addr0; first by rewrite mxE !eqxx mulr1.
by move=> j ne; rewrite mxE (negbTE ne) mulr0.
Qed.
(** half of a doubled quantity over h *)
Lemma over2h (a h : R) : h != 0 -> (h * a + h * a) / (2%:R * h) = a.
Proof. by move=> h0; rewrite -mulr2n -mulr_natl mulrA mulrC mulKf // mulf_neq0 // pnatr_eq0. Qed.
(** central differences: the even part of the remainder cancels *)
Theorem C60_central_even f x A rem h : expansion f x A rem -> (forall d, rem (- d) = rem d) -> h != 0 ->
  fd f x h Central = Ok A.
Proof.
move=> ex ev h0; rewrite /fd_jacobian /func_to_diff; congr Ok; apply/matrixP => r i; rewrite mxE !ex ev mulmxN.
rewrite opprD opprK addrACA subrr addr0 mxE col_dir; exact: over2h.
Qed.
Theorem C60_affine f x A h md : expansion f x A (fun _ => 0) -> h != 0 -> md <> OtherMethod -> fd f x h md = Ok A.
Proof.
move=> ex h0; case: md => // _; last by apply: C60_central_even ex _ h0.
rewrite /fd_jacobian /func_to_diff; congr Ok; apply/matrixP => r i; rewrite mxE !ex.
by rewrite mulmx0 !addr0 subr0 col_dir mulrC mulKf.
Qed.
(** forward differences: a remainder of second order gives an error of first order *)
Theorem C60_forward_error f x A rem C h : expansion f x A rem -> h != 0 -> rem 0 = 0 ->
  (forall i r, `|rem (dir h i) r 0| <= C * h ^+ 2) ->
  exists J, fd f x h Forward = Ok J /\ forall r i, `|J r i - A r i| <= C * `|h|.
Proof.
move=> ex h0 r0 bd; eexists; split; first by reflexivity.
move=> r i; rewrite mxE /func_to_diff !ex r0 mulmx0 !addr0 subr0 mxE col_dir mulrDl mulrC mulKf // addrC addKr.
rewrite normrM normfV ler_pdivr_mulr ?normr_gt0 // -mulrA -normrM -expr2 [`|h ^+ 2|]ger0_norm ?sqr_ge0 //.
Qed.
(** central differences: a remainder whose odd part is of third order gives an error of second order *)
Theorem C60_central_error f x A rem C h : expansion f x A rem -> h != 0 ->
  (forall i r, `|rem (dir h i) r 0 - rem (- dir h i) r 0| <= 2%:R * C * `|h| ^+ 3) ->
  exists J, fd f x h Central = Ok J /\ forall r i, `|J r i - A r i| <= C * `|h| ^+ 2.
Proof.
move=> ex h0 bd; eexists; split; first by reflexivity.
move=> r i; rewrite mxE /func_to_diff !ex mulmxN opprD opprK addrACA mxE [X in (X + _) / _]mxE col_dir mulrDl over2h // addrC addKr.
have h2 : 0 < `|2%:R * h| by rewrite normr_gt0 mulf_neq0 // pnatr_eq0.
rewrite normrM normfV ler_pdivr_mulr //.
have -> : C * `|h| ^+ 2 * `|2%:R * h| = 2%:R * C * `|h| ^+ 3.
  by rewrite normrM [`|2%:R|]ger0_norm ?ler0n // mulrACA -exprSr [C * _]mulrC.
by have := bd i r; rewrite !mxE.
Qed.
Theorem C60_unknown_method f x h : (0 < n)%N -> fd f x h OtherMethod = Raise ValueError.
Proof. by rewrite /fd_jacobian; case: (n). Qed.
End FD.

(** ** Non-vacuity *)
Section Witness.
Variable R : realFieldType.
Example interp_witness : increasing [:: ((0 : 'cV[R]_1), 0 : R); (1%:M, 1); (0, 2%:R)].
Proof. by rewrite /increasing /= ltr01 ltr1n. Qed.
(** f(x) = x + |x|^2-like quadratic on scalars: f(x) = x^2, at x *)
Definition sqf (x : R) : R := x ^+ 2.
Lemma sq_expansion x : expansion (fun (x : R) (d : 'cV[R]_1) => x + d 0 0) (fun a b => (a - b)%:M) sqf x ((2%:R * x)%:M) (fun d => (d 0 0 ^+ 2)%:M).
Proof.
move=> d; apply/matrixP => i j; rewrite !mxE !ord1 big_ord1 !mxE eqxx !mulr1n /sqf; rng.
Qed.
Example central_exact_on_square x h : h != 0 ->
  fd_jacobian (fun (x : R) (d : 'cV[R]_1) => x + d 0 0) (fun a b => (a - b)%:M : 'cV[R]_1) sqf x h Central = Ok ((2%:R * x)%:M).
Proof. by move=> h0; apply: C60_central_even (sq_expansion x) _ h0 => d; rewrite mxE sqrrN. Qed.
End Witness.

Print Assumptions C59_between.
Print Assumptions C59_before.
Print Assumptions C59_after.
Print Assumptions C59_knot.
Print Assumptions C59_queries.
Print Assumptions C59_single_query.
Print Assumptions C59_documented_queries_refuted.
Print Assumptions C59_unsorted_refuted.
Print Assumptions C59_uniform_motion.
Print Assumptions C60_affine.
Print Assumptions C60_central_even.
Print Assumptions C60_forward_error.
Print Assumptions C60_central_error.
Print Assumptions C60_unknown_method.
