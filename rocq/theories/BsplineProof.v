(** Proofs about BsplineModel. *)
From mathcomp Require Import all_ssreflect all_algebra.
From Verif Require Import Base Tac UtilsModel UtilsProps2 DatagenModel DatagenProof BsplineModel Deriv.
Set Implicit Arguments.
Unset Strict Implicit.
Unset Printing Implicit Defensive.
Import Order.Theory GRing.Theory Num.Theory.
Local Open Scope ring_scope.

Section Bounding.
Variable T : archiFieldType.
Variable p : nat.
Notation pose := (pose T p).
Definition stamps_of (poses : seq pose) : seq T := [seq q.2 | q <- poses].
Definition increasing_stamps (poses : seq pose) : Prop := sorted <%R (stamps_of poses).

Lemma find_bounding_in (poses : seq pose) q0 i t : increasing_stamps poses -> (i.+1 < size poses)%N ->
  (nth q0 poses i).2 <= t -> t < (nth q0 poses i.+1).2 -> find_bounding_poses t poses = Ok (Some i).
Proof.
case: poses => // p0 rest inc il lo hi; rewrite /find_bounding_poses.
have ltn a b : (a < b)%N -> (b < (size rest).+1)%N -> (nth q0 (p0 :: rest) a).2 < (nth q0 (p0 :: rest) b).2.
  move=> ab bs; have al : (a < (size rest).+1)%N := ltn_trans ab bs.
  have := @sorted_ltn_nth _ <%R lt_trans 0 _ inc a b; rewrite !inE size_map => /(_ al bs ab).
  by rewrite /stamps_of !(nth_map q0).
have ltnW' a b : (a <= b)%N -> (b < (size rest).+1)%N -> (nth q0 (p0 :: rest) a).2 <= (nth q0 (p0 :: rest) b).2.
  by rewrite leq_eqVlt => /orP [/eqP -> //|h hb]; apply: ltW; apply: ltn.
have h0 : p0.2 <= t by apply: le_trans lo; apply: (ltnW' 0%N i) => //; exact: ltnW.
have hl : t <= (last p0 rest).2.
  rewrite (last_nth q0); apply: ltW; apply: lt_le_trans hi _; apply: ltnW' => //.
rewrite ltNge h0 ltNge hl /=; rewrite /= ltnS in il.
have -> : find (fun q : pose => t < q.2) rest = i.
  apply/eqP; rewrite eqn_leq; apply/andP; split.
    rewrite leqNgt; apply/negP => h; have := before_find q0 h.
    by rewrite -[nth q0 rest i]/(nth q0 (p0 :: rest) i.+1) hi.
  rewrite leqNgt; apply/negP => h.
  have hh : has (fun q : pose => t < q.2) rest by rewrite has_find; exact: ltn_trans h il.
  have := nth_find q0 hh; rewrite ltNge => /negP; apply.
  apply: le_trans lo; apply: (ltnW' (find (fun q : pose => t < q.2) rest).+1 i) => //; exact: ltnW.
by rewrite il.
Qed.

Lemma find_bounding_out (poses : seq pose) q0 t : increasing_stamps poses -> (0 < size poses)%N ->
  (t < (nth q0 poses 0).2) || ((nth q0 poses (size poses).-1).2 <= t) -> find_bounding_poses t poses = Ok None.
Proof.
case: poses => // p0 rest inc _; rewrite /find_bounding_poses /= => /orP [-> //|h].
case: ifP => // _; rewrite ifF //; apply/negbTE; rewrite -leqNgt leqNgt -has_find; apply/negP => /hasP [q qin].
rewrite ltNge => /negP; apply; apply: le_trans h.
have [j jl <-] := nthP q0 qin.
have := @sorted_leq_nth _ <=%R le_trans lexx 0 (stamps_of (p0 :: rest)) _ j.+1 (size rest).
rewrite !inE size_map => H.
have so : sorted <=%R (stamps_of (p0 :: rest)) by apply: sub_sorted inc => a b; exact: ltW.
by have := H so jl (ltnSn _) jl; rewrite /stamps_of !(nth_map q0).
Qed.
End Bounding.

Section Loop.
Variable T : archiFieldType.
Variables (p d : nat).
Notation k := (p + 1)%N.
Notation pose := (pose T p).
Variables (Exp : 'cV[T]_d -> 'M[T]_k) (Log : 'M[T]_k -> 'cV[T]_d) (ginv : 'M[T]_k -> 'M[T]_k) (wedge : 'cV[T]_d -> 'M[T]_k).
Notation interp := (interp_one (se3_plus Exp) (se3_minus Log ginv)).
Notation control_loop := (control_loop Exp Log ginv).
Notation init := (init Exp Log ginv).

Lemma arange_step (a b s : T) : 0 < s -> a < b -> arange_len a b s = (arange_len (a + s) b s).+1 /\ arange a b s = a :: arange (a + s) b s.
Proof.
move=> s0 ab.
have e : arange_len a b s = (arange_len (a + s) b s).+1.
  have P n : (n < arange_len a b s)%N = (n < (arange_len (a + s) b s).+1)%N.
    case: n => [|n]; rewrite ?ltnS arange_lenP //; first by rewrite mul0r addr0 ab.
    by rewrite arange_lenP // -[n.+1]add1n natrD mulrDl mul1r addrA.
  by have := P (arange_len a b s); have := P (arange_len (a + s) b s).+1; rewrite !ltnn; case: ltngtP.
split=> //; rewrite /arange e -[(arange_len _ _ _).+1]add1n iotaD map_cat /= mul0r addr0; congr (_ :: _).
rewrite -[X in iota X]addn0 iotaDl -map_comp; apply: eq_map => i /=.
by rewrite add1n -[i.+1]add1n natrD mulrDl mul1r addrA.
Qed.

Lemma locate (traj : seq pose) q0 t : increasing_stamps traj -> (0 < size traj)%N -> (nth q0 traj 0).2 <= t ->
  t < (nth q0 traj (size traj).-1).2 ->
  exists i, [/\ (i.+1 < size traj)%N, (nth q0 traj i).2 <= t & t < (nth q0 traj i.+1).2].
Proof.
case: traj => // p0 rest inc _ /=; elim: rest p0 inc => [|q r IH] p0 inc /=.
  by move=> h1; rewrite ltNge h1.
move=> h1 h2; case: (ltP t q.2) => h; first by exists 0%N.
have [|i [i1 i2 i3]] := IH q _ h h2; first exact: path_sorted inc.
by exists i.+1.
Qed.

Lemma control_loop_spec (traj : seq pose) q0 dt cur : increasing_stamps traj -> (0 < size traj)%N -> 0 < dt ->
  let e := (nth q0 traj (size traj).-1).2 in (nth q0 traj 0).2 <= cur ->
  exists cps, [/\ control_loop (arange_len cur e dt) traj dt cur = Ok cps, map snd cps = arange cur e dt &
    forall c, List.In c cps -> interp traj c.2 = Ok c].
Proof.
move=> inc n0 dt0 e; move eN : (arange_len cur e dt) => N.
elim: N cur eN => [|N IH] cur eN h.
  have le : e <= cur by have := arange_lenP cur e 0 dt0; rewrite eN mul0r addr0 => /esym/negbT; rewrite -leNgt.
  exists [::]; split=> //; last by rewrite /arange eN.
  by rewrite /= (find_bounding_out (q0 := q0)) // le orbT.
have lt : cur < e by have := arange_lenP cur e 0 dt0; rewrite eN mul0r addr0 => <-.
have [i [i1 i2 i3]] := locate inc n0 h lt.
have [eL eA] := arange_step dt0 lt.
have [||cps [c1 c2 c3]] := IH (cur + dt); first by rewrite eN in eL; case: eL.
  by apply: le_trans h _; rewrite ler_addl ltW.
have [_ _ itE] := C59_between (se3_plus Exp) (se3_minus Log ginv) inc i1 i2 i3.
have inc2 : increasing [:: nth q0 traj i; nth q0 traj i.+1] by rewrite /increasing /= andbT; exact: le_lt_trans i2 i3.
have [_ _ i2E] := C59_between (states := [:: nth q0 traj i; nth q0 traj i.+1]) (s0 := q0) (j := 0) (se3_plus Exp) (se3_minus Log ginv) inc2 isT i2 i3.
exists ((se3_plus Exp (nth q0 traj i).1 ((cur - (nth q0 traj i).2) / ((nth q0 traj i.+1).2 - (nth q0 traj i).2) *: se3_minus Log ginv (nth q0 traj i.+1).1 (nth q0 traj i).1), cur) :: cps).
split=> /=.
- rewrite (find_bounding_in (q0 := q0) inc i1 i2 i3) /= /py_nth !(drop_nth q0) ?(ltnW i1) //=.
  by rewrite i2E ?c1.
- by rewrite c2 eA.
- by move=> c [<-|/c3].
Qed.
End Loop.

Section Sum.
Variable T : archiFieldType.
Variable p : nat.
Lemma sum_dts (q : pose T p) r : \sum_(x <- dts (q :: r)) x = (last q r).2 - q.2.
Proof.
elim: r q => [|s r IH] q; first by rewrite /dts /= big_nil subrr.
rewrite [dts _](_ : _ = (s.2 - q.2) :: dts (s :: r)) // big_cons IH /=; zmod.
Qed.
Lemma first_last (q : pose T p) r : increasing_stamps (q :: r) -> r <> [::] -> q.2 < (last q r).2.
Proof.
case: r => // s r incr _; have /allP := order_path_min lt_trans incr; apply.
exact: (map_f snd (mem_last s r)).
Qed.
End Sum.

Section Query.
Variable T : archiFieldType.
Variables (p : nat).
Notation k := (p + 1)%N.
Notation pose := (pose T p).
Variables (cps : seq pose) (c0 e dt : T).
Hypothesis dt0 : 0 < dt.
Hypothesis cpsE : map snd cps = arange c0 e dt.
Definition knot (j : nat) : T := c0 + j%:R * dt.
Lemma knotS j : knot j.+1 = knot j + dt.
Proof. by rewrite /knot -[j.+1]addn1 natrD mulrDl mul1r addrA. Qed.
Lemma knot_lt i j : (i < j)%N -> knot i < knot j.
Proof. by move=> ij; rewrite ltr_add2l ltr_pmul2r // ltr_nat. Qed.
Lemma knot_le i j : (i <= j)%N -> knot i <= knot j.
Proof. by move=> ij; rewrite ler_add2l ler_pmul2r // ler_nat. Qed.
Lemma sz : size cps = arange_len c0 e dt.
Proof. by rewrite -size_arange -cpsE size_map. Qed.
Lemma stampE q0 j : (j < size cps)%N -> (nth q0 cps j).2 = knot j.
Proof. by move=> jl; rewrite -(nth_map q0 q0.2) // cpsE nth_arange // -sz. Qed.
Lemma inc : increasing_stamps cps.
Proof.
rewrite /increasing_stamps /stamps_of cpsE; apply: (homo_sorted (e := ltn)); last exact: iota_ltn_sorted.
by move=> i j ij; exact: knot_lt.
Qed.
Lemma py_nthE q0 j : (j < size cps)%N -> py_nth cps j = Ok (nth q0 cps j).
Proof. by move=> jl; rewrite /py_nth (drop_nth q0). Qed.

Lemma query_in A (sp : spline T p) (g : 'M[T]_k -> 'M[T]_k -> 'M[T]_k -> 'M[T]_k -> T -> T -> A) q0 i t : sp_ctrl sp = cps -> (0 < i)%N -> (i.+2 < size cps)%N ->
  knot i <= t -> t < knot i.+1 ->
  query sp t g = Ok (Some (g (nth q0 cps i.-1).1 (nth q0 cps i).1 (nth q0 cps i.+1).1 (nth q0 cps i.+2).1 ((t - knot i) / dt) dt)).
Proof.
move=> sE i0 i2 lo hi; have i1 : (i.+1 < size cps)%N by exact: ltnW.
have il : (i < size cps)%N by exact: ltnW.
have ip : (i.-1 < size cps)%N by apply: leq_ltn_trans il; exact: leq_pred.
have fb : find_bounding_poses t cps = Ok (Some i).
  by apply: (find_bounding_in (q0 := q0) inc i1); rewrite stampE.
rewrite /query sE /find_control fb /= (gtn_eqF i0) ifF; last first.
  by rewrite -eqSS prednK ?(ltn_eqF i2) // (leq_ltn_trans _ i1).
rewrite !(py_nthE q0) //= !stampE // knotS addrAC subrr add0r //.
Qed.

Lemma query_out A (sp : spline T p) (g : 'M[T]_k -> 'M[T]_k -> 'M[T]_k -> 'M[T]_k -> T -> T -> A) t : sp_ctrl sp = cps -> (0 < size cps)%N ->
  ~~ ((knot 1 <= t) && (t < knot (size cps - 2))) -> query sp t g = Ok None.
Proof.
move=> sE n0 out; rewrite /query sE /find_control.
case: (cps) n0 out sE stampE inc => // q0 r n0 out sE stE incr.
case: (boolP ((t < (nth q0 (q0 :: r) 0).2) || ((nth q0 (q0 :: r) (size (q0 :: r)).-1).2 <= t))) => h.
  by rewrite (find_bounding_out (q0 := q0)).
move: h; rewrite negb_or -leNgt -ltNge => /andP[h1 h2].
have [i [i1 i2 i3]] := locate incr n0 h1 h2.
rewrite (find_bounding_in (q0 := q0) incr i1 i2 i3) /=.
case: eqP => // /eqP i0; case: eqP => // /eqP iN.
exfalso; move/negP: out; apply; rewrite !stE // in i2 i3; last exact: ltnW.
have ip : (0 < i)%N by rewrite lt0n.
rewrite (le_trans _ i2) ?knot_le //= (lt_le_trans i3) // knot_le //.
rewrite leq_subRL ?add2n; last by apply: leq_trans i1.
by rewrite /= !ltnS ltn_neqAle iN.
Qed.
End Query.

Section Calculus.
Variable T : archiFieldType.
Lemma mderivZ m n (c : T -> T) l (F : T -> 'M[T]_(m, n)) L : is_deriv c l -> is_mderiv F L ->
  is_mderiv (fun t => c t *: F t) (l *: F 0 + c 0 *: L).
Proof.
move=> H H' i j; rewrite !mxE; apply: eq_deriv (derivM H (H' i j)) => t; by rewrite mxE.
Qed.
Lemma mderivZc m n (c : T) (F : T -> 'M[T]_(m, n)) L : is_mderiv F L -> is_mderiv (fun t => c *: F t) (c *: L).
Proof. by move=> H i j; rewrite mxE; apply: eq_deriv (derivZ c (H i j)) => t; rewrite mxE. Qed.

(** two differentiable pieces that meet *)
Lemma deriv_glue (f g h : T -> T) l del : 0 < del -> g 0 = h 0 -> f 0 = h 0 ->
  (forall t, `|t| < del -> t < 0 -> f t = g t) -> (forall t, `|t| < del -> 0 <= t -> f t = h t) ->
  is_deriv g l -> is_deriv h l -> is_deriv f l.
Proof.
move=> d0 gh fh fg fh' Hg Hh e e0; have [d1 d10 h1] := Hg e e0; have [d2 d20 h2] := Hh e e0.
exists (Num.min del (Num.min d1 d2)); first by rewrite !lt_minr d0 d10.
move=> t; rewrite !lt_minr => /and3P [td t1 t2]; rewrite fh.
by case: (ltP t 0) => t0; [rewrite fg // -gh; exact: h1|rewrite fh' //; exact: h2].
Qed.
Lemma deriv_near (f g : T -> T) l del : 0 < del -> (forall t, `|t| < del -> f t = g t) -> is_deriv g l -> is_deriv f l.
Proof.
move=> d0 fg H e e0; have [d1 d10 h1] := H e e0; exists (Num.min del d1); first by rewrite lt_minr d0.
move=> t; rewrite lt_minr => /andP [td t1]; rewrite !fg ?normr0 //; exact: h1.
Qed.
(** continuity at 0 *)
Definition is_mcont m n (F : T -> 'M[T]_(m, n)) : Prop := forall i j, small (fun t => F t i j - F 0 i j).
Lemma small_deriv (f : T -> T) l : is_deriv f l -> small (fun t => f t - f 0).
Proof.
move=> /is_derivP [r sr E]; apply: (@eq_small _ (fun t => l * id t + id t * r t)).
  move=> t /=; rewrite E; rng.
by apply: small_add; [apply: small_scale; exact: small_id|apply: small_mul => //; exact: small_id].
Qed.
Lemma mcont_deriv m n (F : T -> 'M[T]_(m, n)) L : is_mderiv F L -> is_mcont F.
Proof. by move=> H i j; exact: small_deriv (H i j). Qed.

Section Basis.
Variables (u dt : T).
Hypothesis dt0 : dt != 0.
Definition wu (h : T) : T := u + h / dt.
Lemma wu0 : wu 0 = u. Proof. by rewrite /wu mul0r addr0. Qed.
Lemma wu_deriv : is_deriv wu dt^-1.
Proof.
move=> e e0; exists 1 => // t _; rewrite (_ : wu t - wu 0 - t * dt^-1 = 0); last by rewrite /wu; rng.
by rewrite normr0 mulr_ge0 // ltW.
Qed.
Lemma poly_deriv (c0 c1 c2 c3 : T) :
  is_deriv (fun h => c0 + c1 * wu h + c2 * wu h * wu h + c3 * wu h * wu h * wu h)
    (dt^-1 * (c1 + 2%:R * c2 * u + 3%:R * c3 * u * u)).
Proof.
have w := wu_deriv.
have H := derivD (derivD (derivD (deriv_const c0) (derivZ c1 w)) (derivM (derivZ c2 w) w)) (derivM (derivM (derivZ c3 w) w) w).
by move: H; rewrite !wu0; set L := (X in is_deriv _ X -> _); rewrite (_ : L = dt^-1 * (c1 + 2%:R * c2 * u + 3%:R * c3 * u * u)) // /L; rng.
Qed.
Lemma poly_derivE f c0 c1 c2 c3 l : (forall h, f h = c0 + c1 * wu h + c2 * wu h * wu h + c3 * wu h * wu h * wu h) ->
  l = dt^-1 * (c1 + 2%:R * c2 * u + 3%:R * c3 * u * u) -> is_deriv f l.
Proof. by move=> fE ->; apply: eq_deriv (poly_deriv c0 c1 c2 c3) => h; rewrite fE. Qed.
Let six : 6%:R != 0 :> T. Proof. by rewrite pnatr_eq0. Qed.
Lemma b0_deriv : is_deriv (fun h => basis0 (wu h)) (basis0_dot u dt).
Proof.
apply: (@poly_derivE _ (6%:R^-1 * 5%:R) (6%:R^-1 * 3%:R) (6%:R^-1 * - 3%:R) 6%:R^-1) => [h|]; rewrite /basis0 /basis0_dot ?invfM; rng.
Qed.
Lemma b1_deriv : is_deriv (fun h => basis1 (wu h)) (basis1_dot u dt).
Proof.
apply: (@poly_derivE _ 6%:R^-1 (6%:R^-1 * 3%:R) (6%:R^-1 * 3%:R) (6%:R^-1 * - 2%:R)) => [h|]; rewrite /basis1 /basis1_dot ?invfM; rng.
Qed.
Lemma b2_deriv : is_deriv (fun h => basis2 (wu h)) (basis2_dot u dt).
Proof.
apply: (@poly_derivE _ 0 0 0 6%:R^-1) => [h|]; rewrite /basis2 /basis2_dot ?invfM; rng.
Qed.
Lemma b0d_deriv : is_deriv (fun h => basis0_dot (wu h) dt) (basis0_ddot u dt).
Proof.
apply: (@poly_derivE _ ((6%:R * dt)^-1 * 3%:R) ((6%:R * dt)^-1 * - 6%:R) ((6%:R * dt)^-1 * 3%:R) 0) => [h|]; rewrite /basis0_dot /basis0_ddot ?invfM; rng.
Qed.
Lemma b1d_deriv : is_deriv (fun h => basis1_dot (wu h) dt) (basis1_ddot u dt).
Proof.
apply: (@poly_derivE _ ((6%:R * dt)^-1 * 3%:R) ((6%:R * dt)^-1 * 6%:R) ((6%:R * dt)^-1 * - 6%:R) 0) => [h|]; rewrite /basis1_dot /basis1_ddot ?invfM; rng.
Qed.
Lemma b2d_deriv : is_deriv (fun h => basis2_dot (wu h) dt) (basis2_ddot u dt).
Proof.
apply: (@poly_derivE _ 0 0 ((6%:R * dt)^-1 * 3%:R) 0) => [h|]; rewrite /basis2_dot /basis2_ddot ?invfM; rng.
Qed.
Lemma bdd_deriv (a b : T) : exists l, is_deriv (fun h => (6%:R * dt * dt)^-1 * (a + b * wu h)) l.
Proof.
exists (dt^-1 * ((6%:R * dt * dt)^-1 * b)).
apply: (@poly_derivE _ ((6%:R * dt * dt)^-1 * a) ((6%:R * dt * dt)^-1 * b) 0 0) => [h|]; rng.
Qed.
End Basis.
End Calculus.
