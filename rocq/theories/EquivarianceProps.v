(** C95: a change of coordinates of the problem changes nothing but the coordinates of the answer. *)
From mathcomp Require Import all_ssreflect all_algebra.
From Verif Require Import Base LinAlg Tac EkfModel EkfProps BatchKalmanModel RunFilterModel.
Set Implicit Arguments.
Unset Strict Implicit.
Unset Printing Implicit Defensive.
Import Order.Theory GRing.Theory Num.Theory.
Local Open Scope ring_scope.

(** ** Related results: both succeed with related values, or both raise the same exception. *)
Inductive related A B (S : A -> B -> Prop) : result A -> result B -> Prop :=
  | RelOk a b : S a b -> related S (Ok a) (Ok b)
  | RelRaise e : related S (Raise e) (Raise e).
Inductive orelated A B (S : A -> B -> Prop) : option A -> option B -> Prop :=
  | RelSome a b : S a b -> orelated S (Some a) (Some b)
  | RelNone : orelated S None None.
Lemma related_bind A B A2 B2 (S : A -> B -> Prop) (S2 : A2 -> B2 -> Prop) r r' k k' :
  related S r r' -> (forall a b, S a b -> related S2 (k a) (k' b)) -> related S2 (bind r k) (bind r' k').
Proof. by case=> [a b h|e] hk /=; [exact: hk|right]. Qed.
Lemma related_eq A (r : result A) : related eq r r.
Proof. by case: r => [a|e]; [left|right]. Qed.
Lemma related_map A B (f : A -> B) (S : A -> B -> Prop) r : (forall a, S a (f a)) -> related S r (rmap f r).
Proof. by move=> h; case: r => [a|e] /=; [left|right]. Qed.
Lemma related_map2 A B (S S' : A -> B -> Prop) r r' : (forall a b, S a b -> S' a b) -> related S r r' -> related S' r r'.
Proof. by move=> h; case=> [a b /h|e]; [left|right]. Qed.
Lemma related_foldM A B C (S : A -> B -> Prop) (f : A -> C -> result A) f' s a b :
  (forall a b c, S a b -> related S (f a c) (f' b c)) -> S a b -> related S (foldM f a s) (foldM f' b s).
Proof. by move=> h; elim: s a b => [|c s IH] a b hab /=; [left|apply: (related_bind (h _ _ c hab)) => a1 b1; exact: IH]. Qed.

(** run_filter on related data, the clock being shifted by [c]. *)
Section RunRelated.
Variable T : realDomainType.
Variables (U1 U2 X1 X2 Y1 Y2 : Type) (SU : U1 -> U2 -> Prop) (SX : X1 -> X2 -> Prop) (SY : Y1 -> Y2 -> Prop).
Variable c : T.
Variables (ust1 : U1 -> T) (ust2 : U2 -> T) (yst1 : Y1 -> T) (yst2 : Y2 -> T) (xst1 : X1 -> T) (xst2 : X2 -> T).
Variables (c1 : X1 -> Y1 -> U1 -> result X1) (c2 : X2 -> Y2 -> U2 -> result X2).
Variables (q1 : X1 -> U1 -> T -> result X1) (q2 : X2 -> U2 -> T -> result X2).
Hypothesis hu : forall u u', SU u u' -> ust2 u' = ust1 u + c.
Hypothesis hy : forall y y', SY y y' -> yst2 y' = yst1 y + c.
Hypothesis hx : forall x x', SX x x' -> xst2 x' = xst1 x + c.
Hypothesis hc : forall x x' y y' u u', SX x x' -> SY y y' -> SU u u' -> related SX (c1 x y u) (c2 x' y' u').
Hypothesis hq : forall x x' u u' t, SX x x' -> SU u u' -> related SX (q1 x u t) (q2 x' u' t).

Section Lists.
Variables (A B : Type) (S : A -> B -> Prop) (k1 : A -> T) (k2 : B -> T).
Hypothesis hk : forall a b, S a b -> k2 b = k1 a + c.
Notation FA := (List.Forall2 S).
Lemma all2_nth ys ys' y y' k : FA ys ys' -> S y y' -> S (nth y ys k) (nth y' ys' k).
Proof. by move=> h hyy; elim: h k => [|a b l l' ha _ IH] [|k] //=; exact: IH. Qed.
Lemma all2_size ys ys' : FA ys ys' -> size ys' = size ys.
Proof. by elim=> // a b l l' _ _ /= ->. Qed.
Lemma merge_related a a' b b' : FA a a' -> FA b b' ->
  FA (merge (relpre k1 <=%O) a b) (merge (relpre k2 <=%O) a' b').
Proof.
move=> h; elim: h b b' => [|x x' l l' sx hl IH] b b' hb //.
elim: hb => [|y y' m m' sy hm IHb]; first by constructor.
have e D (r : rel D) (p q : D) s t : merge r (p :: s) (q :: t) = if r p q then p :: merge r s (q :: t) else q :: merge r (p :: s) t by [].
rewrite !e [X in if X then x' :: _ else _]/= (hk sx) (hk sy) ler_add2r [X in if X then x :: _ else _]/=.
by case: ifP => _; constructor=> //; apply: IH; constructor.
Qed.
Lemma sort_related ys ys' : FA ys ys' -> FA (sort_by k1 ys) (sort_by k2 ys').
Proof.
move=> h; rewrite /sort_by !sortE.
have pu a a' ss ss' : FA a a' -> List.Forall2 FA ss ss' ->
  List.Forall2 FA (merge_sort_push (relpre k1 <=%O) a ss) (merge_sort_push (relpre k2 <=%O) a' ss').
  move=> ha hs; elim: hs a a' ha => [|b b' s s' hb hs IH] a a' ha /=; first by constructor=> //; constructor.
  case: hb => [|x x' l l' hx' hl]; first by constructor.
  by constructor; [constructor|apply: IH; apply: merge_related => //; constructor].
have po a a' ss ss' : FA a a' -> List.Forall2 FA ss ss' ->
  FA (merge_sort_pop (relpre k1 <=%O) a ss) (merge_sort_pop (relpre k2 <=%O) a' ss').
  by move=> ha hs; elim: hs a a' ha => [|b b' s s' hb hs IH] a a' ha //=; apply: IH; exact: merge_related.
suff go ss ss' : List.Forall2 FA ss ss' -> FA (sort_rec1 (relpre k1 <=%O) ss ys) (sort_rec1 (relpre k2 <=%O) ss' ys') by apply: go; constructor.
elim: h ss ss' => [|x x' l l' sx hl IH] ss ss' hs /=; first by apply: po; [constructor|].
by apply: IH; apply: pu => //; constructor=> //; constructor.
Qed.
Lemma trim_related t ys ys' : FA ys ys' -> FA (trim k1 t ys) (trim k2 (t + c) ys').
Proof.
move=> h; rewrite /trim (all2_size h).
have -> : find (fun a => t + c <= k2 a) ys' = find (fun a => t <= k1 a) ys.
  by elim: h => // a b l l' sab _ IH /=; rewrite (hk sab) ler_add2r IH.
move: (find _ ys) => i; case: ifP => // _; elim: i ys ys' h => [|k IH] ys ys' h; first by rewrite !drop0.
by case: h => [|a b l l' _ hl] /=; [constructor|exact: IH].
Qed.
End Lists.
Notation FA := (List.Forall2 SY).
Definition same_cursor (a : X1 * nat * Y1) (b : X2 * nat * Y2) : Prop := [/\ SX a.1.1 b.1.1, b.1.2 = a.1.2 & SY a.2 b.2].
Lemma while_related fuel ys ys' u u' t a b : FA ys ys' -> SU u u' -> same_cursor a b ->
  related same_cursor (while_fuse yst1 c1 fuel ys u t a) (while_fuse yst2 c2 fuel ys' u' (t + c) b).
Proof.
move=> h su; elim: fuel a b => [|k IH] [[x i] y] [[x' i'] y'] [/= sx -> sy]; rewrite (hy sy) (all2_size h) ltr_add2r;
  case: ifP => _; try by left; split.
  by right.
apply: (related_bind (hc sx sy su)) => x1 x1' sx1; apply: IH; split=> //=.
by case: ifP => // _; exact: all2_nth.
Qed.
Definition same_ocursor (a : X1 * nat * option Y1) (b : X2 * nat * option Y2) : Prop :=
  [/\ SX a.1.1 b.1.1, b.1.2 = a.1.2 & orelated SY a.2 b.2].
Lemma fuse_related ys ys' u u' t x x' k oy oy' : FA ys ys' -> SU u u' -> SX x x' -> orelated SY oy oy' ->
  related same_ocursor (fuse_pending yst1 c1 ys u t x k oy) (fuse_pending yst2 c2 ys' u' (t + c) x' k oy').
Proof.
move=> h su sx; case=> [y y' sy|]; rewrite /fuse_pending; last by left; split=> //; right.
rewrite (all2_size h); apply: related_bind (while_related _ t h su _) _; first by split.
by move=> [[x1 k1] y1] [[x2 k2] y2] [/= h1 -> h2]; left; split=> //; left.
Qed.
Lemma nth_related inp inp' k : List.Forall2 SU inp inp' -> related SU (py_nth inp k) (py_nth inp' k).
Proof.
move=> h; rewrite /py_nth; elim: h k => [|u u' l l' su _ IH] k; first by case: k; right.
by case: k => [|k] /=; [left|exact: IH].
Qed.
Lemma run_filter_related t0 x x' inp inp' ys ys' : SX x x' -> List.Forall2 SU inp inp' -> FA ys ys' ->
  related (List.Forall2 SX) (run_filter ust1 yst1 xst1 c1 q1 t0 x inp ys).1
    (run_filter ust2 yst2 xst2 c2 q2 (omap (fun t => t + c) t0) x' inp' ys').1.
Proof.
move=> sx hi h; case: t0 => [t0|]; last by right.
rewrite /run_filter /= /run_loop; have := trim_related hy t0 (sort_related hy h).
have := trim_related hu t0 (sort_related hu hi).
move: (trim yst1 _ _) (trim yst2 _ _) => ms ms' {ys ys' h}.
move: (trim ust1 _ _) (trim ust2 _ _) => ii ii' {inp inp' hi} hi h.
pose SS (a : seq X1 * X1 * nat * option Y1) (b : seq X2 * X2 * nat * option Y2) :=
  [/\ List.Forall2 SX a.1.1.1 b.1.1.1, SX a.1.1.2 b.1.1.2, b.1.2 = a.1.2 & orelated SY a.2 b.2].
apply: (@related_bind _ _ _ _ SS); last by move=> a b [hr _ _ _]; left.
rewrite (all2_size hi); apply: related_foldM; last by split=> //; [constructor|case: h => [|y y' *]; constructor].
move=> [[[r y] k] oy] [[[r' y'] k'] oy'] i [/= hr sy -> so].
apply: (related_bind (nth_related i hi)) => u u' su; apply: (related_bind (nth_related i.+1 hi)) => un un' sun.
rewrite (hu sun); apply: (related_bind (fuse_related (ust1 un) k h su sy so)) => -[[x1 k1] y1] [[x2 k2] y2] [/= s1 -> s2].
have -> : ust1 un + c - xst2 x2 = ust1 un - xst1 x1 by rewrite (hx s1) opprD addrACA subrr addr0.
apply: (related_bind (hq _ s1 su)) => x3 x4 s3; left; split=> //=.
by rewrite -!cats1; apply: List.Forall2_app => //; constructor=> //; constructor.
Qed.
End RunRelated.

Section Equivariance.
Variable R : realFieldType.
Variables (V V' : Type) (n : nat) (U U' : Type).
Variables (ustamp : U -> option R) (ustamp' : U' -> option R).
Variable chi2_99 : nat -> R.
Variables (plus : V -> 'cV[R]_n -> V) (plus' : V' -> 'cV[R]_n -> V').
(** The two clocks differ by [clk]; [SU u u'] says that u and u' are the same input. *)
Variable clk : R.
Definition shift (t : option R) : option R := omap (fun t => t + clk) t.
Variable SU : U -> U' -> Prop.
Hypothesis hstamp : forall u u', SU u u' -> ustamp' u' = shift (ustamp u).
(** The change of coordinates: [rel v v'] says that v and v' are the same state in the two
    coordinates; increments are changed by the invertible matrix [T]. *)
Variables (rel : V -> V' -> Prop) (T : 'M[R]_n).
Hypothesis uT : T \in unitmx.
Hypothesis rel_plus : forall v v' d, rel v v' -> rel (plus v d) (plus' v' (T *m d)).

Definition same_state (s : pstate R V) (s' : pstate R V') : Prop := rel (sval s) (sval s') /\ sstamp s' = shift (sstamp s).
Definition same_est (x : est R V n) (x' : est R V' n) : Prop :=
  same_state (est_state x) (est_state x') /\ est_cov x' = T *m est_cov x *m T^T.
(** Two process models are the same model in the two coordinates. *)
Definition same_process (pm : process_model R V n U) (pm' : process_model R V' n U') : Prop :=
  forall s s' u u' dt, same_state s s' -> SU u u' ->
    [/\ rel (sval (pm_eval pm s u dt)) (sval (pm_eval pm' s' u' dt)),
        pm_jac pm' s' u' dt *m T = T *m pm_jac pm s u dt &
        pm_cov pm' s' u' dt = T *m pm_cov pm s u dt *m T^T].
(** Two measurements are the same measurement in the two coordinates: the measured quantity
    may itself be expressed in other coordinates, a -> W a + w. *)
Inductive same_measurement : measurement R V n -> measurement R V' n -> Prop :=
  SameMeasurement m (W : 'M[R]_m) (w z : 'cV[R]_m) t e j c e' j' c' : W \in unitmx ->
    (forall s s', same_state s s' ->
       [/\ e' s' = omap (fun a => W *m a + w) (e s), j' s' *m T = W *m j s & c' s' = W *m c s *m W^T]) ->
    same_measurement (Measurement z t e j c) (Measurement (W *m z + w) (shift t) e' j' c').

Variables (pm : process_model R V n U) (pm' : process_model R V' n U').
Hypothesis hpm : same_process pm pm'.

Lemma conj_symmetrize P : symmetrize (T *m P *m T^T) = T *m symmetrize P *m T^T.
Proof. by rewrite /symmetrize -scalemxAr -scalemxAl mulmxDr mulmxDl !trmx_mul trmxK !mulmxA. Qed.

Lemma conj_intertwine (A B P : 'M[R]_n) : A *m T = T *m B -> A *m (T *m P *m T^T) *m A^T = T *m (B *m P *m B^T) *m T^T.
Proof. by move=> e; rewrite !mulmxA e -!mulmxA -[T^T *m A^T]trmx_mul e trmx_mul !mulmxA. Qed.

Theorem C95_ekf_predict x x' u u' dt xj xj' : same_est x x' -> orelated SU u u' -> orelated same_state xj xj' ->
  related same_est (ekf_predict ustamp pm x u dt xj) (ekf_predict ustamp' pm' x' u' dt xj').
Proof.
case: x x' => [[v st] P] [[v' st'] P'] [[/= hv ->] /= ->] hu hj; rewrite /ekf_predict /=.
apply: (@related_bind _ _ _ _ (fun t t' => t' = t + clk)).
  by case: st => [t|] /=; [left|case: hu => [w w' /hstamp ->|]; [case: (ustamp w) => [t|]; [left|right]|right]].
move=> t _ ->; apply: (related_bind (S := eq)).
  case: dt => [d|]; first exact: related_eq.
  case: hu => [w w' /hstamp ->|]; last exact: related_eq.
  by case: (ustamp w) => [tu|] /=; [left; rewrite opprD addrACA subrr addr0|right].
move=> d _ <-; case: ifP => _; first by right.
case: hu => [w w' su|]; last by left; split.
have hs : same_state (PState v st) (PState v' (shift st)) by split.
have [e1 e2 _] := hpm d hs su.
have hj' : same_state (if xj is Some s then s else PState v st) (if xj' is Some s then s else PState v' (shift st)) by case: hj.
have [_ _ ->] := hpm d hj' su.
left; split; first by split=> //=; rewrite addrAC.
rewrite /= -conj_symmetrize; congr symmetrize; rewrite mulmxDr mulmxDl; congr (_ + _).
exact: conj_intertwine.
Qed.

Lemma same_load x x' t : same_est x x' -> same_est (load_stamp x t) (load_stamp x' (shift t)).
Proof.
by case: x x' => [[v [t0|]] P] [[v' st'] P'] [[/= hv ->] /= ->].
Qed.
Lemma stamp_diff a b : a + clk - (b + clk) = a - b.
Proof. by rewrite opprD addrACA subrr addr0. Qed.
Lemma advance x x' y y' u u' : same_est x x' -> same_measurement y y' -> orelated SU u u' ->
  related same_est (ekf_advance ustamp pm x y u) (ekf_advance ustamp' pm' x' y' u').
Proof.
move=> hx + hu; case=> m W w z ty *; rewrite /ekf_advance /=.
case: ty => [ty|]; last by left.
have -> : sstamp (est_state x') = shift (sstamp (est_state x)) by case: hx => -[].
case: (sstamp _) => [tx|]; last by right.
rewrite /= stamp_diff; case: ifP => _; first by right.
case: hu => [v v' su|]; last by left.
by case: ifP => _; [apply: C95_ekf_predict => //; [left|right]|left].
Qed.

(** The quantities of an update. *)
Section Update.
Variables (m : nat) (W : 'M[R]_m) (G G' : 'M[R]_(m, n)) (Rm : 'M[R]_m).
Hypotheses (uW : W \in unitmx) (eG : G' *m T = W *m G).
Lemma innovation_cov P : G' *m (T *m P *m T^T) *m G'^T + W *m Rm *m W^T = W *m (G *m P *m G^T + Rm) *m W^T.
Proof.
rewrite mulmxDr mulmxDl; congr (_ + _).
by rewrite !mulmxA eG -!mulmxA -[T^T *m G'^T]trmx_mul eG trmx_mul !mulmxA.
Qed.
Lemma unit_conj k (A S : 'M[R]_k) : A \in unitmx -> (A *m S *m A^T \in unitmx) = (S \in unitmx).
Proof. by move=> uA; rewrite !unitmx_mul unitmx_tr uA andbT. Qed.
Lemma inv_conj k (A S : 'M[R]_k) : A \in unitmx -> S \in unitmx -> invmx (A *m S *m A^T) = (invmx A)^T *m invmx S *m invmx A.
Proof.
move=> uA uS; have u : A *m S *m A^T \in unitmx by rewrite unit_conj.
have h : (invmx A)^T *m invmx S *m invmx A *m (A *m S *m A^T) = 1%:M; last by rewrite -[LHS]mul1mx -h mulmxK.
rewrite -!mulmxA [invmx A *m _]mulmxA mulVmx // mul1mx [invmx S *m _]mulmxA mulVmx // mul1mx.
by rewrite -trmx_mul mulmxV // trmx1.
Qed.
Lemma outlier_same (z : 'cV[R]_m) S : check_outlier chi2_99 (W *m z) (W *m S *m W^T) = check_outlier chi2_99 z S.
Proof.
rewrite /check_outlier /np_solve unit_conj //; case: ifP => //= uS; congr (Ok (_ < (_ : 'M_1) _ _)).
rewrite inv_conj // trmx_mul -!mulmxA [invmx W *m _]mulmxA mulVmx // mul1mx; congr (_ *m _).
by rewrite [W^T *m _]mulmxA -trmx_mul mulVmx // trmx1 mul1mx.
Qed.
Lemma gain_moved S P : kalman_gain (W *m S *m W^T) (T *m P *m T^T) G' = rmap (fun K => T *m K *m invmx W) (kalman_gain S P G).
Proof.
rewrite /kalman_gain /np_solve.
have -> : (W *m S *m W^T)^T = W *m S^T *m W^T by rewrite !trmx_mul trmxK mulmxA.
rewrite unit_conj //; case: ifP => //= uS; congr Ok.
rewrite inv_conj // !trmx_mul !trmxK !mulmxA; congr (_ *m _ *m invmx W).
have -> : T *m P *m T^T *m G'^T = T *m P *m G^T *m W^T by rewrite -!mulmxA -trmx_mul eG trmx_mul.
by rewrite -!mulmxA -[W^T *m _]trmx_mul mulVmx // trmx1 mulmx1.
Qed.
Lemma gain_G K : T *m K *m invmx W *m G' *m T = T *m (K *m G).
Proof. by rewrite -!mulmxA eG [invmx W *m _]mulmxA mulVmx // mul1mx. Qed.
Lemma posterior_moved K P : symmetrize ((1%:M - T *m K *m invmx W *m G') *m (T *m P *m T^T)) = T *m symmetrize ((1%:M - K *m G) *m P) *m T^T.
Proof.
rewrite -conj_symmetrize; congr symmetrize.
by rewrite mulmxBl mul1mx !mulmxA gain_G mulmxBr mulmx1 [in RHS]mulmxBl [in RHS]mulmxBl !mulmxA.
Qed.
End Update.


Theorem C95_ekf_correct x x' y y' u u' xj xj' rej : same_est x x' -> same_measurement y y' -> orelated SU u u' -> orelated same_state xj xj' ->
  related same_est (ekf_correct plus ustamp pm chi2_99 x y u xj rej) (ekf_correct plus' ustamp' pm' chi2_99 x' y' u' xj' rej).
Proof.
move=> hx h hu hj; rewrite /ekf_correct.
have -> : m_stamp y' = shift (m_stamp y) by case: h.
apply: related_bind (advance (same_load (m_stamp y) hx) h hu) _ => {x x' hx} x x' hx.
have hj' : same_state (if xj is Some s then s else est_state x) (if xj' is Some s then s else est_state x').
  by case: hj => //; case: hx.
case: h => m W w z ty e j c e' j' c' uW hm /=.
have [he hG _] := hm _ _ hx.1; have [_ _ ->] := hm _ _ hj'; rewrite he; case: (e _) => [yc|] /=; last by left.
have -> : W *m z + w - (W *m yc + w) = W *m (z - yc) by rewrite mulmxBr; zmod.
rewrite hx.2 (innovation_cov _ hG) outlier_same //.
apply: (related_bind (S := eq) (related_eq _)) => -[] _ <-; first by left.
rewrite (gain_moved uW hG).
apply: related_bind (related_map (f := fun K => T *m K *m invmx W) (S := fun K K' => K' = T *m K *m invmx W) _ _) _ => // K _ ->.
left; split; last exact: posterior_moved.
split; last by case: hx => -[].
rewrite /= -[_ *m invmx W *m _]mulmxA [invmx W *m _]mulmxA mulVmx // mul1mx -mulmxA; apply: rel_plus.
by case: hx => -[].
Qed.
(** *** A whole run of run_filter(ekf, x0, inputs, measurements): the same run in the other
    coordinates, exception by exception.  (Stamps of inputs and measurements are not None, as
    the sort by stamp requires; [odflt 0] below is never read on None.) *)
Definition stamp_of W (x : est R W n) : R := odflt 0 (sstamp (est_state x)).
Definition stamp_of_y W (y : measurement R W n) : R := odflt 0 (m_stamp y).
Definition run_ekf W I (ist : I -> option R) plus pm rej (x0 : est R W n) (inputs : seq I) (ys : seq (measurement R W n)) : result (seq (est R W n)) :=
  (run_filter (fun u => odflt 0 (ist u)) (@stamp_of_y W) (@stamp_of W)
     (fun x y u => ekf_correct plus ist pm chi2_99 x y (Some u) None rej)
     (fun x u dt => ekf_predict ist pm x (Some u) (Some dt) None)
     (sstamp (est_state x0)) x0 inputs ys).1.

Definition stamped W (x : est R W n) : bool := sstamp (est_state x).
Lemma predict_stamped x u dt xj x1 : stamped x -> ekf_predict ustamp pm x u dt xj = Ok x1 -> stamped x1.
Proof.
rewrite /stamped /ekf_predict; case: x => [[v [t|]] P] //= _.
case: (match dt with Some _ => _ | _ => _ end) => [d|//] /=; case: ifP => // _.
by case: u => [u|] [<-].
Qed.
Lemma advance_stamped x y u x1 : stamped x -> ekf_advance ustamp pm x y u = Ok x1 -> stamped x1.
Proof.
rewrite /ekf_advance => hs; case: (m_stamp y) => [ty|]; last by case=> <-.
move: (hs); rewrite /stamped; case: (sstamp _) => [tx|] // _; case: ifP => // _.
case: u => [u|]; last by case=> <-.
by case: ifP => _; [exact: predict_stamped|case=> <-].
Qed.
Lemma correct_stamped x y u xj rej x1 : stamped x -> ekf_correct plus ustamp pm chi2_99 x y u xj rej = Ok x1 -> stamped x1.
Proof.
move=> hs; rewrite /ekf_correct; case ea: (ekf_advance _ _ _ _ _) => [x2|//] /=.
have h2 : stamped x2 by apply: advance_stamped ea; move: hs; rewrite /stamped /load_stamp; case es: (sstamp (est_state x)) => [t|] //= _; rewrite es.
case: (m_eval _ _) => [yc|]; last by case=> <-.
case: (if rej then _ else _) => [[]|//] /=; first by case=> <-.
by case: (kalman_gain _ _ _) => [K|//] /= [<-].
Qed.
Lemma related_and A B (S : A -> B -> Prop) (p : A -> bool) r r' : related S r r' -> (forall a, r = Ok a -> p a) ->
  related (fun a b => S a b /\ p a) r r'.
Proof. by case=> [a b h|e] hp; [left; split=> //; exact: hp|right]. Qed.
Lemma Forall2_and A B (S : A -> B -> Prop) (p : A -> bool) s s' : List.Forall2 S s s' -> all p s -> List.Forall2 (fun a b => S a b /\ p a) s s'.
Proof. by elim=> [|a b l l' h _ IH] /= => [_|/andP [pa /IH hl]]; constructor. Qed.

Theorem C95_run_filter rej x0 x0' inputs inputs' ys ys' : same_est x0 x0' ->
  List.Forall2 SU inputs inputs' -> all (fun u => ustamp u : bool) inputs ->
  List.Forall2 same_measurement ys ys' -> all (fun y => m_stamp y : bool) ys ->
  related (List.Forall2 same_est) (run_ekf ustamp plus pm rej x0 inputs ys) (run_ekf ustamp' plus' pm' rej x0' inputs' ys').
Proof.
move=> sx hi ai hm am; rewrite /run_ekf; have -> : sstamp (est_state x0') = shift (sstamp (est_state x0)) by case: sx => -[].
case e0: (sstamp (est_state x0)) => [t0|]; last by right.
pose SX x x' := same_est x x' /\ stamped x.
pose SY y y' := same_measurement y y' /\ (m_stamp y : bool).
pose SI u u' := SU u u' /\ (ustamp u : bool).
apply: (related_map2 (S := List.Forall2 SX)); first by move=> a b; elim=> [|p q l l' [hp _] _ IH]; constructor.
apply: (run_filter_related (SU := SI) (SX := SX) (SY := SY) (c := clk)).
- by move=> u u' [/hstamp ->]; case: (ustamp u).
- by move=> y y' [[m W w z t e j c e' j' c' uW hm2]]; rewrite /stamp_of_y /=; case: t.
- by move=> x x' [[[_ e] _]]; rewrite /stamped /stamp_of e; case: (sstamp _).
- move=> x x' y y' u u' [hx px] [hy _] [su _]; apply: related_and; last by move=> a; exact: correct_stamped.
  by apply: C95_ekf_correct => //; [left|right].
- move=> x x' u u' t [hx px] [su _]; apply: related_and; last by move=> a; exact: predict_stamped.
  by apply: C95_ekf_predict => //; [left|right].
- by split=> //; rewrite /stamped e0.
- exact: Forall2_and.
exact: Forall2_and.
Qed.

(** *** IteratedKalmanFilter: a change of coordinates of the increments that keeps their length
    (the step tolerance is compared with a length). *)
Section Iterated.
Variables (minus : V -> V -> 'cV[R]_n) (minus' : V' -> V' -> 'cV[R]_n).
Variables (plus_jac : V -> 'cV[R]_n -> 'M[R]_n) (plus_jac' : V' -> 'cV[R]_n -> 'M[R]_n).
Variable norm : 'cV[R]_n -> R.
Variables (step_tol : R) (line_search : bool).
Hypothesis rel_minus : forall a a' b b', rel a a' -> rel b b' -> minus' a' b' = T *m minus a b.
Hypothesis rel_jac : forall v v' d, rel v v' -> plus_jac' v' (T *m d) *m T = T *m plus_jac v d.
Hypothesis norm_T : forall d, norm (T *m d) = norm d.

Lemma iekf_advance_same x x' y y' u u' : same_est x x' -> same_measurement y y' -> orelated SU u u' ->
  related same_est (iekf_advance ustamp pm x y u) (iekf_advance ustamp' pm' x' y' u').
Proof.
move=> hx + hu; case=> m W w z ty *; rewrite /iekf_advance /=.
case: ty => [ty|]; last by left.
have -> : sstamp (est_state x') = shift (sstamp (est_state x)) by case: hx => -[].
case: (sstamp _) => [tx|]; last by right.
rewrite /= stamp_diff; case: ifP => _; first by right.
case: hu => [v v' su|]; last by left.
by case: ifP => _; [apply: C95_ekf_predict => //; [left|right]|left].
Qed.

Lemma cost_same m (W : 'M[R]_m) (P : 'M[R]_n) (Q : 'M[R]_m) e z : W \in unitmx -> P \in unitmx -> Q \in unitmx ->
  map_cost (invmx (T *m P *m T^T)) (invmx (W *m Q *m W^T)) (T *m e) (W *m z) = map_cost (invmx P) (invmx Q) e z.
Proof.
move=> uW uP uQ; rewrite /map_cost !inv_conj //; congr (_ * ((_ : 'M_1) _ _ + (_ : 'M_1) _ _)).
  rewrite trmx_mul -!mulmxA [invmx T *m _]mulmxA mulVmx // mul1mx [T^T *m _]mulmxA -trmx_mul mulVmx //.
  by rewrite trmx1 mul1mx.
rewrite trmx_mul -!mulmxA [invmx W *m _]mulmxA mulVmx // mul1mx [W^T *m _]mulmxA -trmx_mul mulVmx //.
by rewrite trmx1 mul1mx.
Qed.

Inductive same_outcome : iekf_outcome R V -> iekf_outcome R V' -> Prop :=
  | SameOutlier : same_outcome (IOutlier _ _) (IOutlier _ _)
  | SameSmall : same_outcome (ISmall _ _) (ISmall _ _)
  | SameAccepted s s' : same_state s s' -> same_outcome (IAccepted s) (IAccepted s')
  | SameRejected : same_outcome (IRejected _ _) (IRejected _ _).

Lemma backtrack_same fuel (a : R -> result (pstate R V * R)) (a' : R -> result (pstate R V' * R)) c al :
  (forall al, related (fun p q => same_state p.1 q.1 /\ q.2 = p.2) (a al) (a' al)) ->
  orelated (related (orelated same_state)) (backtrack step_tol fuel a c al) (backtrack step_tol fuel a' c al).
Proof.
move=> h; elim: fuel al => [|k IH] al /=; case: ifP => _; try by left; left; right.
  by right.
case: (h al) => [[s d] [s' d'] [/= hs ->]|e]; last by left; right.
by case: ifP => _ //; do 3 left.
Qed.

Lemma iter_same fuel x x' y y' rej xo xo' : same_est x x' -> same_measurement y y' -> same_state xo xo' ->
  orelated (related same_outcome)
    (iekf_iter plus chi2_99 minus plus_jac norm step_tol line_search fuel x y rej xo)
    (iekf_iter plus' chi2_99 minus' plus_jac' norm step_tol line_search fuel x' y' rej xo').
Proof.
move=> hx + hs; case=> m W w z ty e j c e' j' c' uW hm; rewrite /iekf_iter /innovation /=.
have [-> hG ->] := hm _ _ hs; case: (e xo) => [yc|] /=; last by left; right.
rewrite hx.2 /np_inv unit_conj //; case: ifP => uP /=; last by left; right.
rewrite unit_conj //; case: ifP => uQ /=; last by left; right.
have -> : W *m z + w - (W *m yc + w) = W *m (z - yc) by rewrite mulmxBr; zmod.
have hv : rel (sval (est_state x)) (sval (est_state x')) by case: hx => -[].
rewrite (rel_minus hs.1 hv) cost_same //.
set er := minus _ _; set J := plus_jac _ er; set J' := plus_jac' _ _.
have eJ : J' *m T = T *m J by exact: rel_jac hs.1.
rewrite (conj_intertwine _ eJ).
have sy S : symmetrize (W *m S *m W^T) = W *m symmetrize S *m W^T.
  by rewrite /symmetrize -scalemxAr -scalemxAl mulmxDr mulmxDl !trmx_mul trmxK !mulmxA.
rewrite (innovation_cov _ hG) sy outlier_same //.
case: (if rej then _ else _) => [[]|ex] /=; [by left; left; constructor|rewrite (gain_moved uW hG)|by left; right].
case: (kalman_gain _ _ _) => [K|ex] /=; last by left; right.
have -> : - (J' *m (T *m er)) + T *m K *m invmx W *m (W *m (z - yc) + j' xo' *m J' *m (T *m er)) =
  T *m (- (J *m er) + K *m (z - yc + j xo *m J *m er)).
  have -> : j' xo' *m J' *m (T *m er) = W *m (j xo *m J *m er).
    by rewrite -!mulmxA [J' *m _]mulmxA eJ -!mulmxA [j' _ *m _]mulmxA hG !mulmxA.
  rewrite -mulmxDr -[_ *m invmx W *m _]mulmxA [invmx W *m _]mulmxA mulVmx // mul1mx.
  by rewrite mulmxA eJ mulmxDr mulmxN !mulmxA.
have step d : same_state (pplus plus xo d) (pplus plus' xo' (T *m d)).
  by split; [exact: rel_plus hs.1|rewrite /= hs.2].
set dx := - _ + _; rewrite norm_T; case: ifP => _ /=; first by left; left; constructor.
case: (line_search) => /=; last by left; left; constructor.
have ha al : related (fun p q => same_state p.1 q.1 /\ q.2 = p.2)
  (attempt plus minus x (y := Measurement z ty e j c) (invmx (est_cov x)) (invmx (c xo)) xo dx al)
  (attempt plus' minus' x' (y := Measurement (W *m z + w) (shift ty) e' j' c') (invmx (T *m est_cov x *m T^T)) (invmx (W *m c xo *m W^T)) xo' (T *m dx) al).
  rewrite /attempt /innovation /=; have hst := step (al *: dx); rewrite -scalemxAr in hst.
  have [-> _ _] := hm _ _ hst; case: (e _) => [yn|] /=; last by right.
  have -> : W *m z + w - (W *m yn + w) = W *m (z - yn) by rewrite mulmxBr; zmod.
  by left; split=> //=; rewrite (rel_minus hst.1 hv) cost_same.
by case: (backtrack_same fuel _ 1 ha) => [r r' [a b [s s' ss|]|ex]|]; [left; left; constructor|left; left; constructor|left; right|right].
Qed.

Lemma loop_same iters fuel x x' y y' rej xo xo' o : same_est x x' -> same_measurement y y' -> same_state xo xo' ->
  orelated (related (fun p q => same_state p.1 q.1 /\ q.2 = p.2))
    (iekf_loop plus chi2_99 minus plus_jac norm step_tol line_search iters fuel x y rej xo o)
    (iekf_loop plus' chi2_99 minus' plus_jac' norm step_tol line_search iters fuel x' y' rej xo' o).
Proof.
move=> hx h; elim: iters xo xo' o => [|k IH] xo xo' o hs /=; first by left; left.
case: (iter_same fuel rej hx h hs) => [r r' [a b [||s s' ss|]|ex]|] /=; by [left; left|exact: IH|left; right|right].
Qed.

Theorem C95_iekf_correct iters fuel x x' y y' u u' xj xj' rej :
  same_est x x' -> same_measurement y y' -> orelated SU u u' -> orelated same_state xj xj' ->
  orelated (related same_est)
    (iekf_correct plus ustamp pm chi2_99 minus plus_jac norm step_tol line_search iters fuel x y u xj rej)
    (iekf_correct plus' ustamp' pm' chi2_99 minus' plus_jac' norm step_tol line_search iters fuel x' y' u' xj' rej).
Proof.
move=> hx h hu hj; rewrite /iekf_correct.
have -> : m_stamp y' = shift (m_stamp y) by case: h.
case: (iekf_advance_same (same_load (m_stamp y) hx) h hu) => [{x x' hx} x x' hx|ex]; last by left; right.
case: (loop_same iters fuel rej None hx h hx.1) => [r r' [[xo o] [xo' o'] [/= hs ->]|ex]|]; [|by left; right|by right].
case: o => [[]|]; last by left; right.
  by left; left; split; [case: hx|rewrite /= hx.2 conj_symmetrize].
left; have hj' : same_state (if xj is Some s then s else xo) (if xj' is Some s then s else xo') by case: hj.
case: h => m W w z ty e j c e' j' c' uW hm /=.
have [_ hG ->] := hm _ _ hj'.
have hv : rel (sval (est_state x)) (sval (est_state x')) by case: hx => -[].
rewrite (rel_minus hs.1 hv) hx.2; set er := minus _ _; set J := plus_jac _ er; set J' := plus_jac' _ _.
have eJ : J' *m T = T *m J by exact: rel_jac hs.1.
rewrite (conj_intertwine _ eJ).
have sy S : symmetrize (W *m S *m W^T) = W *m symmetrize S *m W^T.
  by rewrite /symmetrize -scalemxAr -scalemxAl mulmxDr mulmxDl !trmx_mul trmxK !mulmxA.
rewrite (innovation_cov _ hG) sy (gain_moved uW hG).
apply: related_bind (related_map (f := fun K => T *m K *m invmx W) (S := fun K K' => K' = T *m K *m invmx W) _ _) _ => // K _ ->.
by left; split=> //=; exact: posterior_moved.
Qed.
End Iterated.
End Equivariance.
