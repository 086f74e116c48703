(** C96: nothing depends on the origin or on the unit of time. *)
From mathcomp Require Import all_ssreflect all_algebra.
From Verif Require Import Base Tac RunFilterModel UtilsModel DatagenModel EquivarianceProps.
Set Implicit Arguments.
Unset Strict Implicit.
Unset Printing Implicit Defensive.
Import Order.Theory GRing.Theory Num.Theory.
Local Open Scope ring_scope.

(** ** Sorting related lists by related orders *)
Section Sort.
Variables (A B : Type) (S : A -> B -> Prop) (r1 : rel A) (r2 : rel B).
Hypothesis hr : forall a a' b b', S a b -> S a' b' -> r2 b b' = r1 a a'.
Notation FA := (List.Forall2 S).
Lemma merge_rel a a' b b' : FA a a' -> FA b b' -> FA (merge r1 a b) (merge r2 a' b').
Proof.
move=> h; elim: h b b' => [|x x' l l' sx hl IH] b b' hb //.
elim: hb => [|y y' m m' sy hm IHb]; first by constructor.
have e D (r : rel D) (p q : D) s t : merge r (p :: s) (q :: t) = if r p q then p :: merge r s (q :: t) else q :: merge r (p :: s) t by [].
rewrite !e (hr sx sy); case: ifP => _; constructor=> //; apply: IH; constructor => //.
Qed.
Lemma sort_rel ys ys' : FA ys ys' -> FA (sort r1 ys) (sort r2 ys').
Proof.
move=> h; rewrite !sortE.
have pu a a' ss ss' : FA a a' -> List.Forall2 FA ss ss' -> List.Forall2 FA (merge_sort_push r1 a ss) (merge_sort_push r2 a' ss').
  move=> ha hs; elim: hs a a' ha => [|b b' s s' hb hs IH] a a' ha /=; first by constructor=> //; constructor.
  case: hb => [|x x' l l' hx' hl]; first by constructor.
  by constructor; [constructor|apply: IH; apply: merge_rel => //; constructor].
have po a a' ss ss' : FA a a' -> List.Forall2 FA ss ss' -> FA (merge_sort_pop r1 a ss) (merge_sort_pop r2 a' ss').
  by move=> ha hs; elim: hs a a' ha => [|b b' s s' hb hs IH] a a' ha //=; apply: IH; exact: merge_rel.
suff go ss ss' : List.Forall2 FA ss ss' -> FA (sort_rec1 r1 ss ys) (sort_rec1 r2 ss' ys') by apply: go; constructor.
elim: h ss ss' => [|x x' l l' sx hl IH] ss ss' hs /=; first by apply: po; [constructor|].
by apply: IH; apply: pu => //; constructor=> //; constructor.
Qed.
End Sort.
Lemma Forall2_map A B (f : A -> B) l l' : List.Forall2 (fun a b => b = f a) l l' <-> l' = map f l.
Proof.
split; first by elim=> //= a b s s' -> _ ->.
by move=> ->; elim: l => [|a l IH] /=; constructor.
Qed.
(** Sorting commutes with a change of the elements that respects the order. *)
Lemma sort_map_rel A B (f : A -> B) (r1 : rel A) (r2 : rel B) s :
  (forall a b, r2 (f a) (f b) = r1 a b) -> sort r2 (map f s) = map f (sort r1 s).
Proof.
by move=> h; apply/Forall2_map; apply: sort_rel; [move=> a a' b b' -> ->; exact: h|exact/Forall2_map].
Qed.

(** ** The helpers: stamps t replaced by s t + c, durations by s times themselves *)
Section Assoc.
Variable R : realDomainType.
Variables (s c : R).
Hypothesis s0 : 0 < s.
Definition retime (t : R) : R := s * t + c.
Lemma retimeE t : retime t = s * t + c. Proof. by []. Qed.
Lemma retime_le a b : (retime a <= retime b) = (a <= b).
Proof. by rewrite /retime ler_add2r ler_pmul2l. Qed.
Lemma retime_lt a b : (retime a < retime b) = (a < b).
Proof. by rewrite /retime ltr_add2r ltr_pmul2l. Qed.
Lemma retime_diff a b : retime a - retime b = s * (a - b).
Proof. by rewrite /retime mulrBr opprD addrACA subrr addr0. Qed.

Lemma gap_retime o a b : gap (s * o) (retime a) (retime b) = s * gap o a b.
Proof.
rewrite /gap opprD addrA retime_diff -mulrBr normrM gtr0_norm // opprD.
by rewrite addrA.
Qed.
Lemma pmap_retime (o m : R) (ia : nat * R) l :
  pmap (fun jb : nat * R => if gap (s * o) (retime ia.2) jb.2 < s * m then Some (gap (s * o) (retime ia.2) jb.2, (ia.1, jb.1)) else None)
    [seq (jb.1, retime jb.2) | jb <- l] =
  [seq (s * p.1, p.2) | p <- pmap (fun jb : nat * R => if gap o ia.2 jb.2 < m then Some (gap o ia.2 jb.2, (ia.1, jb.1)) else None) l].
Proof.
elim: l => [|jb l IH] //=; rewrite IH gap_retime ltr_pmul2l //.
by case: ifP.
Qed.
Lemma zip_retime (l : seq nat) (t : seq R) : zip l (map retime t) = [seq (p.1, retime p.2) | p <- zip l t].
Proof. by elim: l t => [|a l IH] [|b t] //=; rewrite IH. Qed.
Lemma assoc_foldl (cs : seq (R * (nat * nat))) st : foldl (@assoc_step R) st [seq (s * p.1, p.2) | p <- cs] = foldl (@assoc_step R) st cs.
Proof. by elim: cs st => [|p cs IH] st //=; rewrite IH. Qed.

Theorem C96_associate_stamps (first second : seq R) (offset maxd : R) :
  associate_stamps (map retime first) (map retime second) (s * offset) (s * maxd) = associate_stamps first second offset maxd.
Proof.
rewrite /associate_stamps !size_map.
have -> : potential_matches (s * offset) (s * maxd) (map retime first) (map retime second) =
          [seq (s * p.1, p.2) | p <- potential_matches offset maxd first second].
  rewrite /potential_matches size_map size_map !zip_retime.
  rewrite map_flatten -!map_comp; congr flatten; apply: eq_map => ia /=.
  exact: pmap_retime.
rewrite (sort_map_rel (r1 := @le3 R)) ?assoc_foldl // => p q.
by rewrite /le3 /= ltr_pmul2l // (inj_eq (mulfI (lt0r_neq0 s0))).
Qed.
End Assoc.

Section Field.
Variable R : realFieldType.
Variables (s c : R).
Hypothesis s0 : 0 < s.
Notation retime := (retime s c).

Theorem C96_schedule n (freq : R) : schedule_sequential n (freq / s) = rmap (fun p => (map ( *%R s) p.1, p.2 / s)) (schedule_sequential n freq).
Proof.
rewrite /schedule_sequential mulf_eq0 invr_eq0 (gt_eqF s0) orbF.
case: ifP => // _; case: ifP => // _ /=; congr (Ok (_, _)); last by rewrite mulrAC.
rewrite -map_comp; apply: eq_map => i /=.
by rewrite !mul1r invfM invrK [RHS]mulrCA [s * _]mulrC.
Qed.

(** queries *)
Definition requery (q : query R) : query R :=
  match q with QFloat t => QFloat (retime t) | QNumber t => QNumber (retime t) | QList ts => QList (map retime ts) end.
Lemma half_retime a b : retime a / 2%:R + retime b / 2%:R = retime (a / 2%:R + b / 2%:R).
Proof.
rewrite !retimeE mulrDr -!mulrDl addrACA -mulrDr mulrDl -mulrA; congr (_ + _).
  by rewrite mulrDl mulrDr.
by rewrite -mulr2n -mulr_natr mulfK // pnatr_eq0.
Qed.
Lemma midpoints_retime xs : midpoints (map retime xs) = map retime (midpoints xs).
Proof.
rewrite /midpoints; have e : behead (map retime xs) = map retime (behead xs) by case: xs.
rewrite e -[zip _ _]/(zip (map retime xs) _) .
have -> : zip (map retime xs) (map retime (behead xs)) = [seq (retime p.1, retime p.2) | p <- zip xs (behead xs)].
  by move: (behead xs) => ys {e}; elim: xs ys => [|a l IH] [|b m] //=; rewrite IH.
rewrite -!map_comp; apply: eq_map => p /=; exact: half_retime.
Qed.
Lemma nearest_retime stamps q : nearest (map retime stamps) (retime q) = nearest stamps q.
Proof.
rewrite /nearest size_map.
case: stamps => [|t ts] //; congr Ok.
move: (t :: ts) => l {t ts}.
have -> : zip (map retime l) (iota 0 (size l)) = [seq (retime p.1, p.2) | p <- zip l (iota 0 (size l))].
  by move: (iota _ _) => i; elim: l i => [|a l IH] [|b i] //=; rewrite IH.
rewrite (sort_map_rel (r1 := @by_stamp R)); last by move=> a b; rewrite /by_stamp /= retime_le.
move: (sort _ _) => z; rewrite -map_comp.
have -> : [seq (fst \o (fun p : R * nat => (retime p.1, p.2))) i | i <- z] = map retime [seq p.1 | p <- z] by rewrite -map_comp.
rewrite midpoints_retime count_map.
under eq_count => m do rewrite /= retime_lt //.
move: (count _ _) => k; case: (ltnP k (size z)) => h; first by rewrite (nth_map (0, 0%N)).
by rewrite !nth_default ?size_map.
Qed.
Theorem C96_nearest_stamp stamps q : find_nearest_stamp_idx (map retime stamps) (requery q) = find_nearest_stamp_idx stamps q.
Proof.
have e ts : mapM (nearest (map retime stamps)) (map retime ts) = mapM (nearest stamps) ts.
  by elim: ts => [|t ts IH] //=; rewrite nearest_retime IH.
case: q => [t|t|ts] /=; rewrite ?nearest_retime // e.
by case: stamps {e}.
Qed.

Section Interp.
Variables (V : Type) (n : nat).
Variable plus : V -> 'cV[R]_n -> V.
Variable minus : V -> V -> 'cV[R]_n.
Definition restate (x : sstate R V) : sstate R V := (x.1, retime x.2).
Definition resquery (q : squery R) : squery R :=
  match q with SFloat t => SFloat (retime t) | SList ts => SList (map retime ts) | SInt t => SInt (retime t) | SObject t => SObject (retime t) end.
Lemma sorted_count (xs : seq R) q : sorted <=%R xs -> (0 < size xs)%N -> nth 0 xs 0 <= q -> q < nth 0 xs (size xs).-1 ->
  (0 < count (fun x => (x <= q)%R) xs < size xs)%N.
Proof.
move=> _ h0 h1 h2; apply/andP; split.
  by rewrite -has_count; apply/hasP; exists (nth 0 xs 0) => //; exact: mem_nth.
rewrite ltn_neqAle count_size andbT; apply/negP => /eqP e.
move/eqP: e; rewrite -all_count => /allP /(_ (nth 0 xs (size xs).-1)).
rewrite mem_nth ?prednK // => /(_ isT); by rewrite leNgt h2.
Qed.
Lemma np_interp_retime xs q : sorted <=%R xs -> (0 < size xs)%N -> np_interp (map retime xs) (retime q) = np_interp xs q.
Proof.
move=> hs h0; rewrite /np_interp size_map.
have en i : (i < size xs)%N -> nth 0 (map retime xs) i = retime (nth 0 xs i) by move=> h; rewrite (nth_map 0).
rewrite (en 0%N) // (en (size xs).-1) ?ltn_predL // retime_lt // retime_le //.
case: ltP => // h1; case: leP => // h2.
have /andP[c0 c1] := sorted_count hs h0 h1 h2.
rewrite count_map; under eq_count => x do rewrite /= retime_le //.
move: c0 c1; set k := count _ _ => c0 c1.
have h : (k.-1 < size xs)%N by exact: leq_ltn_trans (leq_pred _) c1.
rewrite [k.-1.+1]prednK // (en k) // (en k.-1) // !retime_diff.
by rewrite -mulf_div divff ?mul1r ?gt_eqF.
Qed.
Lemma interp_one_retime states q : (0 < size states)%N ->
  interp_one plus minus (map restate states) (retime q) = rmap restate (interp_one plus minus states q).
Proof.
move=> h0; rewrite /interp_one.
have -> : [seq s.2 | s <- map restate states] = map retime [seq s.2 | s <- states] by rewrite -!map_comp.
rewrite (sort_map_rel (r1 := <=%R)); last by move=> a b; rewrite retime_le.
set xs := sort _ _; have sx : size xs = size states by rewrite size_sort size_map.
have hs : sorted <=%R xs by rewrite sort_sorted //; exact: le_total.
rewrite size_map np_interp_retime ?sx //.
set lo := np_floor _ _.
have en i : (i < size states)%N -> nth 0 (map retime xs) i = retime (nth 0 xs i) by move=> h; rewrite (nth_map 0) ?sx.
rewrite (en 0%N) // retime_lt //.
have py i : py_nth (map restate states) i = rmap restate (py_nth states i).
  by rewrite /py_nth; elim: states i {h0 xs sx hs lo en} => [|a l IH] [|i] //=.
rewrite py; case el : (py_nth states lo) => [sl|e] //=.
have hlo : (lo < size states)%N.
  by move: el; rewrite /py_nth; elim: (states) (lo) => [|a l IH] [|i] //= /IH.
set up := if _ then _ else _.
have hup : (up < size states)%N by rewrite /up; case: eqP => [_|/eqP h]; [rewrite prednK|rewrite ltn_neqAle h].
rewrite py; case eu : (py_nth states up) => [su|e] //=.
rewrite !en // !retime_diff mulf_eq0 (gt_eqF s0) /=.
case: ifP => h; first by [].
have ea : (if ~~ ((q < nth 0 xs 0) || (size states <= lo.+1)%N) then s * (q - nth 0 xs lo) / (s * (nth 0 xs up - nth 0 xs lo)) else 0) =
          (if ~~ ((q < nth 0 xs 0) || (size states <= lo.+1)%N) then (q - nth 0 xs lo) / (nth 0 xs up - nth 0 xs lo) else 0).
  by case: ifP => // _; rewrite -mulf_div divff ?mul1r ?gt_eqF.
by rewrite ea; case: ifP.
Qed.
Theorem C96_interp q states :
  state_interp plus minus (resquery q) (map restate states) = rmap (map restate) (state_interp plus minus q states).
Proof.
have e1 t : states <> [::] -> interp_one plus minus (map restate states) (retime t) = rmap restate (interp_one plus minus states t).
  by move=> h; apply: interp_one_retime; case: (states) h.
have em ts : states <> [::] -> mapM (interp_one plus minus (map restate states)) (map retime ts) = rmap (map restate) (mapM (interp_one plus minus states) ts).
  move=> hn; elim: ts => [|t ts IH] //=; rewrite e1 //.
  by case: (interp_one _ _ _ _) => //= x; rewrite IH; case: (mapM _ _).
have ns : states = [::] \/ states <> [::] by case: (states); [left|right].
case: ns => [->|hn]; first by case: q.
have hh (A B : Type) (l : seq A) (x y : B) : l <> [::] -> (if l is [::] then x else y) = y by case: l.
have hm : map restate states <> [::] by case: (states) hn.
case: q => [t|ts|t|t] //=; rewrite !hh ?em // e1 //.
by case: (interp_one _ _ _ _).
Qed.
End Interp.
End Field.

(** ** The data generator *)
Section Datagen.
Variable T : archiFieldType.
Variables (s c : T).
Hypothesis s0 : 0 < s.
Notation retime := (retime s c).
Lemma arange_retime a b p : arange (retime a) (retime b) (s * p) = map retime (arange a b p).
Proof.
rewrite /arange /arange_len retime_diff -mulf_div divff ?mul1r ?gt_eqF //.
rewrite -map_comp; apply: eq_map => i /=.
by rewrite !retimeE mulrDr addrAC mulrCA.
Qed.
Variables (X X' U U' Y Y' M M' : Type).
Variables (SX : X -> X' -> Prop) (SU : U -> U' -> Prop) (SY : Y -> Y' -> Prop) (SM : M -> M' -> Prop).
Variables (xstamp : X -> T) (xstamp' : X' -> T) (restamp : X -> T -> X) (restamp' : X' -> T -> X') (ustamp : U -> T) (ustamp' : U' -> T).
Variables (f : X -> U -> T -> result X) (f' : X' -> U' -> T -> result X').
Variables (uin : T -> X -> U) (uin' : T -> X' -> U').
Variables (meval : M -> X -> option Y) (meval' : M' -> X' -> option Y').
Variable rnd : T -> T.
Variables (nu : nat -> U -> U) (nu' : nat -> U' -> U') (ny : nat -> Y -> Y) (ny' : nat -> Y' -> Y').
(** the two descriptions of the problem *)
Hypothesis hx : forall x x', SX x x' -> xstamp' x' = retime (xstamp x).
Hypothesis hu : forall u u', SU u u' -> ustamp' u' = retime (ustamp u).
Hypothesis hrestamp : forall x x' t, SX x x' -> SX (restamp x t) (restamp' x' (retime t)).
Hypothesis hf : forall x x' u u' dt, SX x x' -> SU u u' -> related SX (f x u dt) (f' x' u' (s * dt)).
Hypothesis hin : forall t x x', SX x x' -> SU (uin t x) (uin' (retime t) x').
Hypothesis hm : forall m m' x x', SM m m' -> SX x x' -> orelated SY (meval m x) (meval' m' x').
Hypothesis hrnd : forall t, rnd (retime t) = retime (rnd t).
Hypothesis hnu : forall k u u', SU u u' -> SU (nu k u) (nu' k u').
Hypothesis hny : forall k y y', SY y y' -> SY (ny k y) (ny' k y').
(** a model, its frequency and its offset *)
Definition same_info (i : M * T * T) (i' : M' * T * T) : Prop := [/\ SM i.1.1 i'.1.1, i'.1.2 = i.1.2 / s & i'.2 = s * i.2].
Definition same_meas (m : meas T Y M) (m' : meas T Y' M') : Prop :=
  [/\ orelated SY (me_val m) (me_val m'), me_stamp m' = retime (me_stamp m) & SM (me_model m) (me_model m')].

Lemma sort_by_rel A B (S : A -> B -> Prop) (k1 : A -> T) (k2 : B -> T) l l' : (forall a b, S a b -> k2 b = retime (k1 a)) ->
  List.Forall2 S l l' -> List.Forall2 S (sort_by k1 l) (sort_by k2 l').
Proof. by move=> hk; apply: sort_rel => a a' b b' /hk h1 /hk h2 /=; rewrite h1 h2 retime_le. Qed.
Lemma related_mapM A A' B B' (SA : A -> A' -> Prop) (SB : B -> B' -> Prop) g g' l l' :
  (forall a a', SA a a' -> related SB (g a) (g' a')) -> List.Forall2 SA l l' -> related (List.Forall2 SB) (mapM g l) (mapM g' l').
Proof.
move=> hg; elim=> [|a a' m m' ha _ IH] /=; first by left; constructor.
apply: (related_bind (hg _ _ ha)) => b b' hb; apply: (related_bind IH) => bs bs' hbs.
by left; constructor.
Qed.
Lemma period_retime p : period (p / s) = rmap ( *%R s) (period p).
Proof.
rewrite /period mulf_eq0 invr_eq0 (gt_eqF s0) orbF; case: ifP => //= _.
by rewrite invfM invrK mulrC.
Qed.
Lemma plan_related infos infos' t0 tl : List.Forall2 same_info infos infos' ->
  related (List.Forall2 same_meas) (plan Y rnd infos t0 tl) (plan Y' rnd infos' (retime t0) (retime tl)).
Proof.
move=> h; rewrite /plan.
apply: (related_bind (S := List.Forall2 (List.Forall2 same_meas))).
  apply: related_mapM h => -[[m p] o] [[m' p'] o'] [/= sm -> ->].
  rewrite /empty_meas period_retime; case: (period p) => [q|e] /=; last by right.
  have -> : retime t0 + s * o = retime (t0 + o) by rewrite !retimeE mulrDr addrAC.
  rewrite arange_retime; left; elim: (arange _ _ _) => [|a l IH] /=; constructor=> //.
  split=> //=; rewrite ?hrnd //; right.
move=> l l' hl; left; apply: sort_by_rel; first by move=> a b [].
elim: hl => [|a b m m' hab _ IH] //=; exact: List.Forall2_app.
Qed.
Definition same_filled (a : X * seq (meas T Y M) * seq (meas T Y M)) (b : X' * seq (meas T Y' M') * seq (meas T Y' M')) : Prop :=
  [/\ SX a.1.1 b.1.1, List.Forall2 same_meas a.1.2 b.1.2 & List.Forall2 same_meas a.2 b.2].
Lemma fill_related j x x' u u' tn p p' : SX x x' -> SU u u' -> List.Forall2 same_meas p p' ->
  related same_filled (fill xstamp restamp f meval ny j x u tn p) (fill xstamp' restamp' f' meval' ny' j x' u' (retime tn) p').
Proof.
move=> sx su h; elim: h j x x' sx => [|m m' r r' hmm hr IH] j x x' sx /=.
  by left; split=> //=; constructor.
have [_ hs hmd] := hmm; rewrite hs retime_lt //; case: ifP => _; last by left; split=> //; constructor.
rewrite (hx sx) retime_diff; apply: (related_bind (hf _ sx su)) => y y' sy.
have hrs := hrestamp (me_stamp m) sy.
case: (hm hmd hrs) => [v v' sv|]; last by right.
apply: (related_bind (IH j.+1 _ _ hrs)) => -[[x2 fl] rs] [[x2' fl'] rs'] [/= h1 h2 h3].
left; split=> //=; constructor=> //; split=> //=; left; exact: hny.
Qed.
Definition same_run (a : seq X * seq U * seq (meas T Y M)) (b : seq X' * seq U' * seq (meas T Y' M')) : Prop :=
  [/\ List.Forall2 SX a.1.1 b.1.1, List.Forall2 SU a.1.2 b.1.2 & List.Forall2 same_meas a.2 b.2].
Lemma Forall2_size A B (S : A -> B -> Prop) l l' : List.Forall2 S l l' -> size l' = size l.
Proof. by elim=> // a b m m' _ _ /= ->. Qed.
Lemma steps_related k j t x x' ts p p' : SX x x' -> List.Forall2 same_meas p p' ->
  related same_run (steps xstamp restamp f uin meval nu ny k j t x ts p)
                   (steps xstamp' restamp' f' uin' meval' nu' ny' k j (retime t) x' (map retime ts) p').
Proof.
elim: ts k j t x x' p p' => [|tn r IH] k j t x x' p p' sx hp.
  by left; split=> //=; constructor.
rewrite /=; have su := hin t sx.
apply: (related_bind (fill_related j tn sx su hp)) => -[[x1 fl] rs] [[x1' fl'] rs'] [/= h1 h2 h3].
rewrite (hx h1) retime_diff; apply: (related_bind (hf _ h1 su)) => x2 x2' s2.
have hrs := hrestamp tn s2; rewrite (Forall2_size h2).
apply: (related_bind (IH k.+1 _ tn _ _ _ _ hrs h3)) => -[[xs us] ms] [[xs' us'] ms'] [/= g1 g2 g3].
left; split=> /=; [by constructor|constructor=> //; exact: hnu|exact: List.Forall2_app].
Qed.

(** DataGenerator.generate: the same states, inputs and measurements, at the new times. *)
Theorem C96_generate infos infos' p x0 x0' start stop : SX x0 x0' -> List.Forall2 same_info infos infos' ->
  related same_run (generate xstamp restamp ustamp f uin meval rnd nu ny infos p x0 start stop)
                   (generate xstamp' restamp' ustamp' f' uin' meval' rnd nu' ny' infos' (p / s) x0' (retime start) (retime stop)).
Proof.
move=> sx hi; rewrite /generate period_retime; case: (period p) => [q|e] /=; last by right.
rewrite arange_retime.
have -> : map rnd (map retime (arange start stop q)) = map retime (map rnd (arange start stop q)).
  by rewrite -!map_comp; apply: eq_map => t /=; rewrite hrnd.
case: (map rnd _) => [|t0 ts] /=; first by right.
rewrite last_map; apply: (related_bind (plan_related t0 _ hi)) => pd pd' hpd.
have hr := hrestamp t0 sx.
apply: (related_bind (steps_related 0 0 t0 ts hr hpd)) => -[[xs us] ms] [[xs' us'] ms'] [/= h1 h2 h3].
left; split=> /=; apply: sort_by_rel => //; first by constructor.
by move=> a b [].
Qed.
End Datagen.

(** ** The hypotheses are met: a robot on a line, observed in other units and from another epoch *)
Section Witness.
Variable T : archiFieldType.
Variables (s c : T).
Hypothesis s0 : 0 < s.
(** a state: position and stamp; an input: velocity and stamp; a measurement model: a landmark position *)
Definition line_step (x u : T * T) (dt : T) : result (T * T) := if dt < 0 then Raise RuntimeError else Ok (x.1 + u.1 * dt, x.2).
Definition line_measure (m : T) (x : T * T) : option T := Some (m - x.1).
(** velocity commanded by feedback: -k x *)
Definition line_input (k : T) (t : T) (x : T * T) : T * T := (- k * x.1, t).
Definition same_pos (x x' : T * T) := x'.1 = x.1 /\ x'.2 = retime s c x.2.
Definition same_vel (u u' : T * T) := u'.1 = u.1 / s /\ u'.2 = retime s c u.2.

Example C96_generate_witness k m freq off p x0 start stop :
  related (same_run s c same_pos same_vel eq eq)
    (generate snd (fun x t => (x.1, t)) snd line_step (line_input k) line_measure id (fun _ u => u) (fun j y => y + j%:R)
       [:: (m, freq, off)] p (x0, 0) start stop)
    (generate snd (fun x t => (x.1, t)) snd line_step (line_input (k / s)) line_measure id (fun _ u => u) (fun j y => y + j%:R)
       [:: (m, freq / s, s * off)] (p / s) (x0, retime s c 0) (retime s c start) (retime s c stop)).
Proof.
apply: C96_generate => //.
- by move=> x x' [].
- by move=> u u' [].
- by move=> x x' t [].
- move=> [x t] [x' t'] [u a] [u' a'] dt [/= -> ->] [/= -> ->]; rewrite /line_step /= pmulr_rlt0 //.
  by case: ifP => _; [right|left; split=> //=; rewrite mulrA divfK // gt_eqF].
- by move=> t [x a] [x' a'] [/= -> ->]; rewrite /line_input; split=> //=; rewrite !mulNr mulrAC.
- by move=> a a' [x t] [x' t'] -> [/= -> _]; left.
- by move=> j y y' ->.
- by constructor=> //; constructor.
Qed.
End Witness.
(** Seconds and milliseconds, and an epoch 5000 s earlier. *)
Example C96_associate_witness (first second : seq rat) (offset maxd : rat) :
  associate_stamps (map (fun t => 1000%:R * t + 5000%:R) first) (map (fun t => 1000%:R * t + 5000%:R) second) (1000%:R * offset) (1000%:R * maxd) =
  associate_stamps first second offset maxd.
Proof. by apply: (C96_associate_stamps (R := [realDomainType of rat]) (s := 1000%:R) (5000%:R)); rewrite ltr0n. Qed.

Print Assumptions C96_associate_stamps.
Print Assumptions C96_schedule.
Print Assumptions C96_nearest_stamp.
Print Assumptions C96_interp.
Print Assumptions C96_generate.
