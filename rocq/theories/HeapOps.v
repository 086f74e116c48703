(** The library's process models and filters only write into memory they created. *)
From mathcomp Require Import all_ssreflect.
From Verif Require Import Base HeapModel HeapProof.
Set Implicit Arguments.
Unset Strict Implicit.
Unset Printing Implicit Defensive.

Section Ops.
Variables (V M : Type) (id_pose id_gyro id_accel : M).
Notation heap := (heap V M).
Notation obj := (obj V M).
Notation copy := (@copy V M id_pose id_gyro id_accel).
Implicit Types h : heap.
Tactic Notation "ub" ident(x) ident(e) := let H := fresh "H" in intro H; destruct (bindOk H) as [x e H']; clear H; revert H'; cbv beta.
Tactic Notation "ok" := let H := fresh "H" in intro H; apply OkI in H; rewrite -H; clear H.

(** from [h] to [h'] nothing below [k] changes and what was new stays new *)
Definition step (k : nat) h h' : Prop :=
  [/\ k <= size h, size h <= size h', wf h', forall a, a < k -> get h' a = get h a
    & (forall a, new_since k h a -> new_since k h' a) /\ forall a c, has_cls h a c -> has_cls h' a c].
Lemma step_refl k h : wf h -> k <= size h -> step k h h.
Proof. by []. Qed.
Lemma step_trans k h1 h2 h3 : step k h1 h2 -> step k h2 h3 -> step k h1 h3.
Proof.
move=> [k1 s1 w1 g1 [n1 c1]] [k2 s2 w2 g2 [n2 c2]]; split=> //; first exact: leq_trans s2.
  by move=> a al; rewrite g2 ?g1.
by split=> [a /n1 /n2|a c /c1 /c2].
Qed.
Lemma untouched_step k h h' : wf h -> wf h' -> k <= size h -> untouched h h' -> step k h h'.
Proof.
move=> w w' kl u; case: (u) => s g; split=> //; first by move=> a al; apply: g; exact: leq_trans kl.
split=> [a|a c [o ga e]]; first exact: new_since_ext.
by exists o => //; rewrite g //; exact: get_lt ga.
Qed.
Lemma good_step k h h' a : wf h -> k <= size h -> good h h' a -> step k h h' /\ new_since k h' a.
Proof.
by move=> w kl [u w' n]; split; [exact: untouched_step|exact: new_since_le n].
Qed.
Lemma put_step k h a (o o0 : obj) : wf h -> k <= size h -> new_since k h a -> get h a = Some o0 -> ocls o = ocls o0 ->
  (forall b, b \in orefs o -> new_since k h b) -> step k h (put h a o).
Proof.
move=> w kl [al ka] g0 ec ho; split=> //.
- by rewrite size_put.
- move=> x o' y; rewrite size_put // get_put //; case: eqP => [_ [<-] /ho[]//|_]; exact: w.
- move=> b bl; rewrite get_put //; case: eqP => // e; have := ka a (reach_refl h a); by rewrite -e leqNgt bl.
split=> [b [bl kb]|b c [o' gb eb]].
  split=> [|c rc]; first by rewrite size_put.
  elim: rc bl kb => [x _ kx|x o' y d gx yi _ IH xl kx]; first by apply: kx; exact: reach_refl.
  move: gx; rewrite get_put //; case: eqP => [_ [eo]|_ gx].
    by have [|yl ky] := ho y; [rewrite eo|exact: IH].
  by apply: IH; [exact: w gx yi|move=> e re; apply: kx; exact: reach_step gx yi re].
have bl := get_lt gb; rewrite /has_cls get_put //; case: eqP => [e|_]; last by exists o'.
by exists o => //; rewrite ec -eb; move: gb; rewrite e g0 => -[->].
Qed.
Lemma new_refs k h a (o : obj) b : wf h -> new_since k h a -> get h a = Some o -> b \in orefs o -> new_since k h b.
Proof.
move=> w [al ka] g bi; split; first exact: w g bi.
by move=> c rc; apply: ka; exact: reach_step g bi rc.
Qed.
Lemma mem_set_nth (s : seq nat) i r x : x \in set_nth r s i r -> x \in s \/ x = r.
Proof.
elim: s i => [|y s IH] [|i] /=.
- by rewrite inE => /eqP ->; right.
- move=> H; right; move: H; rewrite inE => /orP[/eqP //|].
  by elim: i => [|i IHi] /=; rewrite inE; [move/eqP|case/orP => [/eqP|]].
- by rewrite inE => /orP[/eqP ->|xi]; [right|left; rewrite inE xi orbT].
- rewrite inE => /orP[/eqP ->|/IH[xi|->]]; [left|left|by right]; by rewrite inE ?eqxx ?xi ?orbT.
Qed.
Lemma set_ref_step k h a i r h' : wf h -> k <= size h -> new_since k h a -> new_since k h r ->
  set_ref h a i r = Ok h' -> step k h h'.
Proof.
move=> w kl na nr; ub o g; ok; have {}g := getrOk g; apply: (put_step w kl na g) => // b /= /mem_set_nth[bi|-> //].
exact: new_refs na g bi.
Qed.
Lemma set_stamp_step k h a t h' : wf h -> k <= size h -> new_since k h a -> set_stamp h a t = Ok h' -> step k h h'.
Proof.
move=> w kl na; ub o g; ok; have {}g := getrOk g; apply: (put_step w kl na g) => // b /= bi.
exact: new_refs na g bi.
Qed.
Lemma write_array_step k h a d h' : wf h -> k <= size h -> new_since k h a -> write_array h a d = Ok h' -> step k h h'.
Proof.
move=> w kl na; ub o g; ub b bi; ub ob gb; ok; have {}g := getrOk g; have {}gb := getrOk gb.
have nb := new_refs w na g (refOk bi).
apply: (put_step w kl nb gb) => // c /= ci; exact: new_refs nb gb ci.
Qed.
Lemma new_array_step k h d : wf h -> k <= size h -> step k h (new_array h d).1 /\ new_since k (new_array h d).1 (new_array h d).2.
Proof. by move=> w kl; apply: good_step => //; exact: new_array_good. Qed.
Lemma step_good h h' a : step (size h) h h' -> new_since (size h) h' a -> good h h' a.
Proof. by move=> [_ s w g _] n. Qed.
Lemma step_wf k h h' : step k h h' -> wf h' /\ k <= size h'.
Proof. by move=> [kl s w _ _]; split=> //; exact: leq_trans s. Qed.

(** copies of states that are not built from others, and of inputs *)
Lemma last_cls h (o : obj) c : ocls o = c -> has_cls (alloc h o).1 (alloc h o).2 c.
Proof. by exists o => //=; rewrite get_rcons eqxx. Qed.
Lemma copy_cls n h a r c : copy n h a = Ok r -> has_cls h a c -> has_cls r.1 r.2 c.
Proof.
case: n => //= n; ub o g; have {}g := getrOk g; move=> + [o']; rewrite g => + [<-] <-.
case E: (ocls o) => //.
- by ub d ed; ok; exact: last_cls.
- by ub r1 e1; ok; exact: last_cls.
- by ub v ev; ub r1 e1; ok; exact: last_cls.
- by ub v ev; ub r1 e1; ok; exact: last_cls.
- by ub v ev; ub ol eol; ub r1 e1; ok; exact: last_cls.
- ub v vi; ub ol gl; ub p pi; ub g' gi; ub b' bi; ub op eop; ub og eog; ub ob eob; ub vp evp; ub vg evg; ub vb evb; ub st es; ub dr ed; ub rp ep; ub rg eg; ub rb eb; ok.
  exact: last_cls.
- by ub v ev; ub w ew; ub rs e1; ub rc e2; ok; exact: last_cls.
- by ub v ev; ub r1 e1; ok; exact: last_cls.
- by ub r1 e1; ok; exact: last_cls.
- by ub v ev; ub ol eol; ub r1 e1; ok; exact: last_cls.
- by ub v ev; ub ol eol; ub p ep; ub r1 e1; ub r2 e2; ok; exact: last_cls.
Qed.
Lemma copy_leaf n h a r : wf h -> leaf_state h a -> copy n h a = Ok r -> good h r.1 r.2 /\ leaf_state r.1 r.2.
Proof.
move=> w ls e; split; first by apply: copy_good_gen e => //; left.
by case: ls => [|[]] /(copy_cls e) H; [left|right; left|right; right].
Qed.
(** the copy of an input may keep the covariance of the original, but nothing is written *)
Lemma copy_input n h a r : wf h -> leaf_input h a -> copy n h a = Ok r -> [/\ untouched h r.1, wf r.1 & has_cls h a ImuInput -> new_since (size h) r.1 r.2].
Proof.
move=> w li; case: n => //= n; ub o g; have {}g := getrOk g.
case: li => -[o']; rewrite g => -[<-] E; rewrite E.
- ub v ev; ub r1 e1; ok; have [u1 w1 n1] := copy_array_good w e1; split.
  + exact: untouched_trans u1 (untouched_new _ _).
  + move=> x o2 y; rewrite /= size_rcons get_rcons; case: eqP => [_ [<-]|_ gx yi]; last by apply: ltnW; exact: w1 gx yi.
    rewrite /= inE => /orP[/eqP ->|yi]; first by case: n1 => l _; exact: ltnW.
    by rewrite ltnS; apply: ltnW; apply: leq_trans (proj1 u1); apply: w g _; exact: mem_behead.
  + by move=> [o2]; rewrite g => -[<-] ec; rewrite E in ec.
- ub r1 e1; ok.
  have [h1 b r2 w1 u1 bi|u1 w1 n1] := copy_all_good w _ e1; first exact: copy_array_good.
  have [||u2 w2 n2] := @alloc_good V M (size h) r1.1 (Obj ImuInput r1.2 (ometa o) [::]) w1; [by case: u1|exact: n1|].
  by split=> //; exact: untouched_trans u2.
Qed.

Lemma up k h1 h2 a : step k h1 h2 -> new_since k h1 a -> new_since k h2 a.
Proof. by case=> _ _ _ _ [H _]; exact: H. Qed.
Lemma leaf_step k h h' a : step k h h' -> leaf_state h a -> leaf_state h' a.
Proof. by move=> [_ _ _ _ [_ H]] [|[]] /H ?; [left|right; left|right; right]. Qed.
Lemma leaf_input_step k h h' a : step k h h' -> leaf_input h a -> leaf_input h' a.
Proof. by move=> [_ _ _ _ [_ H]] [] /H ?; [left|right]. Qed.
(** a process model whose evaluate, given such a state (and an input satisfying [inp]), returns a state
    in new memory and leaves everything that existed unchanged *)
Definition pure_model (inp : heap -> nat -> Prop) (ev : heap -> nat -> nat -> result (heap * nat)) : Prop :=
  forall h x u r, wf h -> leaf_state h x -> inp h u -> ev h x u = Ok r -> good h r.1 r.2.

Variables (n : nat) (f : seq V -> seq V -> seq V).
Notation evaluate_assign := (@evaluate_assign V M id_pose id_gyro id_accel n f).
Notation evaluate_write := (@evaluate_write V M id_pose id_gyro id_accel n f).
Notation evaluate_imu := (@evaluate_imu V M id_pose id_gyro id_accel n f).
Notation evaluate_composite := (@evaluate_composite V M id_pose id_gyro id_accel n).
Notation plus_plain := (@plus_plain V M id_pose id_gyro id_accel n f).
Lemma assign_pure inp : pure_model inp evaluate_assign.
Proof.
move=> h x u r w ls _; ub r1 e1; have [[u1 w1 n1] l1] := copy_leaf w ls e1.
ub o g; ub v vi; ub d ed; ub ou gu; ub vu evu; ub du edu.
have kl : size h <= size r1.1 by case: u1.
have s1 := untouched_step w w1 (leqnn _) u1.
have [s2 n2] := new_array_step (f d du) w1 kl; have [w2 k2] := step_wf s2.
have n1' : new_since (size h) (new_array r1.1 (f d du)).1 r1.2 by exact: up s2 _.
ub h2 e2; ok; have s3 := set_ref_step w2 k2 n1' n2 e2.
apply: step_good; first exact: step_trans s1 (step_trans s2 s3).
by apply: up s3 _.
Qed.
Lemma plus_pure dx inp : pure_model inp (plus_plain dx).
Proof.
move=> h x u r w ls _; ub r1 e1; have [[u1 w1 n1] l1] := copy_leaf w ls e1.
ub o g; ub v vi; ub d ed.
have kl : size h <= size r1.1 by case: u1.
have s1 := untouched_step w w1 (leqnn _) u1.
have [s2 n2] := new_array_step (f d dx) w1 kl; have [w2 k2] := step_wf s2.
have n1' : new_since (size h) (new_array r1.1 (f d dx)).1 r1.2 by exact: up s2 _.
ub h2 e2; ok; have s3 := set_ref_step w2 k2 n1' n2 e2.
apply: step_good; first exact: step_trans s1 (step_trans s2 s3).
by apply: up s3 _.
Qed.
Lemma write_pure : pure_model (@leaf_input V M) evaluate_write.
Proof.
move=> h x u r w ls li; ub r1 e1; have [[u1 w1 n1] l1] := copy_leaf w ls e1.
have kl : size h <= size r1.1 by case: u1.
have s1 := untouched_step w w1 (leqnn _) u1.
ub r2 e2; have [u2 w2 _] := copy_input w1 (leaf_input_step s1 li) e2.
have s2 := untouched_step w1 w2 kl u2; have [_ k2] := step_wf s2.
have n2 : new_since (size h) r2.1 r1.2 by exact: up s2 _.
ub o g; ub v vi; ub d ed; ub ou gu; ub vu evu; ub du edu; ub h2 e3; ok.
have nv := new_refs w2 n2 (getrOk g) (refOk vi).
have s3 := write_array_step w2 k2 nv e3.
apply: step_good; first exact: step_trans s1 (step_trans s2 s3).
by apply: up s3 _.
Qed.
Lemma imu_pure : pure_model (fun h u => has_cls h u ImuInput) evaluate_imu.
Proof.
move=> h x u r w ls li; ub r1 e1; have [[u1 w1 n1] l1] := copy_leaf w ls e1.
have kl : size h <= size r1.1 by case: u1.
have s1 := untouched_step w w1 (leqnn _) u1.
have li1 : has_cls r1.1 u ImuInput by case: s1 => _ _ _ _ [_]; apply.
ub r2 e2; have [u2 w2 nu] := copy_input w1 (or_intror li1) e2.
have s2 := untouched_step w1 w2 kl u2; have [_ k2] := step_wf s2.
have n2 : new_since (size h) r2.1 r1.2 by exact: up s2 _.
have {}nu : new_since (size h) r2.1 r2.2 by apply: new_since_le (nu li1).
have [t1 v1] := new_array_step (f [::] [::]) w2 k2; have [x1 y1] := step_wf t1.
ub q2 eq2; have t2 := set_ref_step x1 y1 (up t1 nu) v1 eq2; have [x2 y2] := step_wf t2.
have t12 := step_trans t1 t2.
have [t3 v3] := new_array_step (f [::] [::]) x2 y2; have [x3 y3] := step_wf t3.
have t13 := step_trans t12 t3.
ub q4 eq4; have t4 := set_ref_step x3 y3 (up t13 nu) v3 eq4; have [x4 y4] := step_wf t4.
have t14 := step_trans t13 t4.
ub o g; ub l li'; ub ol gl; ub p pi; ub g' gi; ub b bi.
have no := up t14 n2; have nl := new_refs x4 no (getrOk g) (refOk li').
have np := new_refs x4 nl (getrOk gl) (refOk pi); have ng := new_refs x4 nl (getrOk gl) (refOk gi); have nb := new_refs x4 nl (getrOk gl) (refOk bi).
have [t5 v5] := new_array_step (f [::] [::]) x4 y4; have [x5 y5] := step_wf t5.
ub q6 eq6; have t6 := set_ref_step x5 y5 (up t5 np) v5 eq6; have [x6 y6] := step_wf t6.
have t56 := step_trans t5 t6.
have [t7 v7] := new_array_step (f [::] [::]) x6 y6; have [x7 y7] := step_wf t7.
have t57 := step_trans t56 t7.
ub q8 eq8; have t8 := set_ref_step x7 y7 (up t57 ng) v7 eq8; have [x8 y8] := step_wf t8.
have t58 := step_trans t57 t8.
have [t9 v9] := new_array_step (f [::] [::]) x8 y8; have [x9 y9] := step_wf t9.
have t59 := step_trans t58 t9.
ub q10 eq10; ok; have t10 := set_ref_step x9 y9 (up t59 nb) v9 eq10.
have tall := step_trans t59 t10.
apply: step_good; first exact: step_trans s1 (step_trans s2 (step_trans t14 tall)).
exact: up tall no.
Qed.
Lemma subs_step (inp : heap -> nat -> Prop) k h l i xs subs h' :
  (forall k h1 h2 u, step k h1 h2 -> inp h1 u -> inp h2 u) -> wf h -> k <= size h ->
  new_since k h l -> (forall x, x \in xs -> leaf_state h x) ->
  (forall j s, j < size subs -> s = nth s subs j -> pure_model inp s.1 /\ inp h s.2) ->
  evaluate_subs h l i xs subs = Ok h' -> step k h h'.
Proof.
move=> stab; elim: xs h i subs => [|x xs IH] h i [|s subs] //= w kl nl ls ps; try by ok.
ub r e1; ub h1 e2 => e3.
have [p0 i0] := ps 0 s isT erefl.
have g1 := p0 h x s.2 r w (ls x (mem_head _ _)) i0 e1.
have [s1 n1] := good_step w kl g1; have [w1 k1] := step_wf s1.
have nl1 : new_since k r.1 l by exact: up s1 _.
have s2 := set_ref_step w1 k1 nl1 n1 e2; have [w2 k2] := step_wf s2.
have s12 := step_trans s1 s2.
apply: (step_trans s12); apply: (IH h1 i.+1 subs) => //.
- by exact: up s12 _.
- by move=> y yi; apply: leaf_step s12 _; apply: ls; rewrite inE yi orbT.
- move=> j t jl e; have [//|pj ij] := ps j.+1 t jl _; split=> //; exact: stab s12 ij.
Qed.
Lemma copy_all_leaf m h s r : wf h -> (forall b, b \in s -> leaf_state h b) -> copy_all (copy m) h s = Ok r ->
  [/\ untouched h r.1, wf r.1, (forall b, b \in r.2 -> new_since (size h) r.1 b) & forall b, b \in r.2 -> leaf_state r.1 b].
Proof.
elim: s h r => [|a s IH] h r w ls; first by ok.
ub r1 e1; ub r2 e2; ok => /=; have [[u1 w1 n1] l1] := copy_leaf w (ls a (mem_head _ _)) e1.
have s1 := untouched_step w w1 (leqnn _) u1.
have [b bi|u2 w2 n2 l2] := IH r1.1 r2 w1 _ e2; first by apply: leaf_step s1 _; apply: ls; rewrite inE bi orbT.
have s2 := untouched_step w1 w2 (leqnn _) u2.
split=> //; first exact: untouched_trans u2.
  move=> b; rewrite inE => /orP[/eqP ->|/n2]; first exact: new_since_ext n1.
  by apply: new_since_le; case: u1.
by move=> b; rewrite inE => /orP[/eqP ->|/l2 //]; exact: leaf_step s2 l1.
Qed.
Lemma composite_pure (inp : heap -> nat -> Prop) subs h x u r : 
  (forall k h1 h2 u, step k h1 h2 -> inp h1 u -> inp h2 u) ->
  (forall j s, j < size subs -> s = nth s subs j -> pure_model inp s.1 /\ inp h s.2) ->
  wf h -> composite_state h x -> evaluate_composite subs h x u = Ok r -> good h r.1 r.2.
Proof.
move=> stab ps w [o [l [ol [gx cx eo gl ls]]]]; ub r1 e1.
have [u1 w1 n1 H] : [/\ untouched h r1.1, wf r1.1, new_since (size h) r1.1 r1.2 & forall o1 l1 ol1, get r1.1 r1.2 = Some o1 -> ref o1 0 = Ok l1 -> get r1.1 l1 = Some ol1 -> forall b, b \in orefs ol1 -> leaf_state r1.1 b].
  move: e1; case: (n) => //= m; rewrite /getr gx /= cx /ref eo /= gl /=; ub r2 e2; ok.
  have [u2 w2 n2 l2] := copy_all_leaf w ls e2.
  have [||u3 w3 n3] := @alloc_good V M (size h) r2.1 (Obj List r2.2 (ometa ol) [::]) w2; [by case: u2|exact: n2|].
  have ll : size h <= size (rcons r2.1 (Obj List r2.2 (ometa ol) [::])) by case: n3 => /ltnW + _; apply: leq_trans; case: u2.
  have [b|u4 w4 n4] := @alloc_good V M (size h) _ (Obj CompositeS [:: size r2.1] (ometa o) [::]) w3 ll; first by rewrite inE => /eqP ->.
  have u34 := untouched_trans u3 u4.
  split=> //=; first exact: untouched_trans u34.
  move=> o1 l1 ol1; rewrite get_rcons eqxx => -[<-] /= -[<-].
  rewrite get_rcons size_rcons ltn_eqF // get_rcons eqxx => -[<-] /= b /l2.
  exact: leaf_step (untouched_step w2 w4 (leqnn _) u34).
ub o1 g1; ub l1 r1l; ub ol1 gl1; ub h1 e2; ok.
have g1' := getrOk g1; have nl := new_refs w1 n1 g1' (refOk r1l).
have s1 := untouched_step w w1 (leqnn _) u1; have [_ k1] := step_wf s1.
have s2 := subs_step stab w1 k1 nl (H _ _ _ g1' r1l (getrOk gl1)) _ e2.
have {}s2 : step (size h) r1.1 h1.
  by apply: s2 => j s jl e; have [p i] := ps j s jl e; split=> //; exact: stab s1 i.
by apply: step_good; [exact: step_trans s1 s2|exact: up s2 n1].
Qed.
Lemma pure_true_stab k h1 h2 (u : nat) : step k h1 h2 -> True -> True. Proof. by []. Qed.

(** *** The filter *)
Variables (evaluate plus : heap -> nat -> nat -> result (heap * nat)) (measure : heap -> nat -> result heap) (new_cov : seq V) (stamp' : M).
Notation predict := (@predict V M id_pose id_gyro id_accel n evaluate new_cov stamp').
Notation correct := (@correct V M id_pose id_gyro id_accel n evaluate plus measure new_cov stamp').
Lemma predict_good h x u ox xs r : wf h -> no_input_cov h x -> get h x = Some ox -> ref ox 0 = Ok xs ->
  (forall h' r', wf h' -> untouched h h' -> evaluate h' xs u = Ok r' -> good h' r'.1 r'.2) ->
  predict h x u = Ok r -> good h r.1 r.2.
Proof.
move=> w nc gx exs pe; ub r1 e1; have [u1 w1 n1] := copy_good w nc e1.
have s1 := untouched_step w w1 (leqnn _) u1; have [_ k1] := step_wf s1.
ub ox' gx'; ub xs' exs'; ub re ee.
have e0 : ox' = ox by have := getrOk gx'; case: u1 => _ ->; [rewrite gx => -[->]|exact: get_lt gx].
have {}ee : evaluate r1.1 xs u = Ok re by move: exs'; rewrite e0 exs => -[->].
have [s2 n2] := good_step w1 k1 (pe _ _ w1 u1 ee); have [w2 k2] := step_wf s2.
ub h1 e2; have s3 := set_ref_step w2 k2 (up s2 n1) n2 e2; have [w3 k3] := step_wf s3.
have [s4 n4] := new_array_step new_cov w3 k3; have [w4 k4] := step_wf s4.
have s24 := step_trans s2 (step_trans s3 s4); have s34 := step_trans s3 s4.
ub h3 e4; have s5 := set_ref_step w4 k4 (up s24 n1) n4 e4; have [w5 k5] := step_wf s5.
ub h4 e5; ok; have s6 := set_stamp_step w5 k5 (up (step_trans s34 s5) n2) e5.
have s := step_trans s24 (step_trans s5 s6).
by apply: step_good; [exact: step_trans s1 s|exact: up s n1].
Qed.

(** *** Whatever the models do to what they are given, correct keeps them away from the estimate *)
Lemma client_app h rs h' rs' q : client h rs h' rs' -> client h (rs ++ q) h' (rs' ++ q).
Proof.
have cat h0 rs0 c : reachable h0 rs0 c -> reachable h0 (rs0 ++ q) c by case=> r ri rr; exists r => //; rewrite mem_cat ri.
elim=> {h rs h' rs'} [h rs|h rs a o h' rs' ra ho _ IH|h rs o h' rs' ho _ IH]; first exact: client_done.
  by apply: client_write IH; [exact: cat|move=> b /ho; exact: cat].
by apply: client_new IH => b /ho; exact: cat.
Qed.
(** [x] reads as in [h0] and is separate from the roots *)
Definition inv h0 (x : nat) h rs : Prop :=
  [/\ wf h, forall r, r \in rs -> r < size h, x < size h, separate h rs x & forall c, reach h0 x c -> get h c = get h0 c].
Lemma inv_reach h0 x h rs c : inv h0 x h rs -> reach h0 x c <-> reach h x c.
Proof. by move=> [_ _ _ _ e]; symmetry; apply: reach_eq. Qed.
Lemma reachable_trans h rs rs2 c : (forall r, r \in rs2 -> reachable h rs r) -> reachable h rs2 c -> reachable h rs c.
Proof. by move=> H [r /H[r' ri rr] rc]; exists r' => //; exact: reach_trans rr rc. Qed.
Lemma reachable_lt h0 x h rs c : inv h0 x h rs -> reachable h rs c -> c < size h.
Proof. by move=> [w rl _ _ _] [r /rl]; exact: reach_lt. Qed.
Lemma inv_roots h0 x h rs rs2 : inv h0 x h rs -> (forall r, r \in rs2 -> reachable h rs r) -> inv h0 x h rs2.
Proof.
move=> I H; case: (I) => w rl xl s e; split=> //; first by move=> r /H; exact: reachable_lt I.
by move=> c /(reachable_trans H); exact: s.
Qed.
Lemma inv_client h0 x h rs h' rs' : inv h0 x h rs -> client h rs h' rs' -> inv h0 x h' rs'.
Proof.
move=> I cl; case: (I) => w rl xl s e; have [e' [s' [w' l']]] := frame cl w rl xl s.
split=> //; last by move=> c rc; rewrite e' ?e //; apply/(inv_reach c I).
  elim: cl rl w {I s e xl e' s' w' l'} => {h rs h' rs'} [//|h rs a o h' rs' ra ho cl IH|h rs o h' rs' ho cl IH] rl w.
    have al : a < size h by case: ra => r /rl; exact: reach_lt.
    apply: IH; first by rewrite size_put.
    move=> y o' z; rewrite size_put // get_put //; case: eqP => [_ [<-] /ho[r /rl]|_]; [exact: reach_lt|exact: w].
  apply: IH; first by move=> r; rewrite inE size_rcons => /orP[/eqP ->|/rl/ltnW].
  move=> y o' z; rewrite size_rcons get_rcons; case: eqP => [_ [<-] /ho[r ri rr]|_ g i].
    by apply: ltnW; rewrite ltnS; apply: reach_lt rr => //; exact: rl.
  by apply: ltnW; rewrite ltnS; exact: w g i.
exact: leq_trans l'.
Qed.
Lemma inv_new h0 x h rs h' r : inv h0 x h rs -> goodQ (reachable h rs) h h' r -> inv h0 x h' (r :: rs).
Proof.
move=> I [u w' [rl' nr]]; case: (I) => w rl xl s e.
have ur c b : b < size h -> reach h' b c <-> reach h b c by move=> bl; exact: untouched_reach.
split=> //.
- by move=> b; rewrite inE => /orP[/eqP -> //|/rl bl]; case: u => l _; exact: leq_trans l.
- by case: u => l _; exact: leq_trans l.
- move=> c [b]; rewrite inE => /orP[/eqP ->|bi] rb /(ur _ _ xl) rx.
    case: (nr c rb) => [cl|]; last by move=> /s; apply.
    by have := reach_lt w xl rx; rewrite ltnNge cl.
  apply: (s c) => //; exists b => //; by apply/(ur _ _ (rl b bi)).
- move=> c rc; case: u => _ u; rewrite u ?e //; apply: (reach_lt w xl); by apply/(inv_reach c I).
Qed.
Lemma goodQ_sub (Q Q' : nat -> Prop) h h' a : (forall c, Q c -> Q' c) -> goodQ Q h h' a -> goodQ Q' h h' a.
Proof. by move=> H [u w [al nn]]; split=> //; split=> // c /nn[]; [left|right; exact: H]. Qed.
Lemma inv_copy h0 x h rs m a r : inv h0 x h rs -> reachable h rs a -> copy m h a = Ok r -> inv h0 x r.1 (r.2 :: rs).
Proof.
move=> I ra e; apply: (inv_new I); case: (I) => w _ _ _ _.
apply: (copy_near_gen (Q := reachable h rs) w _ e); right; right => c rc.
by case: ra => b bi rb; exists b => //; exact: reach_trans rb rc.
Qed.
Lemma inv_array h0 x h rs d : inv h0 x h rs -> inv h0 x (new_array h d).1 ((new_array h d).2 :: rs).
Proof. by move=> I; apply: (inv_new I); case: (I) => w _ _ _ _; exact: new_array_near. Qed.
Lemma inv_set_ref h0 x h rs a i r h' : inv h0 x h rs -> reachable h rs a -> reachable h rs r -> set_ref h a i r = Ok h' -> inv h0 x h' rs.
Proof.
move=> I ra rr; ub o g; ok; have {}g := getrOk g; apply: (inv_client I); apply: client_write (client_done _ _) => //.
move=> b /= /mem_set_nth[bi|-> //]; case: ra => c ci rc; exists c => //.
by apply: (reach_trans rc); apply: (reach_step g bi); exact: reach_refl.
Qed.
Lemma inv_set_stamp h0 x h rs a t h' : inv h0 x h rs -> reachable h rs a -> set_stamp h a t = Ok h' -> inv h0 x h' rs.
Proof.
move=> I ra; ub o g; ok; have {}g := getrOk g; apply: (inv_client I); apply: client_write (client_done _ _) => //.
move=> b /= bi; case: ra => c ci rc; exists c => //.
by apply: (reach_trans rc); apply: (reach_step g bi); exact: reach_refl.
Qed.
(** code that is given [x] (or [x] and [u]) and has access to [env] *)
Definition client_model (env : seq nat) (ev : heap -> nat -> nat -> result (heap * nat)) : Prop :=
  forall h x u r, ev h x u = Ok r -> exists2 rs, client h (x :: u :: env) r.1 rs & reachable r.1 rs r.2.
Definition client_measure (env : seq nat) (me : heap -> nat -> result heap) : Prop :=
  forall h x h', me h x = Ok h' -> exists rs, client h (x :: env) h' rs.
Lemma root_reach h rs (r : nat) : r \in rs -> reachable h rs r.
Proof. by move=> ri; exists r => //; exact: reach_refl. Qed.
Lemma inv_model env ev h0 x h rs y u r : client_model env ev -> inv h0 x h rs -> reachable h rs y ->
  (forall a, a \in u :: env -> a \in rs) -> ev h y u = Ok r -> inv h0 x r.1 (r.2 :: rs).
Proof.
move=> cm I ry H e; have [rs' cl rr] := cm _ _ _ _ e.
have I' : inv h0 x h ((y :: u :: env) ++ rs).
  apply: (inv_roots I) => a; rewrite mem_cat inE => /orP[/orP[/eqP -> //|/H]|]; exact: root_reach.
apply: (inv_roots (inv_client I' (client_app rs cl))) => a; rewrite inE => /orP[/eqP ->|ai].
  by case: rr => b bi rb; exists b => //; rewrite mem_cat bi.
by apply: root_reach; rewrite mem_cat ai orbT.
Qed.
Lemma inv_measure env me h0 x h rs y h' : client_measure env me -> inv h0 x h rs -> reachable h rs y ->
  (forall a, a \in env -> a \in rs) -> me h y = Ok h' -> inv h0 x h' rs.
Proof.
move=> cm I ry H e; have [rs' cl] := cm _ _ _ e.
have I' : inv h0 x h ((y :: env) ++ rs).
  apply: (inv_roots I) => a; rewrite mem_cat inE => /orP[/orP[/eqP -> //|/H]|]; exact: root_reach.
apply: (inv_roots (inv_client I' (client_app rs cl))) => a ai; apply: root_reach; by rewrite mem_cat ai orbT.
Qed.
Lemma sub_reach h rs a (o : obj) b : reachable h rs a -> get h a = Some o -> b \in orefs o -> reachable h rs b.
Proof.
by move=> [c ci rc] g bi; exists c => //; apply: (reach_trans rc); apply: (reach_step g bi); exact: reach_refl.
Qed.
Lemma inv_predict env h0 x h rs y u r : client_model env evaluate -> inv h0 x h rs -> reachable h rs y ->
  (forall a, a \in u :: env -> a \in rs) -> predict h y u = Ok r -> inv h0 x r.1 (r.2 :: rs).
Proof.
move=> cm I ry H; ub r1 e1; have I1 := inv_copy I ry e1.
ub oy gy; ub ys eys; ub re ee.
have ry1 : reachable r1.1 (r1.2 :: rs) ys.
  have wI := I1; case: (I) => w rl _ _ _; have yl := reachable_lt I ry.
  have [u1 w1 _] : goodQ (reachable h rs) h r1.1 r1.2.
    apply: (copy_near_gen (Q := reachable h rs) w _ e1); right; right => c rc.
    by case: ry => b bi rb; exists b => //; exact: reach_trans rb rc.
  apply: (sub_reach _ (getrOk gy) (refOk eys)).
  case: ry => b bi rb; exists b; first by rewrite inE bi orbT.
  by apply/(untouched_reach y w (rl b bi) u1).
have I2 : inv h0 x re.1 (re.2 :: r1.2 :: rs).
  by apply: (inv_model cm I1 ry1 _ ee) => a /H ai; rewrite inE ai orbT.
have m0 (k : heap) : reachable k (re.2 :: r1.2 :: rs) re.2 by apply: root_reach; exact: mem_head.
have m1 (k : heap) : reachable k (re.2 :: r1.2 :: rs) r1.2 by apply: root_reach; rewrite !inE eqxx orbT.
ub h1 e2; have I3 := inv_set_ref I2 (m1 _) (m0 _) e2.
have I4 := inv_array new_cov I3.
ub h3 e4; have I5 := inv_set_ref I4 _ _ e4.
have {}I5 : inv h0 x h3 (re.2 :: r1.2 :: rs).
  apply: (inv_roots (I5 _ _)).
  - by apply: root_reach; rewrite !inE eqxx !orbT.
  - by apply: root_reach; exact: mem_head.
  - by move=> a ai; apply: root_reach; rewrite inE ai orbT.
ub h4 e5; ok; apply: (inv_roots (inv_set_stamp I5 (m0 _) e5)) => a ai /=.
by apply: root_reach; rewrite inE ai orbT.
Qed.
Lemma correct_inv env stamp0 dp acc h x u r : client_model env evaluate -> client_model env plus -> client_measure env measure ->
  wf h -> x < size h -> (forall a, a \in u :: env -> a < size h) -> no_input_cov h x -> separate h (u :: env) x ->
  correct stamp0 dp acc h x u = Ok r -> inv h x r.1 (r.2 :: u :: env).
Proof.
move=> cmE cmP cmM w xl ul nc s; ub r1 e1; have [u1 w1 n1] := copy_good w nc e1.
have I0 : inv h x h (u :: env) by [].
have I1 : inv h x r1.1 (r1.2 :: u :: env).
  apply: (inv_new I0); apply: (@goodQ_sub (fun _ => False)) => //; by apply/good0.
ub ox gx; ub xs exs; ub h1 e2.
have rx : reachable r1.1 (r1.2 :: u :: env) xs by apply: (sub_reach _ (getrOk gx) (refOk exs)); apply: root_reach; exact: mem_head.
have I2 : inv h x h1 (r1.2 :: u :: env).
  by move: e2; case: stamp0 => [t|]; [exact: inv_set_stamp I1 rx|case=> <-].
ub r2 e3.
have I3 : inv h x r2.1 (r2.2 :: u :: env).
  move: e3; case: dp => [e3|[<-]] //=.
  have I3 : inv h x r2.1 (r2.2 :: r1.2 :: u :: env).
    by apply: (inv_predict cmE I2 _ _ e3) => [|a ai]; [apply: root_reach; exact: mem_head|rewrite inE ai orbT].
  apply: (inv_roots I3) => a ai; apply: root_reach; move: ai.
  by rewrite !(in_cons) => /or3P[]->; rewrite ?orbT.
ub ox1 gx1; ub xs1 exs1; ub h2 e4.
have rx1 : reachable r2.1 (r2.2 :: u :: env) xs1 by apply: (sub_reach _ (getrOk gx1) (refOk exs1)); apply: root_reach; exact: mem_head.
have I4 : inv h x h2 (xs1 :: r2.2 :: u :: env).
  have I4 : inv h x r2.1 (xs1 :: r2.2 :: u :: env).
    by apply: (inv_roots I3) => a; rewrite inE => /orP[/eqP -> //|]; exact: root_reach.
  apply: (inv_measure cmM I4 _ _ e4); first by apply: root_reach; exact: mem_head.
  by move=> a ai; rewrite !in_cons ai !orbT.
case: acc; last by ok; apply: (inv_roots I4) => a ai; apply: root_reach; rewrite in_cons ai orbT.
ub re e5.
have I5 : inv h x re.1 (re.2 :: xs1 :: r2.2 :: u :: env).
  apply: (inv_model cmP I4 _ _ e5); first by apply: root_reach; exact: mem_head.
  by move=> a ai; rewrite in_cons in_cons ai !orbT.
have m0 (k : heap) : reachable k (re.2 :: xs1 :: r2.2 :: u :: env) re.2 by apply: root_reach; exact: mem_head.
have m1 (k : heap) : reachable k (re.2 :: xs1 :: r2.2 :: u :: env) r2.2 by apply: root_reach; rewrite !in_cons eqxx !orbT.
ub h3 e6; have I6 := inv_set_ref I5 (m1 _) (m0 _) e6.
have I7 := inv_array new_cov I6.
ub h5 e7; ok; have I8 := inv_set_ref I7 _ _ e7.
apply: (inv_roots (I8 _ _)).
- by apply: root_reach; rewrite !in_cons eqxx !orbT.
- by apply: root_reach; exact: mem_head.
- by move=> a ai; apply: root_reach; rewrite in_cons in_cons in_cons ai !orbT.
Qed.
End Ops.
