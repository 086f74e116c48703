(** Reachability, observation, client executions, and the frame theorem; freshness of copies. *)
From mathcomp Require Import all_ssreflect.
From Verif Require Import Base HeapModel.
Set Implicit Arguments.
Unset Strict Implicit.
Unset Printing Implicit Defensive.

Section Spec.
Variables (V M : Type).
Notation heap := (heap V M).
Notation obj := (obj V M).
(** [reach h a b]: from the object at [a] one can get to the one at [b] by following references *)
Inductive reach (h : heap) : nat -> nat -> Prop :=
| reach_refl a : reach h a a
| reach_step a o b c : get h a = Some o -> b \in orefs o -> reach h b c -> reach h a c.
(** no dangling references *)
Definition wf (h : heap) : Prop := forall a o b, get h a = Some o -> b \in orefs o -> b < size h.
(** everything that can be observed of an object by following at most [n] references *)
Inductive tree := Cut | Dangling | Node of cls & seq tree & seq M & seq V.
Fixpoint read (n : nat) (h : heap) (a : nat) : tree :=
  if n is n'.+1 then
    if get h a is Some o then Node (ocls o) (map (read n' h) (orefs o)) (ometa o) (odata o) else Dangling
  else Cut.
(** any code that has access to the objects [rs]: it can overwrite any attribute, list element or
    array entry of any object it can reach, with references to objects it can reach, and create
    objects *)
Definition reachable (h : heap) (rs : seq nat) (c : nat) : Prop := exists2 r, r \in rs & reach h r c.
Inductive client : heap -> seq nat -> heap -> seq nat -> Prop :=
| client_done h rs : client h rs h rs
| client_write h rs a o h' rs' : reachable h rs a -> (forall b, b \in orefs o -> reachable h rs b) ->
    client (put h a o) rs h' rs' -> client h rs h' rs'
| client_new h rs o h' rs' : (forall b, b \in orefs o -> reachable h rs b) ->
    client (rcons h o) (size h :: rs) h' rs' -> client h rs h' rs'.
(** no object is shared *)
Definition separate (h : heap) (rs : seq nat) (b : nat) : Prop := forall c, reachable h rs c -> ~ reach h b c.
(** nothing that existed is changed *)
Definition untouched (h h' : heap) : Prop := size h <= size h' /\ forall a, a < size h -> get h' a = get h a.
(** objects as the constructors of navlie build them.  For an IMUState: its substates carry its
    stamp and the names given by the constructor (see C67_imu_copy_refuted) *)
Variables (id_pose id_gyro id_accel : M).
Definition has_cls (h : heap) (a : nat) (c : cls) : Prop := exists2 o, get h a = Some o & ocls o = c.
Definition built (h : heap) (o : obj) : Prop :=
  match ocls o with
  | Buffer => orefs o = [::] /\ ometa o = [::]
  | Array => (exists2 b, orefs o = [:: b] & has_cls h b Buffer) /\ ometa o = [::] /\ odata o = [::]
  | List => odata o = [::]
  | VectorS | LieS => (exists2 v, orefs o = [:: v] & has_cls h v Array) /\ odata o = [::]
  | CompositeS | CompInput => (exists2 l, orefs o = [:: l] & has_cls h l List) /\ odata o = [::]
  | ImuS => odata o = [::] /\ exists l ol p g b op og ob, [/\ orefs o = [:: l], get h l = Some ol, ocls ol = List, orefs ol = [:: p; g; b] &
      [/\ get h p = Some op, get h g = Some og, get h b = Some ob, [/\ ocls op = LieS, ocls og = VectorS & ocls ob = VectorS] &
      exists t i dir, [/\ ometa o = [:: t; i], ometa op = [:: t; id_pose; dir], ometa og = [:: t; id_gyro] & ometa ob = [:: t; id_accel]]]]
  | Estimate => (exists s c, orefs o = [:: s; c] /\ has_cls h c Array) /\ odata o = [::]
  | VecInput => (exists v r, orefs o = v :: r /\ has_cls h v Array) /\ odata o = [::]
  | ImuInput => (forall v, v \in orefs o -> has_cls h v Array) /\ odata o = [::]
  | Mixture => (exists l p, [/\ orefs o = [:: l; p], has_cls h l List & has_cls h p Array]) /\ odata o = [::]
  end.
(** the states and inputs that are not built from others *)
Definition leaf_state (h : heap) (a : nat) : Prop := has_cls h a VectorS \/ has_cls h a LieS \/ has_cls h a ImuS.
Definition leaf_input (h : heap) (a : nat) : Prop := has_cls h a VecInput \/ has_cls h a ImuInput.
(** a composite state (or a list of estimates, ...) of such states *)
Definition composite_state (h : heap) (a : nat) : Prop :=
  exists o l ol, [/\ get h a = Some o, ocls o = CompositeS, orefs o = [:: l], get h l = Some ol & forall b, b \in orefs ol -> leaf_state h b].
Definition regular (h : heap) (a : nat) : Prop := forall c o, reach h a c -> get h c = Some o -> built h o.
End Spec.
Arguments Cut {V M}.
Arguments Dangling {V M}.

Section Frame.
Variables (V M : Type).
Notation heap := (heap V M).
Notation obj := (obj V M).
Implicit Types h : heap.
Lemma get_lt h a o : get h a = Some o -> a < size h.
Proof. by rewrite /get; case: ltnP => // hs; rewrite nth_default ?size_map. Qed.
Lemma lt_get h a : a < size h -> exists o, get h a = Some o.
Proof.
move=> hl; rewrite /get; case: h hl => // o h hl; exists (nth o (o :: h) a); by rewrite (nth_map o).
Qed.
Lemma get_put h a o b : a < size h -> get (put h a o) b = if b == a then Some o else get h b.
Proof.
move=> hl; rewrite /get /put; case: h hl => // o0 h hl; set l := o0 :: h in hl *.
have sz : size (set_nth o l a o) = size l by rewrite size_set_nth; apply/maxn_idPr.
have [bl|bl] := ltnP b (size l); last first.
  rewrite !nth_default ?size_map ?sz //; case: eqP => // e; by move: bl; rewrite e leqNgt hl.
by rewrite !(nth_map o) ?sz // nth_set_nth /=; case: eqP.
Qed.
Lemma size_put h a o : a < size h -> size (put h a o) = size h.
Proof. by move=> hl; rewrite size_set_nth; apply/maxn_idPr. Qed.
Lemma get_rcons h o b : get (rcons h o) b = if b == size h then Some o else get h b.
Proof.
rewrite /get map_rcons nth_rcons size_map; case: ltnP => [bl|bl]; first by case: eqP => // e; rewrite e ltnn in bl.
by case: eqP => // _; rewrite nth_default ?size_map.
Qed.
Lemma reach_trans h a b c : reach h a b -> reach h b c -> reach h a c.
Proof. by elim=> // a' o b' c' g i _ IH /IH; exact: reach_step g i. Qed.
Lemma reach_lt h a c : wf h -> a < size h -> reach h a c -> c < size h.
Proof. by move=> w + H; elim: H => // a' o b c' g i _ IH _; apply: IH; exact: w g i. Qed.
Lemma get_out h a : size h <= a -> get h a = None.
Proof. by move=> hl; rewrite /get nth_default ?size_map. Qed.
(** reading depends only on the objects reached *)
Lemma read_eq n h h' a : (forall c, reach h a c -> get h' c = get h c) -> read n h' a = read n h a.
Proof.
elim: n a => //= n IH a H; rewrite H; last exact: reach_refl.
case g: (get h a) => [o|] //; congr Node; apply/eq_in_map => b bi.
by apply: IH => c rc; apply: H; exact: reach_step g bi rc.
Qed.
Lemma reach_eq h h' a c : (forall c, reach h a c -> get h' c = get h c) -> reach h' a c <-> reach h a c.
Proof.
move=> H; split=> R; last first.
  elim: R H => [b _|b o d e g i _ IH H]; first exact: reach_refl.
  apply: (reach_step (o := o) (b := d)) => //; first by rewrite H //; exact: reach_refl.
  by apply: IH => x rx; apply: H; exact: reach_step g i rx.
elim: R H => [b _|b o d e g i _ IH H]; first exact: reach_refl.
have g' : get h b = Some o by rewrite -H //; exact: reach_refl.
by apply: (reach_step g' i); apply: IH => x rx; apply: H; exact: reach_step g' i rx.
Qed.
Lemma untouched_refl h : untouched h h. Proof. by []. Qed.
Lemma untouched_trans h1 h2 h3 : untouched h1 h2 -> untouched h2 h3 -> untouched h1 h3.
Proof.
move=> [s1 g1] [s2 g2]; split=> [|a al]; first exact: leq_trans s2.
by rewrite g2 ?g1 //; exact: leq_trans s1.
Qed.
Lemma untouched_new h o : untouched h (rcons h o).
Proof. by split=> [|a al]; rewrite ?size_rcons // get_rcons; case: eqP => // e; rewrite e ltnn in al. Qed.
Lemma untouched_reach h h' a c : wf h -> a < size h -> untouched h h' -> reach h' a c <-> reach h a c.
Proof. by move=> w al [_ u]; apply: reach_eq => d rd; apply: u; exact: reach_lt rd. Qed.
Lemma untouched_read n h h' a : wf h -> a < size h -> untouched h h' -> read n h' a = read n h a.
Proof. by move=> w al [_ u]; apply: read_eq => d rd; apply: u; exact: reach_lt rd. Qed.

(** what a client can reach after a step it could reach before, or is new *)
Lemma write_reach h rs a o c : a < size h -> (forall b, b \in orefs o -> reachable h rs b) -> reachable h rs a ->
  reachable (put h a o) rs c -> reachable h rs c.
Proof.
move=> al ho ra [r ri rr].
have : reachable h rs r by exists r => //; exact: reach_refl.
elim: rr => // x o' b d g i _ IH rx; apply: IH.
move: g; rewrite get_put //; case: eqP => [_ [e]|_ g]; first by apply: ho; rewrite e.
by case: rx => r' ri' rr'; exists r' => //; apply: (reach_trans rr'); apply: (reach_step g i); exact: reach_refl.
Qed.
Lemma new_reach h rs o c : (forall b, b \in orefs o -> reachable h rs b) ->
  reachable (rcons h o) (size h :: rs) c -> c = size h \/ reachable h rs c.
Proof.
move=> ho [r ri rr].
have : r = size h \/ reachable h rs r.
  by move: ri; rewrite inE => /orP[/eqP|ri]; [left|right; exists r => //; exact: reach_refl].
elim: rr => // x o' b d g i _ IH rx; apply: IH; right.
move: g; rewrite get_rcons; case: eqP => [_ [e]|ne g]; first by apply: ho; rewrite e.
case: rx => [e|[r' ri' rr']]; first by case: ne.
by exists r' => //; apply: (reach_trans rr'); apply: (reach_step g i); exact: reach_refl.
Qed.

(** the frame theorem *)
Lemma frame h rs h' rs' b : client h rs h' rs' -> wf h -> (forall r, r \in rs -> r < size h) -> b < size h ->
  separate h rs b -> (forall c, reach h b c -> get h' c = get h c) /\ separate h' rs' b /\ wf h' /\ size h <= size h'.
Proof.
elim=> {h rs h' rs'} [h rs w rl bl s|h rs a o h' rs' ra ho cl IH w rl bl s|h rs o h' rs' ho cl IH w rl bl s].
- by [].
- have al : a < size h by case: ra => r ri; apply: reach_lt => //; exact: rl.
  have same c : reach h b c -> get (put h a o) c = get h c.
    by move=> rc; rewrite get_put //; case: eqP => // e; case: (s a ra); rewrite -e.
  have w' : wf (put h a o).
    move=> x o' y; rewrite size_put // get_put //; case: eqP => [_ [<-] /ho[r ri]|_]; last exact: w.
    by apply: reach_lt => //; exact: rl.
  have s' : separate (put h a o) rs b.
    move=> c rc /(reach_eq _ same); apply: s; exact: write_reach rc.
  have [||h1 [h2 [h3 h4]]] := IH w' _ _ s'; try by rewrite size_put.
  split; last by rewrite size_put in h4.
  by move=> c rc; rewrite h1 ?same //; apply/(reach_eq _ same).
- have same c : reach h b c -> get (rcons h o) c = get h c.
    by move=> rc; rewrite get_rcons; case: eqP => // e; have := reach_lt w bl rc; rewrite e ltnn.
  have w' : wf (rcons h o).
    move=> x o' y; rewrite size_rcons get_rcons; case: eqP => [_ [<-] /ho[r ri rr]|_ g i].
      by apply: ltnW; rewrite ltnS; apply: reach_lt rr => //; exact: rl.
    by apply: ltnW; rewrite ltnS; exact: w g i.
  have s' : separate (rcons h o) (size h :: rs) b.
    move=> c /(new_reach ho)[-> /(reach_eq _ same) rb|rc /(reach_eq _ same)]; last exact: s.
    by have := reach_lt w bl rb; rewrite ltnn.
  have [||h1 [h2 [h3 h4]]] := IH w' _ _ s'.
  + by move=> r; rewrite inE size_rcons => /orP[/eqP ->|/rl/ltnW].
  + by rewrite size_rcons ltnW.
  split; first by move=> c rc; rewrite h1 ?same //; apply/(reach_eq _ same).
  by do 2 split=> //; rewrite size_rcons in h4; exact: ltnW.
Qed.
Lemma client_frame h rs h' rs' b n : client h rs h' rs' -> wf h -> (forall r, r \in rs -> r < size h) -> b < size h ->
  separate h rs b -> read n h' b = read n h b.
Proof. by move=> cl w rl bl s; have [e _] := frame cl w rl bl s; exact: read_eq. Qed.
Lemma separate_sym h a b : separate h [:: a] b -> separate h [:: b] a.
Proof.
move=> s c [r]; rewrite inE => /eqP -> rb ra; apply: (s c) => //; by exists a; rewrite ?inE.
Qed.
End Frame.

(** *** Copies are new memory *)
Section Copy.
Variables (V M : Type) (id_pose id_gyro id_accel : M).
Notation heap := (heap V M).
Notation obj := (obj V M).
Notation copy := (@copy V M id_pose id_gyro id_accel).
Implicit Types h : heap.
(** [a] and everything it leads to was created after the heap had size [k] *)
Definition new_since (k : nat) h (a : nat) : Prop := a < size h /\ forall c, reach h a c -> k <= c.
(** an operation from [h] to [h'] with result [a] *)
Definition good h h' (a : nat) : Prop := [/\ untouched h h', wf h' & new_since (size h) h' a].
(** the inputs reached carry no covariance (always the case from a state or an estimate) *)
Definition no_input_cov h (a : nat) : Prop :=
  forall c o, reach h a c -> get h c = Some o -> ocls o = VecInput -> size (orefs o) <= 1.

Lemma OkI A (x y : A) : Ok x = Ok y -> x = y. Proof. by case. Qed.
Lemma bindOk A B (m : result A) (k : A -> result B) y : bind m k = Ok y -> exists2 x, m = Ok x & k x = Ok y.
Proof. by case: m => //= x; exists x. Qed.
Tactic Notation "ub" ident(x) ident(e) := let H := fresh "H" in intro H; destruct (bindOk H) as [x e H']; clear H; revert H'; cbv beta.
Tactic Notation "ok" := let H := fresh "H" in intro H; apply OkI in H; rewrite -H; clear H.
Lemma getrOk h a o : getr h a = Ok o -> get h a = Some o.
Proof. by rewrite /getr; case: (get h a) => // o' [->]. Qed.
Lemma refOk (o : obj) i a : ref o i = Ok a -> a \in orefs o.
Proof.
rewrite /ref /py_nth; case E: (drop i (orefs o)) => [//|x s] [<-].
by apply: (@mem_drop i); rewrite E mem_head.
Qed.
(** the same, up to the objects satisfying [Q] *)
Definition near (Q : nat -> Prop) (k : nat) h (a : nat) : Prop := a < size h /\ forall c, reach h a c -> k <= c \/ Q c.
Definition goodQ (Q : nat -> Prop) h h' (a : nat) : Prop := [/\ untouched h h', wf h' & near Q (size h) h' a].
Section Near.
Variable Q : nat -> Prop.
Notation near := (near Q).
Notation goodQ := (goodQ Q).
Lemma near_ext k h h' a : wf h -> untouched h h' -> near k h a -> near k h' a.
Proof.
move=> w u [al n]; split; first by case: u => s _; exact: leq_trans s.
by move=> c /(untouched_reach c w al u); exact: n.
Qed.
Lemma near_le k k' h a : k' <= k -> near k h a -> near k' h a.
Proof. by move=> kk [al n]; split=> // c /n[kc|]; [left; exact: leq_trans kc|right]. Qed.
Lemma reachP h a c : reach h a c -> c = a \/ exists o b, [/\ get h a = Some o, b \in orefs o & reach h b c].
Proof. by case=> [a'|a' o b c' g i r]; [left|right; exists o, b]. Qed.
Lemma alloc_near k h o : wf h -> k <= size h -> (forall b, b \in orefs o -> near k h b) ->
  [/\ untouched h (rcons h o), wf (rcons h o) & near k (rcons h o) (size h)].
Proof.
move=> w kl ho; have u := untouched_new h o; split=> //.
  move=> x o' y; rewrite size_rcons get_rcons; case: eqP => [_ [<-] /ho[yl _]|_ g i]; first exact: ltnW.
  by apply: ltnW; exact: w g i.
split; first by rewrite size_rcons.
move=> c /reachP[->|[o' [b [+ i rb]]]]; first (by left); rewrite get_rcons eqxx => -[e].
have [bl nb] : near k h b by apply: ho; rewrite e.
by apply: nb; apply/(untouched_reach c w bl u).
Qed.
Lemma goodQ_trans h h1 h2 a : untouched h h1 -> goodQ h1 h2 a -> [/\ untouched h h2, wf h2 & near (size h) h2 a].
Proof.
move=> u [u' w' n]; split=> //; first exact: untouched_trans u'.
by apply: near_le n; case: u.
Qed.
Lemma new_array_near h d : wf h -> goodQ h (new_array h d).1 (new_array h d).2.
Proof.
move=> w; rewrite /new_array /=.
have [//|u1 w1 n1] := @alloc_near (size h) h (Obj Buffer [::] [::] d) w (leqnn _).
have [b|u2 w2 n2] := @alloc_near (size h) _ (Obj Array [:: size h] [::] [::]) w1 (proj1 u1).
  by rewrite inE => /eqP ->.
by split=> //; exact: untouched_trans u2.
Qed.
Lemma copy_array_near h a r : wf h -> copy_array h a = Ok r -> goodQ h r.1 r.2.
Proof. move=> w; ub d e; ok; exact: new_array_near. Qed.
Lemma copy_all_near cp h s r : wf h ->
  (forall h1 b r1, wf h1 -> untouched h h1 -> b \in s -> cp h1 b = Ok r1 -> goodQ h1 r1.1 r1.2) ->
  copy_all cp h s = Ok r -> [/\ untouched h r.1, wf r.1 & forall b, b \in r.2 -> near (size h) r.1 b].
Proof.
elim: s h r => [|a s IH] h r w H; first by case=> <-.
ub r1 e1; ub r2 e2; ok => /=.
have [u1 w1 n1] := H h a r1 w (untouched_refl h) (mem_head _ _) e1.
have [h1 b r3 w3 u3 bi|u2 w2 n2] := IH r1.1 r2 w1 _ e2.
  by apply: H => //; [exact: untouched_trans u3|rewrite inE bi orbT].
split=> //; first exact: untouched_trans u2.
move=> b; rewrite inE => /orP[/eqP ->|/n2]; first exact: near_ext n1.
by apply: near_le; case: u1.
Qed.
Lemma no_input_cov_ext h h' a : wf h -> a < size h -> untouched h h' -> no_input_cov h a -> no_input_cov h' a.
Proof.
move=> w al u n c o /(untouched_reach c w al u) rc; rewrite (proj2 u); first exact: n.
exact: reach_lt rc.
Qed.
Lemma no_input_cov_sub h a o b : get h a = Some o -> b \in orefs o -> no_input_cov h a -> no_input_cov h b.
Proof. by move=> g i n c o' rc; apply: n; exact: reach_step g i rc. Qed.
Definition okQ h a : Prop := no_input_cov h a \/ forall c, reach h a c -> Q c.
Lemma okQ_ext h h' a : wf h -> a < size h -> untouched h h' -> okQ h a -> okQ h' a.
Proof.
move=> w al u [n|q]; [left|right]; first exact: no_input_cov_ext n.
by move=> c /(untouched_reach c w al u); exact: q.
Qed.
Lemma okQ_sub h a o b : get h a = Some o -> b \in orefs o -> okQ h a -> okQ h b.
Proof.
move=> g i [n|q]; [left|right]; first exact: no_input_cov_sub g i n.
by move=> c rc; apply: q; exact: reach_step g i rc.
Qed.
Lemma copy_near_gen n h a r : wf h -> leaf_state h a \/ okQ h a -> copy n h a = Ok r -> goodQ h r.1 r.2.
Proof.
elim: n h a r => //= n IH h a r w nc'; ub o g; have {}g := getrOk g.
have ncE c : ocls o = c -> (if c is (VectorS | LieS | ImuS) then True else okQ h a).
  by case: nc' => [[|[]][o'] |]; [rewrite g => -[<-] -> <-..|move=> nc; case: c].
have sub (nc : okQ h a) h1 b r1 ol v : v \in orefs o -> get h v = Some ol -> wf h1 -> untouched h h1 -> b \in orefs ol -> copy n h1 b = Ok r1 -> goodQ h1 r1.1 r1.2.
  move=> vi gv w1 u1 bi; apply: IH => //; right; apply: (@okQ_ext h) => //; first exact: w gv bi.
  exact: okQ_sub gv bi (okQ_sub g vi nc).
have fin h1 c refs m (k : seq V) : wf h1 -> untouched h h1 -> (forall b, b \in refs -> near (size h) h1 b) ->
    goodQ h (alloc h1 (Obj c refs m k)).1 (alloc h1 (Obj c refs m k)).2.
  move=> w1 u1 H; have [||u2 w2 n2] := @alloc_near (size h) h1 (Obj c refs m k) w1; [by case: u1|by []|].
  by split=> //; exact: untouched_trans u2.
have fin2 h1 c refs m m' (k k' : seq V) : wf h1 -> untouched h h1 -> (forall b, b \in refs -> near (size h) h1 b) ->
    let l := alloc h1 (Obj List refs m k) in
    goodQ h (alloc l.1 (Obj c [:: l.2] m' k')).1 (alloc l.1 (Obj c [:: l.2] m' k')).2.
  move=> w1 u1 H l; have [u2 w2 n2] := fin h1 List refs m k w1 u1 H; apply: fin => // b; by rewrite inE => /eqP ->.
have one : forall c v, v \in orefs o -> (r1 <~ copy_array h v ;; Ok (alloc r1.1 (Obj c [:: r1.2] (ometa o) [::]))) = Ok r -> goodQ h r.1 r.2.
  move=> c v vi; ub r1 e1; ok; have [u1 w1 n1] := copy_array_near w e1; apply: fin => // b; by rewrite inE => /eqP ->.
have many : okQ h a -> forall c v, ref o 0 = Ok v -> (ol <~ getr h v ;; r1 <~ copy_all (copy n) h (orefs ol) ;;
    let: (h1, l) := alloc r1.1 (Obj List r1.2 (ometa ol) [::]) in Ok (alloc h1 (Obj c [:: l] (ometa o) [::]))) = Ok r -> goodQ h r.1 r.2.
  move=> nc c v /refOk vi; ub ol gl; have {}gl := getrOk gl; ub r1 e1; ok.
  have [h1 b r2 w1 u1 bi|u1 w1 n1] := copy_all_near w _ e1; first exact: (sub nc) vi gl w1 u1 bi.
  exact: fin2.
move: ncE; case E: (ocls o) => // ncE; have /= {ncE}nc := ncE _ erefl.
- exact: copy_array_near.
- ub r1 e1; ok.
  have [h1 b r2 w1 u1 bi|u1 w1 n1] := copy_all_near w _ e1; last exact: fin.
  by apply: IH => //; right; apply: (@okQ_ext h) => //; [exact: w g bi|exact: okQ_sub g bi nc].
- by ub v vi; exact: one (refOk vi).
- by ub v vi; exact: one (refOk vi).
- by ub v vi; exact: (many nc).
- ub v vi; ub ol gl; ub p pi; ub g' gi; ub b' bi; ub op eop; ub og eog; ub ob eob; ub vp evp; ub vg evg; ub vb evb; ub st es; ub dr ed; ub rp ep; ub rg eg; ub rb eb; ok.
  have [u1 w1 n1] := copy_array_near w ep; have [u2 w2 n2] := copy_array_near w1 eg; have [u3 w3 n3] := copy_array_near w2 eb.
  have v1 := untouched_trans u1 u2; have v2 := untouched_trans v1 u3.
  have n2' : near (size h) rg.1 rg.2 by apply: near_le n2; case: u1.
  have n3' : near (size h) rb.1 rb.2 by apply: near_le n3; case: v1.
  have n1' : near (size h) rb.1 rp.2 by apply: near_ext (untouched_trans u2 u3) n1.
  have n2'' : near (size h) rb.1 rg.2 by apply: near_ext u3 n2'.
  have one1 h1 c x m : wf h1 -> untouched h h1 -> near (size h) h1 x -> goodQ h (rcons h1 (Obj c [:: x] m [::])) (size h1).
    by move=> w1' u1' nx; apply: (fin h1 c [:: x] m [::]) => // b; rewrite inE => /eqP ->.
  have [x1 y1 z1] := one1 rb.1 LieS rp.2 [:: st; id_pose; dr] w3 v2 n1'; set h1 := rcons rb.1 _ in x1 y1 z1 *.
  have t1 : untouched rb.1 h1 by exact: untouched_new.
  have [x2 y2 z2] := one1 h1 VectorS rg.2 [:: st; id_gyro] y1 x1 (near_ext w3 t1 n2''); set h2 := rcons h1 _ in x2 y2 z2 *.
  have t2 : untouched h1 h2 by exact: untouched_new.
  have [x3 y3 z3] := one1 h2 VectorS rb.2 [:: st; id_accel] y2 x2 (near_ext w3 (untouched_trans t1 t2) n3'); set h3 := rcons h2 _ in x3 y3 z3 *.
  have t3 : untouched h2 h3 by exact: untouched_new.
  apply: (fin2 h3 ImuS [:: size rb.1; size h1; size h2] (ometa ol) (ometa o) [::] [::]) => // b; rewrite !inE => /or3P[]/eqP -> //.
    exact: near_ext (untouched_trans t2 t3) z1.
  exact: near_ext t3 z2.
- ub s si; ub c ci; ub rs es; ub rc ec; ok.
  have [|u1 w1 n1] := IH h s rs w _ es; first by right; exact: okQ_sub g (refOk si) nc.
  have [u2 w2 n2] := copy_array_near w1 ec.
  have u3 := untouched_trans u1 u2; apply: fin => // b; rewrite !inE => /orP[]/eqP ->.
    exact: near_ext n1.
  by apply: near_le n2; case: u1.
- ub v vi; ub r1 e1; ok; have [u1 w1 n1] := copy_array_near w e1; apply: fin => // b; rewrite inE => /orP[/eqP -> //|].
  case: nc => [nc|qc]; first by have := nc a o (reach_refl h a) g E; case: (orefs o) => [|x [|]].
  move=> bi; have bl : b < size h by apply: w g _; exact: mem_behead.
  split; first by case: u1 => s1 _; exact: leq_trans s1.
  move=> c /(untouched_reach c w bl u1) rc; right; apply: qc; apply: (reach_step g _ rc); exact: mem_behead.
- ub r1 e1; ok; have [h1 b r2 w1 u1 bi|u1 w1 n1] := copy_all_near w _ e1; last exact: fin.
  exact: copy_array_near.
- by ub v vi; exact: (many nc).
- ub l li; ub ol gl; ub p pi; ub r1 e1; have {}gl := getrOk gl.
  have [h1 b r2 w1 u1 bi|u1 w1 n1] := copy_all_near w _ e1; first exact: sub (refOk li) gl w1 u1 bi.
  have [u2 w2 n2] := fin r1.1 List r1.2 (ometa ol) [::] w1 u1 n1.
  ub rp ep; ok.
  have [u3 w3 n3] := copy_array_near w2 ep.
  have u4 := untouched_trans u2 u3; apply: fin => // b; rewrite !inE => /orP[]/eqP ->.
    exact: near_ext n2.
  by apply: near_le n3; case: u2.
Qed.
End Near.
Lemma near0 k h a : near (fun _ => False) k h a <-> new_since k h a.
Proof. by split=> -[al n]; split=> // c /n; [case|left]. Qed.
Lemma good0 h h' a : goodQ (fun _ => False) h h' a <-> good h h' a.
Proof. by split=> -[u w /near0 n]. Qed.
Lemma new_since_ext k h h' a : wf h -> untouched h h' -> new_since k h a -> new_since k h' a.
Proof. by move=> w u /near0 n; apply/near0; exact: near_ext n. Qed.
Lemma new_since_le k k' h a : k' <= k -> new_since k h a -> new_since k' h a.
Proof. by move=> kk /near0 n; apply/near0; exact: near_le n. Qed.
Lemma alloc_good k h o : wf h -> k <= size h -> (forall b, b \in orefs o -> new_since k h b) ->
  [/\ untouched h (rcons h o), wf (rcons h o) & new_since k (rcons h o) (size h)].
Proof.
by move=> w kl ho; have [b /ho/near0 //|u w' /near0 n] := @alloc_near (fun _ => False) k h o w kl.
Qed.
Lemma new_array_good h d : wf h -> good h (new_array h d).1 (new_array h d).2.
Proof. by move=> w; apply/good0; exact: new_array_near. Qed.
Lemma copy_array_good h a r : wf h -> copy_array h a = Ok r -> good h r.1 r.2.
Proof. by move=> w e; apply/good0; exact: copy_array_near e. Qed.
Lemma copy_all_good cp h s r : wf h ->
  (forall h1 b r1, wf h1 -> untouched h h1 -> b \in s -> cp h1 b = Ok r1 -> good h1 r1.1 r1.2) ->
  copy_all cp h s = Ok r -> [/\ untouched h r.1, wf r.1 & forall b, b \in r.2 -> new_since (size h) r.1 b].
Proof.
move=> w H e; have [h1 b r1 w1 u1 bi e1|u w' n] := @copy_all_near (fun _ => False) cp h s r w _ e; first by apply/good0; exact: H e1.
by split=> // b /n /near0.
Qed.
Lemma copy_good_gen n h a r : wf h -> leaf_state h a \/ no_input_cov h a -> copy n h a = Ok r -> good h r.1 r.2.
Proof. by move=> w H e; apply/good0; apply: copy_near_gen e => //; case: H => H; [left|right; left]. Qed.
Lemma copy_good n h a r : wf h -> no_input_cov h a -> copy n h a = Ok r -> good h r.1 r.2.
Proof. by move=> w nc; apply: copy_good_gen => //; right. Qed.

(** *** and they hold the same values *)
Notation regular := (regular id_pose id_gyro id_accel).
Lemma regular_sub h a o b : get h a = Some o -> b \in orefs o -> regular h a -> regular h b.
Proof. by move=> g i n c o' rc; apply: n; exact: reach_step g i rc. Qed.
Lemma has_cls_ext h h' a c : untouched h h' -> has_cls h a c -> has_cls h' a c.
Proof. by move=> [_ u] [o g e]; exists o => //; rewrite u //; exact: get_lt g. Qed.
Lemma built_ext h h' o : untouched h h' -> built id_pose id_gyro id_accel h o -> built id_pose id_gyro id_accel h' o.
Proof.
move=> u; have G a o' : get h a = Some o' -> get h' a = Some o' by move=> g; rewrite (proj2 u) //; exact: get_lt g.
rewrite /built; case: (ocls o) => //.
- by move=> [[b e hb] r]; split=> //; exists b => //; exact: has_cls_ext hb.
- by move=> [[b e hb] r]; split=> //; exists b => //; exact: has_cls_ext hb.
- by move=> [[b e hb] r]; split=> //; exists b => //; exact: has_cls_ext hb.
- by move=> [[b e hb] r]; split=> //; exists b => //; exact: has_cls_ext hb.
- move=> [r [l [ol [p [g [b [op [og [ob [e1 e2 e3 e4 [e5 e6 e7 e8 e9]]]]]]]]]]]; split=> //.
  by exists l, ol, p, g, b, op, og, ob; split; [|exact: G| | |split; [exact: G|exact: G|exact: G| |]].
- by move=> [[s [c [e hc]]] r]; split=> //; exists s, c; split=> //; exact: has_cls_ext hc.
- by move=> [[s [c [e hc]]] r]; split=> //; exists s, c; split=> //; exact: has_cls_ext hc.
- by move=> [H r]; split=> // v /H; exact: has_cls_ext.
- by move=> [[b e hb] r]; split=> //; exists b => //; exact: has_cls_ext hb.
- by move=> [[s [c [e h1 h2]]] r]; split=> //; exists s, c; split=> //; [exact: has_cls_ext h1|exact: has_cls_ext h2].
Qed.
Lemma regular_ext h h' a : wf h -> a < size h -> untouched h h' -> regular h a -> regular h' a.
Proof.
move=> w al u n c o /(untouched_reach c w al u) rc; rewrite (proj2 u) => [/(n _ _ rc)|]; first exact: built_ext.
exact: reach_lt rc.
Qed.
Lemma read_new m h o : wf h -> (forall b, b \in orefs o -> b < size h) ->
  read m.+1 (rcons h o) (size h) = Node (ocls o) (map (read m h) (orefs o)) (ometa o) (odata o).
Proof.
move=> w ho /=; rewrite get_rcons eqxx; congr Node; apply/eq_in_map => b bi.
by apply: untouched_read => //; [exact: ho|exact: untouched_new].
Qed.
Lemma copy_array_read m h a r : wf h -> regular h a -> has_cls h a Array -> copy_array h a = Ok r -> read m r.1 r.2 = read m h a.
Proof.
case: m => // m w rg [o g cl].
have := rg a o (reach_refl h a) g; rewrite /built cl => -[[b eb [ob gb cb]] [em ed]].
have rb : reach h a b by apply: (reach_step g _ (reach_refl h b)); rewrite eb mem_head.
have := rg b ob rb gb; rewrite /built cb => -[er emb].
rewrite /copy_array /array_data /getr g /= /ref eb /= gb /=; ok; rewrite /new_array /=.
have [//|u1 w1 n1] := @alloc_good (size h) h (Obj Buffer [::] [::] (odata ob)) w (leqnn _).
rewrite get_rcons eqxx g /= eb cl em ed /=; congr (Node _ [:: _] _ _).
rewrite (untouched_read m w1 _ (untouched_new _ _)); last by rewrite size_rcons.
by case: m => //= m; rewrite get_rcons eqxx gb cb er emb.
Qed.
Lemma copy_all_read cp m h s r : wf h -> (forall b, b \in s -> b < size h) ->
  (forall h1 b r1, wf h1 -> untouched h h1 -> b \in s -> cp h1 b = Ok r1 -> good h1 r1.1 r1.2) ->
  (forall h1 b r1, wf h1 -> untouched h h1 -> b \in s -> cp h1 b = Ok r1 -> read m r1.1 r1.2 = read m h1 b) ->
  copy_all cp h s = Ok r -> map (read m r.1) r.2 = map (read m h) s.
Proof.
elim: s h r => [|a s IH] h r w sl H K; first by ok.
ub r1 e1; ub r2 e2; ok => /=.
have [u1 w1 n1] := H h a r1 w (untouched_refl h) (mem_head _ _) e1.
have H' h1 b r3 : wf h1 -> untouched r1.1 h1 -> b \in s -> cp h1 b = Ok r3 -> good h1 r3.1 r3.2.
  by move=> w3 u3 bi; apply: H => //; [exact: untouched_trans u3|rewrite inE bi orbT].
have [u2 w2 n2] := copy_all_good w1 H' e2.
congr cons; first by rewrite (untouched_read m w1 _ u2) ?(K h a r1) //; [exact: mem_head|case: n1].
rewrite (IH r1.1 r2) //.
- by apply/eq_in_map => b bi; apply: untouched_read => //; apply: sl; rewrite inE bi orbT.
- by move=> b bi; case: u1 => s1 _; apply: leq_trans s1; apply: sl; rewrite inE bi orbT.
- by move=> h1 b r3 w3 u3 bi; apply: K => //; [exact: untouched_trans u3|rewrite inE bi orbT].
Qed.
Lemma copy_read n m h a r : wf h -> no_input_cov h a -> regular h a -> copy n h a = Ok r -> read m r.1 r.2 = read m h a.
Proof.
elim: n m h a r => //= n IH m h a r w nc rg; ub o g; have {}g := getrOk g.
have al := get_lt g.
have bo := rg a o (reach_refl h a) g.
have subA h1 b : wf h1 -> untouched h h1 -> b \in orefs o -> no_input_cov h1 b /\ regular h1 b.
  move=> w1 u1 bi; have bl := w _ _ _ g bi; split.
    by apply: (@no_input_cov_ext h) => //; exact: no_input_cov_sub g bi nc.
  by apply: (@regular_ext h) => //; exact: regular_sub g bi rg.
have subB h1 b ol v : v \in orefs o -> get h v = Some ol -> wf h1 -> untouched h h1 -> b \in orefs ol -> no_input_cov h1 b /\ regular h1 b.
  move=> vi gv w1 u1 bi; have bl := w _ _ _ gv bi; split.
    by apply: (@no_input_cov_ext h) => //; exact: no_input_cov_sub gv bi (no_input_cov_sub g vi nc).
  by apply: (@regular_ext h) => //; exact: regular_sub gv bi (regular_sub g vi rg).
case: m => // m.
have fin h1 refs m' : wf h1 -> (forall b, b \in refs -> b < size h1) -> map (read m h1) refs = map (read m h) (orefs o) ->
    m' = ometa o -> odata o = [::] -> let l := alloc h1 (Obj (ocls o) refs m' [::]) in read m.+1 l.1 l.2 = read m.+1 h a.
  by move=> w1 rl e -> ed l; rewrite read_new //= g e ed.
move: fin bo; rewrite /built; case E: (ocls o) => // fin bo.
- by move=> e; apply: copy_array_read e => //; exists o.
- ub r1 e1; ok.
  have H h1 b r2 : wf h1 -> untouched h h1 -> b \in orefs o -> copy n h1 b = Ok r2 -> good h1 r2.1 r2.2.
    by move=> w1 u1 bi; have [? ?] := subA h1 b w1 u1 bi; exact: copy_good.
  have [u1 w1 n1] := copy_all_good w H e1.
  apply: fin => //; first by move=> b /n1 [].
  apply: copy_all_read e1 => //; first by move=> b bi; exact: w g bi.
  by move=> h1 b r2 w2 u2 bi; have [? ?] := subA h1 b w2 u2 bi; exact: IH.
- case: bo => -[v ev hv] ed; rewrite /ref ev /=; ub r1 e1; ok.
  have [u1 w1 n1] := copy_array_good w e1; have vi : v \in orefs o by rewrite ev mem_head.
  apply: fin => //; first by move=> b; rewrite inE => /eqP ->; case: n1.
  by rewrite ev /= (copy_array_read m w (regular_sub g vi rg) hv e1).
- case: bo => -[v ev hv] ed; rewrite /ref ev /=; ub r1 e1; ok.
  have [u1 w1 n1] := copy_array_good w e1; have vi : v \in orefs o by rewrite ev mem_head.
  apply: fin => //; first by move=> b; rewrite inE => /eqP ->; case: n1.
  by rewrite ev /= (copy_array_read m w (regular_sub g vi rg) hv e1).
- case: bo => -[v ev [ol gl cl]] ed; rewrite /ref ev /= /getr gl /=; ub r1 e1; ok.
  have vi : v \in orefs o by rewrite ev mem_head.
  have := rg v ol (reach_step g vi (reach_refl h v)) gl; rewrite /built cl => edl.
  have H h1 b r2 : wf h1 -> untouched h h1 -> b \in orefs ol -> copy n h1 b = Ok r2 -> good h1 r2.1 r2.2.
    by move=> w1 u1 bi; have [? ?] := subB h1 b ol v vi gl w1 u1 bi; exact: copy_good.
  have [u1 w1 n1] := copy_all_good w H e1.
  have rl b : b \in r1.2 -> b < size r1.1 by move=> /n1 [].
  have [w2 l2] : wf (rcons r1.1 (Obj List r1.2 (ometa ol) [::])) /\ size r1.1 < size (rcons r1.1 (Obj List r1.2 (ometa ol) [::])).
    have [||_ ? [? _]] := @alloc_good (size h) r1.1 (Obj List r1.2 (ometa ol) [::]) w1; [by case: u1|exact: n1|by []].
  apply: fin => //; first by move=> b; rewrite inE => /eqP ->.
  rewrite ev /=; try clear fin; congr cons; case: m => // m; rewrite read_new //= gl cl edl; congr Node.
  apply: copy_all_read e1 => //; first by move=> b bi; exact: w gl bi.
  by move=> h1 b r2 w3 u3 bi; have [? ?] := subB h1 b ol v vi gl w3 u3 bi; exact: IH.
- case: bo => ed [l [ol [p [g' [b [op [og [ob [el gl cl eol [gp gg gb [cp cg cb] [t [i [dir [em emp emg emb]]]]]]]]]]]]]].
  rewrite /ref el /= /getr gl /= eol /= gp gg gb /=.
  have li : l \in orefs o by rewrite el mem_head.
  have rl := regular_sub g li rg.
  have bl := rl l ol (reach_refl h l) gl; rewrite /built cl in bl.
  have [pi gi bi] : [/\ p \in orefs ol, g' \in orefs ol & b \in orefs ol] by rewrite eol !inE !eqxx !orbT.
  have rp := regular_sub gl pi rl; have rgg := regular_sub gl gi rl; have rb := regular_sub gl bi rl.
  have := rp p op (reach_refl h p) gp; rewrite /built cp => -[[vp evp hvp] edp].
  have := rgg g' og (reach_refl h g') gg; rewrite /built cg => -[[vg evg hvg] edg].
  have := rb b ob (reach_refl h b) gb; rewrite /built cb => -[[vb evb hvb] edb].
  rewrite evp evg evb em emp /=; ub r1 e1; ub r2 e2; ub r3 e3; ok.
  have vpi : vp \in orefs op by rewrite evp mem_head.
  have vgi : vg \in orefs og by rewrite evg mem_head.
  have vbi : vb \in orefs ob by rewrite evb mem_head.
  have [u1 w1 n1] := copy_array_good w e1; have [u2 w2 n2] := copy_array_good w1 e2; have [u3 w3 n3] := copy_array_good w2 e3.
  have u12 := untouched_trans u1 u2; have u23 := untouched_trans u2 u3.
  have vpl := w _ _ _ gp vpi; have vgl := w _ _ _ gg vgi; have vbl := w _ _ _ gb vbi.
  have Rp k : read k r3.1 r1.2 = read k h vp.
    by rewrite (untouched_read k w1 _ u23); [apply: copy_array_read e1 => //; exact: regular_sub gp vpi rp|case: n1].
  have Rg k : read k r3.1 r2.2 = read k h vg.
    rewrite (untouched_read k w2 _ u3); last by case: n2.
    rewrite -(untouched_read k w vgl u1); apply: copy_array_read e2 => //; last exact: has_cls_ext hvg.
    by apply: regular_ext u1 _ => //; exact: regular_sub gg vgi rgg.
  have Rb k : read k r3.1 r3.2 = read k h vb.
    rewrite -(untouched_read k w vbl u12); apply: copy_array_read e3 => //; last exact: has_cls_ext hvb.
    by apply: regular_ext u12 _ => //; exact: regular_sub gb vbi rb.
  pose app h1 c x mm := rcons h1 (Obj c [:: x] mm [::] : obj).
  have wapp h1 c x mm : wf h1 -> x < size h1 -> wf (app h1 c x mm) /\ size (app h1 c x mm) = (size h1).+1.
    move=> wh xl; split; last by rewrite size_rcons.
    move=> y o' z; rewrite get_rcons size_rcons; case: eqP => [_ [<-]|_ gy zi]; last by apply: ltnW; exact: wh gy zi.
    by rewrite inE => /eqP ->; exact: ltnW.
  have l1 : r1.2 < size r3.1 by apply: leq_trans (proj1 u23); case: n1.
  have l2 : r2.2 < size r3.1 by apply: leq_trans (proj1 u3); case: n2.
  have l3 : r3.2 < size r3.1 by case: n3.
  have [x1 s1] := wapp r3.1 LieS r1.2 [:: t; id_pose; dir] w3 l1.
  set h1 := app _ _ _ _ in x1 s1.
  have [|x2 s2] := wapp h1 VectorS r2.2 [:: t; id_gyro] x1; first by rewrite s1; exact: ltnW.
  set h2 := app _ _ _ _ in x2 s2.
  have [|x3 s3] := wapp h2 VectorS r3.2 [:: t; id_accel] x2; first by rewrite s2 s1; do 2 apply: ltnW.
  set h3 := app _ _ _ _ in x3 s3.
  have t1 : untouched r3.1 h1 by exact: untouched_new.
  have t2 : untouched h1 h2 by exact: untouched_new.
  have t3 : untouched h2 h3 by exact: untouched_new.
  have refs3 x : x \in [:: size r3.1; size h1; size h2] -> x < size h3.
    by rewrite !inE s3 s2 s1 => /or3P[]/eqP ->; rewrite !ltnS // ?leqW // ?leqW.
  have w4 : wf (rcons h3 (Obj List [:: size r3.1; size h1; size h2] (ometa ol) [::])).
    move=> y o' z; rewrite get_rcons size_rcons; case: eqP => [_ [<-] /refs3/ltnW//|_ gy zi].
    by apply: ltnW; exact: x3 gy zi.
  rewrite -/(app _ _ _ _) -/h1 -/(app _ _ _ _) -/h2 -/(app _ _ _ _) -/h3.
  have sym : [:: t; i] = ometa o by rewrite em.
  have F := fin (rcons h3 (Obj List [:: size r3.1; size h1; size h2] (ometa ol) [::])) [:: size h3] [:: t; i] w4.
  cbv zeta in F; apply: F => //; first by move=> x; rewrite inE size_rcons => /eqP ->.
  try clear fin; try clear F.
  rewrite el /=; congr cons; case: m => // m; rewrite read_new //= gl cl bl eol /=.
  case: m => // m; congr (Node _ [:: _; _; _] _ _).
  - rewrite (untouched_read _ x1 _ (untouched_trans t2 t3)) ?s1 // read_new //; last by move=> x; rewrite inE => /eqP ->.
    by rewrite /= gp cp emp evp edp /= Rp.
  - rewrite (untouched_read _ x2 _ t3) ?s2 // read_new //; last by move=> x; rewrite inE s1 => /eqP ->; exact: ltnW.
    by rewrite /= gg cg emg evg edg /= (untouched_read _ w3 l2 t1) Rg.
  - rewrite read_new //; last by move=> x; rewrite inE s2 s1 => /eqP ->; do 2 apply: ltnW.
    by rewrite /= gb cb emb evb edb /= (untouched_read _ w3 l3 (untouched_trans t1 t2)) Rb.
- case: bo => -[s [c [es hc]]] ed; rewrite /ref es /=; ub rs e1; ub rc e2; ok.
  have si : s \in orefs o by rewrite es mem_head.
  have ci : c \in orefs o by rewrite es !inE eqxx orbT.
  have [nc1 rg1] := subA h s w (untouched_refl h) si.
  have [u1 w1 n1] := copy_good w nc1 e1; have [u2 w2 n2] := copy_array_good w1 e2.
  apply: fin => //.
    by move=> b; rewrite !inE => /orP[]/eqP ->; [apply: leq_trans (proj1 u2); case: n1|case: n2].
  rewrite es /= (untouched_read m w1 _ u2) ?(IH m h s rs) //; last by case: n1.
  have cl := w _ _ _ g ci; have rgc := regular_sub g ci rg.
  by rewrite -(untouched_read m w cl u1) (copy_array_read m w1 _ _ e2) //; [exact: regular_ext u1 rgc|exact: has_cls_ext hc].
- case: bo => -[v [rest [ev hv]]] ed; rewrite /ref ev /=; ub r1 e1; ok.
  have [u1 w1 n1] := copy_array_good w e1; have vi : v \in orefs o by rewrite ev mem_head.
  have rl b : b \in rest -> b < size h by move=> bi; apply: w g _; rewrite ev inE bi orbT.
  apply: fin => //.
    by move=> b; rewrite inE => /orP[/eqP -> |/rl bl]; [case: n1|apply: leq_trans bl _; case: u1].
  rewrite ev /= (copy_array_read m w (regular_sub g vi rg) hv e1); congr cons.
  by apply/eq_in_map => b bi; apply: untouched_read => //; exact: rl.
- case: bo => hv ed; ub r1 e1; ok.
  have H h1 b r2 : wf h1 -> untouched h h1 -> b \in orefs o -> copy_array h1 b = Ok r2 -> good h1 r2.1 r2.2.
    by move=> w1 _ _; exact: copy_array_good.
  have [u1 w1 n1] := copy_all_good w H e1.
  apply: fin => //; first by move=> b /n1 [].
  apply: copy_all_read e1 => //; first by move=> b bi; exact: w g bi.
  move=> h1 b r2 w2 u2 bi; have [? ?] := subA h1 b w2 u2 bi; apply: copy_array_read => //.
  by apply: has_cls_ext u2 _; exact: hv.
- case: bo => -[v ev [ol gl cl]] ed; rewrite /ref ev /= /getr gl /=; ub r1 e1; ok.
  have vi : v \in orefs o by rewrite ev mem_head.
  have := rg v ol (reach_step g vi (reach_refl h v)) gl; rewrite /built cl => edl.
  have H h1 b r2 : wf h1 -> untouched h h1 -> b \in orefs ol -> copy n h1 b = Ok r2 -> good h1 r2.1 r2.2.
    by move=> w1 u1 bi; have [? ?] := subB h1 b ol v vi gl w1 u1 bi; exact: copy_good.
  have [u1 w1 n1] := copy_all_good w H e1.
  have rl b : b \in r1.2 -> b < size r1.1 by move=> /n1 [].
  have [w2 l2] : wf (rcons r1.1 (Obj List r1.2 (ometa ol) [::])) /\ size r1.1 < size (rcons r1.1 (Obj List r1.2 (ometa ol) [::])).
    have [||_ ? [? _]] := @alloc_good (size h) r1.1 (Obj List r1.2 (ometa ol) [::]) w1; [by case: u1|exact: n1|by []].
  apply: fin => //; first by move=> b; rewrite inE => /eqP ->.
  rewrite ev /=; try clear fin; congr cons; case: m => // m; rewrite read_new //= gl cl edl; congr Node.
  apply: copy_all_read e1 => //; first by move=> b bi; exact: w gl bi.
  by move=> h1 b r2 w3 u3 bi; have [? ?] := subB h1 b ol v vi gl w3 u3 bi; exact: IH.
- case: bo => -[v [p [ev [ol gl cl] hp]]] ed; rewrite /ref ev /= /getr gl /=; ub r1 e1; ub rp ep; ok.
  have vi : v \in orefs o by rewrite ev mem_head.
  have pi : p \in orefs o by rewrite ev !inE eqxx orbT.
  have := rg v ol (reach_step g vi (reach_refl h v)) gl; rewrite /built cl => edl.
  have H h1 b r2 : wf h1 -> untouched h h1 -> b \in orefs ol -> copy n h1 b = Ok r2 -> good h1 r2.1 r2.2.
    by move=> w1 u1 bi; have [? ?] := subB h1 b ol v vi gl w1 u1 bi; exact: copy_good.
  have [u1 w1 n1] := copy_all_good w H e1.
  have rl b : b \in r1.2 -> b < size r1.1 by move=> /n1 [].
  set h1 := rcons r1.1 (Obj List r1.2 (ometa ol) [::]) in ep *.
  have [t1 w2 l2] : [/\ untouched r1.1 h1, wf h1 & size r1.1 < size h1].
    have [||? ? [? _]] := @alloc_good (size h) r1.1 (Obj List r1.2 (ometa ol) [::]) w1; [by case: u1|exact: n1|by []].
  have [u3 w3 n3] := copy_array_good w2 ep.
  apply: fin => //.
    by move=> b; rewrite !inE => /orP[]/eqP ->; [apply: leq_trans (proj1 u3)|case: n3].
  have uh1 := untouched_trans u1 t1; have pl := w _ _ _ g pi.
  rewrite ev /=; try clear fin; congr [:: _; _]; last first.
    by rewrite -(untouched_read m w pl uh1) (copy_array_read m w2 _ _ ep) //; [exact: regular_ext uh1 (regular_sub g pi rg)|exact: has_cls_ext hp].
  rewrite (untouched_read m w2 l2 u3); case: m => // m; rewrite read_new //= gl cl edl; congr Node.
  apply: copy_all_read e1 => //; first by move=> b bi; exact: w gl bi.
  by move=> h2 b r2 w4 u4 bi; have [? ?] := subB h2 b ol v vi gl w4 u4 bi; exact: IH.
Qed.
End Copy.
