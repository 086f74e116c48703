(** Remaining lemmas for the Composite properties (lookup/add/remove, vector
    leaves, concrete witnesses). *)
From mathcomp Require Import all_ssreflect all_algebra.
From Verif Require Import Base CompositeModel CompositeProof CompositeProof2.
Set Implicit Arguments.
Unset Strict Implicit.
Unset Printing Implicit Defensive.
Import GRing.Theory.

Section P.
Variable R : ringType.
Variables (T : Type) (I : eqType) (L : Type).
Variable ops : leafops R L.
Notation state := (state T I L).
Notation s_dof := (@s_dof R T I L ops).
Notation get_slices := (@get_slices R T I L ops).
Notation ids := (map (@s_id T I L)).

Lemma slices_partition (l : seq state) :
  [/\ size (get_slices l) = size l,
      (forall k d, k < size l -> slen (nth (0,0) (get_slices l) k) = s_dof (nth d l k)),
      (forall k, k.+1 < size l ->
         (nth (0,0) (get_slices l) k).2 = (nth (0,0) (get_slices l) k.+1).1),
      (0 < size l -> (nth (0,0) (get_slices l) 0).1 = 0 /\
         (nth (0,0) (get_slices l) (size l).-1).2 = sumn (map s_dof l))
    & (forall i, i < sumn (map s_dof l) ->
        exists2 k, (k < size l /\ inslice (nth (0,0) (get_slices l) k) i) &
           forall m, m < size l -> inslice (nth (0,0) (get_slices l) m) i -> m = k)].
Proof.
split.
- exact: size_get_slices.
- by move=> k d lt; rewrite (@nth_get_slices _ _ _ _ _ _ _ d) // /slen /= addKn.
- case: l => // s0 l k lt.
  rewrite (@nth_get_slices _ _ _ _ _ _ _ s0); last exact: ltnW.
  by rewrite (@nth_get_slices _ _ _ _ _ _ _ s0) //= -offsetS //; apply: ltnW.
- case: l => // s0 l _; split.
    by rewrite (@nth_get_slices _ _ _ _ _ _ _ s0) //= offset0.
  rewrite (@nth_get_slices _ _ _ _ _ _ _ s0) // -(offset_size ops (s0 :: l)).
  by rewrite [RHS](@offsetS _ _ _ _ _ _ _ s0).
- move=> i lt; have [k lk hk] := slices_cover lt; exists k => // m lm hm.
  exact: slices_disjoint lm lk hm hk.
Qed.

(** c_plus, slice-wise *)
Lemma c_plus_slicewise (l : seq state) t i dx ns x' :
  c_plus ops l t i dx ns = Ok x' ->
  exists l', [/\ x' = Comp l' t i, size l' = size l, ids l' = ids l &
    forall k d, k < size l -> exists2 s',
      s_plus ops (nth d l k)
        (pslice (nth (0,0) (get_slices l) k).1 (nth (0,0) (get_slices l) k).2 dx) = Ok s'
      & nth d l' k = if ns is Some ts then set_stamp (Some ts) s' else s'].
Proof.
rewrite /c_plus => H; have [l' El' [<-]] := bind_ok H.
have [sz Hk] := plus_list_ok El'.
have idl : ids l' = ids l.
  case: l l' sz Hk {El' H} => [|s0 l] l'; first by case: l'.
  move=> sz Hk; apply: (@eq_from_nth _ (s_id s0)); rewrite !size_map // sz => k lt.
  rewrite !(nth_map s0) ?sz //.
  by have [] := s_plus_id (Hk k s0 lt).
eexists; split; first by [].
- by case: ns {H} => [ts|]; rewrite ?size_map.
- case: ns {H} => [ts|//]; rewrite -idl /set_stamp_for_all -map_comp.
  by apply: eq_map; case.
move=> k d lt; exists (nth d l' k); first exact: Hk.
by case: ns {H} => [ts|] //; rewrite (nth_map d) ?sz.
Qed.

Lemma plus_list_extra (l : seq state) dx e : sumn (map s_dof l) <= size dx ->
  plus_list ops l (dx ++ e) = plus_list ops l dx.
Proof.
elim: l dx => //= s l IH dx le.
have le1 : s_dof s <= size dx by apply: leq_trans le; apply: leq_addr.
rewrite take_cat drop_cat; case: ltnP => h.
  case: (s_plus _ _ _) => //= s'; rewrite IH // size_drop leq_subRL // ?[_ + _]addnC //.
have es : size dx = s_dof s by apply/eqP; rewrite eqn_leq h le1.
rewrite es subnn take0 cats0 drop0 take_oversize ?es // drop_oversize ?es //.
case: (s_plus _ _ _) => //= s'.
have z : sumn (map s_dof l) <= size (Nil R).
  by move: le; rewrite es -[X in _ <= X]addn0 leq_add2l.
by rewrite -[e]cat0s IH.
Qed.

Lemma c_plus_extra (l : seq state) t i dx e ns : sumn (map s_dof l) <= size dx ->
  c_plus ops l t i (dx ++ e) ns = c_plus ops l t i dx ns.
Proof. by move=> le; rewrite /c_plus plus_list_extra. Qed.

Lemma c_plus_noninterference (l : seq state) t i dx1 dx2 ns l1 l2 t1 i1 t2 i2 k d :
  k < size l ->
  (let s := nth (0,0) (get_slices l) k in pslice s.1 s.2 dx1 = pslice s.1 s.2 dx2) ->
  c_plus ops l t i dx1 ns = Ok (Comp l1 t1 i1) ->
  c_plus ops l t i dx2 ns = Ok (Comp l2 t2 i2) ->
  nth d l1 k = nth d l2 k.
Proof.
move=> lt e H1 H2.
have [l1' [[<- _ _] _ _ /(_ k d lt)[s1 E1 ->]]] := c_plus_slicewise H1.
have [l2' [[<- _ _] _ _ /(_ k d lt)[s2 E2 ->]]] := c_plus_slicewise H2.
by move: E1 E2 => /=; rewrite e => -> [->].
Qed.

(** lookup *)
Lemma lookup_spec (l : seq state) i :
  match get_state_by_id l i with
  | Ok s => exists k, [/\ k < size l, (forall d, nth d l k = s), s_id s = i
      & forall m d, m < k -> s_id (nth d l m) <> i]
  | Raise e => e = ValueError /\ i \notin ids l
  end.
Proof.
case: (boolP (i \in ids l)) => h.
  have [k Ek] := get_index_mem h; have [lt h1 h2] := get_index_ok Ek.
  have s0 : state by case: (l) lt.
  rewrite (get_state_by_idE s0 Ek); exists k; split=> //.
    by move=> d; apply: set_nth_default.
  by move=> m d lm; apply/eqP; apply: h2.
by rewrite /get_state_by_id get_index_raise.
Qed.

Lemma remove_spec (l : seq state) i :
  match remove_state_by_id l i with
  | Ok l' => exists a s b, [/\ l = a ++ s :: b, l' = a ++ b, s_id s = i, i \notin ids a
      & sumn (map s_dof l) = s_dof s + sumn (map s_dof l')]
  | Raise e => e = ValueError /\ i \notin ids l
  end.
Proof.
rewrite /remove_state_by_id.
case: (boolP (i \in ids l)) => h; last by rewrite get_index_raise.
have [k Ek] := get_index_mem h; have [lt h1 h2] := get_index_ok Ek.
rewrite Ek /= /pop; have s0 : state by case: (l) lt.
exists (take k l), (nth s0 l k), (drop k.+1 l); split=> //.
- by rewrite -drop_nth // cat_take_drop.
- apply/negP => /(nthP i) [m]; rewrite size_map size_take lt => lm.
  rewrite (nth_map s0) ?size_take ?lt // nth_take // => e.
  by have := h2 m s0 lm; rewrite e eqxx.
- rewrite -{1}(cat_take_drop k l) (drop_nth s0 lt) !map_cat !sumn_cat /=.
  by rewrite addnCA.
Qed.

Lemma add_spec (l : seq state) s :
  [/\ sumn (map s_dof (add_state l s)) = sumn (map s_dof l) + s_dof s,
      (forall d k, k < size l -> nth d (add_state l s) k = nth d l k)
    & (s_id s \notin ids l -> get_state_by_id (add_state l s) (s_id s) = Ok s) /\
      (forall i x, get_state_by_id l i = Ok x -> get_state_by_id (add_state l s) i = Ok x)].
Proof.
rewrite /add_state; split.
- by rewrite -cats1 map_cat sumn_cat /= addn0.
- by move=> d k lt; rewrite nth_rcons lt.
split=> [nin|i x].
  rewrite /get_state_by_id /get_index_by_id map_rcons mem_rcons in_cons eqxx /=.
  rewrite -(cats1 (ids l)) index_cat (negbTE nin) /= eqxx addn0 size_map.
  by rewrite (py_nthE s) ?size_rcons // nth_rcons ltnn eqxx.
rewrite /get_state_by_id /get_index_by_id map_rcons mem_rcons in_cons.
case: ifP => //= h; rewrite orbT /=.
have lt : index i (ids l) < size l by rewrite -(size_map (@s_id T I L)) index_mem.
rewrite -(cats1 (ids l)) index_cat h !(py_nthE s) ?size_rcons //; last exact: ltnW.
by rewrite nth_rcons lt.
Qed.

Lemma set_state_spec (l : seq state) s i l' : set_state_by_id l s i = Ok l' ->
  exists k, [/\ get_index_by_id l i = Ok k, size l' = size l,
    (forall d, nth d l' k = s) & (forall d m, m <> k -> nth d l' m = nth d l m)].
Proof.
rewrite /set_state_by_id => H; have [k Ek {}H] := bind_ok H.
have [lt h1 h2] := get_index_ok Ek; move: H; rewrite /py_set lt => -[<-].
exists k; split=> //.
- by rewrite size_cat /= size_take size_drop lt subnSK // subnKC // ltnW.
- by move=> d; rewrite nth_cat size_take lt ltnn subnn.
move=> d m ne; rewrite nth_cat size_take lt; case: ltnP => h; first by rewrite nth_take.
case E : (m - k) => [|j] /=.
  by case: ne; apply/eqP; rewrite eqn_leq h andbT -subn_eq0 E.
by rewrite nth_drop addSn -addnS -E subnKC.
Qed.

(** plus_by_id, as written *)
Lemma plus_by_id_unchanged (l : seq state) t i0 dx i x' :
  plus_by_id ops l t i0 dx i None = Ok x' -> x' = Comp l t i0.
Proof.
rewrite /plus_by_id => H; have [k Ek {}H] := bind_ok H; have [s Es {}H] := bind_ok H.
by have [s' _ [<-]] := bind_ok H.
Qed.

Lemma minus_empty t i t' i' : s_minus ops (Comp [::] t i : state) (Comp [::] t' i') = Raise ValueError.
Proof. by []. Qed.

Section CPM.
Variables (U DT : Type).
Lemma cpm_eval_spec (ms : seq (pmodel R T I L U DT)) (l : seq state) t i cu dt l' :
  (cpm_eval ms (Comp l t i) cu dt = Ok (Comp l' t i)) <->
  (size l' = size l /\ (size l <= size ms) /\
   forall k dm (ds : state), k < size l ->
     exists2 u, input_at cu k = Some u &
       pm_eval (nth dm ms k) (nth ds l k) u dt = Ok (nth ds l' k)).
Proof.
rewrite /cpm_eval; split.
  move=> H; have [l2 E2 [<-]] := bind_ok H.
  have [sz [le Hk]] := pm_loop_ok E2; split=> //; split=> // k dm ds lt.
  exact: Hk.
move=> [sz [le Hk]]; rewrite (@pm_loop_intro _ _ _ _ _ _ _ _ _ _ _ l') // => k dm ds db lt.
have [u Eu E] := Hk k dm ds lt; exists u => //.
by rewrite E (set_nth_default db ds) ?sz.
Qed.
End CPM.
End P.

(** Vector leaves satisfy the leaf laws. *)
Section Vec.
Variable R : ringType.
Variables (T : Type) (I : eqType).
Notation ops := (vec_ops R).
Local Open Scope ring_scope.

Lemma vec_pm_law (v dx : seq R) : size dx = size v -> pm_law ops v dx.
Proof.
move=> sz; exists [seq p.1 + p.2 | p <- zip v dx]; rewrite /= /vec_plus sz eqxx; split=> //.
  by rewrite size_map size1_zip ?sz.
rewrite /vec_minus !size_map size1_zip ?sz // eqxx; congr Ok.
elim: v dx sz => [|a v IH] [|b dx] //= [sz]; rewrite IH //.
by rewrite addrAC subrr add0r.
Qed.

Lemma vec_mp_law (x y : seq R) : size x = size y -> mp_law ops x y.
Proof.
move=> sz; exists [seq p.1 - p.2 | p <- zip y x]; split=> //.
- by rewrite /= /vec_minus sz eqxx.
- by rewrite /= size_map size1_zip ?sz.
rewrite /= /vec_plus size_map size1_zip ?sz // eqxx; congr Ok.
elim: x y sz => [|a x IH] [|b y] //= [sz]; rewrite IH //.
by rewrite addrC subrK.
Qed.

Notation s_dof := (@s_dof R T I (seq R) ops).

Lemma vec_tree_plus (s : state T I (seq R)) dx :
  (size dx = s_dof s -> exists s', s_plus ops s dx = Ok s') /\
  ((size dx < s_dof s)%N -> s_plus ops s dx = Raise ValueError).
Proof.
elim/state_ind': s dx => [v t i|l t i IH] dx.
  rewrite /= /vec_plus; split=> [->|lt]; first by rewrite eqxx; eexists.
  by rewrite ltn_eqF.
rewrite s_plusC.
have {}IH : forall k d dx, (k < size l)%N ->
   (size dx = s_dof (nth d l k) -> exists s', s_plus ops (nth d l k) dx = Ok s') /\
   ((size dx < s_dof (nth d l k))%N -> s_plus ops (nth d l k) dx = Raise ValueError).
  by move=> k d dx0 lt; apply: IH.
rewrite [s_dof _]/=.
suff [A B] : (size dx = sumn (map s_dof l) -> exists l', plus_list ops l dx = Ok l') /\
  ((size dx < sumn (map s_dof l))%N -> plus_list ops l dx = Raise ValueError).
  split=> [/A[l' ->]|/B -> //]; by eexists.
elim: l dx IH => [|s l IHl] dx IH; first by split=> //; exists [::].
have {}IHl := IHl _ (fun k d dx lt => IH k.+1 d dx lt).
rewrite [sumn _]/=; cbn [plus_list].
have [H1 H2] := IH 0%N s (take (s_dof s) dx) isT; rewrite /= in H1 H2.
split=> [sz|lt].
  have [|s' ->] := H1; first by rewrite size_takel // sz leq_addr.
  have [|l' ->] := (IHl (drop (s_dof s) dx)).1; first by rewrite size_drop sz addKn.
  by eexists.
case: (ltnP (size dx) (s_dof s)) => h; first by rewrite H2 // take_oversize // ltnW.
have [|s' ->] := H1; first by rewrite size_takel.
by rewrite (IHl (drop (s_dof s) dx)).2 // size_drop ltn_subLR.
Qed.
End Vec.
