(** Lemmas about CompositeModel. *)
From mathcomp Require Import all_ssreflect all_algebra.
From Verif Require Import Base CompositeModel.
Set Implicit Arguments.
Unset Strict Implicit.
Unset Printing Implicit Defensive.
Import GRing.Theory.

Lemma bind_ok A B (m : result A) (f : A -> result B) b :
  bind m f = Ok b -> exists2 a, m = Ok a & f a = Ok b.
Proof. by case: m => // a; exists a. Qed.

Lemma py_nthE {A} (x0 : A) (s : seq A) k : k < size s -> py_nth s k = Ok (nth x0 s k).
Proof. by move=> lt; rewrite /py_nth (drop_nth x0 lt). Qed.

Lemma py_nth_oob {A} (s : seq A) k : size s <= k -> py_nth s k = Raise IndexError.
Proof. by move=> le; rewrite /py_nth drop_oversize. Qed.

Lemma size_pslice {A} a b (v : seq A) : b <= size v -> size (pslice a b v) = b - a.
Proof.
move=> le; rewrite /pslice size_take size_drop; case: ltnP => //.
by move=> h; apply/eqP; rewrite eqn_leq h leq_sub2r.
Qed.

Lemma nth_pslice {A} (x0 : A) a b (v : seq A) j :
  j < b - a -> nth x0 (pslice a b v) j = nth x0 v (a + j).
Proof. by move=> lt; rewrite /pslice nth_take // nth_drop. Qed.

Section P.
Variable R : ringType.
Variables (T : Type) (I : eqType) (L : Type).
Variable ops : leafops R L.
Notation state := (state T I L).
Notation s_dof := (@s_dof R T I L ops).
Notation get_slices := (@get_slices R T I L ops).

(** Induction principle for nested trees. *)
Definition state_ind' (P : state -> Prop)
  (HL : forall v t i, P (Leaf v t i))
  (HC : forall l t i, (forall k, k < size l -> forall d, P (nth d l k)) -> P (Comp l t i))
  : forall s, P s.
Proof.
fix F 1; move=> s; destruct s as [v t i|l t i]; [exact: HL|apply: HC].
revert l; fix G 1; move=> l; destruct l as [|s l]; first by (clear F G; move=> k; rewrite ltn0).
move=> k; destruct k as [|k]; first by move=> _ d; exact: (F s).
by move=> lt d; apply: (G l k).
Qed.

Definition offset (l : seq state) (k : nat) : nat := sumn (take k (map s_dof l)).

Lemma size_get_slices l : size (get_slices l) = size l.
Proof. by rewrite /CompositeModel.get_slices; elim: l 0 => //= s l IH c; rewrite IH. Qed.

Lemma nth_get_slices_from c l k d : k < size l ->
  nth (0, 0) (get_slices_from ops c l) k = (c + offset l k, c + offset l k + s_dof (nth d l k)).
Proof.
elim: l c k => [|s l IH] c [|k] //= lt; first by rewrite /offset /= addn0.
by rewrite IH // /offset /= !addnA.
Qed.

Lemma nth_get_slices l k d : k < size l ->
  nth (0, 0) (get_slices l) k = (offset l k, offset l k + s_dof (nth d l k)).
Proof. by move=> lt; rewrite /CompositeModel.get_slices (@nth_get_slices_from _ _ _ d) // add0n. Qed.

Lemma offset0 l : offset l 0 = 0.
Proof. by rewrite /offset take0. Qed.

Lemma offsetS l k d : k < size l -> offset l k.+1 = offset l k + s_dof (nth d l k).
Proof.
move=> lt; rewrite /offset (take_nth 0) ?size_map // -cats1 sumn_cat /= addn0.
by rewrite (nth_map d).
Qed.

Lemma offset_size l : offset l (size l) = sumn (map s_dof l).
Proof. by rewrite /offset take_oversize // size_map. Qed.

Lemma offset_mono l k m : k <= m -> offset l k <= offset l m.
Proof.
elim: l k m => [|s l IH] [|k] [|m] //= le; rewrite /offset /= ?leq0n //.
by rewrite leq_add2l; apply: IH.
Qed.

Lemma offset_cons s l k : offset (s :: l) k.+1 = s_dof s + offset l k.
Proof. by []. Qed.

Lemma offset_le_total l k : offset l k <= sumn (map s_dof l).
Proof.
case: (leqP k (size l)) => h; first by rewrite -offset_size; apply: offset_mono.
by rewrite /offset take_oversize // size_map ltnW.
Qed.

Lemma slices_cover l i : i < sumn (map s_dof l) ->
  exists2 k, k < size l & inslice (nth (0,0) (get_slices l) k) i.
Proof.
rewrite /CompositeModel.get_slices.
suff H c : i < sumn (map s_dof l) ->
  exists2 k, k < size l & inslice (nth (0,0) (get_slices_from ops c l) k) (c + i) by exact: H.
elim: l i c => [|s l IH] i c //= lt.
case: (ltnP i (s_dof s)) => h.
  by exists 0 => //=; rewrite /inslice /= leq_addr ltn_add2l.
have [|k lk Hk] := IH (i - s_dof s) (c + s_dof s); first by rewrite ltn_subLR.
by exists k.+1 => //=; move: Hk; rewrite -addnA subnKC.
Qed.

Lemma slices_disjoint l i k m d :
  k < size l -> m < size l ->
  inslice (nth d (get_slices l) k) i ->
  inslice (nth d (get_slices l) m) i -> k = m.
Proof.
wlog le : k m / k <= m.
  move=> H lk lm hk hm; case: (leqP k m) => h; first exact: H.
  by symmetry; apply: H => //; apply: ltnW.
move=> lk lm; case: l lk lm => // s0 l0; set l := s0 :: l0 => lk lm.
rewrite !(set_nth_default (0,0) d) ?size_get_slices //.
rewrite !(@nth_get_slices _ _ s0) // /inslice /= => /andP[_ h1] /andP[h2 _].
apply/eqP; rewrite eqn_leq le /= leqNgt; apply/negP => lt.
rewrite -(offsetS _ lk) in h1.
by have := leq_trans (leq_trans h1 (offset_mono l lt)) h2; rewrite ltnn.
Qed.

(* lookup *)
Lemma get_index_ok (l : seq state) i k : get_index_by_id l i = Ok k ->
  [/\ k < size l, forall d, s_id (nth d l k) = i & forall m d, m < k -> s_id (nth d l m) != i].
Proof.
rewrite /get_index_by_id; case: ifP => // hin [<-].
have lt : index i (map (@s_id T I L) l) < size l by rewrite -(size_map (@s_id T I L)) index_mem.
split=> // [d|m d lm].
  by rewrite -(nth_map d i) // nth_index.
have := before_find i lm; rewrite /= (nth_map d) ?(ltn_trans lm) // => ->; first by [].
Qed.

Lemma get_index_raise (l : seq state) i : i \notin map (@s_id T I L) l -> get_index_by_id l i = Raise ValueError.
Proof. by rewrite /get_index_by_id => /negbTE ->. Qed.

Lemma get_index_mem (l : seq state) i : i \in map (@s_id T I L) l -> exists k, get_index_by_id l i = Ok k.
Proof. by rewrite /get_index_by_id => ->; eexists. Qed.

Lemma get_slice_by_idE l i k : get_index_by_id l i = Ok k ->
  get_slice_by_id ops l i = Ok (nth (0,0) (get_slices l) k).
Proof.
move=> h; have [lt _ _] := get_index_ok h.
by rewrite /get_slice_by_id h /= (py_nthE (0,0)) // size_get_slices.
Qed.

Lemma get_state_by_idE (l : seq state) i k d : get_index_by_id l i = Ok k ->
  get_state_by_id l i = Ok (nth d l k).
Proof.
move=> h; have [lt _ _] := get_index_ok h.
by rewrite /get_state_by_id h /= (py_nthE d).
Qed.

(* plus loop = named loop *)
Lemma s_plusC (l : seq state) t i dx : s_plus ops (Comp l t i) dx = (l' <~ plus_list ops l dx ;; Ok (Comp l' t i)).
Proof. by []. Qed.

Lemma s_minusC (l lx : seq state) t i tx ix : s_minus ops (Comp l t i) (Comp lx tx ix) =
  (ds <~ minus_list ops l lx ;; if ds is [::] then Raise ValueError else Ok (flatten ds)).
Proof. by []. Qed.

Lemma s_pjacC (l : seq state) t i dx : s_pjac ops (Comp l t i) dx =
  pjac_list ops l 0 dx (azeros R (sumn (map s_dof l)) (sumn (map s_dof l))).
Proof. by []. Qed.

Lemma s_mjacC (l lx : seq state) t i tx ix : s_mjac ops (Comp l t i) (Comp lx tx ix) =
  mjac_list ops l lx 0 (azeros R (sumn (map s_dof l)) (sumn (map s_dof l))).
Proof. by []. Qed.

(** slice of a perturbation belonging to substate k *)
Definition sl (l : seq state) (k : nat) (dx : seq R) : seq R :=
  let s := nth (0,0) (get_slices l) k in pslice s.1 s.2 dx.

Lemma slE l k d dx : k < size l -> sl l k dx = take (s_dof (nth d l k)) (drop (offset l k) dx).
Proof. by move=> lt; rewrite /sl (@nth_get_slices _ _ d) // /pslice /= addKn. Qed.

Lemma sl0 s l dx : sl (s :: l) 0 dx = take (s_dof s) dx.
Proof. by rewrite (@slE _ _ s) //= offset0 drop0. Qed.

Lemma slS s l k dx : k < size l -> sl (s :: l) k.+1 dx = sl l k (drop (s_dof s) dx).
Proof. by move=> lt; rewrite !(@slE _ _ s) //= drop_drop offset_cons addnC. Qed.

Lemma plus_list_ok (l : seq state) dx l' : plus_list ops l dx = Ok l' ->
  size l' = size l /\
  forall k d, k < size l -> s_plus ops (nth d l k) (sl l k dx) = Ok (nth d l' k).
Proof.
elim: l dx l' => [|s l IH] dx l' /=; first by move=> [<-].
move=> H; have [s' Es {}H] := bind_ok H; have [r' Er [<-]] := bind_ok H => {H}.
have [sz H] := IH _ _ Er; split; first by rewrite /= sz.
by case=> [|k] d lt; rewrite ?sl0 //= slS //; apply: H.
Qed.

Lemma plus_list_intro (l : seq state) dx l' : size l' = size l ->
  (forall k d, k < size l -> s_plus ops (nth d l k) (sl l k dx) = Ok (nth d l' k)) ->
  plus_list ops l dx = Ok l'.
Proof.
elim: l dx l' => [|s l IH] dx [|s' l'] //= [sz] H.
have := H 0 s (ltn0Sn _); rewrite sl0 /= => -> /=.
rewrite (IH _ l') // => k d lt.
by have := H k.+1 d lt; rewrite slS.
Qed.

Lemma s_plus_id (s : state) dx s' : s_plus ops s dx = Ok s' -> s_id s' = s_id s /\ s_stamp s' = s_stamp s.
Proof.
case: s => [v t i|l t i] /=; first by move=> H; have [v' _ [<-]] := bind_ok H.
by move=> H; have [v' _ [<-]] := bind_ok H.
Qed.

(** domain on which a leaf obeys a law, lifted to trees slice by slice *)
Fixpoint tree_all (P : L -> seq R -> Prop) (s : state) (dx : seq R) : Prop :=
  match s with
  | Leaf v _ _ => P v dx
  | Comp l _ _ =>
      l <> [::] /\
      (fix go (l : seq state) (dx : seq R) : Prop :=
         match l with
         | [::] => True
         | s :: r => tree_all P s (take (s_dof s) dx) /\ go r (drop (s_dof s) dx)
         end) l dx
  end.

Lemma tree_allC P l t i dx : tree_all P (Comp l t i) dx <->
  l <> [::] /\ forall k d, k < size l -> tree_all P (nth d l k) (sl l k dx).
Proof.
rewrite /=; split=> -[ne H]; split=> //.
  elim: l dx H {ne} => [|s l IH] dx //= [H1 H2] [|k] d lt; rewrite ?sl0 // slS //.
  exact: IH.
elim: l dx H {ne} => [|s l IH] dx //= H; split; first by have := H 0 s isT; rewrite sl0.
by apply: IH => k d lt; have := H k.+1 d lt; rewrite slS.
Qed.

Lemma size_sl l k d dx : k < size l -> size dx = sumn (map s_dof l) ->
  size (sl l k dx) = s_dof (nth d l k).
Proof.
move=> lt sz; rewrite /sl (@nth_get_slices _ _ d) //= size_pslice ?addKn //.
by rewrite sz -(offsetS _ lt) offset_le_total.
Qed.

Lemma flatten_sl l dx : size dx = sumn (map s_dof l) ->
  flatten [seq sl l k dx | k <- iota 0 (size l)] = dx.
Proof.
elim: l dx => [|s l IH] dx /= sz; first by case: dx sz.
rewrite sl0 -{3}(cat_take_drop (s_dof s) dx); congr cat.
have sz' : size (drop (s_dof s) dx) = sumn (map s_dof l) by rewrite size_drop sz addKn.
rewrite -[RHS](IH _ sz') (iotaDl 1 0) -map_comp; congr flatten.
apply/eq_in_map => k; rewrite mem_iota add0n => /andP[_ lt] /=.
by rewrite add1n slS.
Qed.

(** ** plus then minus *)
Definition pm_law (v : L) (dx : seq R) : Prop :=
  exists v', [/\ l_plus ops v dx = Ok v', l_dof ops v' = l_dof ops v & l_minus ops v' v = Ok dx].

Lemma minus_list_intro (l lx : seq state) ds : size ds = size lx -> size l = size lx ->
  (forall k d, k < size lx -> s_minus ops (nth d l k) (nth d lx k) = Ok (nth [::] ds k) /\
     size (nth [::] ds k) = s_dof (nth d l k)) ->
  minus_list ops l lx = Ok ds.
Proof.
elim: l lx ds => [|s l IH] [|x lx] [|d0 ds] //= [sz1] [sz2] H.
have [-> /= ->] := H 0 s isT; rewrite eqxx (IH _ ds) // => k d lt.
exact: (H k.+1 d lt).
Qed.

Lemma plus_minus_tree (s : state) dx : size dx = s_dof s -> tree_all pm_law s dx ->
  exists s', [/\ s_plus ops s dx = Ok s', s_dof s' = s_dof s & s_minus ops s' s = Ok dx].
Proof.
elim/state_ind': s dx => [v t i|l t i IH] dx sz.
  by move=> /= [v' [-> dv mv]]; exists (Leaf v' t i).
rewrite tree_allC => -[ne H].
have [l' [szl' Hl']] : exists l', size l' = size l /\
   forall k d, k < size l -> [/\ s_plus ops (nth d l k) (sl l k dx) = Ok (nth d l' k),
      s_dof (nth d l' k) = s_dof (nth d l k) & s_minus ops (nth d l' k) (nth d l k) = Ok (sl l k dx)].
  elim: l dx IH H {ne} sz => [|s l IHl] dx IH H sz; first by exists [::].
  have [s' Hs'] : exists s', [/\ s_plus ops s (sl (s::l) 0 dx) = Ok s', s_dof s' = s_dof s &
        s_minus ops s' s = Ok (sl (s :: l) 0 dx)].
    by apply: (IH 0 isT s); [rewrite (@size_sl _ _ s) | apply: (H 0 s)].
  have [l' [szl' Hl']] := IHl (drop (s_dof s) dx) (fun k lt d => IH k.+1 lt d)
     (fun k d lt => eq_ind _ _ (H k.+1 d lt) _ (slS _ _ lt)) (etrans (size_drop _ _) (etrans (congr1 (fun n => n - _) sz) (addKn _ _))).
  exists (s' :: l'); split; first by rewrite /= szl'.
  by case=> [|k] d lt //=; rewrite slS //; apply: Hl'.
have E : plus_list ops l dx = Ok l'.
  by apply: plus_list_intro => // k d lt; have [] := Hl' k d lt.
exists (Comp l' t i); split; first by rewrite s_plusC E.
  rewrite /=; congr sumn; apply: (@eq_from_nth _ 0); first by rewrite !size_map.
  move=> k; rewrite size_map szl' => lt.
  have d : state by case: (l) lt.
  rewrite !(nth_map d) ?szl' //; by have [] := Hl' k d lt.
rewrite s_minusC (@minus_list_intro _ _ [seq sl l k dx | k <- iota 0 (size l)]) /=.
- have sz' : size dx = sumn (map s_dof l) by exact: sz.
  by rewrite flatten_sl //; case: (l) ne.
- by rewrite size_map size_iota.
- by [].
- move=> k d lt; rewrite (nth_map 0) ?size_iota // nth_iota // add0n.
  have [_ hd hm] := Hl' k d lt; rewrite hm hd; split=> //.
  by rewrite (@size_sl _ _ d).
Qed.

(** ** minus then plus *)
Definition mp_law (x y : L) : Prop :=
  exists d, [/\ l_minus ops y x = Ok d, size d = l_dof ops x, l_dof ops x = l_dof ops y
     & l_plus ops x d = Ok y].

Fixpoint tree_rel (P : L -> L -> Prop) (x y : state) : Prop :=
  match x, y with
  | Leaf v _ _, Leaf w _ _ => P v w
  | Comp l _ _, Comp m _ _ =>
      l <> [::] /\
      (fix go (l m : seq state) : Prop :=
         match l, m with
         | [::], [::] => True
         | s :: r, s' :: r' => tree_rel P s s' /\ go r r'
         | _, _ => False
         end) l m
  | _, _ => False
  end.

Lemma tree_relC P l m t i t' i' : tree_rel P (Comp l t i) (Comp m t' i') <->
  [/\ l <> [::], size l = size m & forall k d, k < size l -> tree_rel P (nth d l k) (nth d m k)].
Proof.
rewrite /=; split=> [[ne H]|[ne sz H]].
  have [sz H'] : size l = size m /\ forall k d, k < size l -> tree_rel P (nth d l k) (nth d m k).
    elim: l m H {ne} => [|s l IH] [|s' m] //= [H1 H2].
    have [-> H3] := IH _ H2; split=> // -[|k] d lt //=; exact: H3.
  by split.
split=> //; elim: l m sz H {ne} => [|s l IH] [|s' m] //= [sz] H.
split; first exact: (H 0 s isT).
by apply: IH => // k d lt; apply: (H k.+1 d lt).
Qed.

(** forget stamps and ids / forget values *)
Inductive vtree : Type := VLeaf (v : L) | VComp (l : seq vtree).
Fixpoint values (s : state) : vtree :=
  match s with Leaf v _ _ => VLeaf v | Comp l _ _ => VComp (map values l) end.
Inductive mtree : Type := MLeaf (t : option T) (i : I) | MComp (l : seq mtree) (t : option T) (i : I).
Fixpoint metas (s : state) : mtree :=
  match s with Leaf _ t i => MLeaf t i | Comp l t i => MComp (map metas l) t i end.

Lemma minus_plus_tree (x y : state) : tree_rel mp_law x y ->
  exists d z, [/\ s_minus ops y x = Ok d, size d = s_dof x, s_dof x = s_dof y
     & s_plus ops x d = Ok z /\ values z = values y /\ metas z = metas x].
Proof.
elim/state_ind': x y => [v t i|l t i IH] [w t' i'|m t' i'] //.
  by move=> /= [d [h1 h2 h3 h4]]; exists d, (Leaf w t i); rewrite /= h4.
rewrite tree_relC => -[ne sz H].
have [ds [zs [szd szz Hk]]] : exists ds zs, [/\ size ds = size l, size zs = size l &
   forall k d, k < size l -> [/\ s_minus ops (nth d m k) (nth d l k) = Ok (nth [::] ds k),
      size (nth [::] ds k) = s_dof (nth d l k), s_dof (nth d l k) = s_dof (nth d m k)
     & s_plus ops (nth d l k) (nth [::] ds k) = Ok (nth d zs k) /\
       values (nth d zs k) = values (nth d m k) /\ metas (nth d zs k) = metas (nth d l k)]].
  elim: l m IH H {ne} sz => [|s l IHl] [|s' m] //= IH H sz; first by exists [::], [::].
  case: sz => sz.
  have [d0 [z0 H0]] := IH 0 isT s s' (H 0 s isT).
  have [ds [zs [szd szz Hk]]] := IHl m (fun k lt d => IH k.+1 lt d) (fun k d lt => H k.+1 d lt) sz.
  exists (d0 :: ds), (z0 :: zs); split; rewrite /= ?szd ?szz //.
  by case=> [|k] d lt //; apply: Hk.
have Em : minus_list ops m l = Ok ds.
  apply: minus_list_intro => // k d lt.
  by have [hm hs hd _] := Hk k d lt; rewrite hm hs hd.
have Esz : size (flatten ds) = sumn (map s_dof l).
  rewrite size_flatten /shape; congr sumn; apply: (@eq_from_nth _ 0); rewrite !size_map //.
  move=> k lt; rewrite (nth_map [::]) //; rewrite szd in lt.
  have d : state by case: (l) lt.
  by rewrite (nth_map d) //; have [] := Hk k d lt.
have Esl k (d : state) : k < size l -> sl l k (flatten ds) = nth [::] ds k.
  move=> lt; rewrite (@slE _ _ d) //.
  have szs : forall j, j < size l -> size (nth [::] ds j) = s_dof (nth d l j).
    by move=> j lj; have [] := Hk j d lj.
  clear -lt szd szs; elim: l ds k lt szd szs => [|s l IHl] [|d0 ds] k //= lt [szd] szs.
  have s0 := szs 0 isT; rewrite /= in s0.
  case: k lt => [|k] lt /=.
    by rewrite offset0 drop0 take_cat s0 ltnn subnn take0 cats0.
  rewrite offset_cons addnC.
  have -> : drop (offset l k + s_dof s) (d0 ++ flatten ds) = drop (offset l k) (flatten ds).
    by rewrite -drop_drop drop_cat s0 ltnn subnn drop0.
  by apply: IHl => // j lj; apply: (szs j.+1).
exists (flatten ds), (Comp zs t i); split.
- by rewrite s_minusC Em /=; case: (ds) szd => //; case: (l) ne.
- exact: Esz.
- rewrite /=; congr sumn; apply: (@eq_from_nth _ 0); rewrite !size_map ?sz //.
  move=> k lt; have lt' : k < size l by rewrite sz.
  have d : state by case: (l) lt'.
  by rewrite !(nth_map d) //; have [] := Hk k d lt'.
split; last split.
- rewrite s_plusC (@plus_list_intro _ _ zs) // => k d lt.
  by rewrite (Esl _ d lt); have [_ _ _ []] := Hk k d lt.
- rewrite /=; congr VComp; case: (l) ne szz sz Hk => // s0 l0 _ szz sz Hk.
  apply: (@eq_from_nth _ (values s0)); rewrite !size_map ?szz //.
  by move=> k lt; rewrite !(nth_map s0) -?sz ?szz //; have [_ _ _ [_ []]] := Hk k s0 lt.
- rewrite /=; congr MComp; case: (l) ne szz sz Hk => // s0 l0 _ szz sz Hk.
  apply: (@eq_from_nth _ (metas s0)); rewrite !size_map ?szz //.
  by move=> k lt; rewrite !(nth_map s0) ?szz //; have [_ _ _ [_ []]] := Hk k s0 lt.
Qed.

End P.
