(** Lemmas about Jacobian placement, block-diagonal models, matrix blocks. *)
From mathcomp Require Import all_ssreflect all_algebra.
From Verif Require Import Base CompositeModel CompositeProof.
Set Implicit Arguments.
Unset Strict Implicit.
Unset Printing Implicit Defensive.
Import GRing.Theory.

Section Arr.
Variable R : ringType.
Local Open Scope ring_scope.

Lemma sum_support (a b n : nat) (f : nat -> R) : (a <= b)%N -> (b <= n)%N ->
  (forall j, (j < n)%N -> ~~ inslice (a, b) j -> f j = 0) ->
  \sum_(j < n) f j = \sum_(j < b - a) f (a + j)%N.
Proof.
move=> ab bn H; rewrite -(big_mkord xpredT f) (@big_cat_nat _ _ _ b) //=.
rewrite (@big_cat_nat _ _ _ a 0 b) //= big1_seq ?add0r; last first.
  move=> j /andP[_]; rewrite mem_index_iota => /andP[_ lt].
  by apply: H; [apply: leq_trans lt (leq_trans ab bn) | rewrite /inslice /= leqNgt lt].
rewrite [X in _ + X]big1_seq ?addr0; last first.
  move=> j /andP[_]; rewrite mem_index_iota => /andP[le lt].
  by apply: H => //; rewrite /inslice /= negb_and -leqNgt le orbT.
rewrite -{1}[a]add0n big_addn big_mkord.
by apply: eq_bigr => i _; rewrite addnC.
Qed.

Lemma setblock_exact (M B : arr R) (s1 s2 : nat * nat) :
  (s1.1 <= s1.2)%N -> (s2.1 <= s2.2)%N -> (s1.2 <= nrow M)%N -> (s2.2 <= ncol M)%N ->
  nrow B = (s1.2 - s1.1)%N -> ncol B = (s2.2 - s2.1)%N ->
  exists M', [/\ setblock M s1 s2 B = Ok M', nrow M' = nrow M, ncol M' = ncol M &
    forall i j, ent M' i j = if inslice s1 i && inslice s2 j
                             then ent B (i - s1.1) (j - s2.1) else ent M i j].
Proof.
case: s1 s2 => [a1 b1] [a2 b2] /= h1 h2 h3 h4 hr hc.
rewrite /setblock /clip /=.
have -> : minn a1 (nrow M) = a1 by apply/minn_idPl; apply: leq_trans h3.
have -> : minn b1 (nrow M) = b1 by apply/minn_idPl.
have -> : minn a2 (ncol M) = a2 by apply/minn_idPl; apply: leq_trans h4.
have -> : minn b2 (ncol M) = b2 by apply/minn_idPl.
rewrite /bcast_ok /slen /= hr hc !eqxx /=.
eexists; split; [by []|by []|by []|] => i j /=.
case: ifP => // /andP[/andP[/= i1 i2] /andP[/= j1 j2]].
congr (ent B); case: eqP => // e.
  have : (i - a1 < 1)%N by rewrite -e ltn_sub2r // (leq_ltn_trans i1).
  by rewrite ltnS leqn0 => /eqP ->.
have : (j - a2 < 1)%N by rewrite -e ltn_sub2r // (leq_ltn_trans j1).
by rewrite ltnS leqn0 => /eqP ->.
Qed.

(** ** block_diag *)
Notation bd := (@block_diag_list R).
Definition roff (bs : seq (arr R)) k := sumn (take k (map (@nrow R) bs)).
Definition coff (bs : seq (arr R)) k := sumn (take k (map (@ncol R) bs)).

Lemma nrow_bd bs : nrow (bd bs) = sumn (map (@nrow R) bs).
Proof. by elim: bs => //= b bs ->. Qed.
Lemma ncol_bd bs : ncol (bd bs) = sumn (map (@ncol R) bs).
Proof. by elim: bs => //= b bs ->. Qed.

Lemma ent_bd bs k i j d : (k < size bs)%N -> (i < nrow (nth d bs k))%N -> (j < ncol (nth d bs k))%N ->
  ent (bd bs) (roff bs k + i) (coff bs k + j) = ent (nth d bs k) i j.
Proof.
elim: bs k => [|b bs IH] [|k] //= lt li lj.
  by rewrite /roff /coff /= !add0n li lj.
rewrite /roff /coff /= -!addnA !ltnNge !leq_addr /= !addKn.
exact: IH.
Qed.

Lemma ent_bd_off bs k m i j d : (k < size bs)%N -> (m < size bs)%N -> k <> m ->
  (i < nrow (nth d bs k))%N -> (j < ncol (nth d bs m))%N ->
  ent (bd bs) (roff bs k + i) (coff bs m + j) = 0.
Proof.
elim: bs k m => [|b bs IH] [|k] [|m] //= lk lm ne li lj; rewrite /roff /coff /=.
- by rewrite !add0n -addnA li /= ltnNge leq_addr /= leqNgt li.
- by rewrite !add0n -addnA ltnNge leq_addr /= leqNgt lj.
- by rewrite -!addnA !ltnNge !leq_addr /= !addKn; apply: IH => // e; apply: ne; rewrite e.
Qed.

Lemma aapply_bd bs k d v i : (k < size bs)%N -> (i < nrow (nth d bs k))%N ->
  aapply (bd bs) v (roff bs k + i) =
  aapply (nth d bs k) (take (ncol (nth d bs k)) (drop (coff bs k) v)) i.
Proof.
move=> lt li; rewrite /aapply.
elim: bs k v lt li => [|b bs IH] [|k] v //= lt li.
  rewrite /coff /= drop0 /roff /= add0n big_split_ord /= [X in _ + X]big1 ?addr0.
    by apply: eq_bigr => j _; rewrite li ltn_ord /= nth_take.
  by move=> j _; rewrite (ltnNge (_ + j)) leq_addr andbF leqNgt li /= mul0r.
rewrite /roff /coff /= -/(roff bs k) -/(coff bs k) big_split_ord /= [X in X + _]big1 ?add0r; last first.
  by move=> j _; rewrite -addnA ltnNge leq_addr /= leqNgt ltn_ord /= mul0r.
have -> : drop (ncol b + coff bs k) v = drop (coff bs k) (drop (ncol b) v) by rewrite drop_drop addnC.
rewrite -IH //.
apply: eq_bigr => j _.
by rewrite -addnA ltnNge !leq_addr /= !addKn nth_drop.
Qed.

(** ** square placement on the diagonal *)
Fixpoint place (c : nat) (bs : seq (arr R)) (J : arr R) : result (arr R) :=
  match bs with
  | [::] => Ok J
  | b :: r => J' <~ setblock J (c, c + nrow b)%N (c, c + nrow b)%N b ;; place (c + nrow b) r J'
  end.

Lemma place_bd c bs J n : nrow J = n -> ncol J = n -> (c + sumn (map (@nrow R) bs) <= n)%N ->
  (forall k, (k < size bs)%N -> forall d, nrow (nth d bs k) = ncol (nth d bs k)) ->
  (forall i j, (c <= i)%N || (c <= j)%N -> ent J i j = 0) ->
  exists J', [/\ place c bs J = Ok J', nrow J' = n, ncol J' = n &
    forall i j, ent J' i j = if (c <= i)%N && (c <= j)%N then ent (bd bs) (i - c) (j - c) else ent J i j].
Proof.
elim: bs c J => [|b bs IH] c J hr hc le sq Z /=.
  by exists J; split=> // i j; case: ifP => // /andP[h _]; rewrite Z // h.
have sq0 := sq 0%N isT b; rewrite /= in sq0.
have leb : (c + nrow b <= n)%N by apply: leq_trans le; rewrite leq_add2l /= leq_addr.
have [||||||J1 [-> r1 c1 E1]] := @setblock_exact J b (c, c + nrow b)%N (c, c + nrow b)%N.
- exact: leq_addr. - exact: leq_addr. - by rewrite hr. - by rewrite hc.
- by rewrite /= addKn. - by rewrite /= addKn.
cbn [bind].
have [|||||J' [-> r2 c2 E2]] := IH (c + nrow b)%N J1.
- by rewrite r1.
- by rewrite c1.
- by rewrite -addnA.
- by move=> k lt d; apply: (sq k.+1 lt d).
- move=> i j h; rewrite E1 /inslice /=.
  have -> : (c <= i < c + nrow b)%N && (c <= j < c + nrow b)%N = false.
    by case/orP: h => h; rewrite !ltnNge h !andbF.
  by apply: Z; case/orP: h => h; rewrite (leq_trans (leq_addr _ _) h) ?orbT.
exists J'; split=> // i j; rewrite E2 E1 /inslice /=.
case: (leqP c i) => hi /=; last first.
  by rewrite (leqNgt (c + _)%N i) (leq_trans hi (leq_addr _ _)).
case: (leqP c j) => hj /=; last first.
  by rewrite (leqNgt (c + _)%N j) (leq_trans hj (leq_addr _ _)) andbF andbF.
rewrite -sq0 !ltn_subLR // !leq_subRL //.
case: (leqP (c + nrow b) i) => hi2; case: (leqP (c + nrow b) j) => hj2 //=.
by rewrite !subnDA.
by rewrite Z // hi.
by rewrite Z // hi.
Qed.

End Arr.

Section P.
Variable R : ringType.
Variables (T : Type) (I : eqType) (L : Type).
Variable ops : leafops R L.
Notation state := (state T I L).
Notation s_dof := (@s_dof R T I L ops).
Notation get_slices := (@get_slices R T I L ops).
Notation sl := (@sl R T I L ops).
Notation offset := (@offset R T I L ops).

Definition square (n : nat) (B : arr R) : Prop := nrow B = n /\ ncol B = n.

(** start index of substate k as reported by get_slices *)
Definition start (l : seq state) k := (nth (0,0) (get_slices l) k).1.
Lemma startE l k (d : state) : k < size l -> start l k = offset l k.
Proof. by move=> lt; rewrite /start (@nth_get_slices _ _ _ _ _ _ _ d). Qed.

Lemma pjac_listE (l : seq state) c dx J bs : size bs = size l ->
  (forall k d d', k < size l -> s_pjac ops (nth d l k) (sl l k dx) = Ok (nth d' bs k)
     /\ nrow (nth d' bs k) = s_dof (nth d l k)) ->
  pjac_list ops l c dx J = place c bs J.
Proof.
elim: l c dx J bs => [|s l IH] c dx J [|b bs] //= [sz] H.
have [h1 h2] := H 0 s b isT; rewrite sl0 /= in h1 h2; rewrite h1 /= h2.
case: (setblock _ _ _ _) => //= J'; apply: IH => // k d d' lt.
by have := H k.+1 d d' lt; rewrite slS.
Qed.

Lemma mjac_listE (l lx : seq state) c J bs : size bs = size l -> size lx = size l ->
  (forall k d d', k < size l -> s_mjac ops (nth d l k) (nth d lx k) = Ok (nth d' bs k)
     /\ nrow (nth d' bs k) = s_dof (nth d l k)) ->
  mjac_list ops l lx c J = place c bs J.
Proof.
elim: l lx c J bs => [|s l IH] [|x lx] c J [|b bs] //= [sz] [sz'] H.
have [h1 h2] := H 0 s b isT; rewrite /= in h1 h2; rewrite h1 /= h2.
case: (setblock _ _ _ _) => //= J'; apply: IH => // k d d' lt.
exact: (H k.+1 d d' lt).
Qed.

(** A block-diagonal square matrix acts slice by slice. *)
Definition acts_blockwise (l : seq state) (J : arr R) (bs : seq (arr R)) : Prop :=
  square (sumn (map s_dof l)) J /\
  forall k v r d, k < size l -> r < s_dof (nth d l k) -> forall b,
    aapply J v (start l k + r) = aapply (nth b bs k) (sl l k v) r.

Lemma collect (l : seq state) (f : nat -> result (arr R)) :
  (forall k d, k < size l -> exists2 B, f k = Ok B & square (s_dof (nth d l k)) B) ->
  exists2 bs, size bs = size l & forall k d d', k < size l ->
     f k = Ok (nth d' bs k) /\ square (s_dof (nth d l k)) (nth d' bs k).
Proof.
elim: l f => [|s l IH] f H; first by exists [::].
have [B E S] := H 0 s isT.
have [bs sz Hb] := IH (fun k => f k.+1) (fun k d lt => H k.+1 d lt).
exists (B :: bs); first by rewrite /= sz.
by case=> [|k] d d' lt //=; apply: Hb.
Qed.

Lemma offset_nrow (l : seq state) (bs : seq (arr R)) : size bs = size l ->
  (forall k d d', k < size l -> square (s_dof (nth d l k)) (nth d' bs k)) ->
  map (@nrow R) bs = map s_dof l /\ map (@ncol R) bs = map s_dof l.
Proof.
move=> sz H; split.
  apply: (@eq_from_nth _ 0); rewrite !size_map // sz => j lt.
  have d : state by case: (l) lt.
  have d' := azeros R 0 0.
  by rewrite (nth_map d') ?sz // (nth_map d) //; have [] := H j d d' lt.
apply: (@eq_from_nth _ 0); rewrite !size_map // sz => j lt.
have d : state by case: (l) lt.
have d' := azeros R 0 0.
by rewrite (nth_map d') ?sz // (nth_map d) //; have [] := H j d d' lt.
Qed.

Lemma place_acts (l : seq state) bs : size bs = size l ->
  (forall k d d', k < size l -> square (s_dof (nth d l k)) (nth d' bs k)) ->
  exists2 J, place 0 bs (azeros R (sumn (map s_dof l)) (sumn (map s_dof l))) = Ok J
    & acts_blockwise l J bs.
Proof.
move=> sz H; have [er ec] := offset_nrow sz H.
have [|||J [-> r1 c1 E]] := @place_bd R 0 bs (azeros R (sumn (map s_dof l)) (sumn (map s_dof l))) (sumn (map s_dof l)) erefl erefl.
- by rewrite er add0n.
- move=> k lt d; rewrite sz in lt.
  have s : state by case: (l) lt.
  by have [-> ->] := H k s d lt.
- by [].
exists J => //; split=> // k v r d lt lr b.
have [hr hc] := H k d b lt.
rewrite (startE d lt) (@slE R T I L ops l k d v lt) -hc.
have -> : offset l k = roff bs k by rewrite /roff er.
have <- : coff bs k = roff bs k by rewrite /roff /coff er ec.
rewrite /coff /roff ec -{1}er -/(roff bs k) -ec -/(coff bs k).
rewrite -(@aapply_bd R bs k b) ?sz ?hr //.
have -> : aapply J v (roff bs k + r) = aapply (block_diag_list bs) v (roff bs k + r).
  rewrite /aapply c1 ncol_bd ec; apply: eq_bigr => j _.
  by rewrite E /= !subn0.
by [].
Qed.

Lemma pjac_blocks (l : seq state) t i dx :
  (forall k d, k < size l ->
     exists2 B, s_pjac ops (nth d l k) (sl l k dx) = Ok B & square (s_dof (nth d l k)) B) ->
  exists J bs, [/\ s_pjac ops (Comp l t i) dx = Ok J, size bs = size l,
    forall k d b, k < size l -> s_pjac ops (nth d l k) (sl l k dx) = Ok (nth b bs k)
    & acts_blockwise l J bs].
Proof.
case: l => [|s0 l0]; first by move=> _; exists (azeros R 0 0), [::]; split=> //; split.
set l := s0 :: l0 => H.
have [|bs sz Hb] := @collect l (fun k => s_pjac ops (nth s0 l k) (sl l k dx)).
  by move=> k d lt; rewrite (set_nth_default s0 d) //; apply: H.
have Hb' k d d' : k < size l -> s_pjac ops (nth d l k) (sl l k dx) = Ok (nth d' bs k)
     /\ square (s_dof (nth d l k)) (nth d' bs k).
  by move=> lt; rewrite !(set_nth_default s0 d) //; apply: Hb.
have [J EJ A] := place_acts sz (fun k d d' lt => (Hb' k d d' lt).2).
exists J, bs; split=> //; last by move=> k d b lt; have [] := Hb' k d b lt.
rewrite s_pjacC -EJ; apply: pjac_listE => // k d d' lt.
by have [h1 [h2 _]] := Hb' k d d' lt.
Qed.

Lemma mjac_blocks (l lx : seq state) t i t' i' : size lx = size l ->
  (forall k d, k < size l ->
     exists2 B, s_mjac ops (nth d l k) (nth d lx k) = Ok B & square (s_dof (nth d l k)) B) ->
  exists J bs, [/\ s_mjac ops (Comp l t i) (Comp lx t' i') = Ok J, size bs = size l,
    forall k d b, k < size l -> s_mjac ops (nth d l k) (nth d lx k) = Ok (nth b bs k)
    & acts_blockwise l J bs].
Proof.
case: l => [|s0 l0]; first by move=> _ _; exists (azeros R 0 0), [::]; split=> //; split.
set l := s0 :: l0 => szx H.
have [|bs sz Hb] := @collect l (fun k => s_mjac ops (nth s0 l k) (nth s0 lx k)).
  by move=> k d lt; rewrite (set_nth_default s0 d) //; apply: H.
have Hb' k d d' : k < size l -> s_mjac ops (nth d l k) (nth d lx k) = Ok (nth d' bs k)
     /\ square (s_dof (nth d l k)) (nth d' bs k).
  by move=> lt; rewrite !(set_nth_default s0 d) ?szx //; apply: Hb.
have [J EJ A] := place_acts sz (fun k d d' lt => (Hb' k d d' lt).2).
exists J, bs; split=> //; last by move=> k d b lt; have [] := Hb' k d b lt.
rewrite s_mjacC -EJ; apply: mjac_listE => // k d d' lt.
by have [h1 [h2 _]] := Hb' k d d' lt.
Qed.

(** any nesting depth: shape *)
Lemma pjac_tree (s : state) dx :
  tree_all ops (fun v dx => exists2 B, l_pjac ops v dx = Ok B & square (l_dof ops v) B) s dx ->
  exists2 J, s_pjac ops s dx = Ok J & square (s_dof s) J.
Proof.
elim/state_ind': s dx => [v t i|l t i IH] dx; first by [].
rewrite tree_allC => -[ne H].
have [|J [bs [-> _ _ [sq _]]]] := @pjac_blocks l t i dx; last by exists J.
by move=> k d lt; apply: IH => //; apply: H.
Qed.

(** ** matrix blocks *)
Lemma slice_bounds (l : seq state) i s n : get_slice_by_id ops l i = Ok s ->
  sumn (map s_dof l) <= n -> s.1 <= s.2 <= n.
Proof.
rewrite /get_slice_by_id => H; have [k Ek {}H] := bind_ok H.
have [lt _ _] := get_index_ok Ek.
move: H; rewrite (py_nthE (0,0)) ?size_get_slices // => -[<-] le.
have d : state by case: (l) lt.
rewrite (@nth_get_slices _ _ _ _ _ _ _ d) //= leq_addr /=.
by apply: leq_trans le; rewrite -offsetS // offset_le_total.
Qed.

Lemma get_slice_len (l : seq state) i s : get_slice_by_id ops l i = Ok s ->
  get_dof_by_id ops l i = Ok (s.2 - s.1).
Proof.
rewrite /get_slice_by_id => H; have [k Ek {}H] := bind_ok H.
have [lt _ _] := get_index_ok Ek.
move: H; rewrite (py_nthE (0,0)) ?size_get_slices // => -[<-].
have d : state by case: (l) lt.
rewrite /get_dof_by_id (get_state_by_idE d Ek) /=.
by rewrite (@nth_get_slices _ _ _ _ _ _ _ d) //= addKn.
Qed.

Lemma slices_ids_disjoint (l : seq state) i1 i2 s1 s2 j : i1 <> i2 ->
  get_slice_by_id ops l i1 = Ok s1 -> get_slice_by_id ops l i2 = Ok s2 ->
  inslice s1 j -> ~~ inslice s2 j.
Proof.
move=> ne; rewrite /get_slice_by_id => H1 H2.
have [k1 Ek1 {}H1] := bind_ok H1; have [k2 Ek2 {}H2] := bind_ok H2.
have [lt1 id1 _] := get_index_ok Ek1; have [lt2 id2 _] := get_index_ok Ek2.
move: H1 H2; rewrite !(py_nthE (0,0)) ?size_get_slices // => -[<-] [<-] h1.
apply/negP => h2; have e := slices_disjoint lt1 lt2 h1 h2.
have d : state by case: (l) lt1.
by apply: ne; rewrite -(id1 d) -(id2 d) e.
Qed.

Lemma clip_in n (s : nat * nat) : s.1 <= s.2 <= n -> clip n s = s.
Proof.
case: s => a b /= /andP[h1 h2]; rewrite /clip /=.
by rewrite (minn_idPl (leq_trans h1 h2)) (minn_idPl h2).
Qed.

Lemma set_block_spec (l : seq state) (M B : arr R) i1 i2 s1 s2 :
  let j2 := if i2 is Some i then i else i1 in
  get_slice_by_id ops l i1 = Ok s1 -> get_slice_by_id ops l j2 = Ok s2 ->
  nrow M = sumn (map s_dof l) -> ncol M = sumn (map s_dof l) ->
  nrow B = s1.2 - s1.1 -> ncol B = s2.2 - s2.1 ->
  exists M', [/\ set_matrix_block_by_ids ops l B M i1 i2 = Ok M',
     nrow M' = nrow M, ncol M' = ncol M,
     (forall i j, ~~ (inslice s1 i && inslice s2 j) -> ent M' i j = ent M i j)
   & exists2 B', get_matrix_block_by_ids ops l M' i1 i2 = Ok B' & aeq B' B].
Proof.
move=> j2 E1 E2 hr hc hb1 hb2.
have b1 := slice_bounds E1 (leqnn _); have b2 := slice_bounds E2 (leqnn _).
have [/andP[b11 b12] /andP[b21 b22]] := (b1, b2).
have [||M' [EM r c Em]] := @setblock_exact R M B s1 s2 b11 b21 _ _ hb1 hb2.
- by rewrite hr. - by rewrite hc.
exists M'; split=> //.
- by rewrite /set_matrix_block_by_ids E1 /= E2.
- by move=> i j /negbTE h; rewrite Em h.
rewrite /get_matrix_block_by_ids E1 /= E2 /=.
eexists; first by [].
rewrite /getblock r c hr hc !clip_in //; split; first by rewrite /= hb1.
split; first by rewrite /= hb2.
move=> i j /= li lj; rewrite Em /inslice !leq_addr -!ltn_subRL li lj /=.
by rewrite !addKn.
Qed.

Lemma set_get_block (l : seq state) (M : arr R) i1 i2 s1 s2 :
  let j2 := if i2 is Some i then i else i1 in
  get_slice_by_id ops l i1 = Ok s1 -> get_slice_by_id ops l j2 = Ok s2 ->
  nrow M = sumn (map s_dof l) -> ncol M = sumn (map s_dof l) ->
  exists B M', [/\ get_matrix_block_by_ids ops l M i1 i2 = Ok B,
    set_matrix_block_by_ids ops l B M i1 i2 = Ok M' & aeq M' M].
Proof.
move=> j2 E1 E2 hr hc.
have b1 := slice_bounds E1 (leqnn _); have b2 := slice_bounds E2 (leqnn _).
have [/andP[b11 b12] /andP[b21 b22]] := (b1, b2).
rewrite /get_matrix_block_by_ids /set_matrix_block_by_ids E1 /= E2 /=.
eexists; have [||||M' [EM r c Em]] := @setblock_exact R M (getblock M s1 s2) s1 s2 b11 b21.
- by rewrite hr. - by rewrite hc.
- by rewrite /getblock /slen !clip_in ?hr ?hc.
- by rewrite /getblock /slen !clip_in ?hr ?hc.
exists M'; split; [by []|exact: EM|]; split=> //; split=> // i j _ _.
rewrite Em; case: ifP => // /andP[/andP[h1 _] /andP[h2 _]].
by rewrite /getblock !clip_in ?hr ?hc //= !subnKC.
Qed.

(** ** jacobian_from_blocks *)
Lemma jfb_loop (l : seq state) m (d : seq (I * arr R)) (J0 : arr R) :
  uniq (map fst d) ->
  (forall ib, List.In ib d -> exists s, [/\ get_slice_by_id ops l ib.1 = Ok s,
      nrow ib.2 = m & ncol ib.2 = s.2 - s.1]) ->
  nrow J0 = m -> ncol J0 = sumn (map s_dof l) ->
  (forall ib s i j, List.In ib d -> get_slice_by_id ops l ib.1 = Ok s -> inslice s j -> ent J0 i j = 0%R) ->
  exists J, [/\ foldM (fun jac ib => slc <~ get_slice_by_id ops l ib.1 ;;
                       setblock jac (0, m) slc ib.2) J0 d = Ok J,
     nrow J = m, ncol J = sumn (map s_dof l) &
     (forall v i, i < m -> aapply J v i = (aapply J0 v i +
       \sum_(ib <- d) (if get_slice_by_id ops l ib.1 is Ok s
                       then aapply ib.2 (pslice s.1 s.2 v) i else 0))%R) /\
     (forall i j, (forall ib s, List.In ib d -> get_slice_by_id ops l ib.1 = Ok s -> ~~ inslice s j) ->
        ent J i j = ent J0 i j)].
Proof.
elim: d J0 => [|[id B] d IH] J0 /= un H hr hc Z.
  by exists J0; split=> //; split=> // v i _; rewrite big_nil addr0.
have [s [Es hB1 hB2]] := H _ (or_introl erefl); rewrite /= in Es hB1 hB2.
have /andP[sle sn] := slice_bounds Es (leqnn _).
have [||||||J1 [EJ1 r1 c1 E1]] := @setblock_exact R J0 B (0, m) s.
- by []. - by []. - by rewrite hr. - by rewrite hc. - by rewrite hB1 subn0. - by [].
rewrite Es /= EJ1 /=.
move: un => /andP[nin un].
have [||||J [EJ r c [A F]]] := IH J1 un.
- by move=> ib hin; apply: H; right.
- by rewrite r1.
- by rewrite c1.
- move=> ib s' i j hin Es' hj; rewrite E1.
  have ne : ib.1 <> id.
    move=> e; move/negP: nin; apply; rewrite -e.
    by clear -hin; elim: d hin => //= a d IH [->|h]; rewrite in_cons ?eqxx // IH ?orbT.
  rewrite (negbTE (slices_ids_disjoint ne Es' Es hj)) andbF.
  by apply: Z (or_intror hin) Es' hj.
exists J; split=> //; split=> [v i li|i j hj]; last first.
  rewrite F => [|ib s' hin Es']; last by apply: hj Es'; right.
  by rewrite E1 (negbTE (hj _ _ (or_introl erefl) Es)) andbF.
rewrite A // big_cons /= Es addrA; congr (_ + _)%R.
rewrite /aapply c1 hB2.
have -> : (\sum_(j < ncol J0) ent J1 i j * nth 0 v j =
   \sum_(j < ncol J0) (ent J0 i j * nth 0 v j) +
   \sum_(j < ncol J0) (if inslice s j then ent B i (j - s.1) * nth 0 v j else 0))%R.
  rewrite -big_split; apply: eq_bigr => j _ /=; rewrite E1.
  have -> : inslice (0, m) i by rewrite /inslice /= li.
  rewrite andTb /= subn0; case: ifP => hj; last by rewrite addr0.
  by rewrite (Z _ _ _ _ (or_introl erefl) Es hj) mul0r add0r.
congr (_ + _)%R.
rewrite (@sum_support R s.1 s.2 _ (fun j => if inslice s j then ent B i (j - s.1) * nth 0 v j else 0)%R) ?hc //; last first.
  by move=> j _ /negbTE; rewrite -surjective_pairing => ->.
apply: eq_bigr => j _.
by rewrite /inslice leq_addr -ltn_subRL ltn_ord addKn nth_pslice.
Qed.

Lemma jfb_spec (l : seq state) (d : seq (I * arr R)) m :
  d <> [::] -> uniq (map fst d) ->
  (forall ib, List.In ib d -> exists s, [/\ get_slice_by_id ops l ib.1 = Ok s,
      nrow ib.2 = m & ncol ib.2 = s.2 - s.1]) ->
  exists J, [/\ jacobian_from_blocks ops l d = Ok J, nrow J = m, ncol J = sumn (map s_dof l) &
     (forall v i, i < m -> aapply J v i =
       (\sum_(ib <- d) (if get_slice_by_id ops l ib.1 is Ok s
                       then aapply ib.2 (pslice s.1 s.2 v) i else 0))%R) /\
     (forall i j, (forall ib s, List.In ib d -> get_slice_by_id ops l ib.1 = Ok s -> ~~ inslice s j) ->
        ent J i j = 0%R)].
Proof.
case: d => // -[id0 b0] d _ un H; rewrite /jacobian_from_blocks.
have [s [_ /= hb _]] := H _ (or_introl erefl); rewrite hb.
have [|J [EJ r c [A F]]] := @jfb_loop l m ((id0, b0) :: d) (azeros R m (sumn (map s_dof l))) un H erefl erefl.
- by [].
exists J; split=> //; split=> // v i li; rewrite A //.
by rewrite [aapply (azeros _ _ _) _ _]big1 ?add0r // => j _; rewrite mul0r.
Qed.

Lemma jfb_unknown (l : seq state) id b d e : get_index_by_id l id = Raise e ->
  exists e', jacobian_from_blocks ops l ((id, b) :: d) = Raise e'.
Proof. by move=> h; rewrite /= /get_slice_by_id h /=; eexists. Qed.

(** ** CompositeMeasurementModel *)
Lemma cmm_jac_spec Y (m : mmodel R T I L Y) (l : seq state) i x s Jx :
  get_state_by_id l i = Ok x -> get_slice_by_id ops l i = Ok s ->
  mm_jac m x = Ok Jx -> ncol Jx = s_dof x ->
  exists J, [/\ cmm_jac ops m i l = Ok J, nrow J = nrow Jx, ncol J = sumn (map s_dof l),
     (forall v r, r < nrow Jx -> aapply J v r = aapply Jx (pslice s.1 s.2 v) r)
   & (forall r j, ~~ inslice s j -> ent J r j = 0%R)].
Proof.
move=> Ex Es Em hc; rewrite /cmm_jac Ex /= Em /= Es /=.
have hd := get_slice_len Es.
have hs : s_dof x = s.2 - s.1 by move: hd; rewrite /get_dof_by_id Ex /= => -[].
have /andP[sle sn] := slice_bounds Es (leqnn _).
have [||||||J [-> r c E]] := @setblock_exact R (azeros R (nrow Jx) (sumn (map s_dof l))) Jx (0, nrow Jx) s.
- by []. - by []. - by []. - by []. - by rewrite subn0. - by rewrite hc.
exists J; split=> // [v k lk|k j /negbTE hj]; last by rewrite E hj andbF.
rewrite /aapply c hc hs /=.
rewrite (@sum_support R s.1 s.2 _ (fun j => ent J k j * nth 0 v j)%R) //.
  apply: eq_bigr => j _; rewrite E /inslice /= lk leq_addr -ltn_subRL ltn_ord /= subn0 addKn.
  by rewrite nth_pslice.
move=> j _ /negbTE; rewrite -surjective_pairing => h.
by rewrite E h andbF /= mul0r.
Qed.

(** ** CompositeProcessModel *)
Section PM.
Variables (U DT : Type).
Notation pmodel := (pmodel R T I L U DT).

Definition input_at (cu : cinput U) (k : nat) : option U :=
  match cu with Shared u => Some u | PerState us => nth None (map Some us) k end.

Lemma pm_loop_ok B (f : pmodel -> state -> U -> result B) (l : seq state) ms cu bs :
  pm_loop f l ms cu = Ok bs ->
  size bs = size l /\ size l <= size ms /\
  forall k (dm : pmodel) (ds : state) (db : B), k < size l ->
    exists2 u, input_at cu k = Some u & f (nth dm ms k) (nth ds l k) u = Ok (nth db bs k).
Proof.
elim: l ms cu bs => [|s l IH] ms cu bs /=; first by move=> [<-].
have step m u cu' ms' : (forall k, input_at cu k.+1 = input_at cu' k) -> input_at cu 0 = Some u ->
  (b <~ f m s u ;; bs <~ pm_loop f l ms' cu' ;; Ok (b :: bs)) = Ok bs ->
  size bs = (size l).+1 /\ size l < size (m :: ms') /\
  forall k (dm : pmodel) (ds : state) (db : B), k < (size l).+1 ->
    exists2 u, input_at cu k = Some u & f (nth dm (m :: ms') k) (nth ds (s :: l) k) u = Ok (nth db bs k).
  move=> Hi H0 H; have [b Eb {}H] := bind_ok H; have [bs' Ebs [<-]] := bind_ok H => {H}.
  have [sz [le H]] := IH _ _ _ Ebs; split; first by rewrite /= sz.
  split; first by [].
  by case=> [|k] dm ds db lt; [exists u | rewrite Hi; apply: H].
case: cu step => [u|[|u us]] step //; case: ms => // m ms; exact: step.
Qed.

Lemma pm_loop_intro B (f : pmodel -> state -> U -> result B) (l : seq state) ms cu bs :
  size bs = size l -> size l <= size ms ->
  (forall k (dm : pmodel) (ds : state) (db : B), k < size l ->
    exists2 u, input_at cu k = Some u & f (nth dm ms k) (nth ds l k) u = Ok (nth db bs k)) ->
  pm_loop f l ms cu = Ok bs.
Proof.
elim: l ms cu bs => [|s l IH] [|m ms] cu [|b bs] //= [sz] le H.
case: cu H => [u|us] H.
  have [u' [<-] /= ->] := H 0 m s b isT => /=.
  by rewrite (IH ms _ bs) // => k dm ds db lt; apply: (H k.+1 dm ds db lt).
case: us H => [|u us] H; first by have [] := H 0 m s b isT.
have [u' [<-] /= ->] := H 0 m s b isT => /=.
by rewrite (IH ms _ bs) // => k dm ds db lt; apply: (H k.+1 dm ds db lt).
Qed.

Lemma cpm_jac_blocks (ms : seq pmodel) (l : seq state) t i cu dt J :
  l <> [::] -> cpm_jac ms (Comp l t i) cu dt = Ok J ->
  (forall k (dm : pmodel) (ds : state) u B, k < size l -> input_at cu k = Some u ->
     pm_jac (nth dm ms k) (nth ds l k) u dt = Ok B -> square (s_dof (nth ds l k)) B) ->
  exists bs, [/\ size bs = size l,
   forall k (dm : pmodel) (ds : state) db, k < size l ->
    exists2 u, input_at cu k = Some u & pm_jac (nth dm ms k) (nth ds l k) u dt = Ok (nth db bs k)
   & acts_blockwise l J bs].
Proof.
move=> ne /= H sq; have [bs Ebs [<-]] := bind_ok H.
have [sz [le Hk]] := pm_loop_ok Ebs.
exists bs; split=> //.
have Hsq k d d' : k < size l -> square (s_dof (nth d l k)) (nth d' bs k).
  move=> lt; have dm : pmodel by case: (ms) (leq_trans lt le).
  by have [u Eu EB] := Hk k dm d d' lt; apply: sq Eu EB.
have [er ec] := offset_nrow sz Hsq.
have -> : block_diag bs = block_diag_list bs by case: (bs) sz; case: (l) ne.
split; first by rewrite /square nrow_bd ncol_bd er ec.
move=> k v r d lt lr b.
have [hr hc] := Hsq k d b lt.
rewrite (startE d lt) (@slE R T I L ops l k d v lt) -hc.
have -> : offset l k = roff bs k by rewrite /roff er.
have <- : coff bs k = roff bs k by rewrite /roff /coff er ec.
rewrite /coff /roff ec -{1}er -/(roff bs k) -ec -/(coff bs k).
by rewrite -(@aapply_bd R bs k b) ?sz ?hr.
Qed.

Lemma cpm_cov_blocks (ms : seq pmodel) (l : seq state) t i cu dt Q :
  l <> [::] -> cpm_cov ms (Comp l t i) cu dt = Ok Q ->
  (forall k (dm : pmodel) (ds : state) u B, k < size l -> input_at cu k = Some u ->
     pm_cov (nth dm ms k) (nth ds l k) u dt = Ok B -> square (s_dof (nth ds l k)) B) ->
  exists bs, [/\ size bs = size l,
   forall k (dm : pmodel) (ds : state) db, k < size l ->
    exists2 u, input_at cu k = Some u & pm_cov (nth dm ms k) (nth ds l k) u dt = Ok (nth db bs k),
   square (sumn (map s_dof l)) Q
   & forall k1 k2 (d : state) r1 r2 b, k1 < size l -> k2 < size l ->
      r1 < s_dof (nth d l k1) -> r2 < s_dof (nth d l k2) ->
      ent Q (start l k1 + r1) (start l k2 + r2) =
      if k1 == k2 then ent (nth b bs k1) r1 r2 else 0%R].
Proof.
move=> ne /= H sq; have [bs Ebs [<-]] := bind_ok H.
have [sz [le Hk]] := pm_loop_ok Ebs.
exists bs.
have Hsq k d d' : k < size l -> square (s_dof (nth d l k)) (nth d' bs k).
  move=> lt; have dm : pmodel by case: (ms) (leq_trans lt le).
  by have [u Eu EB] := Hk k dm d d' lt; apply: sq Eu EB.
have [er ec] := offset_nrow sz Hsq.
have -> : block_diag bs = block_diag_list bs by case: (bs) sz; case: (l) ne.
split=> //; first by rewrite /square nrow_bd ncol_bd er ec.
move=> k1 k2 d r1 r2 b l1 l2 h1 h2.
have [hr1 hc1] := Hsq k1 d b l1; have [hr2 hc2] := Hsq k2 d b l2.
rewrite (startE d l1) (startE d l2).
have -> : offset l k1 = roff bs k1 by rewrite /roff er.
have -> : offset l k2 = coff bs k2 by rewrite /coff ec.
case: eqP => [e|ne12].
  by subst k2; rewrite (@ent_bd R bs k1 r1 r2 b) ?sz ?hr1 ?hc2.
by rewrite (@ent_bd_off R bs k1 k2 r1 r2 b) ?sz ?hr1 ?hc2.
Qed.
End PM.

End P.
