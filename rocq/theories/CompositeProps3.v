(** C05, C06, C07, C09: what wrong shapes do, Jacobians of composites of vectors, and the accessors by id. *)
From mathcomp Require Import all_ssreflect all_algebra.
From Verif Require Import Base CompositeModel CompositeProof CompositeProof2 CompositeProof3 CompositeProps CompositeModel2.
Set Implicit Arguments.
Unset Strict Implicit.
Unset Printing Implicit Defensive.
Import GRing.Theory.

Section Accessors.
Variables (R : ringType) (T : Type) (I : eqType) (L : Type) (ops : leafops R L).
Notation state := (state T I L).
(** C09: the getters return the field of the first substate with the id, and raise ValueError when there is none *)
Theorem C09_getters (l : seq state) i :
  (i \notin map (@s_id T I L) l ->
     [/\ get_dof_by_id ops l i = Raise ValueError, get_stamp_by_id l i = Raise ValueError & get_value_by_id l i = Raise ValueError]) /\
  forall a s b, l = a ++ s :: b -> i \notin map (@s_id T I L) a -> s_id s = i ->
     [/\ get_dof_by_id ops l i = Ok (s_dof ops s),
         get_stamp_by_id l i = Ok (match s with Leaf _ t _ => t | Comp _ t _ => t end) &
         get_value_by_id l i = Ok (match s with Leaf v _ _ => VLeaf v | Comp l _ _ => VList l end)].
Proof.
rewrite /get_dof_by_id /get_stamp_by_id /get_value_by_id /get_state_by_id /get_index_by_id; split=> [/negbTE -> //|a s b -> ha hs].
have -> : i \in [seq s_id j | j <- a ++ s :: b] by rewrite map_cat mem_cat /= in_cons hs eqxx orbT.
have -> : index i [seq s_id j | j <- a ++ s :: b] = size a.
  by rewrite map_cat index_cat (negbTE ha) /= hs eqxx addn0 size_map.
by rewrite /= /py_nth drop_size_cat //=; split=> //; case: s hs.
Qed.
(** C09: setting a stamp or a value by id changes that one field of the first substate with the id *)
Theorem C09_set_fields (l : seq state) i t v assign : 
  (i \notin map (@s_id T I L) l -> set_stamp_by_id l t i = Raise ValueError /\ set_value_by_id assign l v i = Raise ValueError) /\
  forall a s b, l = a ++ s :: b -> i \notin map (@s_id T I L) a -> s_id s = i ->
     set_stamp_by_id l t i = Ok (a ++ (match s with Leaf v _ i => Leaf v t i | Comp l _ i => Comp l t i end) :: b) /\
     set_value_by_id assign l v i = match s, v with
        | Leaf w t i, VLeaf v => Ok (a ++ Leaf (assign w v) t i :: b)
        | Comp _ t i, VList l => Ok (a ++ Comp l t i :: b)
        | _, _ => Raise TypeError end.
Proof.
rewrite /set_stamp_by_id /set_value_by_id /get_index_by_id; split=> [/negbTE -> //|a s b -> ha hs].
have -> : i \in [seq s_id j | j <- a ++ s :: b] by rewrite map_cat mem_cat /= in_cons hs eqxx orbT.
have -> : index i [seq s_id j | j <- a ++ s :: b] = size a.
  by rewrite map_cat index_cat (negbTE ha) /= hs eqxx addn0 size_map.
have e x : py_set (a ++ s :: b) (size a) x = Ok (a ++ x :: b).
  by rewrite /py_set size_cat /= addnS ltnS leq_addr take_size_cat // drop_cat ltnNge leqnSn /= subSnn /= drop0.
rewrite /= /py_nth drop_size_cat //=; split; first by rewrite e; case: s {hs e}.
by case: s hs e => [w t0 i0|l0 t0 i0] hs e; case: v => v //=; rewrite e.
Qed.
End Accessors.

(** C09, what a user may expect and does not get: assigning a vector of another size by id leaves the recorded dof as it was, so the
    composite's dof and slices no longer describe the values, plus refuses every vector, and a copy has another dof than the original *)
Section Stale.
Variables (R : ringType) (T : Type) (I : eqType).
Notation state := (state T I (vobj R)).
Local Open Scope ring_scope.
Theorem C09_set_value_stale_dof_refuted (a b : seq state) (v : seq R) t (i : I) (w : seq R) l' : i \notin map (@s_id _ _ _) a ->
  set_value_by_id (@vo_assign R) (a ++ Leaf (vnew v) t i :: b) (VLeaf (vnew w)) i = Ok l' ->
  [/\ get_value_by_id l' i = Ok (VLeaf (VObj (size v) w)),
      map (s_dof (vo_ops R)) l' = map (s_dof (vo_ops R)) (a ++ Leaf (vnew v) t i :: b),
      get_slices (vo_ops R) l' = get_slices (vo_ops R) (a ++ Leaf (vnew v) t i :: b),
      forall dx, size w <> size v -> size w <> 1%N -> size v <> 1%N -> vo_plus (VObj (size v) w) dx = Raise ValueError &
      get_dof_by_id (vo_ops R) (map (@vo_copy R T I) l') i = Ok (size w)].
Proof.
move=> ha; have := C09_set_fields (a ++ Leaf (vnew v) t i :: b) i t (VLeaf (vnew w)) (@vo_assign R).
case=> _ /(_ a (Leaf (vnew v) t i) b erefl ha erefl) [_ ->] [<-].
have hd : [seq s_dof (vo_ops R) s | s <- a ++ Leaf (vo_assign (vnew v) (vnew w)) t i :: b] = [seq s_dof (vo_ops R) s | s <- a ++ Leaf (vnew v) t i :: b] by rewrite !map_cat.
split=> //.
- have := C09_getters (vo_ops R) (a ++ Leaf (vo_assign (vnew v) (vnew w)) t i :: b) i.
  by case=> _ /(_ a _ b erefl ha erefl) [_ _ ->].
- rewrite /get_slices; elim: a 0%N {ha hd} => [//|x a IH] c /=; by rewrite IH.
- move=> dx h1 h2 h3; rewrite /vo_plus /np_add /=; case: eqP => // hdx; rewrite hdx.
  by case: eqP => [e|_]; [case: h1|case: eqP => // _; case: eqP].
- rewrite map_cat /=; have := C09_getters (vo_ops R) (map (@vo_copy R T I) a ++ Leaf (vnew w) t i :: map (@vo_copy R T I) b) i.
  case=> _ /(_ _ _ _ erefl _ erefl) [] //.
  rewrite -map_comp; rewrite (_ : map _ a = map (@s_id T I (vobj R)) a) //.
  by apply: eq_map => -[].
Qed.
End Stale.

(** C05, C06: wrong block shapes *)
Section Shapes.
Variables (R : ringType) (T : Type) (I : eqType) (L : Type) (ops : leafops R L).
Notation state := (state T I L).
Notation dof l := (sumn (map (s_dof ops) l)).
Lemma clip_slice (s : nat * nat) n : s.1 <= s.2 <= n -> clip n s = s.
Proof. by case: s => a b /= /andP [h1 h2]; rewrite /clip /= !(minn_idPl _) // (leq_trans h1). Qed.
(** C05: a block whose shape does not fit is refused with ValueError, unless the wrong dimension is 1: a single row (column) is silently
    repeated over all rows (columns) of the block *)
Theorem C05_wrong_shape_raises (l : seq state) (M B : arr R) i1 i2 s1 s2 :
  let j2 := if i2 is Some i then i else i1 in
  get_slice_by_id ops l i1 = Ok s1 -> get_slice_by_id ops l j2 = Ok s2 -> nrow M = dof l -> ncol M = dof l ->
  (nrow B <> s1.2 - s1.1 /\ nrow B <> 1) \/ (ncol B <> s2.2 - s2.1 /\ ncol B <> 1) ->
  set_matrix_block_by_ids ops l B M i1 i2 = Raise ValueError.
Proof.
move=> j2 h1 h2 hr hc h; rewrite /set_matrix_block_by_ids -/j2 h1 h2 /= /setblock.
rewrite (clip_slice (slice_bounds h1 _)) ?hr // (clip_slice (slice_bounds h2 _)) ?hc // /bcast_ok /slen.
by case: h => [[/eqP/negbTE -> /eqP/negbTE ->]|[/eqP/negbTE -> /eqP/negbTE ->]] //=; rewrite andbF.
Qed.
Theorem C05_single_row_repeated_refuted (l : seq state) (M B : arr R) i1 i2 s1 s2 :
  let j2 := if i2 is Some i then i else i1 in
  get_slice_by_id ops l i1 = Ok s1 -> get_slice_by_id ops l j2 = Ok s2 -> nrow M = dof l -> ncol M = dof l ->
  nrow B = 1 -> ncol B = s2.2 - s2.1 ->
  exists M', [/\ set_matrix_block_by_ids ops l B M i1 i2 = Ok M', nrow M' = nrow M, ncol M' = ncol M,
     (forall i j, inslice s1 i -> inslice s2 j -> ent M' i j = ent B 0 (j - s2.1)) &
     (forall i j, ~~ (inslice s1 i && inslice s2 j) -> ent M' i j = ent M i j)].
Proof.
move=> j2 h1 h2 hr hc b1 b2; rewrite /set_matrix_block_by_ids -/j2 h1 h2 /= /setblock.
rewrite (clip_slice (slice_bounds h1 _)) ?hr // (clip_slice (slice_bounds h2 _)) ?hc // /bcast_ok /slen b1 b2 !eqxx orbT /=.
eexists; split; [by []|by []|by []| |] => i j; last by move=> /negbTE /= ->.
move=> /= -> hj; rewrite hj /=; congr (ent B); case: eqP => // e.
have : j - s2.1 < 1 by move/andP: hj => [q1 q2]; rewrite -e ltn_sub2r // (leq_ltn_trans q1).
by rewrite ltnS leqn0 => /eqP ->.
Qed.
(** C06: blocks with different numbers of rows are refused with ValueError, unless the later ones have a single row, which is repeated *)
Theorem C06_row_mismatch_raises (l : seq state) i1 i2 (B1 B2 : arr R) s1 s2 :
  get_slice_by_id ops l i1 = Ok s1 -> get_slice_by_id ops l i2 = Ok s2 -> ncol B1 = s1.2 - s1.1 ->
  nrow B2 <> nrow B1 -> nrow B2 <> 1 ->
  jacobian_from_blocks ops l [:: (i1, B1); (i2, B2)] = Raise ValueError.
Proof.
move=> h1 h2 hc n1 n2; rewrite /jacobian_from_blocks /= h1 /=.
have /andP [q1 q2] := slice_bounds h1 (leqnn _).
have [M' [-> hr' hc' _]] := @setblock_exact R (azeros R (nrow B1) (dof l)) B1 (0, nrow B1) s1 (leq0n _) q1 (leqnn _) q2 (esym (subn0 _)) hc.
rewrite /= h2 /= /setblock hr' hc' /= /clip /= /bcast_ok /slen /= !min0n minnn subn0.
by move/eqP/negbTE: n1 => ->; move/eqP/negbTE: n2 => ->.
Qed.
Theorem C06_single_row_repeated_refuted (l : seq state) i1 i2 (B1 B2 : arr R) s1 s2 : i1 <> i2 ->
  get_slice_by_id ops l i1 = Ok s1 -> get_slice_by_id ops l i2 = Ok s2 -> ncol B1 = s1.2 - s1.1 -> ncol B2 = s2.2 - s2.1 ->
  nrow B2 = 1 ->
  exists J, [/\ jacobian_from_blocks ops l [:: (i1, B1); (i2, B2)] = Ok J, nrow J = nrow B1, ncol J = dof l,
    (forall i j, i < nrow B1 -> inslice s1 j -> ent J i j = ent B1 i (j - s1.1)) &
    (forall i j, i < nrow B1 -> inslice s2 j -> ent J i j = ent B2 0 (j - s2.1))].
Proof.
move=> ne h1 h2 hc1 hc2 n1; rewrite /jacobian_from_blocks /= h1 /=.
have /andP [q1 q2] := slice_bounds h1 (leqnn _).
have [M' [-> hr' hc' he]] := @setblock_exact R (azeros R (nrow B1) (dof l)) B1 (0, nrow B1) s1 (leq0n _) q1 (leqnn _) q2 (esym (subn0 _)) hc1.
rewrite /= h2 /= /setblock hr' hc' /= (clip_slice (slice_bounds h2 (leqnn _))) /clip /= /bcast_ok /slen /= !min0n minnn subn0 n1 hc2 !eqxx orbT /=.
eexists; split; [by []|by []|by []| |] => i j li hj /=; rewrite /inslice /= li /=.
  rewrite -/(inslice s2 j) (negbTE (slices_ids_disjoint ne h1 h2 hj)) he /inslice /= li subn0.
  by rewrite -/(inslice s1 j) hj.
have /andP [u1 u2] := slice_bounds h2 (leqnn _); have hm1 : minn s2.1 (dof l) = s2.1 by (apply/minn_idPl; exact: leq_trans u1 u2); have hm2 : minn s2.2 (dof l) = s2.2 by apply/minn_idPl. rewrite ?hm1 ?hm2 -/(inslice s2 j) hj; congr (ent B2); case: eqP => // e.
have : j - s2.1 < 1 by move/andP: hj => [p1 p2]; rewrite -e ltn_sub2r // (leq_ltn_trans p1).
by rewrite ltnS leqn0 => /eqP ->.
Qed.
End Shapes.

(** C07: for composites of vector states, nested to any depth, both Jacobians are the identity *)
Section VecJac.
Variables (R : ringType) (T : Type) (I : eqType).
Notation state := (state T I (seq R)).
Notation ops := (vec_ops R).
Local Open Scope ring_scope.
Definition is_identity (n : nat) (J : arr R) : Prop := [/\ nrow J = n, ncol J = n & forall i j, (i < n)%N -> (j < n)%N -> ent J i j = if i == j then 1 else 0].
Definition upto (N c : nat) (J : arr R) : Prop := [/\ nrow J = N, ncol J = N & forall i j, (i < N)%N -> (j < N)%N -> ent J i j = if (i == j) && (i < c)%N then 1 else 0].
Lemma upto_step N c n J B : (c + n <= N)%N -> upto N c J -> is_identity n B -> exists2 J', setblock J (c, (c + n)%N) (c, (c + n)%N) B = Ok J' & upto N (c + n) J'.
Proof.
move=> le [hr hc he] [br bc be].
have [||||||J' [e1 e2 e3 e4]] := @setblock_exact R J B (c, (c + n)%N) (c, (c + n)%N); rewrite /= ?leq_addr ?hr ?hc ?addKn //.
exists J' => //; split; rewrite ?e2 ?e3 // => i j li lj; rewrite e4 /inslice /=.
case: (leqP c i) => ci; last first.
  by rewrite /= he // ci (leq_trans ci (leq_addr _ _)).
case: (ltnP i (c + n)%N) => hi; last by rewrite /= andbF he // ltnNge ci andbF.
case: (leqP c j) => cj; last by rewrite /= he // ltnNge ci andbF; case: eqP => // ij; move: cj; rewrite -ij ltnNge ci.
case: (ltnP j (c + n)%N) => hj; last by rewrite /= he // [(i < c)%N]ltnNge ci andbF andbT; case: eqP => // ij; move: hj; rewrite -ij leqNgt hi.
rewrite /= be ?ltn_subLR // andbT -(eqn_add2r c) !subnK //.
Qed.
Theorem C07_vector_plus_jacobian_is_identity (s : state) dx : exists2 J, s_pjac ops s dx = Ok J & is_identity (s_dof ops s) J.
Proof.
elim/state_ind': s dx => [v t i|l t i IH] dx; first by rewrite /=; eexists; [by []|by split=> //= a b _ _; case: eqP].
rewrite s_pjacC [s_dof _ _]/=; set N := sumn _.
suff H : forall (l : seq state) c dx J, (forall k d, (k < size l)%N -> forall dx, exists2 J, s_pjac ops (nth d l k) dx = Ok J & is_identity (s_dof ops (nth d l k)) J) ->
   (c + sumn (map (s_dof ops) l) <= N)%N -> upto N c J -> exists2 J', pjac_list ops l c dx J = Ok J' & upto N (c + sumn (map (s_dof ops) l)) J'.
  have h0 : upto N 0 (azeros R N N) by split=> //= a b _ _; rewrite ltn0 andbF.
  have [J e [h1 h2 h3]] := H l 0%N dx (azeros R N N) (fun k d hk => IH k hk d) (leqnn _) h0.
  by exists J => //; split=> // a b la lb; rewrite h3 // add0n la andbT.
elim=> [|s r IHr] c {}dx J h le hJ; first by exists J => //=; rewrite addn0.
have [B eB hB] := h 0%N s isT (take (s_dof ops s) dx); rewrite [nth _ _ _]/= in eB hB.
rewrite (_ : sumn (map (s_dof ops) (s :: r)) = (s_dof ops s + sumn (map (s_dof ops) r))%N) // addnA in le *.
have [|J' e1 h1] := @upto_step N c (s_dof ops s) J B _ hJ hB; first by apply: leq_trans le; exact: leq_addr.
rewrite [pjac_list _ _ _ _ _]/= eB /= e1 /=; apply: IHr => // k d hk; exact: (h k.+1 d hk).
Qed.
(** [same_shape]: the two states have the same tree structure (sizes of vectors need not match: the Jacobian does not look at them) *)
Fixpoint same_shape (x y : state) {struct x} : Prop :=
  match x, y with
  | Leaf _ _ _, Leaf _ _ _ => True
  | Comp l _ _, Comp m _ _ => (fix go (l m : seq state) : Prop := match l, m with [::], [::] => True | a :: l, b :: m => same_shape a b /\ go l m | _, _ => False end) l m
  | _, _ => False
  end.
Theorem C07_vector_minus_jacobian_is_identity (x y : state) : same_shape x y -> exists2 J, s_mjac ops x y = Ok J & is_identity (s_dof ops x) J.
Proof.
elim/state_ind': x y => [v t i|l t i IH] [w t' i'|m t' i'] //; first by rewrite /=; eexists; [by []|by split=> //= a b _ _; case: eqP].
rewrite s_mjacC [s_dof _ _]/=; set N := sumn _ => /= hs.
suff H : forall (l m : seq state) c J, (forall k d, (k < size l)%N -> forall y, same_shape (nth d l k) y -> exists2 J, s_mjac ops (nth d l k) y = Ok J & is_identity (s_dof ops (nth d l k)) J) ->
   (fix go (l m : seq state) : Prop := match l, m with [::], [::] => True | a :: l, b :: m => same_shape a b /\ go l m | _, _ => False end) l m ->
   (c + sumn (map (s_dof ops) l) <= N)%N -> upto N c J -> exists2 J', mjac_list ops l m c J = Ok J' & upto N (c + sumn (map (s_dof ops) l)) J'.
  have h0 : upto N 0 (azeros R N N) by split=> //= a b _ _; rewrite ltn0 andbF.
  have [J e [h1 h2 h3]] := H l m 0%N (azeros R N N) (fun k d hk => IH k hk d) hs (leqnn _) h0.
  by exists J => //; split=> // a b la lb; rewrite h3 // add0n la andbT.
elim=> [|s r IHr] [|b m'] c J h //; first by move=> _ le hJ; exists J => //=; rewrite addn0.
case=> hs1 hs2 le hJ.
have [B eB hB] := h 0%N s isT b hs1; rewrite [nth _ _ _]/= in eB hB.
rewrite (_ : sumn (map (s_dof ops) (s :: r)) = (s_dof ops s + sumn (map (s_dof ops) r))%N) // addnA in le *.
have [|J' e1 h1] := @upto_step N c (s_dof ops s) J B _ hJ hB; first by apply: leq_trans le; exact: leq_addr.
rewrite [mjac_list _ _ _ _ _]/= eB /= e1 /=; apply: IHr => // k d hk; exact: (h k.+1 d hk).
Qed.
End VecJac.

(** concrete cases *)
Section Witness.
Local Open Scope ring_scope.
Notation st := (state nat [eqType of nat] (seq int)).
Definition ex3 : seq st := [:: Leaf [:: 1; 2%:Z] (Some 5%N) 10%N; Comp [:: Leaf [:: 3%:Z] None 11%N] (Some 6%N) 12%N].
Example C09_ex_getters : [/\ get_dof_by_id (vec_ops _) ex3 12%N = Ok 1%N, get_stamp_by_id ex3 12%N = Ok (Some 6%N) & get_stamp_by_id ex3 11%N = Raise ValueError].
Proof. by []. Qed.
Example C05_ex : get_slice_by_id (vec_ops _) ex3 10%N = Ok (0%N, 2%N) /\ get_slice_by_id (vec_ops _) ex3 12%N = Ok (2%N, 3%N). Proof. by []. Qed.
Example C07_ex : same_shape (Comp ex3 None 0%N) (Comp ex3 None 0%N). Proof. by []. Qed.
Example C09_ex_stale : rmap (map (s_dof (vo_ops [ringType of int])))
   (set_value_by_id (@vo_assign _) [:: Leaf (vnew [:: 1; 2%:Z]) (Some 5%N) 10%N] (VLeaf (vnew [:: 1; 2%:Z; 3%:Z])) 10%N) = Ok [:: 2%N].
Proof. by []. Qed.
End Witness.
Print Assumptions C09_getters.
Print Assumptions C09_set_fields.
Print Assumptions C09_set_value_stale_dof_refuted.
Print Assumptions C05_single_row_repeated_refuted.
Print Assumptions C06_single_row_repeated_refuted.
Print Assumptions C07_vector_plus_jacobian_is_identity.
Print Assumptions C07_vector_minus_jacobian_is_identity.
