(** Property theorems C51: a measurement model of two named substates differentiates with
    respect to the whole composite state. *)
From mathcomp Require Import all_ssreflect all_algebra.
From Verif Require Import Base Tac LinAlg Deriv CompositeModel CompositeProof CompositeProof2 CompositeProof3 CompositeProps PreintModel ImuModel ImuProps ModelsModel MeasureProps MeasureProps2 PairModel.
Set Implicit Arguments.
Unset Strict Implicit.
Unset Printing Implicit Defensive.
Local Open Scope ring_scope.
Import GRing.Theory.

(** *** Specification *)
Section Spec.
Variable R : realFieldType.
(** g t succeeds for every t, gives m numbers, and its i-th number has derivative (v i) at t = 0 *)
Definition directional (g : R -> result (seq R)) (m : nat) (v : nat -> R) : Prop :=
  exists F : R -> seq R, (forall t, g t = Ok (F t) /\ size (F t) = m) /\
    forall i, (i < m)%N -> is_deriv (fun t => nth 0 (F t) i) (v i).
Definition scale (t : R) (v : seq R) : seq R := map ( *%R t) v.

Variables (T : Type) (I : eqType) (L : Type).
Variable ops : leafops R L.
Notation state := (state T I L).
(** (b1, b2) are the Jacobian blocks of f at (s1, s2): they give the derivative of f along every
    pair of perturbations *)
Definition blocks_correct (f : state -> state -> result (seq R)) m (s1 s2 : state) (b1 b2 : arr R) : Prop :=
  [/\ nrow b1 = m, nrow b2 = m, ncol b1 = s_dof ops s1, ncol b2 = s_dof ops s2 &
   forall d1 d2, size d1 = s_dof ops s1 -> size d2 = s_dof ops s2 ->
   directional (fun t => a <~ s_plus ops s1 (scale t d1) ;; b <~ s_plus ops s2 (scale t d2) ;; f a b)
     m (fun i => aapply b1 d1 i + aapply b2 d2 i)].
(** A is the Jacobian of the composite measurement ev at the CompositeState [Comp l ts i0]: it
    gives the derivative of ev along every perturbation of the composite *)
Definition composite_jacobian_correct (ev : seq state -> result (seq R)) (l : seq state) ts i0 m (A : arr R) : Prop :=
  [/\ nrow A = m, ncol A = s_dof ops (Comp l ts i0) &
   forall dx, size dx = s_dof ops (Comp l ts i0) ->
   directional (fun t => x <~ s_plus ops (Comp l ts i0) (scale t dx) ;;
                         if x is Comp l' _ _ then ev l' else Raise AttributeError) m (aapply A dx)].
(** every substate can be perturbed *)
Definition perturbable (l : seq state) : Prop :=
  forall s d, List.In s l -> size d = s_dof ops s -> is_ok (s_plus ops s d).
End Spec.

Section Composite.
Variable R : realFieldType.
Variables (T : Type) (I : eqType) (L : Type).
Variable ops : leafops R L.
Notation state := (state T I L).
Notation dof l := (sumn (map (@s_dof R T I L ops) l)).

Lemma size_scale (t : R) v : size (scale t v) = size v. Proof. by rewrite size_map. Qed.
Lemma pslice_scale (t : R) a b v : pslice a b (scale t v) = scale t (pslice a b v).
Proof. by rewrite /pslice /scale -map_drop -map_take. Qed.

Lemma in_nth (l : seq state) k d : (k < size l)%N -> List.In (nth d l k) l.
Proof. by elim: l k => [|s l IH] [|k] //= h; [left|right; apply: IH]. Qed.

Lemma plus_all (l : seq state) ts i0 dx : perturbable ops l -> size dx = dof l ->
  exists l', s_plus ops (Comp l ts i0) dx = Ok (Comp l' ts i0).
Proof.
rewrite s_plusC; elim: l dx => [|s l IH] dx H sz; first by exists [::].
have h1 : size (take (s_dof ops s) dx) = s_dof ops s by rewrite size_take sz /= ltn_neqAle leq_addr andbT; case: eqP => // ->.
have := H s (take (s_dof ops s) dx) (or_introl erefl) h1; rewrite /=; case: (s_plus _ _ _) => [s' _|//].
have [l' E] : exists l', (l' <~ plus_list ops l (drop (s_dof ops s) dx);; Ok (Comp l' ts i0)) = Ok (Comp l' ts i0).
  by apply: IH => [a d ha|]; [apply: H; right|rewrite size_drop sz /= addKn].
by move: E => /=; case: (plus_list _ _ _) => //= l'' _; exists (s' :: l'').
Qed.

Lemma get_id_plus (l l' : seq state) i0 ts dx id s1 sl : s_plus ops (Comp l ts i0) dx = Ok (Comp l' ts i0) ->
  get_state_by_id l id = Ok s1 -> get_slice_by_id ops l id = Ok sl ->
  exists2 s', s_plus ops s1 (pslice sl.1 sl.2 dx) = Ok s' & get_state_by_id l' id = Ok s'.
Proof.
move=> P g1 g2; have cP : c_plus ops l ts i0 dx None = Ok (Comp l' ts i0) by move: P; rewrite s_plusC /c_plus.
have [l'' [[<-] sz ids H]] := C04_plus_slicewise cP.
move: g1; rewrite /get_state_by_id; case kE: (get_index_by_id l id) => [k|] //= g1.
have kl : (k < size l)%N by move: g1; case: ltnP => // h; rewrite py_nth_oob.
move: g1; rewrite (py_nthE s1) // => -[s1E].
move: g2; rewrite /get_slice_by_id kE /= (py_nthE (0,0)%N) ?size_get_slices // => -[slE].
have [s' E1 E2] := H k s1 kl; rewrite s1E slE in E1; exists s' => //.
have -> : get_index_by_id l' id = Ok k by rewrite -kE /get_index_by_id ids.
by rewrite /= (py_nthE s1) ?sz // E2.
Qed.

(** The two substates of a lookup, and the width of their slices *)
Lemma state_slice (l : seq state) id s : get_state_by_id l id = Ok s ->
  exists2 sl, get_slice_by_id ops l id = Ok sl & (sl.2 - sl.1 = s_dof ops s)%N /\ (sl.2 <= dof l)%N.
Proof.
rewrite /get_state_by_id /get_slice_by_id; case kE: (get_index_by_id l id) => [k|] //= g1.
have kl : (k < size l)%N by move: g1; case: ltnP => // h; rewrite py_nth_oob.
move: g1; rewrite (py_nthE s) // => -[sE].
exists (nth (0,0)%N (get_slices ops l) k); first by rewrite (py_nthE (0,0)%N) ?size_get_slices.
rewrite (@nth_get_slices _ _ _ _ ops l k s kl) /= sE addKn; split=> //.
by rewrite -sE -offsetS // offset_le_total.
Qed.

Lemma scale_blocks (l : seq state) id s sl (dx : seq R) : get_state_by_id l id = Ok s -> get_slice_by_id ops l id = Ok sl ->
  size dx = dof l -> size (pslice sl.1 sl.2 dx) = s_dof ops s.
Proof.
move=> g1 g2 sz; have [sl' g2' [w le]] := state_slice g1; move: g2'; rewrite g2 => -[?]; subst sl'.
by rewrite size_pslice ?sz.
Qed.

Variable f : state -> state -> result (seq R).
Variable J : state -> state -> result (arr R * arr R).

(** RangePoseToPose and CameraProjection, for every composite state that holds the two named
    substates anywhere among others *)
Theorem C51_pair_jacobian (l : seq state) ts i0 id1 id2 s1 s2 b1 b2 m : id1 <> id2 -> perturbable ops l ->
  get_state_by_id l id1 = Ok s1 -> get_state_by_id l id2 = Ok s2 ->
  J s1 s2 = Ok (b1, b2) -> blocks_correct ops f m s1 s2 b1 b2 ->
  exists2 A, pair_jac ops J id1 id2 l = Ok A & composite_jacobian_correct ops (pair_eval f id1 id2) l ts i0 m A.
Proof.
move=> ne pl g1 g2 jE [n1 n2 c1 c2 H].
have [sl1 e1 [w1 _]] := state_slice g1; have [sl2 e2 [w2 _]] := state_slice g2.
have ne' : (id1 == id2) = false by apply/eqP.
have [//||ib [<-|[<-|//]]|A [aE n3 c3 [ap _]]] := @C06_jacobian_from_blocks R T I L ops l [:: (id1, b1); (id2, b2)] m.
- by rewrite /= inE ne'.
- by exists sl1; rewrite n1 c1 w1.
- by exists sl2; rewrite n2 c2 w2.
exists A; first by rewrite /pair_jac g1 g2 /= jE /dict2 /= ne'.
split=> // dx sz; have [F [F1 F2]] := H _ _ (scale_blocks g1 e1 sz) (scale_blocks g2 e2 sz).
exists F; split=> [t|i im].
  have [l' P] := @plus_all l ts i0 (scale t dx) pl (etrans (size_scale t dx) sz); rewrite P /= /pair_eval.
  have [s1' p1 ->] := get_id_plus P g1 e1; have [s2' p2 ->] := get_id_plus P g2 e2.
  by have := F1 t; rewrite -!pslice_scale p1 p2.
by have := F2 i im; rewrite ap // !big_cons big_nil /= e1 e2 addr0.
Qed.

(** PointRelativePositionSLAM: the same when the first two substates are the pose and the
    landmark, in that order *)
Theorem C51_slam_jacobian (l : seq state) ts i0 id1 id2 s1 s2 b1 b2 m : id1 <> id2 ->
  s_id s1 = id1 -> s_id s2 = id2 ->
  J s1 s2 = Ok (b1, b2) -> blocks_correct ops f m s1 s2 b1 b2 ->
  let l' := [:: s1, s2 & l] in perturbable ops l' ->
  exists2 A, slam_full_jac ops J id1 id2 l' = Ok A & composite_jacobian_correct ops (pair_eval f id1 id2) l' ts i0 m A.
Proof.
move=> ne e1 e2 jE B l' pl.
have ne' : (id1 == id2) = false by apply/eqP.
have g1 : get_state_by_id l' id1 = Ok s1 by rewrite /get_state_by_id /get_index_by_id /= e1 inE eqxx.
have g2 : get_state_by_id l' id2 = Ok s2 by rewrite /get_state_by_id /get_index_by_id /= e1 e2 !inE eqxx ne' orbT.
have [A aE C] := C51_pair_jacobian ts i0 ne pl g1 g2 jE B; exists A => //.
by move: aE; rewrite /pair_jac /slam_full_jac g1 g2 /= jE e1 e2.
Qed.
End Composite.

(** *** The three models *)
Section Instances.
Variable R : rcfType.
Lemma size_vec_seq n (v : 'cV[R]_n) : size (vec_seq v) = n.
Proof. by rewrite size_map size_enum_ord. Qed.
Lemma nth_vec_seq n (v : 'cV[R]_n) (i : 'I_n) : nth 0 (vec_seq v) i = v i 0.
Proof. by rewrite (nth_map i) ?size_enum_ord // nth_ord_enum. Qed.
Lemma seq_vecK n (v : 'cV[R]_n) : seq_vec n (vec_seq v) = v.
Proof. by apply/colP => i; rewrite mxE nth_vec_seq. Qed.
Lemma seq_vec_scale n t d : seq_vec n (scale t d) = t *: seq_vec n d :> 'cV[R]_n.
Proof.
apply/colP => i; rewrite !mxE; case: (ltnP i (size d)) => h; first by rewrite (nth_map 0).
by rewrite !nth_default ?size_scale // mulr0.
Qed.
Lemma aapply_mat m n (M : 'M[R]_(m, n)) d (i : 'I_m) : aapply (mat_arr M) d i = (M *m seq_vec n d) i 0.
Proof. by rewrite /aapply /= mxE; apply: eq_bigr => j _; rewrite !valK !mxE. Qed.

Section Two.
Variables (d1 d2 : nat) (X1 X2 : Type).
Variables (plus1 : X1 -> 'cV[R]_d1 -> X1) (plus2 : X2 -> 'cV[R]_d2 -> X2).
Variables (T : Type) (I : eqType).
Notation state := (state T I (X1 + X2)).
Notation ops := (two_ops plus1 plus2).
Lemma two_blocks m (g : X1 -> X2 -> result 'cV[R]_m) x1 x2 u1 (i1 : I) (u2 : option T) i2 J1 J2 :
  (forall dx1 dx2, exists F, (forall t, g (plus1 x1 (t *: dx1)) (plus2 x2 (t *: dx2)) = Ok (F t)) /\
     is_mderiv F (J1 *m dx1 + J2 *m dx2)) ->
  blocks_correct ops (two_f g) m (Leaf (inl x1) u1 i1 : state) (Leaf (inr x2) u2 i2) (mat_arr J1) (mat_arr J2).
Proof.
move=> H; split=> // e1 e2 /= z1 z2; have [F [F1 F2]] := H (seq_vec d1 e1) (seq_vec d2 e2).
exists (fun t => vec_seq (F t)); split=> [t|i im].
  by rewrite !size_scale z1 z2 !eqxx /= !seq_vec_scale F1 size_vec_seq.
have -> : i = (Ordinal im) :> nat by []; rewrite !aapply_mat.
by have := F2 (Ordinal im) 0; rewrite mxE; apply: eq_deriv => t; rewrite -nth_vec_seq.
Qed.
Lemma leaves_perturbable (l : seq state) : (forall s, List.In s l -> if s is Comp _ _ _ then false else true) -> perturbable ops l.
Proof.
move=> H s d /H; case: s => // v t i _ /=; case: v => x -> /=; by rewrite eqxx.
Qed.
End Two.

Section Models.
Variables (d : nat) (X : Type) (view : X -> pose R 3 3 d) (plus : X -> 'cV[R]_d -> X) (valid : X -> Prop).
Notation K := (@Kind R X 3 3 d (so3 R) view plus valid).
Variables (T : Type) (I : eqType).
Notation vplus := (fun (v dv : 'cV[R]_3) => v + dv).
Notation state := (state T I (X + 'cV[R]_3)).
Notation ops := (two_ops plus vplus).
Definition leaves_only (l : seq state) : Prop := forall s, List.In s l -> if s is Comp _ _ _ then false else true.

(** CameraProjection on any composite of poses and landmarks *)
Theorem C51_camera (c : camera R) (l : seq state) ts i0 id1 id2 x u1 v u2 p : pose_state K -> valid x ->
  leaves_only l -> id1 <> id2 ->
  get_state_by_id l id1 = Ok (Leaf (inl x) u1 id1) -> get_state_by_id l id2 = Ok (Leaf (inr v) u2 id2) ->
  p_dir (view x) = DRight -> cam_resolve c (view x) v = Ok p -> p 2%:R 0 != 0 ->
  exists2 A, pair_jac ops (two_J (fun x v => cam_jac c (view x) v)) id1 id2 l = Ok A &
    composite_jacobian_correct ops (pair_eval (two_f (fun x v => cam_eval c (view x) v)) id1 id2) l ts i0 2 A.
Proof.
move=> pK xv lv ne g1 g2 dE pE z0; have [Jx [Jl [jE H]]] := C50_camera pK xv dE pE z0.
apply: (C51_pair_jacobian ts i0 ne (leaves_perturbable lv) g1 g2 (b1 := mat_arr Jx) (b2 := mat_arr Jl)).
  by rewrite /= jE.
by apply: two_blocks => dx1 dx2; exact: H.
Qed.
(** PointRelativePositionSLAM on [pose, landmark, ...] *)
Theorem C51_slam (l : seq state) ts i0 id1 id2 x u1 v u2 : pose_state K -> valid x ->
  leaves_only l -> id1 <> id2 ->
  let l' := [:: Leaf (inl x) u1 id1, Leaf (inr v) u2 id2 & l] in
  exists2 A, slam_full_jac ops (two_J (fun x v => slam_jac (view x) v)) id1 id2 l' = Ok A &
    composite_jacobian_correct ops (pair_eval (two_f (fun x v => slam_eval (view x) v)) id1 id2) l' ts i0 3 A.
Proof.
move=> pK xv lv ne l'; have [Jx [Jl [jE H]]] := C50_slam v pK xv.
apply: (C51_slam_jacobian ts i0 ne _ _ (b1 := mat_arr Jx) (b2 := mat_arr Jl)) => //.
- by rewrite /= jE.
- by apply: two_blocks => dx1 dx2; exact: H.
- by apply: leaves_perturbable => s [<-|[<-|]] //; apply: lv.
Qed.
(** ... and on no other arrangement.  With another 3-dof substate in second place the Jacobian
    is returned, but the columns of the landmark are zero: *)
Theorem C51_slam_refuted (id1 id2 id3 : I) x u1 v w u2 u3 ts i0 : pose_state K -> valid x ->
  id1 <> id2 -> id1 <> id3 -> id2 <> id3 ->
  let l := [:: Leaf (inl x) u1 id1; Leaf (inr w) u3 id3; Leaf (inr v) u2 id2 : state] in
  (exists A, slam_full_jac ops (two_J (fun x v => slam_jac (view x) v)) id1 id2 l = Ok A /\
     forall i j, (d + 3 <= j < d + 6)%N -> ent A i j = 0) /\
  ~ (exists2 A, slam_full_jac ops (two_J (fun x v => slam_jac (view x) v)) id1 id2 l = Ok A &
    composite_jacobian_correct ops (pair_eval (two_f (fun x v => slam_eval (view x) v)) id1 id2) l ts i0 3 A).
Proof.
move=> pK xv n12 n13 n23 l.
have [Jx [Jl [jE H]]] := C50_slam v pK xv.
have e12 : (id1 == id2) = false by apply/eqP.
have e13 : (id1 == id3) = false by apply/eqP.
have e23 : (id2 == id3) = false by apply/eqP.
have e32 : (id3 == id2) = false by rewrite eq_sym.
have g1 : get_state_by_id l id1 = Ok (Leaf (inl x) u1 id1) by rewrite /get_state_by_id /get_index_by_id /= inE eqxx.
have g2 : get_state_by_id l id2 = Ok (Leaf (inr v) u2 id2).
  by rewrite /get_state_by_id /get_index_by_id /= !inE eqxx !orbT e12 e32.
have s1 : get_slice_by_id ops l id1 = Ok (0, d)%N by rewrite /get_slice_by_id /get_index_by_id /= inE eqxx.
have s2 : get_slice_by_id ops l id2 = Ok (d + 3, d + 6)%N.
  by rewrite /get_slice_by_id /get_index_by_id /= !inE eqxx !orbT e12 e32 /get_slices /py_nth /= !add0n; congr (Ok (_, _)); rewrite -addnA.
have lvl : leaves_only l by move=> s [<-|[<-|[<-|//]]].
have s3 : get_slice_by_id ops l id3 = Ok (d, d + 3)%N.
  by rewrite /get_slice_by_id /get_index_by_id /= !inE eqxx !orbT e13.
have [//||ib [<-|[<-|//]]|A [aE n3 c3 [ap z]]] := @C06_jacobian_from_blocks R T I _ ops l [:: (id1, mat_arr Jx); (id3, mat_arr Jl)] 3.
- by rewrite /= inE e13.
- by exists (0, d)%N; rewrite subn0.
- by exists (d, d + 3)%N; rewrite addKn.
have AE : slam_full_jac ops (two_J (fun x v => slam_jac (view x) v)) id1 id2 l = Ok A.
  by rewrite /slam_full_jac g1 g2 /= jE /dict2 /= e13 -aE.
have zc i j : (d + 3 <= j < d + 6)%N -> ent A i j = 0.
  case/andP=> j1 j2; apply: z => ib sl [<-|[<-|//]]; rewrite ?s1 ?s3 => -[<-]; rewrite /inslice /=.
    by rewrite -leqNgt (leq_trans _ j1) // leq_addr.
  by rewrite negb_and -!leqNgt j1 orbT.
split; first by exists A.
case=> A'; rewrite AE => -[<-] [_ _ hA] {A'}.
have f := pose_facts pK; have [_ /= orth _ _ _] := f; have o := orth x xv; have [/= r rE] := fc_pos f isT xv.
pose e : 'cV[R]_3 := p_att (view x) *m delta_mx 0 0.
pose dx := nseq (d + 3) 0 ++ vec_seq e.
have sz : size dx = (d + (3 + (3 + 0)))%N by rewrite size_cat size_nseq size_vec_seq addn0 addnA.
have [F [F1 F2]] := hA dx sz; have [F' [F1' F2']] := H 0 e.
have FE t : F t = vec_seq (F' t).
  have [] := F1 t; have [l' P] := @plus_all R T I _ ops l ts i0 (scale t dx) (leaves_perturbable lvl) (etrans (size_scale t dx) sz).
  rewrite P /= /pair_eval; have [a p1 ->] := get_id_plus P g1 s1; have [b p2 ->] := get_id_plus P g2 s2 => /=.
  move: p1 p2; rewrite !pslice_scale /= !size_scale.
  have -> : pslice 0 d dx = nseq d 0 by rewrite /pslice drop0 subn0 /dx nseqD -catA take_cat size_nseq ltnn subnn take0 cats0.
  have -> : pslice (d + 3) (d + 6) dx = vec_seq e.
    by rewrite /pslice /dx drop_cat size_nseq ltnn subnn drop0 subnDl take_oversize // size_vec_seq.
  rewrite size_nseq size_vec_seq !eqxx /= => -[<-] [<-] /=.
  rewrite !seq_vec_scale seq_vecK; have -> : seq_vec d (nseq d 0) = 0 :> 'cV[R]_d by apply/colP => i; rewrite !mxE nth_nseq if_same.
  by rewrite F1' => -[<-].
have JlE : Jl = (p_att (view x))^T by move: jE; rewrite /slam_jac; case: (relpos_jac _ _ _) => //= J0 [].
have := F2 0%N isT; have := F2' 0 0.
rewrite mulmx0 add0r JlE /e mulmxA o mul1mx [delta_mx _ _ _ _]mxE !eqxx /= => D1 D2.
have D2' : is_deriv (fun t => F' t 0 0) (aapply A dx 0).
  by apply: eq_deriv D2 => t; rewrite FE -(nth_vec_seq (F' t) 0).
have := deriv_uniq D1 D2'; rewrite /aapply c3 /= big1 => [/eqP|j _]; first by rewrite oner_eq0.
case: (ltnP j (d + 3)) => jd; first by rewrite nth_cat size_nseq jd nth_nseq jd mulr0.
by rewrite zc ?mul0r // jd /= (leq_trans (ltn_ord j)) //= addn0 addnA.
Qed.
(** With the landmark first the Jacobian raises (a three-dimensional pose state has 6, 9 or 15 degrees of freedom) *)
Theorem C51_slam_order_refuted (id1 id2 : I) x u1 v u2 : pose_state K -> valid x -> id1 <> id2 -> (3 < d)%N ->
  slam_full_jac ops (two_J (fun x v => slam_jac (view x) v)) id1 id2 [:: Leaf (inr v) u2 id2; Leaf (inl x) u1 id1 : state]
    = Raise ValueError /\
  is_ok (pair_eval (two_f (fun x v => slam_eval (view x) v)) id1 id2 [:: Leaf (inr v) u2 id2; Leaf (inl x) u1 id1 : state]).
Proof.
move=> pK xv n12 d3; set l := [:: _; _].
have [Jx [Jl [jE H]]] := C50_slam v pK xv; have f := pose_facts pK; have [/= r rE] := fc_pos f isT xv.
have e12 : (id1 == id2) = false by apply/eqP.
have e21 : (id2 == id1) = false by rewrite eq_sym.
have g1 : get_state_by_id l id1 = Ok (Leaf (inl x) u1 id1) by rewrite /get_state_by_id /get_index_by_id /= !inE eqxx orbT e21.
have g2 : get_state_by_id l id2 = Ok (Leaf (inr v) u2 id2) by rewrite /get_state_by_id /get_index_by_id /= inE eqxx.
split; last by rewrite /pair_eval g1 g2 /= /slam_eval /relpos_eval rE.
rewrite /slam_full_jac g1 g2 /= jE /dict2 /= e21 /jacobian_from_blocks /=.
have -> : get_slice_by_id ops l id2 = Ok (0, 3)%N by rewrite /get_slice_by_id /get_index_by_id /= inE eqxx.
rewrite /= /setblock /= /slen /clip /= min0n subn0 minnn /=.
have -> : minn 3 (3 + (d + 0)) = 3%N by apply/minn_idPl; rewrite leq_addr.
by have -> : bcast_ok 3 d = false by rewrite /bcast_ok !gtn_eqF // (ltn_trans _ d3).
Qed.
End Models.

Section Range.
Variables n k : nat.
Variable G : attgroup R n k.
Variables (d1 d2 : nat) (X1 X2 : Type).
Variables (view1 : X1 -> pose R n k d1) (plus1 : X1 -> 'cV[R]_d1 -> X1) (valid1 : X1 -> Prop).
Variables (view2 : X2 -> pose R n k d2) (plus2 : X2 -> 'cV[R]_d2 -> X2) (valid2 : X2 -> Prop).
Notation K1 := (@Kind R X1 n k d1 G view1 plus1 valid1).
Notation K2 := (@Kind R X2 n k d2 G view2 plus2 valid2).
Variables (T : Type) (I : eqType).
Notation state := (state T I (X1 + X2)).
Notation ops := (two_ops plus1 plus2).
(** RangePoseToPose on any composite *)
Theorem C51_range_pose_to_pose (t1 t2 : 'cV[R]_n) (l : seq state) ts i0 id1 id2 x1 x2 u1 u2 r1 r2 :
  pose_state K1 -> pose_state K2 -> valid1 x1 -> valid2 x2 ->
  (forall s, List.In s l -> if s is Comp _ _ _ then false else true) -> id1 <> id2 ->
  get_state_by_id l id1 = Ok (Leaf (inl x1) u1 id1) -> get_state_by_id l id2 = Ok (Leaf (inr x2) u2 id2) ->
  p_pos (view1 x1) = Some r1 -> p_pos (view2 x2) = Some r2 ->
  p_att (view1 x1) *m t1 + r1 != p_att (view2 x2) *m t2 + r2 ->
  exists2 A, pair_jac ops (two_J (fun x1 x2 => range_poses_jac G t1 t2 (view1 x1) (view2 x2))) id1 id2 l = Ok A &
    composite_jacobian_correct ops (pair_eval (two_f (fun x1 x2 => range_poses_eval t1 t2 (view1 x1) (view2 x2))) id1 id2) l ts i0 1 A.
Proof.
move=> p1 p2 v1 v2 lv ne g1 g2 e1 e2 q0; have [Jx [Jl [jE H]]] := C50_range_pose_to_pose p1 p2 v1 v2 e1 e2 q0.
apply: (C51_pair_jacobian ts i0 ne (leaves_perturbable lv) g1 g2 (b1 := mat_arr Jx) (b2 := mat_arr Jl)).
  by rewrite /= jE.
by apply: two_blocks => dx1 dx2; exact: H.
Qed.
End Range.
End Instances.
