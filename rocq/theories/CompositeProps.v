(** Property theorems C01-C11 (navlie/composite.py).
    Reading guide: [Comp l t i] is a CompositeState with substates l;
    [s_plus], [s_minus], [s_dof], ... are its methods; [get_slices l] is
    get_slices(); [pslice a b v] is v[a:b]; [aapply A v i] is (A @ v)[i];
    [Ok]/[Raise] is normal return / exception. *)
From mathcomp Require Import all_ssreflect all_algebra.
From Verif Require Import Base CompositeModel CompositeProof CompositeProof2 CompositeProof3.
Set Implicit Arguments.
Unset Strict Implicit.
Unset Printing Implicit Defensive.

(** Concrete data for the non-vacuity examples: a nested composite over rational vectors:
    [ v1 (dof 2, id 10) ; [ v2 (dof 1, id 20) ; v3 (dof 3, id 21) ] (id 11) ]. *)
Definition ex_leaf (n : nat) (i : nat) : state nat [eqType of nat] (seq rat) :=
  Leaf (nseq n (1%:R : rat)%R) (Some 0) i.
Definition ex_inner := Comp [:: ex_leaf 1 20; ex_leaf 3 21] (Some 0) 11.
Definition ex_list := [:: ex_leaf 2 10; ex_inner].
Definition ex_dx : seq rat := [seq (k%:R)%R | k <- iota 1 6].

Section T.
Variable R : ringType.
Variables (T : Type) (I : eqType) (L : Type).
Variable ops : leafops R L.
Notation state := (state T I L).
Notation dof l := (sumn (map (@s_dof R T I L ops) l)).
Notation slices := (@get_slices R T I L ops).

(** C01 *)
Theorem C01_slices_partition (l : seq state) :
  [/\ size (slices l) = size l,
      (forall k d, k < size l -> slen (nth (0,0) (slices l) k) = s_dof ops (nth d l k)),
      (forall k, k.+1 < size l -> (nth (0,0) (slices l) k).2 = (nth (0,0) (slices l) k.+1).1),
      (0 < size l -> (nth (0,0) (slices l) 0).1 = 0 /\
         (nth (0,0) (slices l) (size l).-1).2 = dof l)
    & (forall i, i < dof l ->
        exists2 k, (k < size l /\ inslice (nth (0,0) (slices l) k) i) &
           forall m, m < size l -> inslice (nth (0,0) (slices l) m) i -> m = k)].
Proof. exact: slices_partition. Qed.

(** C02: [tree_all ops P s dx] says P holds for every leaf of s and the part of dx that
    belongs to it, and that no composite node is empty (np.concatenate raises on an empty
    list: see [C02_empty_refuted]). *)
Theorem C02_plus_then_minus (x : state) (dx : seq R) :
  size dx = s_dof ops x ->
  tree_all ops (fun v d => exists v', [/\ l_plus ops v d = Ok v', l_dof ops v' = l_dof ops v
                                        & l_minus ops v' v = Ok d]) x dx ->
  exists x', [/\ s_plus ops x dx = Ok x', s_dof ops x' = s_dof ops x & s_minus ops x' x = Ok dx].
Proof. exact: plus_minus_tree. Qed.

(** The same law fails for an empty composite: minus raises. *)
Theorem C02_empty_refuted (t : option T) (i : I) :
  exists x', s_plus ops (Comp [::] t i : state) [::] = Ok x' /\
             s_minus ops x' (Comp [::] t i) = Raise ValueError.
Proof. by exists (Comp [::] t i). Qed.

(** C03: [tree_rel P x y]: same shape and P holds between corresponding leaves. *)
Theorem C03_minus_then_plus (x y : state) :
  tree_rel (fun v w => exists d, [/\ l_minus ops w v = Ok d, size d = l_dof ops v,
                          l_dof ops v = l_dof ops w & l_plus ops v d = Ok w]) x y ->
  exists d z, [/\ s_minus ops y x = Ok d, size d = s_dof ops x, s_dof ops x = s_dof ops y
     & s_plus ops x d = Ok z /\ values z = values y /\ metas z = metas x].
Proof. exact: minus_plus_tree. Qed.

(** C04 *)
Theorem C04_plus_slicewise (l : seq state) t i dx new_stamp x' :
  c_plus ops l t i dx new_stamp = Ok x' ->
  exists l', [/\ x' = Comp l' t i, size l' = size l, map (@s_id T I L) l' = map (@s_id T I L) l &
    forall k d, k < size l -> exists2 s',
      s_plus ops (nth d l k)
        (pslice (nth (0,0) (slices l) k).1 (nth (0,0) (slices l) k).2 dx) = Ok s'
      & nth d l' k = if new_stamp is Some ts then set_stamp (Some ts) s' else s'].
Proof. exact: c_plus_slicewise. Qed.

Theorem C04_plus_ignores_extra (l : seq state) t i dx extra new_stamp :
  dof l <= size dx -> c_plus ops l t i (dx ++ extra) new_stamp = c_plus ops l t i dx new_stamp.
Proof. exact: c_plus_extra. Qed.

Theorem C04_plus_noninterference (l : seq state) t i dx1 dx2 ns l1 l2 t1 i1 t2 i2 k d :
  k < size l ->
  (let s := nth (0,0) (slices l) k in pslice s.1 s.2 dx1 = pslice s.1 s.2 dx2) ->
  c_plus ops l t i dx1 ns = Ok (Comp l1 t1 i1) ->
  c_plus ops l t i dx2 ns = Ok (Comp l2 t2 i2) ->
  nth d l1 k = nth d l2 k.
Proof. exact: c_plus_noninterference. Qed.

(** C05 *)
Theorem C05_set_then_get (l : seq state) (M B : arr R) i1 i2 s1 s2 :
  let j2 := if i2 is Some i then i else i1 in
  get_slice_by_id ops l i1 = Ok s1 -> get_slice_by_id ops l j2 = Ok s2 ->
  nrow M = dof l -> ncol M = dof l ->
  nrow B = s1.2 - s1.1 -> ncol B = s2.2 - s2.1 ->
  exists M', [/\ set_matrix_block_by_ids ops l B M i1 i2 = Ok M',
     nrow M' = nrow M, ncol M' = ncol M,
     (forall i j, ~~ (inslice s1 i && inslice s2 j) -> ent M' i j = ent M i j)
   & exists2 B', get_matrix_block_by_ids ops l M' i1 i2 = Ok B' & aeq B' B].
Proof. exact: set_block_spec. Qed.

Theorem C05_get_then_set (l : seq state) (M : arr R) i1 i2 s1 s2 :
  let j2 := if i2 is Some i then i else i1 in
  get_slice_by_id ops l i1 = Ok s1 -> get_slice_by_id ops l j2 = Ok s2 ->
  nrow M = dof l -> ncol M = dof l ->
  exists B M', [/\ get_matrix_block_by_ids ops l M i1 i2 = Ok B,
    set_matrix_block_by_ids ops l B M i1 i2 = Ok M' & aeq M' M].
Proof. exact: set_get_block. Qed.

Theorem C05_distinct_ids_disjoint (l : seq state) i1 i2 s1 s2 j : i1 <> i2 ->
  get_slice_by_id ops l i1 = Ok s1 -> get_slice_by_id ops l i2 = Ok s2 ->
  inslice s1 j -> ~~ inslice s2 j.
Proof. exact: slices_ids_disjoint. Qed.

(** C06 *)
Theorem C06_jacobian_from_blocks (l : seq state) (d : seq (I * arr R)) m :
  d <> [::] -> uniq (map fst d) ->
  (forall ib, List.In ib d -> exists s, [/\ get_slice_by_id ops l ib.1 = Ok s,
      nrow ib.2 = m & ncol ib.2 = s.2 - s.1]) ->
  exists J, [/\ jacobian_from_blocks ops l d = Ok J, nrow J = m, ncol J = dof l &
     (forall v i, i < m -> aapply J v i =
       (\sum_(ib <- d) (if get_slice_by_id ops l ib.1 is Ok s
                       then aapply ib.2 (pslice s.1 s.2 v) i else 0))%R) /\
     (forall i j, (forall ib s, List.In ib d -> get_slice_by_id ops l ib.1 = Ok s -> ~~ inslice s j) ->
        ent J i j = 0%R)].
Proof. exact: jfb_spec. Qed.

Theorem C06_unknown_id_raises (l : seq state) id b d e : get_index_by_id l id = Raise e ->
  exists e', jacobian_from_blocks ops l ((id, b) :: d) = Raise e'.
Proof. exact: jfb_unknown. Qed.

Theorem C06_empty_raises (l : seq state) : jacobian_from_blocks ops l [::] = Raise IndexError.
Proof. by []. Qed.

(** C07: [square n B]: B is n x n.  [acts_blockwise ops l J bs]: J is dof x dof and, for every
    perturbation v, row r of slice k of J @ v is row r of bs[k] @ v[slice k]. *)
Theorem C07_plus_jacobian_block_diagonal (l : seq state) t i dx :
  (forall k d, k < size l ->
     exists2 B, s_pjac ops (nth d l k) (sl ops l k dx) = Ok B & square (s_dof ops (nth d l k)) B) ->
  exists J bs, [/\ s_pjac ops (Comp l t i) dx = Ok J, size bs = size l,
    forall k d b, k < size l -> s_pjac ops (nth d l k) (sl ops l k dx) = Ok (nth b bs k)
    & acts_blockwise ops l J bs].
Proof. exact: pjac_blocks. Qed.

Theorem C07_minus_jacobian_block_diagonal (l lx : seq state) t i t' i' : size lx = size l ->
  (forall k d, k < size l ->
     exists2 B, s_mjac ops (nth d l k) (nth d lx k) = Ok B & square (s_dof ops (nth d l k)) B) ->
  exists J bs, [/\ s_mjac ops (Comp l t i) (Comp lx t' i') = Ok J, size bs = size l,
    forall k d b, k < size l -> s_mjac ops (nth d l k) (nth d lx k) = Ok (nth b bs k)
    & acts_blockwise ops l J bs].
Proof. exact: mjac_blocks. Qed.

Theorem C07_any_depth (s : state) dx :
  tree_all ops (fun v d => exists2 B, l_pjac ops v d = Ok B & square (l_dof ops v) B) s dx ->
  exists2 J, s_pjac ops s dx = Ok J & square (s_dof ops s) J.
Proof. exact: pjac_tree. Qed.

(** C08: what the code does: the perturbation is lost. *)
Theorem C08_plus_by_id_returns_unchanged (l : seq state) t i0 dx i x' :
  plus_by_id ops l t i0 dx i None = Ok x' -> x' = Comp l t i0.
Proof. exact: plus_by_id_unchanged. Qed.

(** ... and with [new_stamp] only the stamp of the named substate changes *)
Theorem C08_plus_by_id_new_stamp (l : seq state) t i0 dx i ts x' :
  plus_by_id ops l t i0 dx i (Some ts) = Ok x' ->
  exists k l', [/\ x' = Comp l' t i0, get_index_by_id l i = Ok k, size l' = size l,
    (forall d, nth d l' k = set_stamp (Some ts) (nth d l k)) & (forall d m, m <> k -> nth d l' m = nth d l m)].
Proof.
rewrite /plus_by_id => H; have [k Ek {}H] := bind_ok H; have [s Es {}H] := bind_ok H.
have [s' _ {}H] := bind_ok H; have [l' El [<-]] := bind_ok H.
move: El; rewrite /set_stamp_by_id Ek /= Es /= => El.
have Es2 : set_state_by_id l (set_stamp (Some ts) s) i = Ok l' by rewrite /set_state_by_id Ek.
have [k' [Ek' h1 h2 h3]] := set_state_spec Es2; move: Ek'; rewrite Ek => -[ek]; subst k'.
exists k, l'; split=> // d; rewrite h2; congr set_stamp.
by move: Es; rewrite /py_nth; have [lt _ _] := get_index_ok Ek; rewrite (drop_nth d) // => -[].
Qed.

(** C09 *)
Theorem C09_lookup_first_match (l : seq state) i :
  match get_state_by_id l i with
  | Ok s => exists k, [/\ k < size l, (forall d, nth d l k = s), s_id s = i
      & forall m d, m < k -> s_id (nth d l m) <> i]
  | Raise e => e = ValueError /\ i \notin map (@s_id T I L) l
  end.
Proof. exact: lookup_spec. Qed.

Theorem C09_remove (l : seq state) i :
  match remove_state_by_id l i with
  | Ok l' => exists a s b, [/\ l = a ++ s :: b, l' = a ++ b, s_id s = i,
      i \notin map (@s_id T I L) a & dof l = s_dof ops s + dof l']
  | Raise e => e = ValueError /\ i \notin map (@s_id T I L) l
  end.
Proof. exact: remove_spec. Qed.

Theorem C09_add (l : seq state) s :
  [/\ dof (add_state l s) = dof l + s_dof ops s,
      (forall d k, k < size l -> nth d (add_state l s) k = nth d l k)
    & (s_id s \notin map (@s_id T I L) l -> get_state_by_id (add_state l s) (s_id s) = Ok s) /\
      (forall i x, get_state_by_id l i = Ok x -> get_state_by_id (add_state l s) i = Ok x)].
Proof. exact: add_spec. Qed.

Theorem C09_set_state (l : seq state) s i l' : set_state_by_id l s i = Ok l' ->
  exists k, [/\ get_index_by_id l i = Ok k, size l' = size l,
    (forall d, nth d l' k = s) & (forall d m, m <> k -> nth d l' m = nth d l m)].
Proof. exact: set_state_spec. Qed.

(** C10 *)
Section Models.
Variables (U DT : Type).
Theorem C10_evaluate_decoupled (ms : seq (pmodel R T I L U DT)) (l : seq state) t i cu dt l' :
  (cpm_eval ms (Comp l t i) cu dt = Ok (Comp l' t i)) <->
  (size l' = size l /\ (size l <= size ms) /\
   forall k dm (ds : state), k < size l ->
     exists2 u, input_at cu k = Some u &
       pm_eval (nth dm ms k) (nth ds l k) u dt = Ok (nth ds l' k)).
Proof. exact: cpm_eval_spec. Qed.

Theorem C10_jacobian_block_diagonal (ms : seq (pmodel R T I L U DT)) (l : seq state) t i cu dt J :
  l <> [::] -> cpm_jac ms (Comp l t i) cu dt = Ok J ->
  (forall k dm (ds : state) u B, k < size l -> input_at cu k = Some u ->
     pm_jac (nth dm ms k) (nth ds l k) u dt = Ok B -> square (s_dof ops (nth ds l k)) B) ->
  exists bs, [/\ size bs = size l,
   forall k dm (ds : state) db, k < size l ->
    exists2 u, input_at cu k = Some u & pm_jac (nth dm ms k) (nth ds l k) u dt = Ok (nth db bs k)
   & acts_blockwise ops l J bs].
Proof. exact: cpm_jac_blocks. Qed.

Theorem C10_covariance_block_diagonal (ms : seq (pmodel R T I L U DT)) (l : seq state) t i cu dt Q :
  l <> [::] -> cpm_cov ms (Comp l t i) cu dt = Ok Q ->
  (forall k dm (ds : state) u B, k < size l -> input_at cu k = Some u ->
     pm_cov (nth dm ms k) (nth ds l k) u dt = Ok B -> square (s_dof ops (nth ds l k)) B) ->
  exists bs, [/\ size bs = size l,
   forall k dm (ds : state) db, k < size l ->
    exists2 u, input_at cu k = Some u & pm_cov (nth dm ms k) (nth ds l k) u dt = Ok (nth db bs k),
   square (dof l) Q
   & forall k1 k2 (d : state) r1 r2 b, k1 < size l -> k2 < size l ->
      r1 < s_dof ops (nth d l k1) -> r2 < s_dof ops (nth d l k2) ->
      ent Q (start ops l k1 + r1) (start ops l k2 + r2) =
      if k1 == k2 then ent (nth b bs k1) r1 r2 else 0%R].
Proof. exact: cpm_cov_blocks. Qed.

(** C11 *)
Theorem C11_measurement_lift (Y : Type) (m : mmodel R T I L Y) (l : seq state) i x s Jx :
  get_state_by_id l i = Ok x -> get_slice_by_id ops l i = Ok s ->
  mm_jac m x = Ok Jx -> ncol Jx = s_dof ops x ->
  exists J, [/\ cmm_jac ops m i l = Ok J, nrow J = nrow Jx, ncol J = dof l,
     (forall v r, r < nrow Jx -> aapply J v r = aapply Jx (pslice s.1 s.2 v) r)
   & (forall r j, ~~ inslice s j -> ent J r j = 0%R)].
Proof. exact: cmm_jac_spec. Qed.

Theorem C11_evaluate_covariance (Y : Type) (m : mmodel R T I L Y) (l : seq state) i x :
  get_state_by_id l i = Ok x ->
  cmm_eval m i l = mm_eval m x /\ cmm_cov m i l = mm_cov m x.
Proof. by move=> E; rewrite /cmm_eval /cmm_cov E. Qed.
End Models.
End T.

(** C04, vector leaves: a perturbation shorter than dof is always refused. *)
Theorem C04_short_perturbation_raises (R : ringType) (T : Type) (I : eqType)
  (s : state T I (seq R)) dx :
  (size dx = s_dof (vec_ops R) s -> exists s', s_plus (vec_ops R) s dx = Ok s') /\
  ((size dx < s_dof (vec_ops R) s)%N -> s_plus (vec_ops R) s dx = Raise ValueError).
Proof. exact: vec_tree_plus. Qed.

(** C08: the documented behaviour is violated. *)
Theorem C08_plus_by_id_refuted :
  exists (l : seq (state nat [eqType of nat] (seq rat))) (dx : seq rat) (i : nat) l' s s' s2,
    [/\ plus_by_id (vec_ops [ringType of rat]) l (Some 0) 0 dx i None = Ok (Comp l' (Some 0) 0),
        get_state_by_id l i = Ok s, s_plus (vec_ops [ringType of rat]) s dx = Ok s',
        get_state_by_id l' i = Ok s2 & s2 <> s'].
Proof.
exists ex_list, [:: 1%R; 1%R], 10, ex_list, (ex_leaf 2 10).
exists (Leaf [:: 2%:R; 2%:R]%R (Some 0) 10), (ex_leaf 2 10).
split.
- by vm_compute.
- by vm_compute.
- by vm_compute.
- by vm_compute.
- by case=> /eqP.
Qed.

(** ** Non-vacuity *)
Notation vops := (vec_ops [ringType of rat]).

Example ex_C01 : get_slices vops ex_list = [:: (0, 2); (2, 6)] /\ s_dof vops ex_inner = 4.
Proof. by vm_compute. Qed.

Example ex_C02_hyp :
  size ex_dx = s_dof vops (Comp ex_list (Some 0) 0) /\
  tree_all vops (fun v d => exists v', [/\ l_plus vops v d = Ok v', l_dof vops v' = l_dof vops v
                                        & l_minus vops v' v = Ok d]) (Comp ex_list (Some 0) 0) ex_dx.
Proof.
split; first by vm_compute.
by do ?[exact: Logic.I | by [] | exact: (@vec_pm_law [ringType of rat]) | split].
Qed.

Example ex_C02_run :
  (x' <~ s_plus vops (Comp ex_list (Some 0) 0) ex_dx ;; s_minus vops x' (Comp ex_list (Some 0) 0))
  = Ok ex_dx.
Proof. by vm_compute. Qed.

Example ex_C03_hyp :
  tree_rel (fun v w => exists d, [/\ l_minus vops w v = Ok d, size d = l_dof vops v,
                          l_dof vops v = l_dof vops w & l_plus vops v d = Ok w])
    (Comp ex_list (Some 0) 0)
    (Comp [:: Leaf [:: 5%:R; 7%:R]%R None 1; Comp [:: Leaf [:: 4%:R]%R None 2; ex_leaf 3 3] None 4] None 9).
Proof. by do ?[exact: Logic.I | by [] | exact: (@vec_mp_law [ringType of rat]) | split]. Qed.

Example ex_C04_hyp : is_ok (c_plus vops ex_list (Some 0) 0 ex_dx (Some 5)).
Proof. by vm_compute. Qed.

Example ex_C05_hyp : get_slice_by_id vops ex_list 10 = Ok (0, 2) /\ get_slice_by_id vops ex_list 11 = Ok (2, 6).
Proof. by vm_compute. Qed.

Example ex_C06_hyp :
  let d := [:: (11, Arr 3 4 (fun i j => ((i + j)%:R : rat)%R)); (10, Arr 3 2 (fun i j => ((i * j)%:R : rat)%R))] in
  [/\ d <> [::], uniq (map fst d) &
  forall ib, List.In ib d -> exists s, [/\ get_slice_by_id vops ex_list ib.1 = Ok s,
      nrow ib.2 = 3 & ncol ib.2 = s.2 - s.1]].
Proof. by split=> // ib /= [<-|[<-|]] //; [exists (2, 6)|exists (0, 2)]; vm_compute. Qed.

Example ex_C07_hyp : forall k d, k < size ex_list ->
   exists2 B, s_pjac vops (nth d ex_list k) (sl vops ex_list k ex_dx) = Ok B
     & square (s_dof vops (nth d ex_list k)) B.
Proof. by case=> [|[|]] //= d _; eexists. Qed.

Definition ex_pm (c : rat) : pmodel [ringType of rat] nat [eqType of nat] (seq rat) rat rat :=
  PModel (fun s u dt => s_plus vops s (nseq (s_dof vops s) (u * dt)%R))
         (fun s u dt => Ok (Arr (s_dof vops s) (s_dof vops s) (fun i j => (c * (i == j)%:R)%R)))
         (fun s u dt => Ok (Arr (s_dof vops s) (s_dof vops s) (fun i j => (c * (i == j)%:R)%R))).

Example ex_C10_hyp :
  is_ok (cpm_eval [:: ex_pm 1%R; ex_pm 2%:R%R] (Comp ex_list (Some 0) 0)
           (PerState [:: 1%R; 3%:R%R]) 1%R) /\
  is_ok (cpm_jac [:: ex_pm 1%R; ex_pm 2%:R%R] (Comp ex_list (Some 0) 0) (Shared 1%R) 1%R).
Proof. by vm_compute. Qed.

Example ex_C10_shapes : forall k dm (ds : state nat [eqType of nat] (seq rat)) u B, k < size ex_list ->
  input_at (Shared (1%R : rat)) k = Some u ->
  pm_jac (nth dm [:: ex_pm 1%R; ex_pm 2%:R%R] k) (nth ds ex_list k) u 1%R = Ok B ->
  square (s_dof vops (nth ds ex_list k)) B.
Proof. by case=> [|[|]] //= dm ds u B _ _ [<-]. Qed.

Example ex_C11_hyp :
  let m := MModel (fun s => Ok (1%R : rat)) (fun s => Ok (Arr 1 (s_dof vops s) (fun _ _ => 1%R : rat)))
             (fun s => Ok (aident [ringType of rat] 1)) in
  is_ok (cmm_jac vops m 11 ex_list) /\ get_state_by_id ex_list 11 = Ok ex_inner.
Proof. by vm_compute. Qed.

Print Assumptions C01_slices_partition.
Print Assumptions C02_plus_then_minus.
Print Assumptions C02_empty_refuted.
Print Assumptions C03_minus_then_plus.
Print Assumptions C04_plus_slicewise.
Print Assumptions C04_plus_ignores_extra.
Print Assumptions C04_plus_noninterference.
Print Assumptions C04_short_perturbation_raises.
Print Assumptions C05_set_then_get.
Print Assumptions C05_get_then_set.
Print Assumptions C05_distinct_ids_disjoint.
Print Assumptions C06_jacobian_from_blocks.
Print Assumptions C06_unknown_id_raises.
Print Assumptions C07_plus_jacobian_block_diagonal.
Print Assumptions C07_minus_jacobian_block_diagonal.
Print Assumptions C07_any_depth.
Print Assumptions C08_plus_by_id_returns_unchanged.
Print Assumptions C08_plus_by_id_refuted.
Print Assumptions C09_lookup_first_match.
Print Assumptions C09_remove.
Print Assumptions C09_add.
Print Assumptions C09_set_state.
Print Assumptions C10_evaluate_decoupled.
Print Assumptions C10_jacobian_block_diagonal.
Print Assumptions C10_covariance_block_diagonal.
Print Assumptions C11_measurement_lift.
Print Assumptions C11_evaluate_covariance.

Example C08_new_stamp_witness : exists x', plus_by_id (vec_ops [ringType of rat]) ex_list (Some 0) 0 [:: 1%R; 1%R] 10 (Some 5) = Ok x'.
Proof. by eexists; vm_compute. Qed.
