(** C84: composite inputs. *)
From mathcomp Require Import all_ssreflect all_algebra.
From Verif Require Import Base CompositeModel CompositeProof CompositeInputModel.
Set Implicit Arguments.
Unset Strict Implicit.
Unset Printing Implicit Defensive.
Import GRing.Theory.

Section C84.
Variables (R : ringType) (T : Type) (I : eqType) (L : Type).
Variable ops : inops R L.
Notation input := (input T I L).

Lemma input_ind' (P : input -> Prop) : (forall v t i, P (ILeaf v t i)) ->
  (forall l i, (forall k d, k < size l -> P (nth d l k)) -> P (IComp l i)) -> forall u, P u.
Proof.
move=> hL hC; fix F 1; move=> u; destruct u as [v t i|l i]; [exact: hL|apply: hC].
revert l; fix G 1; move=> l; destruct l as [|x l]; first by (clear F G; move=> k d; rewrite ltn0).
move=> k d; destruct k as [|k]; first by move=> _; exact: (F x).
exact: (G l k d).
Qed.
(** the offset of input number k in the noise vector *)
Definition offset (l : seq input) (k : nat) : nat := sumn (take k (map (i_dof ops) l)).

(** C84: plus hands input number k exactly its slice of the noise vector *)
Theorem C84_plus_slicewise (l : seq input) i w u' : i_plus ops (IComp l i) w = Ok u' ->
  exists l', [/\ u' = IComp l' None, size l' = size l &
    forall k d, k < size l ->
      i_plus ops (nth d l k) (take (i_dof ops (nth d l k)) (drop (offset l k) w)) = Ok (nth d l' k)].
Proof.
rewrite /=; set go := (X in rmap _ (X l w)).
have H : forall l w l', go l w = Ok l' -> size l' = size l /\ forall k d, k < size l ->
    i_plus ops (nth d l k) (take (i_dof ops (nth d l k)) (drop (offset l k) w)) = Ok (nth d l' k).
  elim=> [|x r IH] {}w l'; first by case=> <-.
  rewrite [go _ _]/=; case h1: (i_plus _ x _) => [x'|//]; rewrite [bind _ _]/=; case h2: (go r _) => [r'|//] [<-]; have [s1 s2] := IH _ _ h2; split; first by rewrite /= s1.
  case=> [|k] d; first by move=> _; rewrite /offset take0 drop0.
  by move=> hk; rewrite -(s2 k d hk) /offset /= drop_drop [in RHS]addnC.
by case E: (go l w) => [l'|//] [<-]; have [h1 h2] := H _ _ _ E; exists l'.
Qed.

(** C84: a noise vector that is too long is not refused: what exceeds the total dof is silently ignored *)
Theorem C84_long_noise_ignored_refuted (l : seq input) i w : i_plus ops (IComp l i) w = i_plus ops (IComp l i) (take (i_dof ops (IComp l i)) w).
Proof.
rewrite /=; set go := (X in rmap _ (X l w)); congr rmap.
elim: l w => [//|x r IH] w; rewrite [LHS]/= [RHS]/= take_take ?leq_addr //; case: (i_plus _ x _) => [x'|//]; rewrite [LHS]/= [RHS]/=.
by rewrite (IH (drop _ w)) take_drop [(sumn _ + _)%N]addnC.
Qed.

(** C84: lookups find the first input with the id; ValueError if there is none *)
Lemma ids_ok (l : seq input) : (forall k d, k < size l -> is_ok (i_id (nth d l k))) ->
  exists2 ids, mapM (@i_id T I L) l = Ok ids & size ids = size l /\ forall k d d', k < size l -> i_id (nth d l k) = Ok (nth d' ids k).
Proof.
elim: l => [|x l IH] h; first by exists [::].
have [ids e [h1 h2]] : exists2 ids, mapM (@i_id T I L) l = Ok ids & size ids = size l /\ forall k d d', k < size l -> i_id (nth d l k) = Ok (nth d' ids k).
  by apply: IH => k d hk; exact: (h k.+1 d hk).
have := h 0 x isT; rewrite /=; case E: (i_id x) => [i|//] _; exists (i :: ids); first by rewrite e.
by split; [rewrite /= h1|case=> [|k] d d' //= hk; apply: h2].
Qed.
Theorem C84_lookup (l : seq input) i : (forall k d, k < size l -> is_ok (i_id (nth d l k))) ->
  match ci_get_by_id l i with
  | Ok u => exists k, [/\ k < size l, (forall d, nth d l k = u), i_id u = Ok i & forall m d, m < k -> i_id (nth d l m) <> Ok i]
  | Raise e => e = ValueError /\ forall k d, k < size l -> i_id (nth d l k) <> Ok i
  end.
Proof.
move=> h; have [ids e [h1 h2]] := ids_ok h; rewrite /ci_get_by_id /ci_index_by_id e /=.
case: ifP => [hi|/negbT hi] /=; last first.
  split=> // k d hk; rewrite (h2 k d i hk) => -[E]; move: hi; rewrite -E mem_nth // h1 //.
have hk : index i ids < size l by rewrite -h1 index_mem.
case: l h h1 h2 hk {e} => [//|x0 l0]; set l := x0 :: l0 => h h1 h2 hk.
rewrite (py_nthE x0) //; exists (index i ids); split=> //.
- by move=> d; apply: set_nth_default.
- by rewrite (h2 _ _ i hk) nth_index.
- move=> m d hm; rewrite (h2 _ _ i (ltn_trans hm hk)) => -[E].
  by have := before_find i (a := pred1 i) hm; rewrite /= E eqxx.
Qed.
(** C84: but a nested composite input that was not given a state_id makes every lookup raise, even for ids that are present *)
Theorem C84_nested_lookup_refuted (l1 l2 l : seq input) i : (forall k d, k < size l1 -> is_ok (i_id (nth d l1 k))) ->
  ci_get_by_id (l1 ++ IComp l None :: l2) i = Raise AttributeError.
Proof.
move=> h; rewrite /ci_get_by_id /ci_index_by_id; suff -> : mapM (@i_id T I L) (l1 ++ IComp l None :: l2) = Raise AttributeError by [].
elim: l1 h => [//|x l1 IH] h /=; have := h 0 x isT; rewrite /=; case: (i_id x) => [j|//] _ /=.
by rewrite IH // => k d hk; exact: (h k.+1 d hk).
Qed.
(** ... and copy (hence plus) forgets the ids that were given, at every depth *)
Theorem C84_copy_forgets_ids_refuted (l1 l2 l : seq input) j i i0 : (forall k d, k < size l1 -> exists v t i', nth d l1 k = ILeaf v t i') ->
  exists2 l', i_copy (IComp (l1 ++ IComp l (Some j) :: l2) i0) = IComp l' None & ci_get_by_id l' i = Raise AttributeError.
Proof.
move=> h; eexists; first by []. rewrite map_cat /=; apply: C84_nested_lookup_refuted => k d; rewrite size_map => hk.
have [v [t [i' E]]] := h k d hk; rewrite (nth_map d) // E //.
Qed.
(** C84: dof is the total of the inputs' dofs, and is what add and remove account for *)
Theorem C84_add_remove (l : seq input) u i : i_dof ops (IComp (ci_add l u) i) = i_dof ops (IComp l i) + i_dof ops u /\
  forall j, match ci_remove_by_id l j with
    | Ok l' => exists a v b, [/\ l = a ++ v :: b, l' = a ++ b, i_id v = Ok j & i_dof ops (IComp l i) = i_dof ops v + i_dof ops (IComp l' i)]
    | Raise e => ci_get_by_id l j = Raise e
    end.
Proof.
rewrite /ci_add /= map_rcons sumn_rcons; split=> // j; rewrite /ci_remove_by_id /ci_get_by_id.
case E: (ci_index_by_id l j) => [k|e] //=.
move: E; rewrite /ci_index_by_id; case e: (mapM _ l) => [ids|//] /=; case: ifP => // hj [<-].
have hids : size ids = size l /\ forall d d' m, m < size l -> i_id (nth d l m) = Ok (nth d' ids m).
  elim: l ids e {hj} => [|x l IH] ids /=; first by case=> <-.
  case Ex: (i_id x) => [y|//] /=; case Er: (mapM _ l) => [r|//] [<-]; have [h1 h2] := IH _ Er; split; first by rewrite /= h1.
  by move=> d d' [|m] //= hm; apply: h2.
case: hids => h1 h2; have hk : index j ids < size l by rewrite -h1 index_mem.
exists (take (index j ids) l), (nth u l (index j ids)), (drop (index j ids).+1 l); split=> //.
- by rewrite -drop_nth // cat_take_drop.
- by rewrite (h2 _ j) // nth_index.
- rewrite -{1}(cat_take_drop (index j ids) l) (drop_nth u hk) /pop !map_cat !sumn_cat /= addnCA //.
Qed.
(** C84: the stamp is that of the first input; an empty composite input has none *)
Theorem C84_stamp v t i l i0 : i_stamp (IComp (ILeaf v t i :: l) i0 : input) = Ok t /\ i_stamp (IComp [::] i0 : input) = Raise IndexError.
Proof. by []. Qed.
(** C84: set_stamp_for_all stamps every input if none is composite; otherwise it raises, having stamped those before the first composite *)
Theorem C84_set_stamp_for_all (l1 : seq input) t : (forall k d, k < size l1 -> exists v t' i, nth d l1 k = ILeaf v t' i) ->
  (exists l', [/\ ci_set_stamp_for_all l1 t = (l', None), size l' = size l1 & forall k d, k < size l1 -> i_set_stamp t (nth d l1 k) = Ok (nth d l' k) /\ i_stamp (nth d l' k) = Ok t]) /\
  forall l j l2, exists l', [/\ ci_set_stamp_for_all (l1 ++ IComp l j :: l2) t = (l' ++ IComp l j :: l2, Some AttributeError), size l' = size l1 &
     forall k d, k < size l1 -> i_stamp (nth d l' k) = Ok t].
Proof.
elim: l1 => [|x l1 IH] h; first by split; [exists [::]|move=> *; exists [::]].
have [|[l' [e1 e2 e3]] H] := IH; first by move=> k d hk; exact: (h k.+1 d hk).
have [v [t' [i E]]] := h 0 x isT; rewrite /= in E; subst x; split.
  exists (ILeaf v t i :: l'); split; [by rewrite /= e1|by rewrite /= e2|case=> [|k] d //= hk; exact: e3].
move=> l j l2; have [l'' [f1 f2 f3]] := H l j l2; exists (ILeaf v t i :: l''); split; [by rewrite /= f1|by rewrite /= f2|by case=> [|k] d //= hk; exact: f3].
Qed.
(** C84: dof and stamp by id are those of the input found; the exceptions are those of the lookup *)
Theorem C84_getters (l : seq input) i : match ci_get_by_id l i with
  | Ok u => ci_dof_by_id ops l i = Ok (i_dof ops u) /\ ci_stamp_by_id l i = i_stamp u
  | Raise e => ci_dof_by_id ops l i = Raise e /\ ci_stamp_by_id l i = Raise e
  end.
Proof. by rewrite /ci_dof_by_id /ci_stamp_by_id; case: (ci_get_by_id l i). Qed.
(** C84: setting an input's stamp by id changes the stamp of the one found, and nothing else; a nested composite input refuses *)
Theorem C84_set_stamp_by_id (l : seq input) t i : match ci_get_by_id l i with
  | Ok (ILeaf v t0 j) => exists2 k, ci_index_by_id l i = Ok k & exists l', [/\ ci_set_stamp_by_id l t i = Ok l', size l' = size l,
        (forall d, nth d l' k = ILeaf v t j) & forall d m, m <> k -> nth d l' m = nth d l m]
  | Ok (IComp _ _) => ci_set_stamp_by_id l t i = Raise AttributeError
  | Raise e => ci_set_stamp_by_id l t i = Raise e
  end.
Proof.
rewrite /ci_set_stamp_by_id /ci_get_by_id; case hk: (ci_index_by_id l i) => [k|e] //=.
case hn: (py_nth l k) => [u|e] //=; case: u hn => [v t0 j|l0 j0] hn //=; exists k => //.
have kl : k < size l by rewrite ltnNge; apply/negP => h; move: hn; rewrite py_nth_oob.
rewrite /py_set kl; eexists; split; first by [].
- by rewrite size_cat /= size_drop size_take kl addnS -addSn subnKC.
- by move=> d; rewrite nth_cat size_take kl ltnn subnn.
- move=> d m /eqP mk; rewrite nth_cat size_take kl; case: ltngtP mk => // mk _.
    by rewrite nth_take.
  by rewrite -(subnSK mk) /= nth_drop addnBA // addnC addnK.
Qed.
(** C84: setting an input by id replaces the one found and nothing else *)
Theorem C84_set_by_id (l : seq input) u i l' : ci_set_by_id l u i = Ok l' ->
  exists k, [/\ ci_index_by_id l i = Ok k, size l' = size l, (forall d, nth d l' k = u) & forall d m, m <> k -> nth d l' m = nth d l m].
Proof.
rewrite /ci_set_by_id; case hk: (ci_index_by_id l i) => [k|//]; rewrite /= /py_set; case: ifP => // kl [<-]; exists k; split=> //.
- by rewrite size_cat /= size_drop size_take kl addnS -addSn subnKC.
- by move=> d; rewrite nth_cat size_take kl ltnn subnn.
- move=> d m /eqP mk; rewrite nth_cat size_take kl; case: ltngtP mk => // mk _.
    by rewrite nth_take.
  by rewrite -(subnSK mk) /= nth_drop addnBA // addnC addnK.
Qed.
End C84.

(** *** vector inputs *)
Section Vector.
Variables (R : ringType) (T : Type) (I : eqType).
Notation input := (input T I (seq R)).
Notation ops := (vin_ops R).
Local Open Scope ring_scope.
(** the numbers held by an input, in order *)
Fixpoint ivals (u : input) : seq R := match u with ILeaf v _ _ => v | IComp l _ => flatten (map ivals l) end.
(** the stamps and ids of the vector inputs in it, in order *)
Fixpoint imetas (u : input) : seq (option T * I) := match u with ILeaf _ t i => [:: (t, i)] | IComp l _ => flatten (map imetas l) end.
Lemma ivals_size u : size (ivals u) = i_dof ops u.
Proof.
elim/input_ind': u => [//|l i IH] /=; elim: l IH => [//|x l IHl] IH /=.
by rewrite size_cat (IH 0%N x) // IHl // => k d hk; exact: (IH k.+1 d).
Qed.
(** C84: perturbing a composite of vector inputs, of any depth, with a noise vector of the right length adds it to the concatenated
    values; stamps and ids of the vector inputs are kept *)
Theorem C84_vector_plus (u : input) (w : seq R) : size w = i_dof ops u ->
  exists u', [/\ i_plus ops u w = Ok u', ivals u' = [seq p.1 + p.2 | p <- zip (ivals u) w] & imetas u' = imetas u].
Proof.
elim/input_ind': u w => [v t i|l i IH] w /=.
  by move=> hw; rewrite /vin_plus hw eqxx /=; eexists.
set go := (X in rmap _ (X l w)) => hw.
suff [l' [e1 e2 e3]] : exists l', [/\ go l w = Ok l', flatten (map ivals l') = [seq p.1 + p.2 | p <- zip (flatten (map ivals l)) w] &
    flatten (map imetas l') = flatten (map imetas l)].
  by exists (IComp l' None); rewrite e1.
elim: l w IH hw => [|x l IHl] w IH hw; first by exists [::]; rewrite /= /zip; case: w hw.
have hx : size (take (i_dof ops x) w) = i_dof ops x by rewrite size_take; move: hw; rewrite /= => ->; case: ltngtP => // h; rewrite ?leq_addr //; move: h; rewrite ltnNge leq_addr.
have hl : size (drop (i_dof ops x) w) = sumn (map (i_dof ops) l) by rewrite size_drop hw /= addKn.
have [x' [e1 e2 e3]] := IH 0%N x isT (take (i_dof ops x) w) hx.
have [r' [f1 f2 f3]] := IHl (drop (i_dof ops x) w) (fun k d hk => IH k.+1 d hk) hl.
exists (x' :: r'); rewrite /= e1 /= f1 /= e2 f2 e3 f3; split=> //.
by rewrite -map_cat -zip_cat ?cat_take_drop // ivals_size.
Qed.
(** C84: a noise vector that is too short is not always refused either: when one number is left for an input, it is silently added to
    every component of it; when the length is wrong otherwise, ValueError *)
Theorem C84_short_noise_broadcast_refuted (v1 v2 : seq R) t1 t2 (i1 i2 : I) i0 (w1 w2 : seq R) : size w1 = size v1 -> size w2 <> size v2 ->
  (size w2 < size v2)%N ->
  i_plus ops (IComp [:: ILeaf v1 t1 i1; ILeaf v2 t2 i2] i0 : input) (w1 ++ w2) =
  if w2 is [:: a] then Ok (IComp [:: ILeaf [seq p.1 + p.2 | p <- zip v1 w1] t1 i1; ILeaf [seq b + a | b <- v2] t2 i2] None)
  else Raise ValueError.
Proof.
move=> h1 h2 h3; rewrite /= -h1 take_size_cat // drop_size_cat // /vin_plus h1 eqxx /=.
rewrite (take_oversize (ltnW h3)); case: eqP => // _.
by case: w2 h2 h3 => [|a [|b w2]] h2 h3.
Qed.
End Vector.

(** concrete cases: a composite input of an IMU-like 2-vector and a nested composite *)
Section Witness.
Local Open Scope ring_scope.
Definition ex_u : input nat [eqType of nat] (seq int) :=
  IComp [:: ILeaf [:: 1; 2%:Z] (Some 5%N) 10%N; IComp [:: ILeaf [:: 3%:Z] None 11%N; ILeaf [:: 4%:Z; 5%:Z] (Some 6%N) 12%N] (Some 13%N)] None.
Example C84_ex_dof : i_dof (vin_ops _) ex_u = 5%N. Proof. by []. Qed.
Example C84_ex_plus : rmap (fun u => ivals u) (i_plus (vin_ops _) ex_u [:: 10; 20; 30; 40; 50]) = Ok [:: 11; 22%:Z; 33%:Z; 44%:Z; 55%:Z].
Proof. by []. Qed.
Example C84_ex_lookup : forall l i, ex_u = IComp l i -> (forall k d, (k < size l)%N -> is_ok (i_id (nth d l k))) /\
  ci_index_by_id l 13%N = Ok 1%N /\ ci_stamp_by_id l 13%N = Ok None /\ ci_dof_by_id (vin_ops _) l 13%N = Ok 3%N /\ ci_get_by_id l 11%N = Raise ValueError.
Proof. by move=> l i [<- _]; do !split=> //; case=> [|[|k]]. Qed.
(** after copy, the nested input's id is gone, and even the other inputs cannot be found *)
Example C84_ex_copy : forall l i, i_copy ex_u = IComp l i -> ci_get_by_id l 10%N = Raise AttributeError.
Proof. by move=> l i [<- _]. Qed.
Example C84_ex_short : rmap (fun u => ivals u) (i_plus (vin_ops _) ex_u [:: 10; 20; 30; 40]) = Ok [:: 11; 22%:Z; 33%:Z; 44%:Z; 45%:Z].
Proof. by []. Qed.
End Witness.
Print Assumptions C84_plus_slicewise.
Print Assumptions C84_vector_plus.
Print Assumptions C84_short_noise_broadcast_refuted.
Print Assumptions C84_set_stamp_for_all.
