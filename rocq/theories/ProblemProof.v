(** Lemmas about the solver model: dictionaries, slices, stacking. *)
From mathcomp Require Import all_ssreflect all_algebra.
From Verif Require Import Base Tac LinAlg CompositeProof SigmaProps MixtureProps ProblemModel.
Set Implicit Arguments.
Unset Strict Implicit.
Unset Printing Implicit Defensive.
Import Order.Theory GRing.Theory Num.Theory.
Local Open Scope ring_scope.

Section DictProof.
Variables (K : eqType) (T : Type).
Implicit Type d : seq (K * T).

Lemma dget_dset d k v k' : dget (dset d k v) k' = if k == k' then Some v else dget d k'.
Proof.
elim: d => [|[a b] d IH] /=; first by case: eqP.
case: (a =P k) => [->|ne] /=; first by case: eqP.
by rewrite IH; case: (a =P k') => // <-; case: eqP => // e; case: ne.
Qed.


Lemma dget_isSome d k : isSome (dget d k) = (k \in unzip1 d).
Proof. by elim: d => //= -[a b] d IH; rewrite inE eq_sym; case: eqP. Qed.

Lemma unzip1_dset d k v : unzip1 (dset d k v) = if k \in unzip1 d then unzip1 d else rcons (unzip1 d) k.
Proof.
elim: d => //= -[a b] d IH; rewrite inE eq_sym; case: eqP => //= ne.
by rewrite IH; case: ifP.
Qed.

Lemma uniq_dset d k v : uniq (unzip1 d) -> uniq (unzip1 (dset d k v)).
Proof. by move=> u; rewrite unzip1_dset; case: ifP => // /negbT ni; rewrite rcons_uniq ni. Qed.

Lemma dget_map T' (f : K * T -> T') d k :
  dget [seq (kv.1, f kv) | kv <- d] k = omap (fun v => f (k, v)) (dget d k).
Proof. by elim: d => //= -[a b] d IH /=; case: eqP => [->|]. Qed.
End DictProof.

Section Slices.
Variables (R : rcfType) (K : eqType) (V : Type) (dof : V -> nat).
Variable consts : seq K.
Implicit Types (vars : seq (K * V)) (sl : seq (K * (nat * nat))).
Notation vslices := (variable_slices dof consts).

Definition free vars := [seq kv <- vars | kv.1 \notin consts].
Definition offset vars i := sumn (take i (map (fun kv => dof kv.2) (free vars))).

Lemma mem_free vars k : (k \in unzip1 (free vars)) = (k \in unzip1 vars) && (k \notin consts).
Proof.
elim: vars => //= -[k' v] vars IH; case h : (k' \in consts) => /=; rewrite !inE IH.
  by case: (k =P k') => // ->; rewrite h andbF.
by case: (k =P k') => // ->; rewrite h.
Qed.

Lemma vslices_size vars sl idx : (vslices vars sl idx).2 = (idx + sumn (map (fun kv => dof kv.2) (free vars)))%N.
Proof.
elim: vars sl idx => [|[k v] vars IH] sl idx /=; first by rewrite addn0.
by case: ifP => /= h; rewrite IH //= addnA.
Qed.

Lemma vslices_other vars sl idx k : k \notin unzip1 (free vars) -> dget (vslices vars sl idx).1 k = dget sl k.
Proof.
elim: vars sl idx => [|[k' v] vars IH] sl idx //=.
case h : (k' \in consts) => /= ni; first by rewrite IH.
move: ni; rewrite inE negb_or => /andP [ne ni]; rewrite IH // dget_dset.
by rewrite eq_sym (negbTE ne).
Qed.

Lemma free_uniq vars : uniq (unzip1 vars) -> uniq (unzip1 (free vars)).
Proof.
move=> u; apply: subseq_uniq u; rewrite /free; elim: vars => //= -[k v] vars IH.
by case: ifP => _ /=; [rewrite eqxx|exact: subseq_trans IH (subseq_cons _ _)].
Qed.

Lemma vslices_nth vars sl idx i kv0 : uniq (unzip1 vars) -> (i < size (free vars))%N ->
  let kv := nth kv0 (free vars) i in
  dget (vslices vars sl idx).1 kv.1 = Some ((idx + offset vars i)%N, (idx + offset vars i + dof kv.2)%N).
Proof.
rewrite /offset.
elim: vars sl idx i => [|[k v] vars IH] sl idx i //= /andP [ni u].
case h : (k \in consts) => /=; first by move=> lt; exact: IH.
case: i => [|i] /= lt.
  rewrite vslices_other ?dget_dset ?eqxx ?addn0 //.
  by apply: contra ni; rewrite mem_free => /andP [].
by rewrite IH // !addnA.
Qed.

Lemma vslices_free vars sl idx k : k \in unzip1 (free vars) -> isSome (dget (vslices vars sl idx).1 k).
Proof.
elim: vars sl idx => [|[k' v] vars IH] sl idx //=; case h : (k' \in consts) => /=; first exact: IH.
rewrite inE; have [inn _|ni] := boolP (k \in unzip1 (free vars)); first exact: IH.
by rewrite orbF => /eqP e; rewrite vslices_other // dget_dset -e eqxx.
Qed.
End Slices.

Section Stack.
Variables (R : rcfType) (K : eqType) (V : Type).
Variable dof : V -> nat.
Implicit Types (r : residual R K V) (l : loss R) (vars : seq (K * V)).
Variables (consts : seq K) (slices : seq (K * (nat * nat))) (vars : seq (K * V)).

(** the states a residual is evaluated at *)
Definition rvs r : seq V := if mapM (dindex vars) (r_keys r) is Ok vs then vs else [::].
Definition rnorm r : R := vnorm (r_dim r) (r_err r (rvs r)).
Definition rweight r l : R := Num.sqrt (l_weight l (rnorm r)).
Definition rcost r l : R := l_loss l (rnorm r).

(** does column j belong to the free variable of key k ? *)
Definition hits (k : K) (j : nat) : bool :=
  (k \notin consts) && (if dget slices k is Some s then in_range s j else false).
Definition first_col (k : K) : nat := if dget slices k is Some s then s.1 else 0.
(** entry (a, j) of the rows of a residual in the stacked Jacobian *)
Definition hentry r l (a j : nat) : R :=
  \sum_(jk <- zip (iota 0 (size (r_keys r))) (r_keys r))
     if hits jk.2 j then rweight r l * r_jac r (rvs r) jk.1 a (j - first_col jk.2)%N else 0.

Definition disjoint_cols (ks : seq K) : Prop :=
  forall k k' j, k \in ks -> k' \in ks -> hits k j -> hits k' j -> k = k'.
Definition has_slices (ks : seq K) : Prop :=
  forall k, k \in ks -> k \notin consts -> isSome (dget slices k).

Lemma place_jacobians rs (w : R) (jac : nat -> nat -> nat -> R) (H : nat -> nat -> R) (jks : seq (nat * K)) :
  uniq (unzip2 jks) -> disjoint_cols (unzip2 jks) -> has_slices (unzip2 jks) ->
  exists2 H', foldM (place_jacobian slices consts rs w jac) H jks = Ok H' &
   forall i j, H' i j = if in_range rs i && has (fun jk => hits jk.2 j) jks
     then \sum_(jk <- jks) (if hits jk.2 j then w * jac jk.1 (i - rs.1)%N (j - first_col jk.2)%N else 0)
     else H i j.
Proof.
elim: jks H => [|[q k] jks IH] H /=; first by exists H => // i j; rewrite andbF.
move=> /andP [nik u] dj hs.
have dj' : disjoint_cols (unzip2 jks) by move=> a b j ai bi; apply: dj; rewrite inE ?ai ?bi orbT.
have hs' : has_slices (unzip2 jks) by move=> a ai; apply: hs; rewrite inE ai orbT.
have nohit j : hits k j -> has (fun jk => hits jk.2 j) jks = false.
  move=> hk; apply/negbTE/hasP => -[[q' k'] kin hk'].
  have e : k = k' by apply: dj hk hk'; rewrite !inE ?eqxx // (map_f snd kin) orbT.
  by move: nik; rewrite e (map_f snd kin).
have zero j : has (fun jk => hits jk.2 j) jks = false -> forall i,
   \sum_(jk <- jks) (if hits jk.2 j then w * jac jk.1 (i - rs.1)%N (j - first_col jk.2)%N else 0) = 0.
  by move=> /hasPn h i; rewrite big1_seq // => jk /andP [_ /h]; case: ifP.
case c : (k \in consts).
  have -> : place_jacobian slices consts rs w jac H (q, k) = Ok H by rewrite /place_jacobian /= c.
  have [H' /= -> h] := IH H u dj' hs'; exists H' => // i j.
  by rewrite h /hits c /= big_cons /hits c /= add0r.
have := hs k; rewrite inE eqxx c => /(_ isT isT).
case g : (dget slices k) => [cs|] // _.
have -> : place_jacobian slices consts rs w jac H (q, k) = Ok (fun i j => if in_range rs i && in_range cs j then w * jac q (i - rs.1)%N (j - cs.1)%N else H i j).
  by rewrite /place_jacobian /= c /dindex g.
have [H' /= -> h] := IH (fun i j => if in_range rs i && in_range cs j then w * jac q (i - rs.1)%N (j - cs.1)%N else H i j) u dj' hs'.
exists H' => // i j; rewrite h big_cons /=.
have hk : hits k j = in_range cs j by rewrite /hits c g.
rewrite hk /first_col g /=; case ir : (in_range rs i) => //=.
case ic : (in_range cs j) => //=; last by rewrite add0r.
by rewrite nohit ?hk // zero ?nohit ?hk // addr0.
Qed.

(** a residual is well-formed w.r.t. the problem *)
Definition known r : Prop :=
  [/\ uniq (r_keys r), {subset r_keys r <= unzip1 vars}, disjoint_cols (r_keys r) & has_slices (r_keys r)].

Lemma mapM_dindex (ks : seq K) : {subset ks <= unzip1 vars} -> exists2 vs, mapM (dindex vars) ks = Ok vs & size vs = size ks.
Proof.
elim: ks => [|k ks IH] sub /=; first by exists [::].
have : isSome (dget vars k) by rewrite dget_isSome sub // inE eqxx.
rewrite /dindex; case: (dget vars k) => // v _ /=.
have [|vs -> sz] := IH; first by move=> a ai; apply: sub; rewrite inE ai orbT.
by exists (v :: vs) => //=; rewrite sz.
Qed.

Lemma unzip2_zip_iota (s : seq K) : unzip2 (zip (iota 0 (size s)) s) = s.
Proof. by rewrite unzip2_zip // size_iota. Qed.

Lemma place_residual_ok acc r l rs : known r ->
  exists H', place_residual vars slices consts acc (r, l, rs) =
    Ok (fun i => if in_range rs i then rweight r l * r_err r (rvs r) (i - rs.1)%N else acc.1.1 i, H', rcons acc.2 (rcost r l)) /\
   forall i j, H' i j = if in_range rs i && has (hits^~ j) (r_keys r) then hentry r l (i - rs.1)%N j else acc.1.2 i j.
Proof.
case=> u sub dj hs; rewrite /place_residual /=.
have [vs e sz] := mapM_dindex sub.
have rvsE : rvs r = vs by rewrite /rvs e.
have [||| H' eH h] := @place_jacobians rs (rweight r l) (r_jac r vs) acc.1.2 (zip (iota 0 (size (r_keys r))) (r_keys r));
  rewrite ?unzip2_zip_iota //.
exists H'; rewrite e /= -/(vnorm _ _).
have w1 : rweight r l = Num.sqrt (l_weight l (vnorm (r_dim r) (r_err r vs))) by rewrite /rweight /rnorm rvsE.
rewrite -w1 eH /= rvsE /rcost /rnorm rvsE; split=> // i j.
rewrite h /hentry rvsE.
have -> // : has (fun jk => hits jk.2 j) (zip (iota 0 (size (r_keys r))) (r_keys r)) = has (hits^~ j) (r_keys r).
by rewrite -[in RHS](unzip2_zip_iota (r_keys r)) has_map.
Qed.

Fixpoint rranges (rs : seq (residual R K V)) (idx : nat) : seq (nat * nat) :=
  if rs is r :: rest then (idx, (idx + r_dim r)%N) :: rranges rest (idx + r_dim r)%N else [::].
Definition total_dim (rs : seq (residual R K V)) := sumn (map (@r_dim R K V) rs).
Definition row_of (rs : seq (residual R K V)) (q : nat) := total_dim (take q rs).

Lemma residual_slicesE rs idx x : residual_slices vars rs idx = Ok x -> x = (rranges rs idx, (idx + total_dim rs)%N).
Proof.
rewrite /total_dim; elim: rs idx x => [|r rs IH] idx x /=; first by case=> <-; rewrite addn0.
case: (mapM _ _) => //= _; case e : (residual_slices _ _ _) => [y|] //= [<-].
by rewrite (IH _ _ e) /= addnA.
Qed.
Lemma residual_slices_ok rs idx : (forall q r0, (q < size rs)%N -> known (nth r0 rs q)) ->
  residual_slices vars rs idx = Ok (rranges rs idx, (idx + total_dim rs)%N).
Proof.
rewrite /total_dim; elim: rs idx => [|r rs IH] idx h /=; first by rewrite addn0.
have [_ sub _ _] := h 0%N r isT; have [vs -> _] := mapM_dindex sub.
by rewrite /= IH ?addnA // => q r0 lt; exact: (h q.+1 r0).
Qed.

Lemma place_all rs ls idx acc : size ls = size rs -> (forall q r0, (q < size rs)%N -> known (nth r0 rs q)) ->
  (forall i j, (idx <= i)%N -> acc.1.2 i j = 0) ->
  exists e H, [/\ foldM (place_residual vars slices consts) acc (zip (zip rs ls) (rranges rs idx)) =
       Ok (e, H, acc.2 ++ [seq rcost rl.1 rl.2 | rl <- zip rs ls]),
     (forall i, (i < idx)%N -> e i = acc.1.1 i /\ forall j, H i j = acc.1.2 i j) &
     forall q r0 l0 a, (q < size rs)%N -> (a < r_dim (nth r0 rs q))%N ->
       let i := (idx + row_of rs q + a)%N in
       e i = rweight (nth r0 rs q) (nth l0 ls q) * r_err (nth r0 rs q) (rvs (nth r0 rs q)) a /\
       forall j, H i j = hentry (nth r0 rs q) (nth l0 ls q) a j].
Proof.
elim: rs ls idx acc => [|r rs IH] [|l ls] idx acc //= sz kn z.
  by exists acc.1.1, acc.1.2; case: acc z => -[a b] c z /=; rewrite cats0.
have [H1 [-> h1]] := place_residual_ok acc l (idx, (idx + r_dim r)%N) (kn 0%N r isT).
have no_hit j a : has (hits^~ j) (r_keys r) = false -> hentry r l a j = 0.
  move=> /hasPn h; rewrite /hentry big1_seq // => jk /andP [_ jin].
  case: ifP => // hj; have /h : jk.2 \in r_keys r by rewrite -(unzip2_zip_iota (r_keys r)) map_f.
  by rewrite hj.
have h1z i j : (idx + r_dim r <= i)%N -> H1 i j = 0.
  move=> le; rewrite h1 /in_range /= [(i < _)%N]ltnNge le andbF /= z //.
  exact: leq_trans (leq_addr _ _) le.
case: sz => sz.
set e1 := (fun i => if in_range _ i then _ else _).
have [e [H [eq lo hi]]] := IH ls (idx + r_dim r)%N (e1, H1, rcons acc.2 (rcost r l)) sz
   (fun q r0 lt => kn q.+1 r0 lt) h1z.
exists e, H; split.
- by cbn [bind]; rewrite eq cat_rcons.
- move=> i lt; have [|-> hH] := lo i; first exact: leq_trans lt (leq_addr _ _).
  rewrite /= /e1 /in_range /= leqNgt lt /=; split=> // j.
  by rewrite hH /= h1 /in_range /= leqNgt lt.
case=> [|q] r0 l0 a ltq lta /=.
  have -> : (idx + row_of (r :: rs) 0 + a = idx + a)%N by rewrite /row_of take0 addn0.
  have lt' : (idx + a < idx + r_dim r)%N by rewrite ltn_add2l.
  have [-> hH] := lo _ lt'.
  have ir : in_range (idx, (idx + r_dim r)%N) (idx + a) by rewrite /in_range /= lt' leq_addr.
  rewrite /= /e1 ir /= [(idx + a)%N]addnC addnK; split=> // j.
  rewrite addnC hH /= h1 ir /= [(idx + a)%N]addnC addnK.
  by case hj : (has _ _) => //; rewrite no_hit // z // leq_addl.
have -> : (idx + row_of (r :: rs) q.+1 + a = idx + r_dim r + row_of rs q + a)%N.
  by rewrite /row_of /total_dim /= !addnA.
exact: hi.
Qed.

(** compute_error_jac_cost on a well-formed problem *)
Lemma compute_ok rs ls m n : size ls = size rs -> (forall q r0, (q < size rs)%N -> known (nth r0 rs q)) ->
  exists e H, [/\ compute_error_jac_cost rs ls consts slices (rranges rs 0) m n vars =
      Ok (e, H, \sum_(rl <- zip rs ls) rcost rl.1 rl.2) &
    forall q r0 l0 a (i : 'I_m), (q < size rs)%N -> (a < r_dim (nth r0 rs q))%N -> i = (row_of rs q + a)%N :> nat ->
       e i 0 = rweight (nth r0 rs q) (nth l0 ls q) * r_err (nth r0 rs q) (rvs (nth r0 rs q)) a /\
       forall j : 'I_n, H i j = hentry (nth r0 rs q) (nth l0 ls q) a j].
Proof.
move=> sz kn.
have [//|e [H [eq _ hi]]] := @place_all rs ls 0%N (fun _ => 0, fun _ _ => 0, [::]) sz kn.
exists (\col_i e i), (\matrix_(i, j) H i j); split.
  by rewrite /compute_error_jac_cost eq /= big_map.
move=> q r0 l0 a i ltq lta ei; have [e1 e2] := hi q r0 l0 a ltq lta.
by rewrite mxE ei e1; split=> // j; rewrite mxE ei e2.
Qed.

(** every row belongs to exactly one residual *)
Lemma row_split rs (i : nat) (r0 : residual R K V) : (i < total_dim rs)%N ->
  exists q a, [/\ (q < size rs)%N, (a < r_dim (nth r0 rs q))%N & i = (row_of rs q + a)%N].
Proof.
rewrite /row_of /total_dim; elim: rs i => [|r rs IH] i //= lt.
have [l|l] := ltnP i (r_dim r); first by exists 0%N, i; split; rewrite ?add0n.
have [|q [a [lq la e]]] := IH (i - r_dim r)%N; first by rewrite ltn_subLR.
by exists q.+1, a; split=> //=; rewrite -addnA -e subnKC.
Qed.
End Stack.
