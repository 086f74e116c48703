(** C56-C58: stamp association, sequential scheduling, nearest stamp. *)
From mathcomp Require Import all_ssreflect all_algebra.
From Verif Require Import Base UtilsModel.
Set Implicit Arguments.
Unset Strict Implicit.
Unset Printing Implicit Defensive.
Import Order.Theory GRing.Theory Num.Theory.
Local Open Scope ring_scope.

Section Assoc.
Variable R : realDomainType.
Notation le3 := (@le3 R).
Notation assoc_step := (@assoc_step R).

Lemma le2_refl : reflexive le2. Proof. by move=> x; rewrite /le2 eqxx leqnn orbT. Qed.
Lemma le2_total : total le2.
Proof. by move=> [a b] [c d]; rewrite /le2 /=; case: (ltngtP a c) => //= _; exact: leq_total. Qed.
Lemma le2_trans : transitive le2.
Proof.
move=> y x z /orP [lt1|/andP [/eqP e1 l1]] /orP [lt2|/andP [/eqP e2 l2]]; apply/orP.
- by left; exact: ltn_trans lt1 lt2.
- by left; rewrite -e2.
- by left; rewrite e1.
- by right; rewrite e1 e2 eqxx (leq_trans l1 l2).
Qed.
Lemma le3_refl : reflexive le3. Proof. by move=> x; rewrite /UtilsModel.le3 eqxx le2_refl orbT. Qed.
Lemma le3_total : total le3.
Proof. by move=> [a b] [c d]; rewrite /UtilsModel.le3 /=; case: (ltgtP a c) => //= _; exact: le2_total. Qed.
Lemma le3_trans : transitive le3.
Proof.
move=> y x z /orP [lt1|/andP [/eqP e1 l1]] /orP [lt2|/andP [/eqP e2 l2]]; apply/orP.
- by left; exact: lt_trans lt1 lt2.
- by left; rewrite -e2.
- by left; rewrite e1.
- by right; rewrite e1 e2 eqxx (le2_trans l1 l2).
Qed.

(** membership among the candidates *)
Lemma mem_enum_zip (T : eqType) (s : seq T) m i x0 x : ((i, x) \in zip (iota m (size s)) s) = (m <= i < m + size s)%N && (x == nth x0 s (i - m)).
Proof.
elim: s m => [|y s IH] m /=; first by rewrite in_nil addn0; case: ltngtP.
rewrite inE IH xpair_eqE; case: (ltngtP m i) => [lt|gt|<-] /=.
- by rewrite addSnnS -(subnSK lt).
- by [].
- by rewrite addnS ltnS leq_addr subnn /= orbF.
Qed.
Lemma mem_potential offset maxd (a b : seq R) d i j :
  reflect [/\ (i < size a)%N, (j < size b)%N, d = gap offset (nth 0 a i) (nth 0 b j) & d < maxd]
    ((d, (i, j)) \in potential_matches offset maxd a b).
Proof.
apply: (iffP idP).
  move/flatten_mapP=> [[i' x] /=]; rewrite (mem_enum_zip _ _ _ 0) add0n subn0 => /andP [li /eqP ->].
  rewrite mem_pmap => /mapP [[j' y] /=]; rewrite (mem_enum_zip _ _ _ 0) add0n subn0 => /andP [lj /eqP ->].
  by case: ifP => // lt [-> -> ->].
move=> [li lj -> lt]; apply/flatten_mapP; exists (i, nth 0 a i); first by rewrite (mem_enum_zip _ _ _ 0) add0n subn0 li eqxx.
rewrite mem_pmap; apply/mapP; exists (j, nth 0 b j); first by rewrite (mem_enum_zip _ _ _ 0) add0n subn0 lj eqxx.
by rewrite /= lt.
Qed.

(** the greedy loop *)
Lemma assoc_inv (cands : seq (R * (nat * nat))) na nb :
  (forall c, c \in cands -> (c.2.1 < na)%N && (c.2.2 < nb)%N) ->
  let st := foldl assoc_step ((iota 0 na, iota 0 nb), [::]) cands in
  let ms := st.2 in
  [/\ uniq st.1.1 /\ uniq st.1.2,
      (forall i, (i < na)%N -> (i \in st.1.1) = (i \notin map fst ms)) /\
      (forall j, (j < nb)%N -> (j \in st.1.2) = (j \notin map snd ms)),
      uniq (map fst ms) /\ uniq (map snd ms),
      (forall p, p \in ms -> p \in map snd cands) &
      (forall c, c \in cands -> exists c', [/\ c' \in cands, (index c' cands <= index c cands)%N, c'.2 \in ms &
           (c'.2.1 == c.2.1) || (c'.2.2 == c.2.2)])].
Proof.
elim/last_ind: cands => [|cs c IH] rng.
  by split=> //=; [rewrite !iota_uniq|split=> i li; rewrite mem_iota].
have rng' c' : c' \in cs -> (c'.2.1 < na)%N && (c'.2.2 < nb)%N by move=> h; apply: rng; rewrite mem_rcons inE h orbT.
move: {IH} (IH rng'); rewrite foldl_rcons; case: (foldl _ _ _) => [[fi se] ms] /=.
move=> [[u1 u2] [m1 m2] [v1 v2] sub blk].
have /andP [r1 r2] : (c.2.1 < na)%N && (c.2.2 < nb)%N by apply: rng; rewrite mem_rcons inE eqxx.
have old c1 : c1 \in cs -> index c1 (rcons cs c) = index c1 cs by move=> h; rewrite -cats1 index_cat h.
have blk' c1 : c1 \in cs -> exists c', [/\ c' \in rcons cs c, (index c' (rcons cs c) <= index c1 (rcons cs c))%N, c'.2 \in ms & (c'.2.1 == c1.2.1) || (c'.2.2 == c1.2.2)].
  move=> h; have [c' [h1 h2 h3 h4]] := blk _ h; exists c'; split=> //; first by rewrite mem_rcons inE h1 orbT.
  by rewrite !old.
case: ifP => [/andP [i1 i2]|cond] /=.
  split.
  - by rewrite !rem_uniq.
  - by split=> i li; rewrite mem_rem_uniq // inE map_rcons mem_rcons inE negb_or /= ?m1 ?m2.
  - by rewrite !map_rcons !rcons_uniq v1 v2 -m1 // -m2 // i1 i2.
  - by move=> p; rewrite mem_rcons inE map_rcons mem_rcons inE => /orP [->|/sub ->]; rewrite ?orbT.
  move=> c1; rewrite mem_rcons inE => /orP [/eqP ->|h].
    by exists c; rewrite !mem_rcons !inE !eqxx leqnn.
  by have [c' [h1 h2 h3 h4]] := blk' _ h; exists c'; rewrite h1 h2 h4 mem_rcons inE h3 orbT.
split=> //; first by move=> p /sub h; rewrite map_rcons mem_rcons inE h orbT.
move=> c1; rewrite mem_rcons inE => /orP [/eqP ->|]; last exact: blk'.
have [|nc] := boolP (c \in cs); first exact: blk'.
have ic : index c (rcons cs c) = size cs by rewrite -cats1 index_cat (negbTE nc) /= eqxx addn0.
have [p pin hp] : exists2 p, p \in ms & (p.1 == c.2.1) || (p.2 == c.2.2).
  move: cond; rewrite m1 // m2 // => /negbT; rewrite negb_and !negbK => /orP [/mapP [p pin ->]|/mapP [p pin ->]].
    by exists p; rewrite ?eqxx.
  by exists p; rewrite ?eqxx ?orbT.
have /mapP [c' h1 e] := sub _ pin; exists c'; rewrite -e pin hp mem_rcons inE h1 orbT ic old //.
by split=> //; rewrite ltnW // index_mem.
Qed.

(** *** C56 *)
Section C56.
Variables (a b : seq R) (offset maxd : R).
Let res := associate_stamps a b offset maxd.
(** |a_i - (b_j + offset)| *)
Let dist i j := `|nth 0 a i - (nth 0 b j + offset)|.

Let cands := sort le3 (potential_matches offset maxd a b).
Lemma cands_mem c : c \in cands -> [/\ (c.2.1 < size a)%N, (c.2.2 < size b)%N, c.1 = dist c.2.1 c.2.2 & c.1 < maxd].
Proof. by rewrite mem_sort; case: c => d [i j] /mem_potential [*]. Qed.
Lemma cands_rng c : c \in cands -> (c.2.1 < size a)%N && (c.2.2 < size b)%N.
Proof. by move=> /cands_mem [-> ->]. Qed.

Theorem C56_valid i j : (i, j) \in res -> [/\ (i < size a)%N, (j < size b)%N & dist i j < maxd].
Proof.
rewrite /res /associate_stamps mem_sort; have [_ _ _ sub _] := assoc_inv cands_rng => /sub /mapP [c /cands_mem].
by case: c => d [i' j'] /= [li lj -> lt] [-> ->].
Qed.
Theorem C56_one_to_one : uniq [seq p.1 | p <- res] /\ uniq [seq p.2 | p <- res].
Proof.
have [_ _ [u1 u2] _ _] := assoc_inv cands_rng; rewrite /res /associate_stamps.
have pm : perm_eq (sort le2 (foldl assoc_step (iota 0 (size a), iota 0 (size b), [::]) cands).2) (foldl assoc_step (iota 0 (size a), iota 0 (size b), [::]) cands).2 by rewrite perm_sort.
by rewrite !(perm_uniq (perm_map _ pm)).
Qed.
Theorem C56_sorted : sorted le2 res. Proof. exact: sort_sorted le2_total _. Qed.
(** nothing associable is left over, and a closer candidate always wins: a pair within
    the tolerance is returned, or one of its two indices is matched at least as closely *)
Theorem C56_maximal_and_greedy i j : (i < size a)%N -> (j < size b)%N -> dist i j < maxd ->
  exists i' j', [/\ (i', j') \in res, (i' == i) || (j' == j) & dist i' j' <= dist i j].
Proof.
move=> li lj lt; have cin : (dist i j, (i, j)) \in cands by rewrite mem_sort; apply/mem_potential.
have [_ _ _ _ blk] := assoc_inv cands_rng; have [[d [i' j']] [h1 h2 h3 h4]] := blk _ cin.
exists i', j'; split=> //; first by rewrite /res /associate_stamps mem_sort.
have le : le3 (d, (i', j')) (dist i j, (i, j)).
  apply: (sorted_leq_index le3_trans le3_refl (sort_sorted le3_total _)) h1 cin h2.
have [_ _ /= <- _] := cands_mem h1.
by move: le => /orP [/ltW|/andP [/eqP /= -> _]].
Qed.
End C56.
End Assoc.

(** The docstring's "of length of the smallest of first_stamps and second_stamps" is
    false: distant stamps are not matched, and even when a complete matching within the
    tolerance exists (0 with -4, 5 with 1) the greedy choice can miss it. *)
Theorem C56_length_refuted :
  associate_stamps [:: 0] [:: 10%:Z] 0 1 = [::] /\
  associate_stamps [:: 0; 5%:Z] [:: - 4%:Z; 1] 0 5%:Z = [:: (0, 1)%N].
Proof. by vm_compute. Qed.
Example C56_example : associate_stamps [:: 1; 7%:Z; 20%:Z] [:: 8%:Z; 0; 30%:Z] 0 5%:Z = [:: (0, 1); (1, 0)]%N.
Proof. by vm_compute. Qed.

Section Field.
Variable R : realFieldType.

(** *** C57 *)
(** k-th measurement time of model i, for the offsets and per-model frequency returned *)
Definition meas_time (offsets : seq R) (f : R) (i k : nat) : R := nth 0 offsets i + k%:R / f.
Theorem C57_schedule n (freq : R) : (0 < n)%N -> 0 < freq ->
  exists offsets f, [/\ schedule_sequential n freq = Ok (offsets, f), size offsets = n &
    (forall i k, (i < n)%N -> meas_time offsets f i k = (i + k * n)%:R / freq) /\
    (* models never collide, nor does a model with itself *)
    (forall i j k l, (i < n)%N -> (j < n)%N -> meas_time offsets f i k = meas_time offsets f j l -> i = j /\ k = l) /\
    (* together they measure at every multiple of 1/freq, and only there *)
    (forall m, exists i k, (i < n)%N /\ meas_time offsets f i k = m%:R / freq) /\
    (forall i k, (i < n)%N -> exists m, meas_time offsets f i k = m%:R / freq)].
Proof.
move=> n0 f0; rewrite /schedule_sequential gt_eqF // eqn0Ngt n0 /=.
eexists _, _; split; [reflexivity|by rewrite size_map size_iota|].
set offs := [seq _ | i <- _].
have tE i k : (i < n)%N -> meas_time offs (freq / n%:R) i k = (i + k * n)%:R / freq.
  move=> li; rewrite /meas_time (nth_map 0%N) ?size_iota // nth_iota // add0n div1r.
  by rewrite natrD natrM mulrDl invfM invrK; congr (_ + _); rewrite -mulrA [freq^-1 * _]mulrC mulrA.
split=> //; split.
  move=> i j k l li lj; rewrite !tE // => /(mulIf (invr_neq0 (lt0r_neq0 f0))) /eqP; rewrite eqr_nat => /eqP e.
  have := congr1 (modn^~ n) e; rewrite /= ![(_ + _ * n)%N]addnC !modnMDl !modn_small // => eij; split=> //.
  by move: e; rewrite eij => /addnI /eqP; rewrite eqn_pmul2r // => /eqP.
split.
  move=> m; exists (m %% n)%N, (m %/ n)%N; rewrite ltn_pmod //; split=> //.
  by rewrite tE ?ltn_pmod // addnC -divn_eq.
by move=> i k li; exists (i + k * n)%N; exact: tE.
Qed.
Theorem C57_degenerate n (freq : R) : freq = 0 \/ n = 0%N -> schedule_sequential n freq = Raise ZeroDivisionError.
Proof. by rewrite /schedule_sequential => -[->|->]; rewrite ?eqxx //; case: ifP. Qed.

(** *** C58 *)
Lemma half_lt (a b q : R) : a / 2%:R + b / 2%:R < q = (a + b < q + q).
Proof. by rewrite -mulrDl ltr_pdivr_mulr ?ltr0n // mulr_natr mulr2n. Qed.
Lemma half_le (a b q : R) : q <= a / 2%:R + b / 2%:R = (q + q <= a + b).
Proof. by rewrite -mulrDl ler_pdivl_mulr ?ltr0n // mulr_natr mulr2n. Qed.
Lemma below (a c b q : R) : a <= c -> c <= b -> c / 2%:R + b / 2%:R < q -> `|b - q| <= `|a - q| ?= iff (a == b).
Proof.
rewrite half_lt => ac cb lt; have ab := le_trans ac cb.
have aq : a < q.
  rewrite -(ltr_pmuln2r (_ : 0 < 2)%N) // !mulr2n; apply: le_lt_trans lt; exact: ler_add.
have -> : `|a - q| = q - a by rewrite ler0_norm ?opprB // subr_le0 ltW.
have s1 : b - q < q - a.
  by rewrite ltr_subl_addr addrAC ltr_subr_addr; apply: le_lt_trans lt; rewrite addrC ler_add2r.
split; first by rewrite ler_norml opprB ler_add2r ab /= ltW.
have [<-|ne] := altP (a =P b); first by rewrite ler0_norm ?opprB ?eqxx // subr_le0 ltW.
apply/negP => /eqP e; have lab : a < b by rewrite lt_neqAle ne.
have : `|b - q| < q - a by rewrite ltr_norml s1 andbT opprB ltr_add2r.
by rewrite e ltxx.
Qed.
Lemma above (a c b q : R) : a <= c -> c <= b -> q <= a / 2%:R + c / 2%:R -> `|a - q| <= `|b - q|.
Proof.
rewrite half_le => ac cb le; have ab := le_trans ac cb.
have qc : q <= c.
  rewrite -(ler_pmuln2r (_ : 0 < 2)%N) // !mulr2n; apply: le_trans le _; exact: ler_add.
have -> : `|b - q| = b - q by rewrite ger0_norm // subr_ge0 (le_trans qc).
rewrite ler_norml opprB; apply/andP; split; last by rewrite ler_add2r.
rewrite ler_subl_addr addrAC ler_subr_addr; apply: le_trans le _; by rewrite ler_add2l.
Qed.

Lemma count_sorted (s : seq R) q j : sorted <=%R s -> (j < size s)%N -> (nth 0 s j < q) = (j < count (fun m => m < q)%R s)%N.
Proof.
elim: s j => [|x s IH] // j so.
have so' : sorted <=%R s by exact: path_sorted so.
have all_ge : all (fun y => x <= y) s by apply: order_path_min so; exact: le_trans.
have [lt|ge] := ltP x q.
  by case: j => [|j] lj; rewrite /= lt // add1n ltnS IH.
have -> : count (fun m => m < q) (x :: s) = 0%N.
  apply/eqP; rewrite -leqn0 leqNgt -has_count; apply/hasPn => y; rewrite inE => /orP [/eqP ->|yin]; first by rewrite -leNgt.
  by rewrite -leNgt (le_trans ge) //; exact: (allP all_ge).
move=> lj; apply/negbTE; rewrite -leNgt; case: j lj => [|j] lj //=.
by rewrite (le_trans ge) //; apply: (allP all_ge); rewrite mem_nth.
Qed.
Lemma nth_mid (xs : seq R) j : (j.+1 < size xs)%N -> nth 0 (midpoints xs) j = nth 0 xs j / 2%:R + nth 0 xs j.+1 / 2%:R.
Proof.
move=> lj; have l0 : (j < minn (size xs) (size xs).-1)%N.
  by rewrite leq_min (ltnW lj); case: (size xs) lj.
by rewrite /midpoints (nth_map (0, 0)) ?size_zip ?size_behead // nth_zip_cond size_zip size_behead l0 /= nth_behead.
Qed.
Lemma size_mid (xs : seq R) : size (midpoints xs) = (size xs).-1.
Proof. by rewrite size_map size_zip size_behead; apply/minn_idPr; exact: leq_pred. Qed.
Lemma sorted_mid (xs : seq R) : sorted <=%R xs -> sorted <=%R (midpoints xs).
Proof.
move=> so; apply/(sortedP 0) => j; rewrite size_mid => lj.
have lj2 : (j.+2 < size xs)%N by case: (size xs) lj.
have nx := sorted_leq_nth le_trans le_refl 0 so.
rewrite !nth_mid ?(ltnW lj2) //; apply: ler_add; rewrite ler_pmul2r ?invr_gt0 ?ltr0n //.
  by apply: nx; rewrite ?inE //; [rewrite ltnW // ltnW|rewrite ltnW].
by apply: nx; rewrite ?inE // ltnW.
Qed.

(** position chosen in the sorted stamps *)
Lemma nearest_pos (xs : seq R) q : sorted <=%R xs -> (0 < size xs)%N ->
  let k := count (fun m => m < q) (midpoints xs) in
  (k < size xs)%N /\ forall j, (j < size xs)%N -> `|nth 0 xs k - q| <= `|nth 0 xs j - q| /\
    (`|nth 0 xs k - q| = `|nth 0 xs j - q| -> nth 0 xs k <= nth 0 xs j).
Proof.
move=> so n0 k; have nx := sorted_leq_nth le_trans le_refl 0 so.
have lk : (k < size xs)%N by rewrite -(prednK n0) ltnS -size_mid count_size.
split=> // j lj; have [jk|kj|->] := ltngtP j k; last by rewrite lexx.
  have k0 : (0 < k)%N by apply: leq_ltn_trans jk.
  have lt : nth 0 (midpoints xs) k.-1 < q.
    by rewrite count_sorted ?sorted_mid // ?prednK // size_mid -ltnS !prednK.
  rewrite nth_mid prednK // in lt.
  have [] := @below (nth 0 xs j) (nth 0 xs k.-1) (nth 0 xs k) q _ _ lt.
  - by apply: nx; rewrite ?inE //; [rewrite (leq_ltn_trans (leq_pred _))|rewrite -ltnS prednK].
  - by apply: nx; rewrite ?inE ?leq_pred //; rewrite (leq_ltn_trans (leq_pred _)).
  by move=> h1 h2; split=> // e; move: h2; rewrite e eqxx => /esym /eqP ->.
have lk1 : (k.+1 < size xs)%N by exact: leq_ltn_trans kj lj.
split; last by move=> _; apply: nx; rewrite ?inE // ltnW.
apply: (@above _ (nth 0 xs k.+1)).
- by apply: nx; rewrite ?inE.
- by apply: nx; rewrite ?inE.
rewrite -nth_mid // leNgt count_sorted ?ltnn ?sorted_mid //.
by rewrite size_mid -ltnS prednK.
Qed.

(** the nearest stamp; among equally near ones, the earliest *)
Theorem C58_nearest (stamps : seq R) q : stamps <> [::] ->
  exists i, [/\ find_nearest_stamp_idx stamps (QFloat q) = Ok (AIndex i), (i < size stamps)%N &
    forall j, (j < size stamps)%N -> `|nth 0 stamps i - q| <= `|nth 0 stamps j - q| /\
      (`|nth 0 stamps i - q| = `|nth 0 stamps j - q| -> nth 0 stamps i <= nth 0 stamps j)].
Proof.
move=> ne; rewrite /find_nearest_stamp_idx /nearest.
set z := zip _ _; set s := sort _ _; set k := count _ _.
have zmem p : (p \in z) = (p.2 < size stamps)%N && (p.1 == nth 0 stamps p.2).
  case: p => x i; have := @mem_enum_zip _ stamps 0 i 0 x; rewrite add0n subn0 /= => <-.
  by rewrite /z; elim: stamps (0%N) {ne z s k} => [|y st IH] m //=; rewrite !inE IH !xpair_eqE andbC.
have szs : size s = size stamps by rewrite size_sort size_zip size_iota minnn.
have n0 : (0 < size stamps)%N by rewrite lt0n size_eq0; apply/eqP.
have so : sorted <=%R [seq p.1 | p <- s].
  rewrite sorted_map; apply: sort_sorted => a b; exact: le_total.
have [|lk h] := @nearest_pos [seq p.1 | p <- s] q so; first by rewrite size_map szs.
rewrite -/k size_map in lk h.
pose p0 : R * nat := (0, 0%N).
have nm j : (j < size s)%N -> nth 0 [seq p.1 | p <- s] j = nth 0 stamps (nth p0 s j).2 /\ ((nth p0 s j).2 < size stamps)%N.
  move=> lj; rewrite (nth_map p0) //; have : nth p0 s j \in z by rewrite -(mem_sort (@by_stamp R)) mem_nth.
  by rewrite zmem => /andP [-> /eqP ->].
have [ek lik] := nm k lk; exists (nth p0 s k).2; split=> //; first by case: (stamps) ne.
move=> j lj; have jin : (nth 0 stamps j, j) \in s by rewrite mem_sort zmem lj eqxx.
pose pj : R * nat := (nth 0 stamps j, j).
have lx : (index pj s < size s)%N by rewrite index_mem.
have := h _ lx; have [ex _] := nm _ lx; rewrite ek ex nth_index //=.
Qed.
(** on increasing stamps: the least index among the nearest *)
Theorem C58_lowest_index (stamps : seq R) q i : sorted <%R stamps ->
  find_nearest_stamp_idx stamps (QFloat q) = Ok (AIndex i) ->
  forall j, (j < i)%N -> `|nth 0 stamps i - q| < `|nth 0 stamps j - q|.
Proof.
move=> so e; have ne : stamps <> [::] by move=> z; move: e; rewrite z.
have [i' [e' li h]] := C58_nearest q ne; move: e; rewrite e' => -[<-] j ji.
have lj := ltn_trans ji li; have [h1 h2] := h j lj; rewrite lt_neqAle h1 andbT; apply/negP => /eqP /h2.
by rewrite leNgt (sorted_ltn_nth lt_trans 0 so) ?inE.
Qed.
Theorem C58_list_queries (stamps : seq R) qs : stamps <> [::] -> exists is_, find_nearest_stamp_idx stamps (QList qs) = Ok (AList is_) /\
  size is_ = size qs /\ forall j, (j < size qs)%N -> find_nearest_stamp_idx stamps (QFloat (nth 0 qs j)) = Ok (AIndex (nth 0%N is_ j)).
Proof.
move=> ne; have one q : exists i, nearest stamps q = Ok i.
  have [i [e _ _]] := C58_nearest q ne; move: e; rewrite /find_nearest_stamp_idx; case: (nearest _ _) => //= k _; by exists k.
have [is_ [e1 e2 e3]] : exists is_, [/\ mapM (nearest stamps) qs = Ok is_, size is_ = size qs & forall j, (j < size qs)%N -> nearest stamps (nth 0 qs j) = Ok (nth 0%N is_ j)].
  elim: qs => [|q qs [r [e1 e2 e3]]]; first by exists [::].
  have [i ei] := one q; exists (i :: r); rewrite /= ei /= e1 /= e2; split=> //; by case.
exists is_; split; first by rewrite /find_nearest_stamp_idx e1; case: (stamps) ne.
by split=> // j lj; rewrite /find_nearest_stamp_idx e3.
Qed.
Theorem C58_empty q : find_nearest_stamp_idx ([::] : seq R) q = Raise ValueError.
Proof. by case: q. Qed.
(** a single query that is a number but not a Python float gets a list, not an index *)
Theorem C58_int_query_refuted (stamps : seq R) q i : find_nearest_stamp_idx stamps (QFloat q) = Ok (AIndex i) ->
  find_nearest_stamp_idx stamps (QNumber q) = Ok (AList [:: i]).
Proof. by rewrite /find_nearest_stamp_idx; case: (nearest _ _) => //= k [->]. Qed.
End Field.
Example C58_example : find_nearest_stamp_idx [:: 3%:Q; 1; 2%:Q] (QFloat (9%:Q / 4%:Q)) = Ok (AIndex 2).
Proof. by vm_compute. Qed.

Print Assumptions C56_valid.
Print Assumptions C56_one_to_one.
Print Assumptions C56_sorted.
Print Assumptions C56_maximal_and_greedy.
Print Assumptions C56_length_refuted.
Print Assumptions C57_schedule.
Print Assumptions C57_degenerate.
Print Assumptions C58_nearest.
Print Assumptions C58_lowest_index.
Print Assumptions C58_list_queries.
Print Assumptions C58_empty.
Print Assumptions C58_int_query_refuted.
