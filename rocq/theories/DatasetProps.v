(** C91: the landmark positions of the simulated landmark dataset (navlie/lib/datasets.py). *)
From Coq Require Import Reals Lra.
From mathcomp Require Import all_ssreflect all_algebra.
From Verif Require Import Base RealStruct DatasetModel So3Props.
Set Implicit Arguments.
Unset Strict Implicit.
Unset Printing Implicit Defensive.
Import Order.Theory GRing.Theory Num.Theory.
Local Open Scope ring_scope.
Bind Scope ring_scope with Rdefinitions.R.
Local Notation R := Rdefinitions.R.

(** the angle of the j-th of m landmarks of a level, and the height of level l of n *)
Definition angle_at (m j : nat) : R := j%:R * (2%:R * PI) / m%:R.
Definition height_at (h : R) (n l : nat) : R := if n == 1%N then 0 else h * l%:R / n.-1%:R.

Lemma size_linspace a b n : size (linspace a b n) = n.
Proof. by rewrite size_map size_iota. Qed.
Lemma nth_linspace a b n i : (i < n)%N -> nth 0 (linspace a b n) i = if n == 1%N then a else a + i%:R * (b - a) / n.-1%:R.
Proof.
move=> il; rewrite (nth_map 0%N) ?size_iota // nth_iota // add0n.
case: n il => [|[|n]] //= il; rewrite !eqSS; case: ifP => [/eqP ->|_].
  by rewrite mulrAC mulfV ?pnatr_eq0 // mul1r addrC subrK.
by rewrite mulrA addrC.
Qed.

Lemma nth_flat (T : Type) (d : T) (m : nat) (f : nat -> nat -> T) n l j : (l < n)%N -> (j < m)%N ->
  nth d (flatten [seq [seq f l j | j <- iota 0 m] | l <- iota 0 n]) (l * m + j) = f l j.
Proof.
move=> ln jm; have gen k : (l < n)%N -> nth d (flatten [seq [seq f l j | j <- iota 0 m] | l <- iota k n]) (l * m + j) = f (k + l)%N j.
  elim: n l k {ln} => [//|n IH] [|l] k ln /=; rewrite nth_cat size_map size_iota.
    by rewrite mul0n add0n jm addn0 (nth_map 0%N) ?size_iota // nth_iota.
  by rewrite mulSn -addnA ltnNge leq_addr /= addKn IH // addSnnS.
by rewrite gen.
Qed.
Lemma size_flat (T : Type) (m : nat) (f : nat -> nat -> T) n : size (flatten [seq [seq f l j | j <- iota 0 m] | l <- iota 0 n]) = (n * m)%N.
Proof.
rewrite size_flatten /shape -map_comp; have -> : [seq (size \o (fun l => [seq f l j | j <- iota 0 m])) l | l <- iota 0 n] = nseq n m.
  apply: (@eq_from_nth _ 0%N); rewrite ?size_map ?size_iota ?size_nseq // => i il.
  by rewrite (nth_map 0%N) ?size_iota //= size_map size_iota nth_nseq il.
by elim: n => //= n ->.
Qed.

(** C91: n_levels * per_level landmarks, level by level; the j-th of level l at angle 2 pi j / per_level
    on the circle of the given radius, at height l * max_height / (n_levels - 1) *)
Theorem C91_landmarks r h n m l j : (l < n)%N -> (j < m)%N ->
  size (landmark_positions r h n m) = (n * m)%N /\
  nth 0 (landmark_positions r h n m) (l * m + j) = vec3 (r * cos (angle_at m j)) (r * sin (angle_at m j)) (height_at h n l).
Proof.
move=> ln jm; split; first exact: size_flat.
rewrite /landmark_positions nth_flat // size_linspace /=.
have tk : (j < size (take m (linspace 0 (2%:R * PI) m.+1)))%N by rewrite size_take size_linspace ltnSn.
rewrite !(nth_map 0) // nth_take // nth_linspace ?(ltn_trans jm) // nth_linspace //.
have m1 : (m.+1 == 1)%N = false by case: (m) jm.
rewrite m1 /= !add0r !subr0 /angle_at /height_at [h * _]mulrC.
by case: ifP.
Qed.
Theorem C91_count r h n m : size (landmark_positions r h n m) = (n * m)%N.
Proof. exact: size_flat. Qed.

Lemma vec3E a b c : [/\ vec3 a b c 0 0 = a, vec3 a b c 1 0 = b & vec3 a b c 2%:R 0 = c].
Proof. by rewrite /vec3 !mxE. Qed.

Lemma in_landmarks r h n m p : p \in landmark_positions r h n m -> exists l j, [/\ (l < n)%N, (j < m)%N &
  p = vec3 (r * cos (angle_at m j)) (r * sin (angle_at m j)) (height_at h n l)].
Proof.
move=> /(nthP 0) [i]; rewrite C91_count => il <-.
have m0 : (0 < m)%N by case: (m) il; rewrite ?muln0.
exists (i %/ m)%N, (i %% m)%N; have d1 : (i %/ m < n)%N by rewrite ltn_divLR.
have d2 : (i %% m < m)%N by rewrite ltn_mod.
by split=> //; rewrite {1}(divn_eq i m); case: (C91_landmarks r h d1 d2).
Qed.

Lemma cos_sin_sq (a : R) : cos a ^+ 2 + sin a ^+ 2 = 1.
Proof. by have := sin2_cos2 a; rewrite /Rsqr addrC !expr2. Qed.

(** every landmark lies on the cylinder, between the floor and the given height *)
Theorem C91_on_cylinder r h n m p : 0 <= h -> p \in landmark_positions r h n m ->
  (p 0 0) ^+ 2 + (p 1 0) ^+ 2 = r ^+ 2 /\ 0 <= p 2%:R 0 <= h.
Proof.
move=> h0 /in_landmarks [l [j [ln jm ->]]].
have [-> -> ->] := vec3E (r * cos (angle_at m j)) (r * sin (angle_at m j)) (height_at h n l).
split; first by rewrite !exprMn -mulrDr cos_sin_sq mulr1.
rewrite /height_at; case: ifP => [_|n1]; first by rewrite lexx.
case: n ln n1 => [|[|n]] //= ln _; rewrite divr_ge0 ?mulr_ge0 ?ler0n //=.
by rewrite ler_pdivr_mulr ?ltr0Sn // ler_wpmul2l // ler_nat -ltnS.
Qed.

Lemma angle_range m j : (j < m)%N -> 0 <= angle_at m j < 2%:R * PI.
Proof.
move=> jm; have m0 : (0 < m)%N by apply: leq_ltn_trans jm.
have p0 : (0 : R) < PI by apply/RltP; exact: PI_RGT_0.
have q0 : (0 : R) < 2%:R * PI by rewrite mulr_gt0 ?ltr0n.
have q1 : 0 <= j%:R * (2%:R * PI) :> R by apply: mulr_ge0; [exact: ler0n|exact: ltW].
rewrite /angle_at divr_ge0 ?ler0n //=.
by rewrite ltr_pdivr_mulr ?ltr0n // mulrC ltr_pmul2l // ltr_nat.
Qed.
(** the angle of a point of the circle is unique in [0, 2 pi) *)
Lemma circle_inj (a b : R) : 0 <= a < 2%:R * PI -> 0 <= b < 2%:R * PI -> cos a = cos b -> sin a = sin b -> a = b.
Proof.
wlog ab : a b / a <= b.
  move=> W ha hb e1 e2; case/orP: (le_total a b) => h; first exact: W.
  by symmetry; apply: W.
move=> /andP[a0 _] /andP[_ b2] e1 e2.
have c1 : cos (b - a) = 1.
  by rewrite [LHS]cos_minus e1 e2 -[RHS](cos_sin_sq b) !expr2.
move: ab; rewrite le_eqVlt => /orP[/eqP //|ab]; exfalso.
set d := (b - a) / 2%:R.
have d0 : 0 < d by rewrite divr_gt0 ?ltr0n // subr_gt0.
have dp : d < PI.
  rewrite ltr_pdivr_mulr ?ltr0n // mulrC ltr_subl_addr; apply: lt_le_trans b2 _.
  by rewrite ler_addl.
have s0 : Rlt R0 (sin d) by apply: sin_gt_0; [exact/RltP|exact/RltP].
have : cos (b - a) = 1 - 2%:R * sin d * sin d.
  have -> : b - a = Rmult 2 d by rewrite -[RHS]/((2 : R) * d) /d (_ : (2 : R) = 2%:R) // mulrC divfK // pnatr_eq0.
  by rewrite [LHS]cos_2a_sin.
rewrite c1 => /eqP; rewrite eq_sym subr_eq addrC -subr_eq subrr eq_sym -mulrA mulf_eq0 pnatr_eq0 /= mulf_eq0 orbb => /eqP h.
by move: s0; rewrite h; apply: Rlt_irrefl.
Qed.

(** all landmarks are different points, if the radius is not zero and there is one level or a
    height that is not zero *)
Theorem C91_distinct r h n m : r != 0 -> (n <= 1)%N || (h != 0) -> uniq (landmark_positions r h n m).
Proof.
move=> r0 hn; apply/(uniqP 0) => i i'; rewrite !inE C91_count => il il'.
have m0 : (0 < m)%N by case: (m) il; rewrite ?muln0.
have d1 : (i %/ m < n)%N by rewrite ltn_divLR.
have d1' : (i' %/ m < n)%N by rewrite ltn_divLR.
have d2 : (i %% m < m)%N by rewrite ltn_mod.
have d2' : (i' %% m < m)%N by rewrite ltn_mod.
rewrite {1}(divn_eq i m) {1}(divn_eq i' m); have [_ ->] := C91_landmarks r h d1 d2; have [_ ->] := C91_landmarks r h d1' d2'.
move=> {il il'} e; rewrite (divn_eq i m) (divn_eq i' m); move: d1 d1' d2 d2' e.
move: (i %/ m)%N (i' %/ m)%N (i %% m)%N (i' %% m)%N => l l' j j' ln ln' jm jm' e.
have [x1 y1 z1] := vec3E (r * cos (angle_at m j)) (r * sin (angle_at m j)) (height_at h n l).
have [x2 y2 z2] := vec3E (r * cos (angle_at m j')) (r * sin (angle_at m j')) (height_at h n l').
have ec : cos (angle_at m j) = cos (angle_at m j') by apply: (mulfI r0); rewrite -x1 -x2 e.
have es : sin (angle_at m j) = sin (angle_at m j') by apply: (mulfI r0); rewrite -y1 -y2 e.
have ej : j = j'.
  have := circle_inj (angle_range jm) (angle_range jm') ec es; rewrite /angle_at => /divIf.
  rewrite pnatr_eq0 -lt0n => /(_ m0) /mulIf; rewrite mulf_eq0 pnatr_eq0 /=.
  have -> : PI == 0 = false by apply/negbTE/eqP => h0; have := PI_RGT_0; rewrite h0; apply: Rlt_irrefl.
  by move=> /(_ isT)/eqP; rewrite eqr_nat => /eqP.
rewrite ej; congr (_ * _ + _)%N.
have {e x1 x2 y1 y2 z1 z2} : height_at h n l = height_at h n l' by rewrite -z1 -z2 e.
rewrite /height_at; case: n ln ln' hn => [|[|n]] //=; first by case: l; case: l'.
move=> ln ln' h0 /divIf; rewrite pnatr_eq0 /= => /(_ isT) /(mulfI h0) /eqP; by rewrite eqr_nat => /eqP.
Qed.

(** a 3 x 4 arrangement *)
Example C91_witness : let s := landmark_positions 5%:R 2%:R 3 4 in
  [/\ size s = 12%N, uniq s, nth 0 s 0 = vec3 5%:R 0 0 & nth 0 s 9 = vec3 0 5%:R 2%:R].
Proof.
split; first by rewrite C91_count.
- by apply: C91_distinct; rewrite ?pnatr_eq0.
- have [_ /= ->] := @C91_landmarks 5%:R 2%:R 3 4 0 0 isT isT.
  by rewrite /angle_at /height_at /= !mul0r cos_0 sin_0 mulr1 !mulr0 mul0r.
- have [_ /= ->] := @C91_landmarks 5%:R 2%:R 3 4 2 1 isT isT.
  have -> : angle_at 4 1 = Rdiv PI 2.
    rewrite /angle_at mul1r; have : (4%:R : R) = 2%:R * 2%:R by rewrite -natrM.
    move=> ->; rewrite invfM mulrA [2%:R * PI]mulrC mulfK ?pnatr_eq0 //.
    by rewrite RinvE' ?pnatr_eq0.
  by rewrite cos_PI2 sin_PI2 mulr0 mulr1 /height_at /= mulfK ?pnatr_eq0.
Qed.

Print Assumptions C91_distinct.
