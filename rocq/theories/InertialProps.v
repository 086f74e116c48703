(** C92: the simulated inertial datasets (navlie/lib/datasets.py). *)
From Coq Require Import Reals.
From mathcomp Require Import all_ssreflect all_algebra.
From Verif Require Import Base Tac RealStruct Deriv RunFilterModel CompositeProof DatagenModel DatagenProof DatagenProps AlignProps.
From Verif Require Import PreintModel ModelsModel ImuModel So3Model ImuProps So3Props DatasetModel DatasetProps.
Set Implicit Arguments.
Unset Strict Implicit.
Unset Printing Implicit Defensive.
Import Order.Theory GRing.Theory Num.Theory.
Local Open Scope ring_scope.
Bind Scope ring_scope with Rdefinitions.R.
Local Notation R := Rdefinitions.R.
Local Notation RF := [realFieldType of R].
Local Notation RA := [archiFieldType of R].

(** Standard gravity, 9.80665 m/s^2, pulls along the negative third axis of the world frame. *)
Definition g0_digits : seq nat := [:: 9; 8; 0; 6; 6; 5]%N.
Definition down : 'cV[R]_3 := \col_(i < 3) if (i == 2 :> nat)%N then - \sum_(k < 6) (nth 0%N g0_digits k)%:R / 10%:R ^+ k else 0.
Lemma gravity_down : gravity = down.
Proof.
apply/matrixP => i j; rewrite !mxE; case: i => [[|[|[|//]]] ?] //=.
rewrite !big_ord_recl big_ord0 /bump /= expr0 divr1 expr1 mul0r add0r addr0 !addrA.
by [].
Qed.

Local Opaque gravity gyro_profile accel_profile vec3 so3Exp so3Jl N_matrix.
Section Inertial.
Variable tol : R.
Hypothesis tol0 : 0 < tol.

Lemma profile_copy walk t x : imu_copy (input_profile walk t x) = Ok (input_profile walk t x).
Proof. by []. Qed.
Lemma profile_gyro walk t x : gyro_of x.1 (input_profile walk t x) = gyro_profile.
Proof. by rewrite /gyro_of /= addrK. Qed.
Lemma profile_accel walk t x : accel_of x.1 (input_profile walk t x) = (ie3_C (is_pose x.1))^T *m (accel_profile t - gravity).
Proof. by rewrite /accel_of /= mulmxBr addrAC addrK. Qed.

Lemma eval_still (x : imu_state RF) (u : imu RF) : imu_eval tol gravity x u 0 = x.
Proof.
have G1 : G_matrix gravity 0 = 1%:M by rewrite /G_matrix expr2 !mul0r oppr0 !scale0r ie31.
rewrite /imu_eval /imu_evaluate G1 mul1mx /U_matrix expr2 !mul0r !scale0r so3Exp0 ie31 mulmx1 !addr0.
by case: x.
Qed.
Lemma kin_still walk t (x : xstate) : evolve xs_stamp xs_restamp (kin_step tol) x (input_profile walk t x) 0 = Ok x.
Proof.
by rewrite /evolve /kin_step profile_copy /= eval_still /xs_restamp /xs_stamp /= addr0; case: x.
Qed.
Lemma stamp_ok x t : xs_stamp (xs_restamp x t) = t. Proof. by []. Qed.

Lemma copies_stamp (wu : nat -> 'cV[R]_3 * 'cV[R]_3 * 'cV[R]_3 * 'cV[R]_3) walk (noise : bool) k t x :
  im_stamp ((if noise then add_noise wu else fun _ u => u) k (input_profile walk t x)) = t.
Proof. by case: noise => //; rewrite /add_noise; case: (wu k) => [[[w1 w2] w3] w4]. Qed.

Lemma init_sensors (s : seq sensor) (fm : R) : exists after, datagen_init (0 : R) s (FScalar fm) (FNone R) = Ok ([seq (a, fm, 0 : R) | a <- s], after).
Proof.
case: s => [|a s]; first by exists None.
have z3 : forall l : seq sensor, zip3 l (nseq (size l) fm) (nseq (size l) (0 : R)) = [seq (b, fm, 0 : R) | b <- l].
  by rewrite /zip3; elim=> //= b l IH; congr cons.
by exists None; rewrite /datagen_init /= -/(zip3 _ _ _); congr (Ok (_, _)); exact: (z3 (a :: s)).
Qed.

(** what the constructor returns, in terms of DataGenerator.generate *)
Lemma dataset_run rnd walk wu wy sensors noise x0 fi fm t0 t1 xs us ms :
  inertial_dataset tol rnd walk wu wy sensors noise x0 fi fm t0 t1 = Ok (xs, us, ms) ->
  exists us0, us = (if noise then map zero_walk us0 else us0) /\
  inertial_generate tol rnd walk wu wy noise [seq (a, fm, 0) | a <- sensors] x0 fi t0 t1 = Ok (xs, us0, ms).
Proof.
rewrite /inertial_dataset; have [af ->] := init_sensors sensors fm; rewrite [bind (Ok _) _]/=.
move=> H; have [[[xs' us'] ms'] E H2] := bind_ok H; case: H2 => <- <- <-; exists us'; split; first by [].
exact: E.
Qed.

Section Run.
Variables (rnd : R -> R) (walk : R -> 'cV[R]_3 * 'cV[R]_3).
Variables (wu : nat -> 'cV[R]_3 * 'cV[R]_3 * 'cV[R]_3 * 'cV[R]_3) (wy : nat -> 'cV[R]_3 -> 'cV[R]_3).
Variables (sensors : seq sensor) (noise : bool) (x0 : xstate) (fi fm t0 t1 : R).
Variables (xs : seq xstate) (us : seq (imu RF)) (ms : seq (meas RA 'cV[R]_3 sensor)).
Hypothesis rndP : @rounding RA rnd.
Hypothesis start : rnd t0 = t0.
Hypotheses (fi0 : 0 < fi) (fm0 : 0 < fm).
(** the measurement frequency divides the input frequency *)
Hypothesis divides : exists n : nat, fi = n%:R * fm.
Hypothesis run : inertial_dataset tol rnd walk wu wy sensors noise x0 fi fm t0 t1 = Ok (xs, us, ms).
(** an attitude that is a rotation *)
Hypothesis rot0 : in_SE23 (is_pose x0.1).
(** no step inside pymlg's small-angle band *)
Hypothesis band : forall k d, (k.+1 < size xs)%N -> no_band tol gyro_profile ((nth d xs k.+1).2 - (nth d xs k).2).

Lemma aligned_ok : @on_input_times RA _ fi [seq (a, fm, 0) | a <- sensors].
Proof.
move=> e /List.in_map_iff [a [<- _]] /=; have [n fE] := divides; split; last by exists 0%N; rewrite mul0r.
have n0 : n%:R != 0 :> R by apply/eqP => h; move: fi0; rewrite fE h mul0r ltxx.
by exists n; rewrite fE invfM mulrA mulfV // mul1r.
Qed.
Lemma proper_ok : @proper_schedule RA _ [seq (a, fm, 0) | a <- sensors].
Proof. by move=> e /List.in_map_iff [a [<- _]] /=; split. Qed.

(** one step of the truth: from x, the pose follows the IMU equations with the body rate and the
    specific force of x held; the acceleration at the start of the step is the prescribed one *)
Definition true_step (x x' : xstate) : Prop :=
  let dt := x'.2 - x.2 in
  exists C v r, [/\ imu_ode down gyro_profile ((C 0)^T *m (accel_profile x.2 - down)) C v r,
    is_pose x.1 = ie3 (C 0) (v 0) (r 0) 0 /\ is_pose x'.1 = ie3 (C dt) (v dt) (r dt) 0,
    is_mderiv v (accel_profile x.2), forall t, rot (C t) &
    is_bg x'.1 = is_bg x.1 + dt *: (walk x.2).1 /\ is_ba x'.1 = is_ba x.1 + dt *: (walk x.2).2].

Lemma one_step x x' : in_SE23 (is_pose x.1) -> no_band tol gyro_profile (x'.2 - x.2) ->
  evolve xs_stamp xs_restamp (kin_step tol) x (input_profile walk x.2 x) (x'.2 - x.2) = Ok x' -> true_step x x'.
Proof.
rewrite /true_step -gravity_down; case=> [C0 [v0 [r0 [rC hx]]]] nb; rewrite /evolve /kin_step profile_copy; set u := input_profile _ _ _; move=> [E].
have E1 : imu_eval tol gravity x.1 u (x'.2 - x.2) = x'.1 := congr1 fst E; move/esym: E1 => E1.
have eC : ie3_C (is_pose x.1) = C0 by rewrite hx /ie3_C /ie3 block_mxKul.
have gE : gyro_of x.1 u = gyro_profile by exact: profile_gyro.
have aE : accel_of x.1 u = C0^T *m (accel_profile x.2 - gravity) by rewrite profile_accel eC.
have [C [v [r [H [e1 e2 e3] hr _]]]] := C81_solution_exists gravity gyro_profile (accel_of x.1 u) C0 v0 r0.
exists C, v, r; split.
- rewrite e1 -aE; exact: H.
- have hx' : is_pose x.1 = ie3 (C 0) (v 0) (r 0) 0 by rewrite e1 e2 e3; exact: hx.
  split; first exact: hx'.
  rewrite E1; apply: (C81_exact_solution tol0 hx'); rewrite gE; [exact: H|exact: nb].
- have [_ h _] := H 0; rewrite e1 aE mulmxA rC.1 mul1mx subrK in h.
  by apply: eq_mderiv h => h'; rewrite add0r.
- exact: hr.
- by rewrite E1.
Qed.

(** C92: the truth.  One state per input time from the given initial state; the attitudes are
    rotations, and each step solves the IMU equations exactly *)
Theorem C92_truth :
  [/\ map snd xs = map rnd (@arange RA t0 t1 fi^-1), (forall d, nth d xs 0 = (x0.1, t0)),
      (forall k d, (k < size xs)%N -> in_SE23 (is_pose (nth d xs k).1)) &
      forall k d, (k.+1 < size xs)%N -> true_step (nth d xs k) (nth d xs k.+1)].
Proof.
have [us0 [_ G]] := dataset_run run.
have [h1 h2 h3] := C53_aligned_states stamp_ok rndP (kin_still walk) aligned_ok proper_ok fi0 start G.
have pr k d : (k < size xs)%N -> in_SE23 (is_pose (nth d xs k).1).
  elim: k => [|k IH] kl; first by rewrite h2.
  have [C [v [r [_ [_ ->] _ rC _]]]] := one_step (IH (ltnW kl)) (band d kl) (h3 k d kl).
  by exists (C ((nth d xs k.+1).2 - (nth d xs k).2)), (v ((nth d xs k.+1).2 - (nth d xs k).2)), (r ((nth d xs k.+1).2 - (nth d xs k).2)).
split=> // k d kl; apply: one_step (pr _ _ (ltnW kl)) (band d kl) (h3 k d kl).
Qed.

(** the k-th input is the profile at the k-th true state; with noise it is corrupted and its bias
    random walk is set to zero *)
Theorem C92_inputs : size xs = (size us).+1 /\ forall k d ud, (k < size us)%N ->
  let x := nth d xs k in let u := nth ud us k in let C := ie3_C (is_pose x.1) in
  let gyro := gyro_profile + is_bg x.1 in let accel := C^T *m (accel_profile x.2 - down) + is_ba x.1 in
  im_stamp u = x.2 /\
  if noise then [/\ im_gyro u = gyro + (wu k).1.1.1, im_accel u = accel + (wu k).1.1.2, im_gwalk u = Some 0 & im_awalk u = Some 0]
  else [/\ im_gyro u = gyro, im_accel u = accel, im_gwalk u = Some (walk x.2).1 & im_awalk u = Some (walk x.2).2].
Proof.
rewrite -gravity_down; have [us0 [-> G]] := dataset_run run.
have [sz h] := C53_aligned_inputs stamp_ok rndP (kin_still walk) aligned_ok proper_ok fi0 (copies_stamp wu walk noise) start G.
have acE (x : xstate) : (ie3_C (is_pose x.1))^T *m (accel_profile x.2 - gravity) + is_ba x.1 =
    (ie3_C (is_pose x.1))^T *m accel_profile x.2 + is_ba x.1 - (ie3_C (is_pose x.1))^T *m gravity.
  by rewrite mulmxBr addrAC.
case nz: noise h {G} sz => h sz; last by split=> // k d ud kl /=; rewrite (h k d ud kl) acE.
split; first by rewrite size_map.
move=> k d ud; rewrite size_map => kl /=; rewrite (nth_map ud) // (h k d ud kl) acE /add_noise.
by case: (wu k) => [[[w1 w2] w3] w4].
Qed.

(** without noise, dead reckoning of the returned inputs from the initial state reproduces the
    truth exactly, biases included *)
Theorem C92_dead_reckoning : noise = false -> forall k d ud, (k.+1 < size xs)%N ->
  let x := nth d xs k in let x' := nth d xs k.+1 in imu_eval tol gravity x.1 (nth ud us k) (x'.2 - x.2) = x'.1.
Proof.
move=> nz k d ud kl /=; have [us0 [uE G]] := dataset_run run; rewrite nz in uE.
have [_ _ h3] := C53_aligned_states stamp_ok rndP (kin_still walk) aligned_ok proper_ok fi0 start G.
have [sz h] := C53_aligned_inputs stamp_ok rndP (kin_still walk) aligned_ok proper_ok fi0 (copies_stamp wu walk noise) start G.
have kl' : (k < size us0)%N by rewrite -ltnS -sz.
rewrite uE (h k d ud kl') nz; have := h3 k d kl; rewrite /evolve /kin_step profile_copy => -[E].
exact: (congr1 fst E).
Qed.

(** every measurement before the last truth time is taken at the true state with its stamp: the
    position, or the landmark in the body frame *)
Theorem C92_measurements i m0 d : (i < size ms)%N -> let m := nth m0 ms i in me_stamp m < last d (map snd xs) ->
  exists q C v r, [/\ (q < size xs)%N, (nth x0 xs q).2 = me_stamp m, is_pose (nth x0 xs q).1 = ie3 C v r 0 &
    let y := if me_model m is Landmark l _ then C^T *m (l - r) else r in
    me_val m = Some (if noise then wy i y else y)].
Proof.
move=> il /= lt; have [us0 [_ G]] := dataset_run run.
have [q [y [ql qs qy qv]]] := C54_aligned_values stamp_ok rndP (kin_still walk) aligned_ok proper_ok fi0 start G il lt.
have [_ _ pr _] := C92_truth; have [C [v [r [_ px]]]] := pr q x0 ql.
exists q, C, v, r; split=> //; rewrite qv.
have -> : y = (if me_model (nth m0 ms i) is Landmark l _ then C^T *m (l - r) else r); last by case: (noise).
move: qy; rewrite /sense /view /= px; case: (me_model _) => [|l n] /=; rewrite /ie3 ?block_mxKul block_mxKur row_mxKr.
  by move=> [<-].
by move=> [<-].
Qed.
End Run.

(** C92: the constructor succeeds for every non-empty interval *)
Theorem C92_total rnd walk wu wy sensors noise x0 fi fm t0 t1 : @rounding RA rnd -> 0 < fi -> 0 < fm -> t0 < t1 ->
  is_ok (inertial_dataset tol rnd walk wu wy sensors noise x0 fi fm t0 t1).
Proof.
move=> rP i0 m0 ss; rewrite /inertial_dataset; have [af ->] := init_sensors sensors fm; rewrite [bind (Ok _) _]/=.
suff : is_ok (inertial_generate tol rnd walk wu wy noise [seq (a, fm, 0) | a <- sensors] x0 fi t0 t1).
  by case: (inertial_generate _ _ _ _ _ _ _ _ _ _ _) => // -[[]].
apply: C54_total => //; last by move=> e x _; case: (e.1.1).
by move=> e /List.in_map_iff [a [<- _]]; split.
Qed.

(** C92: the landmark dataset measures exactly the landmarks it returns, the i-th one under id i *)
Theorem C92_landmark_ids rnd walk wu wy r h n m noise x0 fi fm t0 t1 xs us ms lms :
  landmark_dataset tol rnd walk wu wy r h n m noise x0 fi fm t0 t1 = Ok (xs, us, ms, lms) ->
  lms = landmark_positions r h n m /\
  inertial_dataset tol rnd walk wu wy (landmark_sensors lms) noise x0 fi fm t0 t1 = Ok (xs, us, ms) /\
  forall i d, (i < n * m)%N -> nth d (landmark_sensors lms) i = Landmark (nth 0 lms i) i.
Proof.
rewrite /landmark_dataset; case E: (inertial_dataset _ _ _ _ _ _ _ _ _ _ _) => [o|] //= [oE <-]; subst o.
split=> //; split=> // i d il; rewrite /landmark_sensors.
set ll := landmark_positions r h n m; have sz : size ll = (n * m)%N by exact: C91_count.
rewrite (nth_map (0%N, 0 : 'cV[R]_3)); last by rewrite size_zip size_iota minnn sz.
by rewrite nth_zip ?size_iota //; congr Landmark; rewrite /= nth_iota ?sz.
Qed.
End Inertial.

(** two steps of the IMU model differ from one step over the total time as soon as the
    accelerometer bias walks: here without rotation.  So the truth depends on the measurement
    schedule when measurements do not fall on input times. *)
Theorem C92_split_step_refuted (x : imu_state RF) (u : imu RF) (s t : R) w C v r tol : is_pose x = ie3 C v r 0 -> rot C ->
  im_gyro u = is_bg x -> im_gwalk u = Some 0 -> im_awalk u = Some w -> w != 0 -> s != 0 -> t != 0 ->
  let two := imu_eval tol gravity (imu_eval tol gravity x u s) u t in
  let one := imu_eval tol gravity x u (s + t) in
  ie3_a (is_pose one) - ie3_a (is_pose two) = (s * t) *: (C *m w) /\ two <> one.
Proof.
move=> hx rC gE gw aw w0 s0 t0 two one.
have step y dt C' v' r' : is_pose y = ie3 C' v' r' 0 -> is_bg y = is_bg x ->
    exists r2, is_pose (imu_eval tol gravity y u dt) = ie3 C' (C' *m (dt *: (im_accel u - is_ba y)) + (v' + dt *: gravity)) r2 0.
  move=> hy hb; rewrite /imu_eval /imu_evaluate /is_pose -/(is_pose y) hy gE hb subrr /G_matrix /U_matrix !scaler0 so3Exp0 so3Jl0.
  by rewrite !ie3M !mul1mx mulmx1 addr0 addNr; eexists; congr ie3.
have D : ie3_a (is_pose one) - ie3_a (is_pose two) = (s * t) *: (C *m w).
  have [r1 e1] := step x (s + t) C v r hx erefl; have [r2 e2] := step x s C v r hx erefl.
  have b1 : is_bg (imu_eval tol gravity x u s) = is_bg x by rewrite /imu_eval /imu_evaluate /is_bg gw /= scaler0 addr0.
  have [r3 e3] := step _ t _ _ _ e2 b1.
  have aE y dt : is_ba (imu_eval tol gravity y u dt) = is_ba y + dt *: w by rewrite /imu_eval /imu_evaluate /is_ba aw.
  have ieA (A : 'M[R]_3) b c (d : R) : ie3_a (ie3 A b c d) = b by rewrite /ie3_a /ie3 block_mxKur row_mxKl.
  rewrite /one /two e1 e3 !ieA aE.
  move: (im_accel u) (is_ba x) gravity => a b g.
  rewrite opprD !scalerDl addrA [t *: (a - b - _)]scalerBr scalerA [t * s]mulrC !mulmxDr mulmxN -!scalemxAr.
  move: (s *: (C *m _)) (t *: (C *m _)) ((s * t) *: _) (s *: g) (t *: g) => p q z g1 g2.
  by zmod.
split=> // h; move: D; rewrite h subrr => /esym/eqP; rewrite scaler_eq0 mulf_eq0 (negbTE s0) (negbTE t0) /= => /eqP cw.
move/negP: w0; apply; apply/eqP.
have : C^T *m (C *m w) = 0 by rewrite cw mulmx0.
by rewrite mulmxA (mulmx1C rC.1) mul1mx.
Qed.

(** the hypotheses of C92_truth are met: half a second of IMU data at 2 Hz *)
Lemma gyro_norm (dt : R) : dt ^+ 2 / 4%:R <= norm2 (dt *: gyro_profile) ^+ 2.
Proof.
rewrite norm2Z exprMn real_normK ?num_real // norm2_sq (bigD1 2%:R) //=.
have [_ _ e] := vec3E (1 / 10%:R) 0 (1 / 2%:R); rewrite -/gyro_profile in e; rewrite e.
have -> : (1 / 2%:R : R) ^+ 2 = 4%:R^-1 by rewrite mul1r exprVn -natrX.
rewrite ler_wpmul2l ?sqr_ge0 // ler_addl; apply: sumr_ge0 => i _; exact: sqr_ge0.
Qed.
Example C92_witness walk wu wy noise : let x0 : xstate := (ImuState 1%:M 0 0, 0) in
  exists xs us ms, [/\ @inertial_dataset (1 / 10%:R) id walk wu wy [:: Gps] noise x0 2%:R 1 0 1 = Ok (xs, us, ms),
    @rounding RA id, (exists n : nat, (2%:R : R) = n%:R * 1), in_SE23 (is_pose x0.1) &
    size xs = 2%N /\ forall k d, (k.+1 < size xs)%N -> no_band (1 / 10%:R) gyro_profile ((nth d xs k.+1).2 - (nth d xs k).2)].
Proof.
move=> x0; have rP : @rounding RA id by split.
have ok := C92_total (1 / 10%:R) walk wu wy [:: Gps] noise x0 rP (ltr0n _ 2) (ltr01 : 0 < (1 : R)) (ltr01 : 0 < (1 : R)).
case E: (inertial_dataset _ _ _ _ _ _ _ _ _ _ _ _) ok => [[[xs us] ms]|] // _.
exists xs, us, ms; split=> //; first by exists 2%N; rewrite mulr1.
  by exists 1%:M, 0, 0; split; [exact: rot1|rewrite ie31].
have [us0 [_ G]] := dataset_run E.
have al : @on_input_times RA _ 2%:R [seq (a, 1 : R, 0 : R) | a <- [:: Gps]].
  by apply: aligned_ok; rewrite ?ltr0n //; exists 2%N; rewrite mulr1.
have pr : @proper_schedule RA _ [seq (a, 1 : R, 0 : R) | a <- [:: Gps]] by apply: proper_ok; exact: ltr01.
have [st _ _] := C53_aligned_states stamp_ok rP (kin_still _ walk) al pr (ltr0n _ 2) erefl G.
have h2 : (2%:R^-1 : R) < 1 by rewrite invf_lt1 ?ltr0n // ltr1n.
have aE : @arange RA 0 1 2%:R^-1 = [:: 0; 2%:R^-1].
  rewrite /arange (@arange_lenE RA 0 1 2%:R^-1 1) ?invr_gt0 ?ltr0n ?add0r ?mul1r ?mulfV ?pnatr_eq0 //=.
  by rewrite !add0r mul0r mul1r.
move: st; rewrite aE /= => st; have sz : size xs = 2%N by have := congr1 size st; rewrite size_map.
split=> // k d; rewrite sz; case: k => // _.
case: xs st sz {E G} => [|y0 [|y1 [|]]] //= [e0 e1] _; rewrite /xs_stamp in e0 e1; rewrite e0 e1 subr0; right.
have nn : 0 <= norm2 (2%:R^-1 *: gyro_profile) by rewrite /norm2 sqrtr_ge0.
rewrite -(ler_pexpn2r (n := 2)) // ?nnegrE ?divr_ge0 ?ler0n ?ler01 //; apply: le_trans (gyro_norm _).
rewrite mul1r !exprVn -!natrX -invfM -natrM; rewrite lef_pinv ?posrE ?ltr0n // ler_nat.
by [].
Qed.

Print Assumptions C92_truth.
Print Assumptions C92_measurements.
Print Assumptions C92_split_step_refuted.
