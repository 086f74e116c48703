(** C80: default Jacobians and covariance of user-defined states, models and residuals. *)
From mathcomp Require Import all_ssreflect all_algebra.
From Verif Require Import Base Tac LinAlg Deriv FdModel EkfModel PreintModel PreintProps ProcessProps LieProps ResidualProps2.
Set Implicit Arguments.
Unset Strict Implicit.
Unset Printing Implicit Defensive.
Import Order.Theory GRing.Theory Num.Theory.
Local Open Scope ring_scope.

(** ** Specification *)
Section Spec.
Variable R : rcfType.
(** the Jacobian computed with step h tends to J as h tends to 0 *)
Definition converges m n (F : R -> result 'M[R]_(m, n)) (J : 'M[R]_(m, n)) : Prop :=
  forall eps, 0 < eps -> exists2 del, 0 < del & forall h, 0 < `|h| < del ->
    exists2 A, F h = Ok A & forall i j, `|A i j - J i j| <= eps.
(** directional derivatives along the axes *)
Definition axis_jacobian m n (f : 'cV[R]_n -> 'cV[R]_m) (J : 'M[R]_(m, n)) : Prop :=
  forall i, is_mderiv (fun h => f (h *: delta_mx i 0)) (col i J).
End Spec.

Section Fd.
Variable R : rcfType.
Lemma jacobian_axis m n (f : 'cV[R]_n -> 'cV[R]_m) J : jacobian_of f J -> axis_jacobian f J.
Proof. by move=> H i; rewrite colE; exact: H. Qed.

Lemma by_columns_ok m n (c : 'I_n -> 'cV[R]_m) : by_columns (fun i => Ok (c i)) = Ok (\matrix_(r, i) c i r 0).
Proof.
rewrite /by_columns; have -> : mapM (fun i => Ok (c i)) (enum 'I_n) = Ok [seq c i | i <- enum 'I_n].
  by elim: (enum _) => //= i s ->.
by congr Ok; apply/matrixP => r i; rewrite !mxE (nth_map i) ?size_enum_ord // nth_ord_enum.
Qed.
Lemma mapM_ext A B (f g : A -> result B) (s : seq A) : (forall x, f x = g x) -> mapM f s = mapM g s.
Proof. by move=> h; elim: s => //= x s ->; rewrite h. Qed.
Lemma by_columns_ext m n (c c' : 'I_n -> result 'cV[R]_m) : (forall i, c i = c' i) -> by_columns c = by_columns c'.
Proof. by move=> h; rewrite /by_columns (mapM_ext _ h). Qed.

Definition rem m n (F : R -> 'M[R]_(m, n)) J := exists2 r : 'I_m -> 'I_n -> R -> R, (forall i j, small (r i j)) &
  forall h, h != 0 -> F h = J + \matrix_(i, j) r i j h.
Lemma uniform m n (r : 'I_m -> 'I_n -> R -> R) : (forall i j, small (r i j)) ->
  forall eps, 0 < eps -> exists2 del, 0 < del & forall h, `|h| < del -> forall i j, `|r i j h| <= eps.
Proof.
move=> sr e e0.
suff H (s : seq ('I_m * 'I_n)) : exists2 del, 0 < del & forall h, `|h| < del -> forall p, p \in s -> `|r p.1 p.2 h| <= e.
  by have [d d0 h] := H (enum [set: 'I_m * 'I_n]); exists d => // t /h ht i j; have := ht (i, j); rewrite mem_enum inE; apply.
elim: s => [|p s [d d0 IH]]; first by exists 1.
have [d' d0' h] := sr p.1 p.2 e e0; exists (Num.min d d'); first by rewrite lt_minr d0.
move=> t; rewrite lt_minr => /andP [/IH h1 /h h2] q; rewrite inE => /orP [/eqP ->|/h1] //.
Qed.
Lemma rem_converges m n (F : R -> 'M[R]_(m, n)) G J : rem F J -> (forall h, G h = Ok (F h)) -> converges G J.
Proof.
move=> [r sr E] EG e e0; have [d d0 H] := uniform sr e0; exists d => // h /andP [h0 hd].
rewrite normr_gt0 in h0; exists (F h) => // i j; rewrite E // !mxE addrC addKr; exact: H.
Qed.
(** difference quotients of a differentiable function *)
Lemma quotient_rem m n (f : 'cV[R]_n -> 'cV[R]_m) J : axis_jacobian f J ->
  rem (fun h => \matrix_(r, i) (h^-1 *: (f (step h i) - f 0)) r 0) J.
Proof.
move=> H.
have [r hr] : exists r : 'I_m -> 'I_n -> R -> R, forall i j, small (r i j) /\
    forall t, f (t *: delta_mx j 0) i 0 = f 0 i 0 + t * (J i j + r i j t).
  have K i j : exists rr, small rr /\ forall t, f (t *: delta_mx j 0) i 0 = f 0 i 0 + t * (J i j + rr t).
    have := H j i 0; rewrite /is_mderiv mxE => /is_derivP [rr sr E]; exists rr; split=> // t.
    by rewrite E scale0r.
  have fin p (P : 'I_p -> (R -> R) -> Prop) : (forall i, exists x, P i x) -> exists g, forall i, P i (g i).
    elim: p P => [|p IH] P HP; first by exists (fun _ _ => 0) => -[].
    have [x0 h0] := HP ord0; have [g hg] := IH (fun i => P (lift ord0 i)) (fun i => HP _).
    exists (fun i => if unlift ord0 i is Some j then g j else x0) => i.
    by case: unliftP => [j ->|->].
  have fin2 p q (P : 'I_p -> 'I_q -> (R -> R) -> Prop) : (forall i j, exists x, P i j x) -> exists g, forall i j, P i j (g i j).
    elim: p P => [|p IH] P HP; first by exists (fun _ _ _ => 0) => -[].
    have [x0 h0] := fin q (P ord0) (HP ord0); have [g hg] := IH (fun i => P (lift ord0 i)) (fun i => HP _).
    exists (fun i => if unlift ord0 i is Some j then g j else x0) => i.
    by case: unliftP => [j ->|->].
  exact: fin2 K.
exists r => [i j|h h0]; first by have [] := hr i j.
apply/matrixP => i j; rewrite !mxE; have [_ ->] := hr i j.
by rewrite addrAC subrr add0r mulKf.
Qed.
Lemma quotient_converges m n (f : 'cV[R]_n -> 'cV[R]_m) J G : axis_jacobian f J ->
  (forall h, G h = by_columns (fun i => Ok (h^-1 *: (f (step h i) - f 0)))) -> converges G J.
Proof. by move=> /quotient_rem H E; apply: rem_converges H _ => h; rewrite E by_columns_ok. Qed.

Section General.
Variables (V : Type) (n : nat).
Variable plus : V -> 'cV[R]_n -> V.
Variable minus : V -> V -> 'cV[R]_n.
(** what every state must satisfy: x.plus(0) is x and x.minus(x) is 0 *)
Definition state_laws := (forall x, plus x 0 = x) /\ (forall x, minus x x = 0).
Hypothesis laws : state_laws.
Let p0 x : plus x 0 = x. Proof. by case: laws. Qed.
Let mm x : minus x x = 0. Proof. by case: laws. Qed.

(** C80: default Jacobians tend to the true ones *)
Theorem C80_plus_jacobian x dx J : axis_jacobian (fun w => minus (plus x (dx + w)) (plus x dx)) J ->
  converges (plus_jacobian_fd plus minus x dx) J.
Proof.
move=> H; apply: (quotient_converges H) => h; rewrite /plus_jacobian_fd; apply: by_columns_ext => i.
by rewrite addr0 mm subr0.
Qed.
Theorem C80_minus_jacobian y x J : axis_jacobian (fun w => minus (plus y w) x) J ->
  converges (minus_jacobian_fd plus minus y x) J.
Proof.
move=> H; apply: (quotient_converges H) => h; rewrite /minus_jacobian_fd; apply: by_columns_ext => i.
by rewrite p0.
Qed.
Theorem C80_process_jacobian U (f : V -> U -> R -> V) x u dt J :
  axis_jacobian (fun w => minus (f (plus x w) u dt) (f x u dt)) J ->
  converges (pm_jacobian_fd plus minus f x u dt) J.
Proof.
move=> H; apply: (quotient_converges H) => h; rewrite /pm_jacobian_fd; apply: by_columns_ext => i.
by rewrite p0 mm subr0.
Qed.
Theorem C80_input_jacobian U k (uplus : U -> 'cV[R]_k -> U) (f : V -> U -> R -> V) x u dt J :
  uplus u 0 = u -> axis_jacobian (fun w => minus (f x (uplus u w) dt) (f x u dt)) J ->
  converges (pm_input_jacobian_fd minus uplus f x u dt) J.
Proof.
move=> u0 H; apply: (quotient_converges H) => h; rewrite /pm_input_jacobian_fd; apply: by_columns_ext => i.
by rewrite u0 mm subr0.
Qed.
(** measurements that are available around x *)
Theorem C80_measurement_jacobian m (g : V -> option 'cV[R]_m) x J :
  (forall w, g (plus x w) <> None) -> axis_jacobian (fun w => odflt 0 (g (plus x w))) J ->
  converges (meas_jacobian_fd plus g x) J.
Proof.
move=> ok H; apply: (quotient_converges H) => h; rewrite /meas_jacobian_fd p0.
have := ok 0; rewrite p0; case E : (g x) => [y|] //= _; apply: by_columns_ext => i.
by case E2 : (g _) (ok (step h i)) => [yi|].
Qed.
(** ... and what happens when they are not *)
Theorem C80_measurement_unavailable m (g : V -> option 'cV[R]_m) x h : g x = None ->
  meas_jacobian_fd plus g x h = Raise AttributeError.
Proof. by rewrite /meas_jacobian_fd => ->. Qed.
Theorem C80_measurement_gated m (g : V -> option 'cV[R]_m) x h y i : g x = Some y -> g (plus x (step h i)) = None ->
  meas_jacobian_fd plus g x h = Raise TypeError.
Proof.
rewrite /meas_jacobian_fd /by_columns => -> e.
suff -> : mapM (fun i => match g (plus x (step h i)) with Some yi => Ok (h^-1 *: (yi - y)) | None => Raise TypeError end) (enum 'I_n)
   = Raise TypeError by [].
have : i \in enum 'I_n by rewrite mem_enum.
elim: (enum _) => //= j s IH; rewrite inE => /orP [/eqP <-|/IH]; first by rewrite e.
by case: (g _) => //= yi ->.
Qed.
(** residuals: state number k, when the residual evaluates around the states *)
Theorem C80_residual_jacobian m (ev : seq V -> result 'cV[R]_m) (states : seq V) (ev' : nat -> 'cV[R]_n -> 'cV[R]_m) (J : nat -> 'M[R]_(m, n)) x0 :
  (forall k w, (k < size states)%N -> ev (set_nth x0 states k (plus (nth x0 states k) w)) = Ok (ev' k w)) ->
  (forall k, (k < size states)%N -> axis_jacobian (ev' k) (J k)) ->
  forall eps, 0 < eps -> exists2 del, 0 < del & forall h, 0 < `|h| < del ->
    exists2 As, residual_jacobian_fd plus ev states h = Ok As & size As = size states /\
      forall k, (k < size states)%N -> forall i j, `|nth 0 As k i j - J k i j| <= eps.
Proof.
move=> E H eps e0.
have st k : (k < size states)%N -> take k states ++ nth x0 states k :: drop k.+1 states = states.
  by move=> lk; rewrite -drop_nth // cat_take_drop.
have setE k v : (k < size states)%N -> set_nth x0 states k v = take k states ++ v :: drop k.+1 states.
  by elim: (states) k => [|y s IH] [|k] //= lk; rewrite ?drop0 // IH.
pose A k h : 'M[R]_(m, n) := \matrix_(r, i) (h^-1 *: (ev' k (step h i) - ev' k 0)) r 0.
have evA k h : (k < size states)%N ->
  (e_bar <~ ev states ;; by_columns (fun i => e <~ ev (take k states ++ plus (nth x0 states k) (step h i) :: drop k.+1 states) ;;
                               Ok (h^-1 *: (e - e_bar)))) = Ok (A k h).
  move=> lk; have := E k 0 lk; rewrite setE // p0 st // => ->.
  rewrite [LHS]/= -by_columns_ok; apply: by_columns_ext => i.
  by have := E k (step h i) lk; rewrite setE // => ->.
have fdE h : residual_jacobian_fd plus ev states h = Ok [seq A k h | k <- iota 0 (size states)].
  rewrite /residual_jacobian_fd.
  have -> : zip (iota 0 (size states)) states = [seq (k, nth x0 states k) | k <- iota 0 (size states)].
    rewrite -{2}[states](mkseq_nth x0) /mkseq; elim: (iota _ _) => //= k s ->; by [].
  have G s : {subset s <= iota 0 (size states)} ->
     mapM (fun kx : nat * V => e_bar <~ ev states ;;
          by_columns (fun i => e <~ ev (take kx.1 states ++ plus kx.2 (step h i) :: drop kx.1.+1 states) ;;
                               Ok (h^-1 *: (e - e_bar)))) [seq (k, nth x0 states k) | k <- s] = Ok [seq A k h | k <- s].
    elim: s => [|k s IH] // sub; rewrite /=.
    rewrite evA /=; last by have := sub k; rewrite inE eqxx mem_iota => /(_ isT).
    by rewrite IH // => j js; apply: sub; rewrite inE js orbT.
  exact: G.
have [d d0 HD] : exists2 del, 0 < del & forall h, 0 < `|h| < del -> forall k, (k < size states)%N -> forall i j, `|A k h i j - J k i j| <= eps.
  suff K l : (l <= size states)%N -> exists2 del, 0 < del & forall h, 0 < `|h| < del -> forall k, (k < l)%N -> forall i j, `|A k h i j - J k i j| <= eps by exact: K.
  elim: l => [|l IH] ll; first by exists 1.
  have [d d0 h1] := IH (ltnW ll).
  have cv : converges (fun h => Ok (A l h)) (J l) by apply: (rem_converges (quotient_rem (H l ll))) => h.
  have [d' d0' h2] := cv eps e0; exists (Num.min d d'); first by rewrite lt_minr d0.
  move=> h /andP [hp]; rewrite lt_minr => /andP [hd hd'] k; rewrite ltnS leq_eqVlt => /orP [/eqP ->|lk] i j.
    have hh : 0 < `|h| < d' by rewrite hp.
    by have [B [<-] hB] := h2 h hh; exact: hB.
  by apply: h1 => //; rewrite hp.
exists d => // h hh; exists [seq A k h | k <- iota 0 (size states)] => //; rewrite size_map size_iota; split=> // k lk i j.
by rewrite (nth_map 0%N) ?size_iota // nth_iota // add0n; exact: HD.
Qed.

(** *** Covariance from the input noise *)
Lemma bound_rem m p (F : R -> 'M[R]_(m, p)) J : rem F J -> exists2 r : R -> 'M[R]_(m, p), (forall i j, small (fun h => r h i j)) & forall h, h != 0 -> F h = J + r h.
Proof. move=> [r sr E]; exists (fun h => \matrix_(i, j) r i j h) => // i j; apply: eq_small (sr i j) => h; by rewrite mxE. Qed.
Lemma small_sum (T : Type) (s : seq T) (r : T -> R -> R) : (forall i, small (r i)) -> small (fun h => \sum_(i <- s) r i h).
Proof.
move=> H; elim: s => [|x s IH]; first by apply: eq_small (@small0 R) => t; rewrite big_nil.
by apply: eq_small (small_add (H x) IH) => t; rewrite big_cons.
Qed.
Lemma rem_mul m p q (F : R -> 'M[R]_(m, p)) (G : R -> 'M[R]_(p, q)) A B : rem F A -> rem G B -> rem (fun h => F h *m G h) (A *m B).
Proof.
move=> /bound_rem [r sr E] /bound_rem [s ss E2].
exists (fun i j h => (A *m s h + r h *m B + r h *m s h) i j) => [i j|h h0]; last first.
  by rewrite E // E2 // mulmxDl !mulmxDr !addrA; apply/matrixP => i j; rewrite !mxE !addrA.
apply: (@eq_small _ (fun h => \sum_k A i k * s h k j + \sum_k B k j * r h i k + \sum_k r h i k * s h k j)).
  by move=> h; rewrite !mxE; congr (_ + _ + _); apply: eq_bigr => k _; rewrite mulrC.
apply: small_add; first apply: small_add; apply: small_sum => k; [exact: small_scale|exact: small_scale|exact: small_mul].
Qed.
Lemma rem_tr m p (F : R -> 'M[R]_(m, p)) A : rem F A -> rem (fun h => (F h)^T) A^T.
Proof.
move=> [r sr E]; exists (fun i j => r j i) => // h h0; rewrite E //; by apply/matrixP => i j; rewrite !mxE.
Qed.
Lemma rem_const m p (A : 'M[R]_(m, p)) : rem (fun=> A) A.
Proof. by exists (fun _ _ _ => 0) => [i j|h _]; [exact: small0|apply/matrixP => i j; rewrite !mxE addr0]. Qed.

(** C80: the default covariance tends to L Q L^T, L the true input Jacobian; it is positive
    semidefinite for every step; without input_covariance it raises *)
Theorem C80_covariance U k (uplus : U -> 'cV[R]_k -> U) (f : V -> U -> R -> V) oj q x u dt L :
  uplus u 0 = u -> axis_jacobian (fun w => minus (f x (uplus u w) dt) (f x u dt)) L -> psd (q x u dt) ->
  converges (pm_covariance minus uplus f oj (Some q) x u dt) (L *m q x u dt *m L^T) /\
  forall h, exists2 C, pm_covariance minus uplus f oj (Some q) x u dt h = Ok C & psd C.
Proof.
move=> u0 H Q0.
pose Lh h : 'M[R]_(n, k) := \matrix_(r, i) (h^-1 *: (minus (f x (uplus u (step h i)) dt) (f x u dt))) r 0.
have E h : pm_covariance minus uplus f oj (Some q) x u dt h = Ok (Lh h *m q x u dt *m (Lh h)^T).
  by rewrite /pm_covariance /pm_input_jacobian_fd by_columns_ok.
split=> [|h]; last by exists (Lh h *m q x u dt *m (Lh h)^T) => //; exact: psd_congr.
have rL : rem Lh L.
  have [r sr Er] := quotient_rem H; exists r => // h h0; rewrite -Er //; apply/matrixP => i j.
  by rewrite !mxE u0 mm !mxE subr0.
apply: (rem_converges _ E); apply: rem_mul; last exact: rem_tr.
by apply: rem_mul => //; exact: rem_const.
Qed.
Theorem C80_no_input_covariance U k (uplus : U -> 'cV[R]_k -> U) (f : V -> U -> R -> V) oj x u dt h :
  pm_covariance minus uplus f oj None x u dt h = Raise NotImplementedErr.
Proof. by rewrite /pm_covariance /pm_input_jacobian_fd by_columns_ok. Qed.
End General.

(** *** Exactness on affine models of vector states *)
Section Affine.
Variable n : nat.
Notation vplus := (fun v w : 'cV[R]_n => v + w).
Notation vminus := (fun v w : 'cV[R]_n => v - w).
Lemma affine_col m p (A : 'M[R]_(m, p)) h : h != 0 -> by_columns (fun i => Ok (h^-1 *: (A *m step h i))) = Ok A.
Proof.
move=> h0; rewrite by_columns_ok; congr Ok; apply/matrixP => r i; rewrite mxE /step linearZ /= scalerA mulVf // scale1r.
by rewrite -colE mxE.
Qed.
Theorem C80_affine m (C : 'M[R]_(m, n)) c A (B : 'M[R]_(n, m)) b dt (x : 'cV[R]_n) (u : 'cV[R]_m) h : h != 0 ->
  let f x u (_ : R) := A *m x + B *m u + b in
  [/\ meas_jacobian_fd vplus (fun x => Some (C *m x + c)) x h = Ok C,
      pm_jacobian_fd vplus vminus f x u dt h = Ok A,
      pm_input_jacobian_fd vminus (fun u w => u + w) f x u dt h = Ok B,
      plus_jacobian_fd vplus vminus x 0 h = Ok 1%:M & minus_jacobian_fd vplus vminus x x h = Ok 1%:M].
Proof.
move=> h0 f; rewrite /meas_jacobian_fd /pm_jacobian_fd /pm_input_jacobian_fd /plus_jacobian_fd /minus_jacobian_fd /f.
split; rewrite -[RHS](affine_col _ h0); apply: by_columns_ext => i; congr (Ok (_ *: _)); rewrite ?mul1mx ?mulmxDr; zmod.
Qed.
End Affine.
End Fd.

(** *** BodyFrameVelocity on a matrix Lie group: the default Jacobian is the analytic one, for every step *)
Section Group.
Variable R : rcfType.
Variables k d : nat.
Variables (Exp : 'cV[R]_d -> 'M[R]_k) (Ad : 'M[R]_k -> 'M[R]_d) (ginv : 'M[R]_k -> 'M[R]_k).
Variables (Jl : 'cV[R]_d -> 'M[R]_d) (hat : 'cV[R]_d -> 'M[R]_k) (G : 'M[R]_k -> Prop).
Hypothesis laws : lie_laws Exp Ad ginv Jl hat G.
Variables (Log : 'M[R]_k -> 'cV[R]_d) (Q : 'M[R]_d).
(** minus of MatrixLieGroupState, states.py:145-155 *)
Definition gminus (dir : direction) (Y X : 'M[R]_k) : 'cV[R]_d :=
  if dir is DRight then Log (ginv X *m Y) else Log (Y *m ginv X).
Theorem C80_body_velocity dir X t u dt h : G X -> h != 0 -> let m := body_velocity Exp Ad Jl Q dir in
  let A := pm_jac m (PState X t) u dt in
  (forall i, Log (Exp (A *m step h i)) = A *m step h i) ->
  pm_jacobian_fd (gplus Exp dir) (gminus dir) (fun X u dt => sval (pm_eval m (PState X t) u dt)) X u dt h = Ok A.
Proof.
move=> gX h0 m A dom; have gl := ll_group laws.
rewrite -[RHS](affine_col A h0) /pm_jacobian_fd; apply: by_columns_ext => i; congr (Ok (_ *: _)).
rewrite -[RHS]dom /m (C76_jacobian laws) -/m -/A.
set Y := sval (pm_eval m (PState X t) u dt).
have gY : G Y by apply: (gl_M gl) => //; exact: (gl_E gl).
have Y1 : Y *m ginv Y = 1%:M by apply: (gl_mulV gl).
rewrite /gminus /gplus /Y /m; case: (dir); first by rewrite -mulmxA Y1 mulmx1.
by rewrite mulmxA (mulmx1C Y1) mul1mx.
Qed.
End Group.
Example C80_body_velocity_witness (R : rcfType) (X Q : 'M[R]_3) t (u : vinput R 'cV[R]_3) dt h : hG X -> h != 0 ->
  let m := body_velocity (@hExp R) (@hAd R) (@hJl R) Q DRight in
  pm_jacobian_fd (gplus (@hExp R) DRight) (gminus (@hinv R) (@hLog R) DRight)
    (fun X u dt => sval (pm_eval m (PState X t) u dt)) X u dt h = Ok (pm_jac m (PState X t) u dt).
Proof. by move=> gX h0 m; apply: (C80_body_velocity (heisenberg_lie R)) => // i; exact: hlog_exp. Qed.

(** *** input_jacobian *)
(** the documentation says that overriding input_jacobian replaces the finite differences; the
    override is never called: with x + u^2 at u = 0 and unit input noise the covariance is the square
    of the step instead of zero *)
Theorem C80_input_jacobian_ignored_refuted (R : rcfType) : exists (f : 'cV[R]_1 -> 'cV[R]_1 -> R -> 'cV[R]_1) oj q x u,
  (forall x u dt, axis_jacobian (fun w => f x (u + w) dt - f x u dt) (oj x u dt)) /\
  forall h dt, h != 0 -> exists2 C, pm_covariance (fun v w => v - w) (fun u w => u + w) f (Some oj) (Some q) x u dt h = Ok C &
    C <> oj x u dt *m q x u dt *m (oj x u dt)^T.
Proof.
exists (fun x u _ => x + u *m u), (fun _ u _ => 2%:R *: u), (fun _ _ _ => 1%:M), 0, 0; split=> [x u dt i|h dt h0].
  pose g h : 'cV[R]_1 := u + h *: delta_mx i 0.
  have Dg : is_mderiv g (delta_mx i 0) by have := mderivD (mderiv_const u) (mderiv_lin (delta_mx i 0)); rewrite add0r.
  have := mderivB (mderivD (mderiv_const x) (mderivM Dg Dg)) (mderiv_const (x + u *m u)).
  rewrite /g scale0r addr0 add0r subr0.
  suff -> : delta_mx i 0 *m u + u *m delta_mx i 0 = col i (2%:R *: u) by [].
  apply/matrixP => a b; rewrite !ord1 !mxE !big_ord1 !mxE /= mulr1 mul1r mulrDl mul1r.
  by [].
rewrite /pm_covariance /pm_input_jacobian_fd by_columns_ok /=; eexists; first by reflexivity.
rewrite scaler0 mul0mx mul0mx => /matrixP /(_ 0 0).
rewrite mul0mx mulmx1 !mxE !big_ord1 !mxE !big_ord1 !mxE /= !addr0 !subr0 !mulr1 !add0r mulKf // => /eqP.
by rewrite mulf_eq0 orbb (negbTE h0).
Qed.

Print Assumptions C80_plus_jacobian.
Print Assumptions C80_minus_jacobian.
Print Assumptions C80_process_jacobian.
Print Assumptions C80_input_jacobian.
Print Assumptions C80_measurement_jacobian.
Print Assumptions C80_residual_jacobian.
Print Assumptions C80_covariance.
Print Assumptions C80_affine.
Print Assumptions C80_body_velocity.
Print Assumptions C80_input_jacobian_ignored_refuted.
